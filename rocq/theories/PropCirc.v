(** C11: the default transform of von Mises distributions. *)
From Coq Require Import Reals Lra ZArith List Bool.
From Coquelicot Require Import Coquelicot.
From Verif Require Import XR Special SpecDist ModelDist ModelTrans SpecTrans LemTrans LemTrans2 LemCirc.
Open Scope R_scope.

(** Every real [y] stands for an angle; the transformed log-probability denotes a
    function whose integral over every turn of the circle, wherever it begins,
    is one. *)
Theorem C11_vonmises_turn : forall mu k, 0 < k -> exists f,
  (forall y, denotes (transformed_logprob true (family_logprob (FVonMises mu k)) (default_transform (FVonMises mu k)) (Fin y)) (f y)) /\
  (forall a, is_RInt f a (a + 2 * PI) 1).
Proof. intros mu k H. exact (ex_intro _ _ (conj (fun y => vm_transformed mu k y H) (vm_turn_mass mu k))). Qed.
Print Assumptions C11_vonmises_turn.
Example C11_vonmises_turn_ex : exists f,
  (forall y, denotes (transformed_logprob true (family_logprob (FVonMises 1 2)) (default_transform (FVonMises 1 2)) (Fin y)) (f y)) /\
  is_RInt f 100 (100 + 2 * PI) 1.
Proof. destruct (C11_vonmises_turn 1 2) as (f & A & B); [lra|]. exists f. auto. Qed.

(** so it is no density over the real line, unlike those of C11_normalised *)
Theorem C11_vonmises_refuted : exists mu k, 0 < k /\
  ~ integrates_to_one (transformed_logprob true (family_logprob (FVonMises mu k)) (default_transform (FVonMises mu k))) m_infty p_infty.
Proof. exact (ex_intro _ 0 (ex_intro _ 1 (conj Rlt_0_1 (vm_infinite 0 1 Rlt_0_1)))). Qed.
Print Assumptions C11_vonmises_refuted.
(** for every location and concentration *)
Theorem C11_vonmises_infinite : forall mu k, 0 < k ->
  ~ integrates_to_one (transformed_logprob true (family_logprob (FVonMises mu k)) (default_transform (FVonMises mu k))) m_infty p_infty.
Proof. exact vm_infinite. Qed.
Print Assumptions C11_vonmises_infinite.
Example C11_vonmises_infinite_ex : ~ integrates_to_one (transformed_logprob true (family_logprob (FVonMises 1 2)) (default_transform (FVonMises 1 2))) m_infty p_infty.
Proof. apply C11_vonmises_infinite. lra. Qed.
