(** C100: missing data in whole models of arrays. *)
From Coq Require Import Reals List Arith ZArith Bool Lia FunctionalExtensionality.
From Verif Require Import XR ModelDist ModelIdx ModelTen ModelConv ModelSub ModelNest ModelSys ModelEls ModelElsV SpecElsV ModelElsMiss SpecElsMiss LemElsMiss.
Import ListNotations.
Open Scope nat_scope.

(** A model in which partially observed arrays set_subtensor(X[idx], data) are
    requested has the joint log-probability of the completed model: X is
    requested, at the given values with the data filled in.  Variables that
    depend on the partially observed array see the data.  Missing: a base
    variable that is used elsewhere (refuted below), data computed by
    element-wise nodes. *)
Theorem C100_complete_partial : forall ddt afs dlp puts h req y y' comp, vacyclic h -> NoDup req ->
  (forall v, In v req -> v < length h /\
    (direct puts h v /\ comp v = v /\ y' v = y v \/
     completes afs puts h req y (map comp req) y' v (comp v) /\ v_conditional ddt afs dlp h (map comp req) y' (comp v) <> None)) ->
  m_joint ddt afs dlp puts h req y = v_joint ddt afs dlp h (map comp req) y'.
Proof. exact miss_joint. Qed.
Print Assumptions C100_complete_partial.

(** X ~ normal(0, 1) with two entries, Y = set_subtensor(X[0], 5), W ~ normal(Y, 1);
    Y and W are requested *)
Definition scalar (x : xr) : nd xr := {| nshp := []; nelt := fun _ => x |}.
Definition set_first (l : list (nd xr)) : nd xr :=
  match l with [a; d] => {| nshp := nshp a; nelt := fun p => if pos_eqb p [0] then nelt d [] else nelt a p |} | _ => scalar NaN end.
Definition ms_afs (k : nat) : list (nd xr) -> nd xr := set_first.
Definition ms_puts (k : nat) : option (list (nd xr) -> nd xr) := match k with 0 => Some set_first | _ => None end.
Definition ms_ddt (d : nat) : dtype := DFloat.
Definition ms_h : list vnode := [VCon (scalar (Fin 0)); VCon (scalar (Fin 1)); VRv 0 [2] [0; 1]; VCon (scalar (Fin 5)); VOther 0 [2; 3]; VRv 0 [2] [4; 1]].
Definition ms_comp (v : nat) : nat := match v with 4 => 2 | _ => v end.
Definition ms_y' (y : nat -> nd xr) (v : nat) : nd xr := match v with 2 => set_first [y 4; scalar (Fin 5)] | _ => y v end.
Lemma set_first_again a d : set_first [set_first [a; d]; d] = set_first [a; d].
Proof. unfold set_first. cbn [nshp nelt]. f_equal. apply functional_extensionality. intros p. now destruct (pos_eqb p [0]). Qed.
Lemma ms_nth v nd : nth_error ms_h v = Some nd -> v = 0 \/ v = 1 \/ v = 2 \/ v = 3 \/ v = 4 \/ v = 5.
Proof. intros E. assert (L : v < length ms_h) by (apply nth_error_Some; congruence). cbn in L. lia. Qed.
Lemma ms_acyclic : vacyclic ms_h.
Proof.
  intros v nd a E. destruct (ms_nth v nd E) as [->|[->|[->|[->|[->| ->]]]]]; cbn in E; injection E as <-; cbn; intuition lia.
Qed.
Lemma ms_only w nd : nth_error ms_h w = Some nd -> In 2 (vinputs nd) -> w = 4.
Proof. intros E. destruct (ms_nth w nd E) as [->|[->|[->|[->|[->| ->]]]]]; cbn in E; injection E as <-; cbn; intuition (try lia; try discriminate). Qed.
Lemma ms_hyps dlp y v : In v [4; 5] -> v < length ms_h /\
    (direct ms_puts ms_h v /\ ms_comp v = v /\ ms_y' y v = y v \/
     completes ms_afs ms_puts ms_h [4; 5] y [2; 5] (ms_y' y) v (ms_comp v) /\ v_conditional ms_ddt ms_afs dlp ms_h [2; 5] (ms_y' y) (ms_comp v) <> None).
Proof.
  intros [<-|[<-|[]]]; (split; [cbn; lia|]).
  - right. split; [|discriminate]. exists 0, [3], set_first, [scalar (Fin 5)]. repeat split.
    + cbn. intuition discriminate.
    + cbn. intuition discriminate.
    + exact ms_only.
    + constructor; [|constructor]. apply cp_con; [cbn; intuition discriminate|reflexivity].
    + apply set_first_again.
  - left. repeat split. intros k x l E. discriminate E.
Qed.
Example C100_complete_case : forall dlp y, m_joint ms_ddt ms_afs dlp ms_puts ms_h [4; 5] y = v_joint ms_ddt ms_afs dlp ms_h [2; 5] (ms_y' y).
Proof.
  intros dlp y. apply (C100_complete_partial ms_ddt ms_afs dlp ms_puts ms_h [4; 5] y (ms_y' y) ms_comp ms_acyclic).
  - repeat constructor; cbn; intuition discriminate.
  - exact (ms_hyps dlp y).
Qed.
(** its factors: the first entry of Y is the datum, also as the mean of W *)
Example C100_factors : forall dlp y, nshp (y 4) = [2] -> nshp (y 5) = [2] -> exists r s,
  m_conditional ms_ddt ms_afs dlp ms_puts ms_h [4; 5] y 4 = Some (Val r) /\ m_conditional ms_ddt ms_afs dlp ms_puts ms_h [4; 5] y 5 = Some (Val s) /\
  nelt r [0] = dlp 0 [Fin 0; Fin 1] (Fin 5) /\ nelt r [1] = dlp 0 [Fin 0; Fin 1] (nelt (y 4) [1]) /\
  nelt s [0] = dlp 0 [Fin 5; Fin 1] (nelt (y 5) [0]) /\ nelt s [1] = dlp 0 [nelt (y 4) [1]; Fin 1] (nelt (y 5) [1]).
Proof.
  intros dlp y S4 S5. unfold m_conditional. cbn. rewrite S4, S5. cbn. do 2 eexists. split; [reflexivity|]. split; [reflexivity|]. cbn. rewrite ?S4, ?S5. now repeat split.
Qed.

(** The values given for the entries that the data replace do not matter. *)
Theorem C100_ignored : forall ddt afs dlp puts h req y1 y2 y' comp, vacyclic h -> NoDup req ->
  (forall v, In v req -> v < length h /\
    (direct puts h v /\ comp v = v /\ y' v = y1 v /\ y' v = y2 v \/
     completes afs puts h req y1 (map comp req) y' v (comp v) /\ completes afs puts h req y2 (map comp req) y' v (comp v) /\
     v_conditional ddt afs dlp h (map comp req) y' (comp v) <> None)) ->
  m_joint ddt afs dlp puts h req y1 = m_joint ddt afs dlp puts h req y2.
Proof.
  intros ddt afs dlp puts h req y1 y2 y' comp A N H. rewrite (miss_joint ddt afs dlp puts h req y1 y' comp A N), (miss_joint ddt afs dlp puts h req y2 y' comp A N); [reflexivity| |];
    intros v I; destruct (H v I) as (L & [(D & C & E1 & E2)|(C1 & C2 & Q)]); (split; [exact L|]); tauto.
Qed.
Print Assumptions C100_ignored.
Example C100_ignored_case : forall dlp y, m_joint ms_ddt ms_afs dlp ms_puts ms_h [4; 5] y = m_joint ms_ddt ms_afs dlp ms_puts ms_h [4; 5] (fun v => match v with 4 => set_first [y 4; scalar (Fin 7)] | _ => y v end).
Proof.
  intros dlp y. apply (C100_ignored ms_ddt ms_afs dlp ms_puts ms_h [4; 5] _ _ (ms_y' y) ms_comp ms_acyclic).
  - repeat constructor; cbn; intuition discriminate.
  - intros v I. destruct (ms_hyps dlp y v I) as (L & H). split; [exact L|]. destruct I as [<-|[<-|[]]].
    + right. destruct H as [(D & _)|(C & Q)]; [discriminate (D 0 2 [3] eq_refl)|]. split; [exact C|]. split; [|exact Q].
      destruct C as (k & l & over & ds & E & P & Nx & Nl & U & F & Yx & Ag). cbn in E. injection E as <- <-. cbn in P. injection P as <-. cbn [ms_comp] in *.
      inversion F as [|a d l' ds' Ca F']; subst. inversion F'; subst. assert (d = scalar (Fin 5)).
      { inversion Ca as [? J|? c J E|? k l xs J E]; subst; [cbn in J; intuition discriminate|cbn in E; congruence|cbn in E; discriminate]. } subst d.
      assert (Q2 : set_first [set_first [y 4; scalar (Fin 7)]; scalar (Fin 5)] = set_first [y 4; scalar (Fin 5)]).
      { unfold set_first. cbn [nshp nelt]. f_equal. apply functional_extensionality. intros p. now destruct (pos_eqb p [0]). }
      exists 0, [3], set_first, [scalar (Fin 5)]. repeat split; auto. apply set_first_again.
    + left. repeat split; auto. intros k x l E. discriminate E.
Qed.

(** Setting the entries again changes nothing, for all indices of [np_set]. *)
Theorem C100_set_again : forall A sh (y z : list nat -> A) ix dsh data, np_set sh y ix dsh data = Val z -> exists z', np_set sh z ix dsh data = Val z' /\ forall p, z' p = z p.
Proof. exact @np_set_again. Qed.
Print Assumptions C100_set_again.
Example C100_set_again_case : exists z, np_set [3] (fun p => hd 0 p) [IInt (-1)] [] (fun _ => 9) = Val z /\ z [2] = 9 /\ z [1] = 1.
Proof. eexists. split; [reflexivity|]. now split. Qed.

(** An array whose base variable is requested as well, and two partial
    observations of one variable, are refused. *)
Theorem C100_requested : forall ddt afs dlp puts h req y v k x l, In v req -> nth_error h v = Some (VOther k (x :: l)) -> In x req -> m_joint ddt afs dlp puts h req y = None.
Proof. exact miss_requested. Qed.
Print Assumptions C100_requested.
Example C100_requested_case : forall dlp y, m_joint ms_ddt ms_afs dlp ms_puts ms_h [2; 4] y = None.
Proof. intros dlp y. apply (C100_requested ms_ddt ms_afs dlp ms_puts ms_h [2; 4] y 4 0 2 [3]); [right; now left|reflexivity|now left]. Qed.
Theorem C100_two_values : forall ddt afs dlp puts h req y v w x k l over k' l' over' d s ps, vacyclic h -> (forall u, In u req -> u < length h) -> In v req -> In w req -> v <> w ->
  ~ In x req -> nth_error h x = Some (VRv d s ps) -> nth_error h v = Some (VOther k (x :: l)) -> puts k = Some over -> nth_error h w = Some (VOther k' (x :: l')) -> puts k' = Some over' ->
  m_joint ddt afs dlp puts h req y = None.
Proof. exact miss_two. Qed.
Print Assumptions C100_two_values.
Definition mt_h : list vnode := [VCon (scalar (Fin 0)); VCon (scalar (Fin 1)); VRv 0 [2] [0; 1]; VCon (scalar (Fin 5)); VOther 0 [2; 3]; VOther 0 [2; 1]].
Lemma mt_acyclic : vacyclic mt_h.
Proof.
  intros v nd a E. assert (L : v < length mt_h) by (apply nth_error_Some; congruence). cbn in L.
  assert (C : v = 0 \/ v = 1 \/ v = 2 \/ v = 3 \/ v = 4 \/ v = 5) by lia. destruct C as [->|[->|[->|[->|[->| ->]]]]]; cbn in E; injection E as <-; cbn; intuition lia.
Qed.
Example C100_two_values_case : forall dlp y, m_joint ms_ddt ms_afs dlp ms_puts mt_h [4; 5] y = None.
Proof.
  intros dlp y. apply (C100_two_values ms_ddt ms_afs dlp ms_puts mt_h [4; 5] y 4 5 2 0 [3] set_first 0 [1] set_first 0 [2] [0; 1] mt_acyclic); try reflexivity; try (now left); try (right; now left).
  - intros u [<-|[<-|[]]]; cbn; lia.
  - discriminate.
  - cbn. intuition discriminate.
Qed.

(** V ~ normal(X, 1) instead of W *)
Definition mo_h : list vnode := [VCon (scalar (Fin 0)); VCon (scalar (Fin 1)); VRv 0 [2] [0; 1]; VCon (scalar (Fin 5)); VOther 0 [2; 3]; VRv 0 [2] [2; 1]].
(** A base variable that is used elsewhere keeps a draw of its own there: with
    V ~ normal(X, 1) instead of normal(Y, 1) the factor of V does not use the
    values of Y. *)
Theorem C100_other_use_refuted : exists dlp y, vacyclic mo_h /\ m_joint ms_ddt ms_afs dlp ms_puts mo_h [4; 5] y <> None /\
  m_joint ms_ddt ms_afs dlp ms_puts mo_h [4; 5] y <> v_joint ms_ddt ms_afs dlp mo_h [2; 5] (ms_y' y).
Proof.
  exists (fun _ ps x => Val (hd NaN ps)), (fun _ => {| nshp := [2]; nelt := fun _ => Fin 0 |}). split.
  - intros v nd a E. assert (L : v < length mo_h) by (apply nth_error_Some; congruence). cbn in L.
    assert (C : v = 0 \/ v = 1 \/ v = 2 \/ v = 3 \/ v = 4 \/ v = 5) by lia. destruct C as [->|[->|[->|[->|[->| ->]]]]]; cbn in E; injection E as <-; cbn; intuition lia.
  - split; [cbn; discriminate|]. cbn. discriminate.
Qed.
Print Assumptions C100_other_use_refuted.
