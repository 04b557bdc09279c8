(** C73: laws of measurable expressions of any depth. *)
From Coq Require Import Reals Lra Lia ZArith List Bool.
From Coquelicot Require Import Coquelicot.
From Verif Require Import XR XTac SpecDist ModelDist ModelVec SpecVec LemInt LemDist LemNorm ModelTrans ModelNest SpecNest LemNest LemNest2 LemNest3 PropNest.
Import ListNotations.
Open Scope R_scope.

(** Let variable [i] have density [f] and be between [s] and [t] with
    probability [l], and let the expression be defined and regular for all
    those draws.  The values it takes form an interval (c,d), and the
    exponential of the derived log-probability is a function on (c,d) of
    integral [l]: every event gets the probability of the draws that cause it.
    Missing: reciprocals of negative numbers (C15_recip_negative_refuted). *)
Theorem C73_law_partial : forall dt fs rho i lps f s t l e, dt i <> DInt -> Rbar_lt s t ->
  (forall x, inside s t x -> continuous f x /\ denotes (lps i (Fin x)) (f x)) -> is_RInt_gen f (Fr s) (Fl t) l ->
  (forall x, inside s t x -> regular fs (upd rho i x) i e /\ exists y, means fs (upd rho i x) e y) ->
  exists m c d p, a_m (annotate dt fs e) = Some m /\
    (forall y, inside c d y <-> exists x, inside s t x /\ means fs (upd rho i x) e y) /\
    (forall y, inside c d y -> denotes (nested_logprob lps m (Fin y)) (p y)) /\ is_RInt_gen p (Fr c) (Fl d) l.
Proof. exact nested_law. Qed.
Print Assumptions C73_law_partial.
(** the law of exp(3 - 2 * (X / 5)), X standard normal, has total mass one on the positive numbers *)
Lemma ex_upd x y : upd (fun _ => x) 0 y 0%nat = y. Proof. reflexivity. Qed.
Lemma ex_law_means x y : means (fun _ _ => NaN) (upd (fun _ => x) 0 y) ex_nest (exp (3 - 2 * (y / 5))).
Proof.
  apply m_exp, m_sub; [apply m_con|]. replace (2 * (y / 5)) with (rprod [2; y / 5]) by (unfold rprod; cbn; ring).
  apply m_mul. apply Forall2_cons; [apply m_con|]. apply Forall2_cons; [|apply Forall2_nil]. apply m_div; [apply (m_rv _ (upd (fun _ => x) 0 y) 0%nat)|apply m_con|lra].
Qed.
Lemma ex_law_regular x y : regular (fun _ _ => NaN) (upd (fun _ => x) 0 y) 0 ex_nest.
Proof.
  pose proof (ex_law_means x y) as M. inversion M as [| |? r M1 E| | | | | | |]; subst.
  apply (g_one _ _ 0 UExp _ r); [|exact M1|discriminate].
  apply g_sub_r; [|reflexivity]. apply (g_mul _ _ 0 [NCon (Fin 2)] _ [] [2] []); try reflexivity; try discriminate.
  + apply g_div_l; [apply g_rv|reflexivity].
  + apply Forall2_cons; [apply m_con|apply Forall2_nil].
  + apply Forall2_nil.
  + unfold rprod. cbn. lra.
Qed.
Example C73_law_ex : exists m p, a_m (annotate (fun _ => DFloat) (fun _ _ => NaN) ex_nest) = Some m /\
  (forall y, 0 < y -> denotes (nested_logprob (fun _ => normal_logprob (Fin 0) (Fin 1)) m (Fin y)) (p y)) /\
  is_RInt_gen p (at_right 0) (Rbar_locally p_infty) 1.
Proof.
  destruct (C73_law_partial (fun _ => DFloat) (fun _ _ => NaN) (fun _ => 0) 0 (fun _ => normal_logprob (Fin 0) (Fin 1)) (normal_pdf 0 1) m_infty p_infty 1 ex_nest)
    as (m & c & d & p & E & I & D & T).
  - discriminate. - exact Logic.I.
  - intros x _. split; [|apply normal_ok; lra]. apply (prim_cont _ m_infty p_infty 1); [apply normal_prim; lra|now split].
  - apply prim_RInt_gen, normal_prim. lra.
  - intros x _. split; [apply ex_law_regular|eexists; apply ex_law_means].
  - assert (J : forall y, inside c d y <-> 0 < y).
    { intros y. rewrite I. split.
      - intros (x & _ & M). rewrite (means_fun _ _ _ _ _ M (ex_law_means 0 x)). apply exp_pos.
      - intros P. exists ((3 - ln y) * 5 / 2). split; [now split|]. replace y with (exp (3 - 2 * ((3 - ln y) * 5 / 2 / 5))) at 2; [apply ex_law_means|].
        replace (3 - 2 * ((3 - ln y) * 5 / 2 / 5)) with (ln y) by field. now apply exp_ln. }
    assert (Ed : d = p_infty).
    { destruct d as [r| |]; auto; exfalso.
      - assert (H : inside c r (Rabs r + 1)) by (apply J; pose proof (Rabs_pos r); lra). destruct H as [_ H]. cbn in H. pose proof (Rle_abs r). lra.
      - assert (H : inside c m_infty 1) by (apply J; lra). now destruct H. }
    assert (Ec : c = Finite 0).
    { destruct (pos_ends c d) as (r & Er & Pr).
      - apply (inside_lt c d 1). apply J. lra. - intros x. apply J.
      - rewrite Er. f_equal. destruct Pr as [Pr|]; auto. exfalso. assert (H : inside c d (r / 2)) by (apply J; lra). rewrite Er in H. destruct H as [H _]. cbn in H. lra. }
    subst. exists m, p. split; auto. split; auto. intros y Y. apply D, J, Y.
Qed.
