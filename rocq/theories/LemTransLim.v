(** Limits of the inverses of chains. *)
From Coq Require Import Reals Lra List.
From Coquelicot Require Import Coquelicot.
From Verif Require Import XR XTac SpecDist ModelDist ModelVec ModelTrans SpecTrans LemTrans LemTrans2 SpecTransInf LemTransInf SpecTransLim.
Import ListNotations.
Open Scope R_scope.

Definition tends (t : tr) (s p : Rbar) : Prop :=
  exists b, Rbar_locally s (fun y => backward t (Fin y) = Val (Fin (b y))) /\ filterlim b (Rbar_locally s) (Rbar_locally p) /\ backward t (xval s) = Val (xval p).
Lemma xval_inj p q : xval p = xval q -> p = q.
Proof. destruct p, q; cbn; intros E; try discriminate; try reflexivity. now injection E as ->. Qed.
Lemma tends_inf t s p : infinite s -> reaches t s -> backward t (xval s) = Val (xval p) -> tends t s p.
Proof.
  intros I Rt E. destruct (backward_inf t s I Rt) as (b & l & B & L & E'). assert (l = p) as -> by (apply xval_inj; congruence).
  exists b. split; [exact B|]. split; [|exact E]. destruct I as [-> | ->]; exact L.
Qed.
Lemma inverse_tends t s p : inverse_at t s p -> tends t s p.
Proof.
  induction 1 as [t x y M P|c s I|c s I C|c s I C| | | |s I|a b H|a b H|a|a|b|b| | |s|t l s p p' _ (b & B & L & E) _ (b' & B' & L' & E')].
  - destruct M as (D & <-). destruct (jac_all t x D P) as (b & l & N & _ & (d & Dd & _)). exists b. split; [exact N|].
    pose proof (locally_singleton _ _ N) as S. cbv beta in S. rewrite (backward_ok t x D) in S. injection S as S.
    split; [|exact (backward_ok t x D)]. assert (C : filterlim b (locally (tfun t x)) (locally (b (tfun t x)))) by (apply (ex_derive_continuous b); now exists d).
    rewrite <- S in C. exact C.
  - apply tends_inf; [exact I|exact Logic.I|]. destruct I as [-> | ->]; reflexivity.
  - apply tends_inf; [exact I|cbn; lra|]. destruct I as [-> | ->]; cbn; destruct (Rle_dec 0 c); try reflexivity; exfalso; lra.
  - apply tends_inf; [exact I|cbn; lra|]. destruct I as [-> | ->]; cbn; destruct (Rle_dec 0 c); try reflexivity; exfalso; lra.
  - apply tends_inf; [now left|exact Logic.I|reflexivity].
  - apply tends_inf; [now right|exact Logic.I|reflexivity].
  - apply tends_inf; [now left|reflexivity|reflexivity].
  - apply tends_inf; [exact I|exact Logic.I|]. destruct I as [-> | ->]; reflexivity.
  - apply tends_inf; [now left|exact H|]. cbn. do 2 f_equal. ring.
  - apply tends_inf; [now right|exact H|]. cbn. do 2 f_equal. ring.
  - apply tends_inf; [now left|exact Logic.I|reflexivity].
  - apply tends_inf; [now right|exact Logic.I|]. cbn. do 2 f_equal. ring.
  - apply tends_inf; [now left|exact Logic.I|reflexivity].
  - apply tends_inf; [now right|exact Logic.I|]. cbn. do 2 f_equal. ring.
  - apply tends_inf; [now left|exact Logic.I|reflexivity].
  - apply tends_inf; [now right|exact Logic.I|reflexivity].
  - exists (fun y => y). split; [|split; [apply filterlim_id|reflexivity]]. destruct s as [r| |]; cbn; [exists posreal_one|exists 0|exists 0]; reflexivity.
  - exists (fun y => b' (b y)). split; [|split].
    + specialize (L _ B'). generalize (filter_and _ _ B L). apply filter_imp. intros z [Z1 Z2].
      change (backward (TChain (t :: l)) (Fin z)) with (bind (backward (TChain l) (Fin z)) (backward t)). rewrite Z1. exact Z2.
    + exact (filterlim_comp _ _ _ b b' _ _ _ L L').
    + change (backward (TChain (t :: l)) (xval s)) with (bind (backward (TChain l) (xval s)) (backward t)). rewrite E. exact E'.
Qed.
Lemma inverse_limit t s p : infinite s -> inverse_at t s p ->
  exists b, Rbar_locally s (fun y => backward t (Fin y) = Val (Fin (b y))) /\ is_lim b s p /\ backward t (xval s) = Val (xval p).
Proof. intros I H. destruct (inverse_tends t s p H) as (b & B & L & E). exists b. split; [exact B|]. split; [|exact E]. destruct I as [-> | ->]; exact L. Qed.
Lemma one_retraced t s p : inverse_at t s p -> (t = TRecip -> s <> m_infty) -> (forall l, t <> TChain l) -> forward t (xval p) = Val (xval s).
Proof.
  intros H NR NC. destruct (inverse_tends t s p H) as (_ & _ & _ & E).
  assert (G : infinite s -> reaches t s -> forward t (xval p) = Val (xval s)).
  { intros I Rt. assert (F : followed t s) by (split; [exact Rt|]; destruct t; auto; destruct I as [-> | ->]; [reflexivity|exfalso; now apply NR]).
    pose proof (forward_inf t s I F) as X. rewrite E in X. exact X. }
  destruct H as [t x y (D & <-) P| | | | | | | | | | | | | | | |s|t l s p p' _ _]; try (now apply G; [try (now left); try (now right)|cbn; try lra; auto]); try (apply G; [now left || now right || assumption|cbn; try lra; auto]).
  - exact (forward_ok t x D).
  - exfalso. now apply (NC []).
  - exfalso. now apply (NC (t :: l)).
Qed.
Lemma retraced_ok t s p : retraced t s p -> backward t (xval s) = Val (xval p) /\ forward t (xval p) = Val (xval s).
Proof.
  induction 1 as [t s p H NR NC|s|t l s p p' _ (B & F) _ (B' & F')].
  - split; [|now apply one_retraced]. destruct (inverse_tends t s p H) as (_ & _ & _ & E). exact E.
  - now split.
  - split.
    + change (backward (TChain (t :: l)) (xval s)) with (bind (backward (TChain l) (xval s)) (backward t)). rewrite B. exact B'.
    + change (forward (TChain (t :: l)) (xval p')) with (bind (forward t (xval p')) (forward (TChain l))). rewrite F'. exact F.
Qed.
