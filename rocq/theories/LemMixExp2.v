(** Drawing all components of a mixture amounts to drawing the selected one. *)
From Coq Require Import Reals Lra Lia ZArith List Arith Bool Permutation Sorted FunctionalExtensionality.
From Coquelicot Require Import Coquelicot.
From Verif Require Import XR SpecDist ModelDist ModelVec SpecCens LemInt ModelCens ModelJoint ModelMix LemMix ModelNest ModelGuard ModelCensSys SpecCensSys LemCensSys LemCensSys2 LemCensSys3 LemCensSys4 LemCensSys5 ModelMixCens SpecMixExp LemMixExp.
Import ListNotations.
Open Scope R_scope.

(** ** draws one after the other *)
Section Draws.
Variable ddt : nat -> dtype.
Variable fs : nat -> list xr -> xr.
Variable dlp dlc : nat -> list xr -> xr -> res xr.
Variable h : list cnode.
Variable req : list nat.
Variable cont : nat -> bool.
Variable pdf cdf : nat -> list R -> R -> R.
Variable proper : nat -> list R -> Prop.
Variable f : list R -> R.
Hypothesis AC : cacyclic h.
Hypothesis LF : lawful h cont pdf proper req ddt dlp dlc cdf.
Notation cvalue := (cvalue fs h).
Notation drawn := (drawn h).
Notation expects := (expects fs h cont pdf proper req f).
Notation mu_of d := (if cont d then Leb else Nats).
Definition outside (cs : list nat) (rho rho1 : nat -> R) : Prop := forall b, ~ In b cs -> rho1 b = rho b.
Lemma outside_upd c cs rho x rho1 : outside cs (upd rho c x) rho1 -> outside (c :: cs) rho rho1.
Proof. intros O b Nb. rewrite O by (intros I; apply Nb; now right). unfold upd. destruct (Nat.eqb_spec b c) as [->|]; auto. destruct Nb. now left. Qed.
Lemma okmu d : okm (mu_of d). Proof. destruct (cont d); exact I. Qed.
Lemma exp_unique bs : forall rho m1 m2, expects bs rho m1 -> expects bs rho m2 -> m1 = m2.
Proof.
  induction bs as [|b bs IH]; intros rho m1 m2 H1 H2.
  - inversion H1 as [r1 zs1 F1|]; inversion H2 as [r2 zs2 F2|]. f_equal. eapply f2_fun; [|exact F1|exact F2]. intros a z z' _. apply (cval_fun fs h AC _ (drawn_con h rho)).
  - inversion H1 as [|b1 bs1 r1 d1 ps1 xs1 g1 m1' N1 F1 P1 G1 I1]; inversion H2 as [|b2 bs2 r2 d2 ps2 xs2 g2 m2' N2 F2 P2 G2 I2]; subst b1 bs1 r1 m1' b2 bs2 r2 m2'.
    assert (d2 = d1 /\ ps2 = ps1) as [-> ->] by (split; congruence).
    assert (xs2 = xs1) as -> by (eapply f2_fun; [|exact F2|exact F1]; intros a z z' _; apply (cval_fun fs h AC _ (drawn_con h rho))).
    apply (integral_unique _ (fun x => pdf d1 xs1 x * g1 x) m1 m2 I1). apply (integral_ext _ (fun x => pdf d1 xs1 x * g2 x)); [apply okmu| |exact I2].
    intros x Cx. destruct (Req_dec (pdf d1 xs1 x) 0) as [Z|Z]; [rewrite Z; ring|]. f_equal. eapply IH; eauto.
Qed.
(** the draws do not matter *)
Lemma draws_none rest K cs : forall rho m, expects (cs ++ rest) rho m -> (forall rho1 m1, outside cs rho rho1 -> expects rest rho1 m1 -> m1 = K) -> m = K /\ exists rho1, outside cs rho rho1 /\ expects rest rho1 K.
Proof.
  induction cs as [|c cs IH]; intros rho m H A.
  - assert (O : outside [] rho rho) by (intros b _; reflexivity). assert (m = K) as -> by (apply (A rho m O H)). split; auto. exists rho. auto.
  - cbn [app] in H. inversion H as [|b1 bs1 r1 d ps xs g m1' N F P G Hi]; subst b1 bs1 r1 m1'.
    assert (S : forall x, charges (mu_of d) x -> pdf d xs x <> 0 -> g x = K /\ exists rho1, outside cs (upd rho c x) rho1 /\ expects rest rho1 K).
    { intros x Cx Px. apply (IH (upd rho c x) (g x) (G x Cx Px)). intros rho1 m1 O E. apply (A rho1 m1); auto. eapply outside_upd; eauto. }
    split.
    + apply (integral_unique _ _ _ _ Hi). apply (integral_ext _ (fun x => K * pdf d xs x)); [apply okmu| |].
      * intros x Cx. destruct (Req_dec (pdf d xs x) 0) as [Z|Z]; [rewrite Z; ring|]. rewrite (proj1 (S x Cx Z)). ring.
      * pose proof (integral_scal _ K _ 1 (lf_unit _ _ _ _ _ _ _ _ _ LF d xs P)) as Q. rewrite Rmult_1_r in Q. exact Q.
    + destruct (some_point ddt dlp dlc h req cont pdf cdf proper LF d xs P) as (x & Cx & Px). destruct (S x Cx Px) as (_ & rho1 & O & E). exists rho1. split; auto. eapply outside_upd; eauto.
Qed.
Lemma draws_proper rest cs : forall rho m, expects (cs ++ rest) rho m -> forall c, In c cs -> exists rho1 d ps xs, outside cs rho rho1 /\ nth_error h c = Some (CRv d ps) /\ List.Forall2 (cvalue (drawn rho1)) ps xs /\ proper d xs.
Proof.
  induction cs as [|c cs IH]; intros rho m H b Ib; [easy|]. cbn [app] in H. inversion H as [|b1 bs1 r1 d ps xs g m1' N F P G Hi]; subst b1 bs1 r1 m1'. destruct Ib as [<-|Ib].
  - exists rho, d, ps, xs. repeat split; auto.
  - destruct (some_point ddt dlp dlc h req cont pdf cdf proper LF d xs P) as (x & Cx & Px). destruct (IH _ _ (G x Cx Px) b Ib) as (rho1 & d' & ps' & xs' & O & N' & F' & P'). exists rho1, d', ps', xs'. repeat split; auto. eapply outside_upd; eauto.
Qed.
Lemma reach_one rest cs : forall rho m, expects (cs ++ rest) rho m -> exists rho1 m1, outside cs rho rho1 /\ expects rest rho1 m1.
Proof.
  induction cs as [|c cs IH]; intros rho m H; [exists rho, m; split; auto; intros b _; reflexivity|]. cbn [app] in H. inversion H as [|b1 bs1 r1 d ps xs g m1' N F P G Hi]; subst b1 bs1 r1 m1'.
  destruct (some_point ddt dlp dlc h req cont pdf cdf proper LF d xs P) as (x & Cx & Px). destruct (IH _ _ (G x Cx Px)) as (rho1 & m1 & O & E). exists rho1, m1. split; auto. eapply outside_upd; eauto.
Qed.
(** only the draw of one variable matters *)
Lemma draws_one rest d ps xs ci : nth_error h ci = Some (CRv d ps) -> forall cs, NoDup cs -> In ci cs -> forall rho m, expects (cs ++ rest) rho m ->
  (forall rho1 xs1, outside cs rho rho1 -> List.Forall2 (cvalue (drawn rho1)) ps xs1 -> xs1 = xs) ->
  (forall rho1 rho2 m1 m2, outside cs rho rho1 -> outside cs rho rho2 -> rho1 ci = rho2 ci -> expects rest rho1 m1 -> expects rest rho2 m2 -> m1 = m2) ->
  exists G, integral (mu_of d) (fun x => pdf d xs x * G x) m /\ forall x, charges (mu_of d) x -> pdf d xs x <> 0 -> exists rho1, outside cs rho rho1 /\ rho1 ci = x /\ expects rest rho1 (G x).
Proof.
  intros Nc. induction cs as [|c cs IH]; intros ND Ic rho m H PS A; [easy|]. apply NoDup_cons_iff in ND as [Nin ND]. cbn [app] in H. inversion H as [|b1 bs1 r1 d1 ps1 xs1 g m1' N F P G Hi]; subst b1 bs1 r1 m1'.
  destruct (Nat.eq_dec c ci) as [->|Q].
  - assert (d1 = d /\ ps1 = ps) as [-> ->] by (split; congruence). assert (xs1 = xs) as -> by (apply (PS rho); auto; intros b _; reflexivity).
    exists g. split; auto. intros x Cx Px. assert (E : forall rho1, outside cs (upd rho ci x) rho1 -> rho1 ci = x) by (intros rho1 O; rewrite O by auto; unfold upd; now rewrite Nat.eqb_refl).
    destruct (reach_one rest cs (upd rho ci x) (g x) (G x Cx Px)) as (rho0 & m0 & O0 & E0).
    destruct (draws_none rest m0 cs (upd rho ci x) (g x) (G x Cx Px)) as [-> (rho1 & O & E1)].
    + intros rho1 m1 O E1. apply (A rho1 rho0 m1 m0); [eapply outside_upd; eauto|eapply outside_upd; eauto|now rewrite (E rho1), (E rho0)|auto|auto].
    + exists rho1. split; [eapply outside_upd; eauto|auto].
  - assert (Ic' : In ci cs) by (destruct Ic; [easy|auto]).
    assert (S : forall x, charges (mu_of d1) x -> pdf d1 xs1 x <> 0 -> exists G', integral (mu_of d) (fun z => pdf d xs z * G' z) (g x) /\ forall z, charges (mu_of d) z -> pdf d xs z <> 0 -> exists rho1, outside cs (upd rho c x) rho1 /\ rho1 ci = z /\ expects rest rho1 (G' z)).
    { intros x Cx Px. apply (IH ND Ic' (upd rho c x) (g x) (G x Cx Px)).
      - intros rho1 xs' O. apply PS. eapply outside_upd; eauto.
      - intros rho1 rho2 m1 m2 O1 O2. apply A; eapply outside_upd; eauto. }
    destruct (some_point ddt dlp dlc h req cont pdf cdf proper LF d1 xs1 P) as (x & Cx & Px). destruct (S x Cx Px) as (G' & I' & H'). exists G'. split.
    + assert (K : forall z, charges (mu_of d1) z -> pdf d1 xs1 z <> 0 -> g z = g x).
      { intros z Cz Pz. destruct (S z Cz Pz) as (G2 & I2 & H2). apply (integral_unique _ _ _ _ I2). apply (integral_ext _ (fun w => pdf d xs w * G' w)); [apply okmu| |exact I'].
        intros w Cw. destruct (Req_dec (pdf d xs w) 0) as [Z|Z]; [rewrite Z; ring|]. f_equal. destruct (H' w Cw Z) as (r1 & O1 & E1 & X1). destruct (H2 w Cw Z) as (r2 & O2 & E2 & X2). apply (A r1 r2 (G' w) (G2 w)); [eapply outside_upd; eauto|eapply outside_upd; eauto|congruence|auto|auto]. }
      assert (m = g x) as ->; [|exact I']. apply (integral_unique _ _ _ _ Hi). apply (integral_ext _ (fun z => g x * pdf d1 xs1 z)); [apply okmu| |].
      * intros z Cz. destruct (Req_dec (pdf d1 xs1 z) 0) as [Z|Z]; [rewrite Z; ring|]. rewrite (K z Cz Z). ring.
      * pose proof (integral_scal _ (g x) _ 1 (lf_unit _ _ _ _ _ _ _ _ _ LF d1 xs1 P)) as Q1. rewrite Rmult_1_r in Q1. exact Q1.
    + intros z Cz Pz. destruct (H' z Cz Pz) as (r1 & O1 & E1 & X1). exists r1. split; [eapply outside_upd; eauto|auto].
Qed.
End Draws.
