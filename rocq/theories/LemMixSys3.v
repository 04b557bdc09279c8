(** Mixtures in whole models: examples and counterexamples. *)
From Coq Require Import Reals Lra Lia List Arith Bool ZArith.
From Coquelicot Require Import Coquelicot.
From Verif Require Import XR XTac SpecDist ModelDist LemDist LemDisc ModelVec SpecVec ModelJoint ModelNest SpecNest RMx ModelMix ModelGuard ModelSys SpecSys LemSys LemSys3 ModelStack SpecStack LemStack LemStack2
  ModelMixSys SpecMixSys.
Import ListNotations.
Open Scope nat_scope.

(** operation 0 is the selection by an index, operation 1 the second entry of a stack *)
Definition mkind (k : nat) : role := match k with 0 => Select | 1 => Entry 1 | _ => Plain end.
Definition mfs (k : nat) (xs : list xr) : xr :=
  match k with
  | 0 => match xs with Fin s :: rs => let i := Int_part (s + / 2) in if (i <? 0)%Z then NaN else nth (Z.to_nat i) rs NaN | _ => NaN end
  | 1 => nth 1 xs NaN
  | _ => NaN
  end.
(** distribution 0 is normal, 1 is Bernoulli, the others Poisson *)
Definition mlp (d : nat) (ps : list xr) (x : xr) : res xr :=
  match d, ps with 0, [m; s] => normal_logprob m s x | 1, [p] => bernoulli_logprob p x | 2, [m] => poisson_logprob m x | _, _ => Raise end.
Definition mpdf (d : nat) (ps : list R) (x : R) : R :=
  match d, ps with 0, [m; s] => normal_pdf m s x | 1, [p] => bernoulli_pmf p (Z.to_nat (Int_part x)) | 2, [m] => poisson_pmf m (Z.to_nat (Int_part x)) | _, _ => 0%R end.
Definition mdt (d : nat) : dtype := match d with 0 => DFloat | _ => DInt end.
Lemma near_int s i : (Rabs (s - INR i) < / 2)%R -> Int_part (s + / 2) = Z.of_nat i.
Proof.
  intros H. apply Rabs_def2 in H as [A B]. rewrite INR_IZR_INZ in A, B. unfold Int_part.
  rewrite <- (tech_up (s + / 2) (Z.of_nat i + 1)); [lia| |]; rewrite plus_IZR; lra.
Qed.
Lemma m_roles : roles_ok mkind mfs.
Proof.
  split.
  - intros [|[|k]] K; try discriminate. intros s i rs r H E. cbn [mfs map]. rewrite (near_int s i H). replace (Z.of_nat i <? 0)%Z with false by (symmetry; apply Z.ltb_ge; lia).
    rewrite Nat2Z.id. apply nth_error_nth. rewrite nth_error_map, E. reflexivity.
  - intros [|[|k]] i K; try discriminate. injection K as <-. intros rs r E. cbn [mfs]. apply nth_error_nth. rewrite nth_error_map, E. reflexivity.
Qed.

(** I ~ Bernoulli(1/2), X, Y ~ N(0, 1), Z = stack([X, Y])[I], W ~ N(X, 1) *)
Definition sr_h : list snode := [SCon (Fin 0); SCon (Fin 1); SCon (Fin (/ 2)); SRv 1 [2]; SRv 0 [0; 1]; SRv 0 [0; 1]; SOther 0 [3; 4; 5]; SRv 0 [4; 1]].
Lemma sr_acyclic : acyclic sr_h.
Proof. intros v nd a E I. do 8 (destruct v as [|v]; [injection E as <-; cbn in I; repeat (destruct I as [<-|I]; [lia|]); destruct I|]). now destruct v. Qed.
Lemma ip0 : Int_part 0 = 0%Z. Proof. exact (Int_part_INR 0). Qed.
Lemma three_sum a b c p q s : denotes a p -> denotes b q -> denotes c s -> denotes (rmap xsum (rseq [a; b; c])) (p * q * s).
Proof.
  intros A B C. destruct a as [a|]; [|destruct A]. destruct b as [b|]; [|destruct B]. destruct c as [c|]; [|destruct C]. cbn [rseq bind rmap xsum fold_right].
  replace (p * q * s)%R with (p * (q * (s * exp 0)))%R by (rewrite exp_0; ring). apply den_add; [exact A|]. apply den_add; [exact B|]. apply den_add; [exact C|apply den_fin].
Qed.
Lemma sel_zero a : denotes a (normal_pdf 0 1 0) -> denotes (bind (bind (Val (Fin 0)) (fun a0 => bind a (fun t => Val (xadd a0 t)))) (fun a0 => bind (Val (Fin 0)) (fun t => Val (xadd a0 t)))) (normal_pdf 0 1 0).
Proof.
  intros D. destruct a as [a|]; [|destruct D]. cbn [bind]. replace (normal_pdf 0 1 0) with (exp 0 * normal_pdf 0 1 0 * exp 0)%R by (rewrite exp_0; ring).
  apply den_add; [apply den_add; [apply den_fin|exact D]|apply den_fin].
Qed.
Lemma mix_shared : exists h vs xs base rho rho0, acyclic h /\ NoDup (map base vs) /\ Forall2 (svalue mfs h rho) vs xs /\
  (forall i, ~ In i (map base vs) -> rho0 i = Fin (rho i)) /\
  Forall2 (fun v b => v = b \/ exists idx comps i, mixture_node mkind h v idx comps /\ svalue mfs h rho idx (INR i) /\ nth_error comps i = Some b) vs (map base vs) /\
  exists y r d, mixed_joint mkind mdt mfs mlp h y rho0 (map QVar vs) = Some r /\ Forall2 (fun v x => y v = Fin x) vs xs /\ denotes r d /\
  forall ps, Forall2 (draw_density mfs h mpdf rho) (map base vs) ps -> d <> rprod ps.
Proof.
  set (rho := fun _ : nat => 0%R). set (base := fun v => if v =? 6 then 4 else v). exists sr_h, [3; 6; 7], [0%R; 0%R; 0%R], base, rho, (fun i => if i =? 4 then Fin 1 else Fin 0).
  assert (V3 : svalue mfs sr_h rho 3 0) by exact (v_rv mfs sr_h rho 3 1 [2] eq_refl).
  assert (V4 : svalue mfs sr_h rho 4 0) by exact (v_rv mfs sr_h rho 4 0 [0; 1] eq_refl).
  assert (V5 : svalue mfs sr_h rho 5 0) by exact (v_rv mfs sr_h rho 5 0 [0; 1] eq_refl).
  assert (V7 : svalue mfs sr_h rho 7 0) by exact (v_rv mfs sr_h rho 7 0 [4; 1] eq_refl).
  assert (V6 : svalue mfs sr_h rho 6 0).
  { refine (v_other mfs sr_h rho 6 0 [3; 4; 5] [0%R; 0%R; 0%R] 0%R eq_refl _ _); [exact (Forall2_cons _ _ V3 (Forall2_cons _ _ V4 (Forall2_cons _ _ V5 (Forall2_nil _))))|].
    apply (proj1 m_roles 0 eq_refl 0%R 0 [0%R; 0%R] 0%R); [cbn; rewrite Rminus_eq_0, Rabs_R0; lra|reflexivity]. }
  split; [exact sr_acyclic|]. split; [repeat constructor; cbn; intuition lia|]. split; [exact (Forall2_cons _ _ V3 (Forall2_cons _ _ V6 (Forall2_cons _ _ V7 (Forall2_nil _))))|].
  split; [intros i N; destruct (Nat.eqb_spec i 4) as [->|]; [destruct N; cbn; auto|reflexivity]|].
  split; [constructor; [now left|constructor; [right|constructor; [now left|constructor]]]; exists 3, [4; 5], 0; split; [exists 0; auto|]; split; [exact V3|reflexivity]|].
  exists (fun _ => Fin 0). eexists. exists (bernoulli_pmf (/ 2) 0 * normal_pdf 0 1 0 * normal_pdf 1 1 0)%R. split; [|split; [repeat constructor|split]].
  - cbv [mixed_joint m_sums m_sum map]. cbn [nth_error sr_h mkind]. reflexivity.
  - cbn. rewrite ip0. cbn [Z.eqb]. apply three_sum.
    + apply (bernoulli_mass (/ 2) 0). lra.
    + apply sel_zero. apply normal_ok. lra.
    + apply normal_ok. lra.
  - assert (Uq : forall v x z, svalue mfs sr_h rho v x -> svalue mfs sr_h rho v z -> x = z) by (intros v x z; apply (svalue_fun mfs sr_h sr_acyclic rho v)).
    intros ps F. inversion F as [|? p1 ? ? A F1]; subst. inversion F1 as [|? p2 ? ? B F2]; subst. inversion F2 as [|? p3 ? ? C F3]; subst. inversion F3; subst. clear F F1 F2 F3.
    destruct A as (d1 & l1 & r1 & E1 & G1 & ->), B as (d2 & l2 & r2 & E2 & G2 & ->), C as (d3 & l3 & r3 & E3 & G3 & ->).
    injection E1 as <- <-. injection E2 as <- <-. injection E3 as <- <-.
    inversion G1 as [|? a1 ? ? H1 G1']; subst. inversion G1'; subst.
    inversion G2 as [|? a2 ? ? H2 G2']; subst. inversion G2' as [|? b2 ? ? I2 G2'']; subst. inversion G2''; subst.
    inversion G3 as [|? a3 ? ? H3 G3']; subst. inversion G3' as [|? b3 ? ? I3 G3'']; subst. inversion G3''; subst.
    rewrite (Uq 2 a1 (/ 2)%R H1 (v_con mfs sr_h rho 2 _ eq_refl)), (Uq 0 a2 0%R H2 (v_con mfs sr_h rho 0 _ eq_refl)), (Uq 1 b2 1%R I2 (v_con mfs sr_h rho 1 _ eq_refl)), (Uq 4 a3 0%R H3 V4), (Uq 1 b3 1%R I3 (v_con mfs sr_h rho 1 _ eq_refl)).
    cbn [mpdf rprod fold_right]. change (rho (base 3)) with 0%R. change (rho (base 6)) with 0%R. change (rho (base 7)) with 0%R. rewrite ip0. change (Z.to_nat 0) with 0. cbn [bernoulli_pmf].
    assert (Q : (normal_pdf 1 1 0 < normal_pdf 0 1 0)%R).
    { unfold normal_pdf. apply Rmult_lt_compat_l.
      - pose proof PI_RGT_0. pose proof (sqrt_lt_R0 (2 * PI) ltac:(lra)). apply Rinv_0_lt_compat. lra.
      - apply exp_increasing. lra. }
    pose proof (pdf_pos 0 0) as P0. intros E. nra.
Qed.

(** K ~ Poisson(1), X, Y ~ N(0, 1), Z = stack([X, Y])[K] *)
Definition rg_h : list snode := [SCon (Fin 0); SCon (Fin 1); SRv 2 [1]; SRv 0 [0; 1]; SRv 0 [0; 1]; SOther 0 [2; 3; 4]].
Lemma rg_acyclic : acyclic rg_h.
Proof. intros v nd a E I. do 6 (destruct v as [|v]; [injection E as <-; cbn in I; repeat (destruct I as [<-|I]; [lia|]); destruct I|]). now destruct v. Qed.
Lemma mix_range : exists h k z, acyclic h /\ (exists idx comps, mixture_node mkind h z idx comps /\ idx = k) /\
  exists y, (forall x, exists r d, mixed_joint mkind mdt mfs mlp h (fun v => if v =? k then Fin y else Fin x) (fun _ => NaN) (map QVar [k; z]) = Some r /\ denotes r d /\ (0 < d)%R) /\
  forall rho, svalue mfs h rho k y -> forall x, ~ svalue mfs h rho z x.
Proof.
  exists rg_h, 2, 5. split; [exact rg_acyclic|]. split; [exists 2, [3; 4]; split; [exists 0; auto|reflexivity]|]. exists (INR 2). split.
  - intros x. exists (rmap xsum (rseq [poisson_logprob (Fin 1) (Fin (INR 2)); mixture_scalar [normal_logprob (Fin 0) (Fin 1); normal_logprob (Fin 0) (Fin 1)] (Int_part (INR 2)) (Fin x)])).
    exists (poisson_pmf 1 2 * exp (0 + 0 + 0))%R. split; [reflexivity|]. split.
    + rewrite Int_part_INR. apply two_sum; [exact (poisson_mass 1 2 ltac:(lra))|reflexivity].
    + apply Rmult_lt_0_compat; [|apply exp_pos]. unfold poisson_pmf. apply Rmult_lt_0_compat; [cbn; lra|apply exp_pos].
  - intros rho V x H. inversion H as [| | | | | | | | |v k l rs r E F G]; subst; try discriminate. injection E as <- <-.
    inversion F as [|? s ? ? A F1]; subst. inversion F1 as [|? ? ? ? _ F2]; subst. inversion F2 as [|? ? ? ? _ F3]; subst. inversion F3; subst.
    rewrite (svalue_fun mfs rg_h rg_acyclic rho 2 s (INR 2) A V) in G. cbn -[INR] in G.
    rewrite (near_int (INR 2) 2) in G by (rewrite Rminus_eq_0, Rabs_R0; lra). discriminate G.
Qed.
