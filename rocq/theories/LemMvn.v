(** Lemmas for C51. *)
From Coq Require Import Reals Lra Lia ZArith List Bool.
From Verif Require Import XR Special XTac ModelDist ModelVec LemDist ModelMvn SpecMvn.
Import ListNotations.
Open Scope R_scope.

(** ** sums *)
Lemma sumn_ext n f g : (forall i, (i < n)%nat -> f i = g i) -> sumn n f = sumn n g.
Proof. intros H. induction n as [|n IH]; cbn; [reflexivity|]. rewrite IH, (H n) by auto with arith. reflexivity. Qed.
Lemma sumn_plus n f g : sumn n (fun i => f i + g i) = sumn n f + sumn n g.
Proof. induction n as [|n IH]; cbn; [ring|]. rewrite IH. ring. Qed.
Lemma sumn_scal n c f : sumn n (fun i => c * f i) = c * sumn n f.
Proof. induction n as [|n IH]; cbn; [ring|]. rewrite IH. ring. Qed.
Lemma sumn_scalr n c f : sumn n (fun i => f i * c) = sumn n f * c.
Proof. induction n as [|n IH]; cbn; [ring|]. rewrite IH. ring. Qed.
Lemma sumn_0 n : sumn n (fun _ => 0) = 0.
Proof. induction n as [|n IH]; cbn; [ring|]. rewrite IH. ring. Qed.
Lemma sumn_swap n m (f : nat -> nat -> R) : sumn n (fun i => sumn m (fun k => f i k)) = sumn m (fun k => sumn n (fun i => f i k)).
Proof. induction n as [|n IH]; cbn; [symmetry; apply sumn_0|]. rewrite IH, <- sumn_plus. reflexivity. Qed.
Lemma sumn_nneg n f : (forall i, (i < n)%nat -> 0 <= f i) -> 0 <= sumn n f.
Proof. intros H. induction n as [|n IH]; cbn; [lra|]. pose proof (H n ltac:(lia)). assert (0 <= sumn n f) by (apply IH; auto with arith). lra. Qed.
Lemma sumn_zero_inv n f : (forall i, (i < n)%nat -> 0 <= f i) -> sumn n f = 0 -> forall i, (i < n)%nat -> f i = 0.
Proof.
  intros H E i I. induction n as [|n IH]; [lia|]. cbn in E. pose proof (H n ltac:(lia)).
  assert (0 <= sumn n f) by (apply sumn_nneg; auto with arith).
  destruct (Nat.eq_dec i n) as [->|]; [lra|]. apply IH; [auto with arith|lra|lia].
Qed.
Lemma sumn_tail0 n m f : (n <= m)%nat -> (forall i, (n <= i < m)%nat -> f i = 0) -> sumn m f = sumn n f.
Proof.
  intros L H. induction m as [|m IH]; [now replace n with O by lia|]. destruct (Nat.eq_dec n (S m)) as [->|]; [reflexivity|].
  cbn. rewrite IH, (H m) by (intros; try apply H; lia). ring.
Qed.
Lemma sumn_pick n f i : (i < n)%nat -> sumn n (fun k => if Nat.eq_dec i k then f k else 0) = f i.
Proof.
  intros H. induction n as [|n IH]; [lia|]. cbn. destruct (Nat.eq_dec i n) as [->|N].
  - rewrite sumn_ext with (g := fun _ => 0), sumn_0; [ring|]. intros k K. destruct (Nat.eq_dec n k); [lia|easy].
  - rewrite IH by lia. ring.
Qed.
Lemma fold_sumn (cs : list (nat -> R)) (g : (nat -> R) -> R) d :
  fold_right Rplus 0 (map g cs) = sumn (length cs) (fun m => g (nth m cs d)).
Proof.
  rewrite <- (rev_involutive cs). induction (rev cs) as [|c l IH]; [reflexivity|]. cbn [rev]. rewrite map_app, app_length. cbn [length map].
  rewrite Nat.add_1_r. cbn [sumn]. rewrite app_nth2, Nat.sub_diag by auto. cbn [nth].
  rewrite sumn_ext with (g := fun m => g (nth m (rev l) d)).
  2:{ intros i I. now rewrite app_nth1. }
  rewrite <- IH. clear. generalize (map g (rev l)). induction l0 as [|x l0 IH]; cbn; [ring|]. rewrite IH. ring.
Qed.

(** ** triangular systems; [c m i] is row [m] *)
Lemma tri_solve n (c : nat -> nat -> R) : (forall m, (m < n)%nat -> c m m <> 0) -> (forall m i, (m < n)%nat -> (i < m)%nat -> c m i = 0) ->
  forall b, exists y, forall m, (m < n)%nat -> sumn n (fun i => c m i * y i) = b m.
Proof.
  induction n as [|n IH]; intros D T b; [exists (fun _ => 0); intros; lia|].
  destruct (IH ltac:(auto with arith) ltac:(auto with arith) (fun m => b m - c m n * (b n / c n n))) as (y & Y).
  exists (fun i => if Nat.eq_dec i n then b n / c n n else y i). intros m M. cbn [sumn].
  destruct (Nat.eq_dec n n) as [_|]; [|easy].
  rewrite sumn_ext with (g := fun i => c m i * y i) by (intros i I; destruct (Nat.eq_dec i n); [lia|reflexivity]).
  destruct (Nat.eq_dec m n) as [->|N].
  - rewrite sumn_ext with (g := fun _ => 0), sumn_0 by (intros i I; rewrite T by lia; ring). field. apply D. lia.
  - rewrite Y by lia. ring.
Qed.
Lemma tri_zero n (c : nat -> nat -> R) : (forall m, (m < n)%nat -> c m m <> 0) -> (forall m i, (m < n)%nat -> (i < m)%nat -> c m i = 0) ->
  forall y, (forall m, (m < n)%nat -> sumn n (fun i => c m i * y i) = 0) -> forall m, (m < n)%nat -> y m = 0.
Proof.
  induction n as [|n IH]; intros D T y H m M; [lia|].
  assert (Yn : y n = 0).
  { specialize (H n ltac:(lia)). cbn [sumn] in H. rewrite sumn_ext with (g := fun _ => 0), sumn_0 in H by (intros i I; rewrite T by lia; ring).
    rewrite Rplus_0_l in H. destruct (Rmult_integral _ _ H) as [E|E]; [|exact E]. now apply D in E; [|lia]. }
  destruct (Nat.eq_dec m n) as [->|]; [exact Yn|]. apply IH; [auto with arith..| |lia].
  intros k K. specialize (H k ltac:(lia)). cbn [sumn] in H. rewrite Yn in H. lra.
Qed.
(** rows below: [c i m] is column [m]; lower-triangular uniqueness *)
Lemma low_zero n (c : nat -> nat -> R) : (forall m, (m < n)%nat -> c m m <> 0) -> (forall i m, (m < n)%nat -> (i < m)%nat -> c i m = 0) ->
  forall y, (forall i, (i < n)%nat -> sumn n (fun m => c i m * y m) = 0) -> forall m, (m < n)%nat -> y m = 0.
Proof.
  intros D T y H m. induction m as [m IH] using lt_wf_ind. intros M. specialize (H m M).
  rewrite (sumn_tail0 (S m)) in H by (lia || (intros i I; rewrite T by lia; ring)). cbn [sumn] in H.
  rewrite sumn_ext with (g := fun _ => 0), sumn_0 in H by (intros i I; rewrite (IH i) by lia; ring).
  rewrite Rplus_0_l in H. destruct (Rmult_integral _ _ H) as [E|E]; [|exact E]. now apply D in E.
Qed.

(** ** the factorisation; [c m i] is entry [i] of column [m] *)
Definition factor (j : nat) (A c : nat -> nat -> R) : Prop :=
  (forall m, (m < j)%nat -> 0 < c m m) /\ (forall m i, (m < j)%nat -> (i < m)%nat -> c m i = 0) /\
  (forall k i, (k < j)%nat -> (k <= i)%nat -> A i k = sumn j (fun m => c m i * c m k)).
Definition colf (cs : list (nat -> R)) (m : nat) : nat -> R := nth m cs (fun _ => 0).
Lemma chol_length A n cs : chol_cols A n = Some cs -> length cs = n.
Proof.
  revert cs. induction n as [|n IH]; intros cs; cbn; [injection 1 as <-; reflexivity|].
  destruct (chol_cols A n) as [l|]; [|easy]. destruct (chol_col A l n) as [c|]; [|easy]. injection 1 as <-. rewrite app_length, (IH l eq_refl). cbn. lia.
Qed.
Lemma chol_factor A n cs : chol_cols A n = Some cs -> factor n A (colf cs).
Proof.
  revert cs. induction n as [|n IH]; intros cs; cbn [chol_cols].
  - injection 1 as <-. split; [|split]; intros; lia.
  - destruct (chol_cols A n) as [l|] eqn:E; [|easy]. specialize (IH l eq_refl). pose proof (chol_length A n l E) as L.
    unfold chol_col. cbv zeta. destruct (Rle_dec _ 0) as [|P]; [easy|]. injection 1 as <-. apply Rnot_le_lt in P.
    set (piv := A n n - fold_right Rplus 0 (map (fun c => c n * c n) l)) in *.
    set (c := fun i : nat => if (i <? n)%nat then 0 else if (i =? n)%nat then sqrt piv else (A i n - fold_right Rplus 0 (map (fun c => c i * c n) l)) / sqrt piv).
    assert (Q : forall i, colf (l ++ [c]) n i = c i) by (intros i; unfold colf; rewrite app_nth2, L, Nat.sub_diag by lia; reflexivity).
    assert (O : forall m i, (m < n)%nat -> colf (l ++ [c]) m i = colf l m i) by (intros m i M; unfold colf; rewrite app_nth1 by lia; reflexivity).
    destruct IH as (D & T & F).
    assert (S : 0 < sqrt piv) by (now apply sqrt_lt_R0).
    assert (C0 : forall i, (i < n)%nat -> c i = 0) by (intros i I; unfold c; rewrite (proj2 (Nat.ltb_lt i n) I); reflexivity).
    assert (Cn : c n = sqrt piv) by (unfold c; now rewrite Nat.ltb_irrefl, Nat.eqb_refl).
    split; [|split].
    + intros m M. destruct (Nat.eq_dec m n) as [->|]; [now rewrite Q, Cn|]. rewrite O by lia. apply D. lia.
    + intros m i M I. destruct (Nat.eq_dec m n) as [->|]; [rewrite Q; now apply C0|]. rewrite O by lia. apply T; lia.
    + intros k i K I. cbn [sumn]. rewrite !Q. rewrite sumn_ext with (g := fun m => colf l m i * colf l m k) by (intros m M; now rewrite !O).
      destruct (Nat.eq_dec k n) as [->|].
      * rewrite Cn. unfold c. replace (i <? n)%nat with false by (symmetry; apply Nat.ltb_ge; lia).
        assert (X : forall i, fold_right Rplus 0 (map (fun c => c i * c n) l) = sumn n (fun m => colf l m i * colf l m n)).
        { intros i'. rewrite (fold_sumn l _ (fun _ => 0)), L. reflexivity. }
        rewrite X. destruct (Nat.eqb_spec i n) as [->|].
        -- rewrite sqrt_sqrt by lra. unfold piv. rewrite X. ring.
        -- field. lra.
      * rewrite (C0 k) by lia. rewrite <- (F k i) by lia. ring.
Qed.
Lemma chol_fail A n : symmetric n A -> chol_cols A n = None -> exists x, (exists i, (i < n)%nat /\ x i <> 0) /\ quad n A x <= 0.
Proof.
  induction n as [|n IH]; intros Sy; cbn [chol_cols]; [easy|].
  destruct (chol_cols A n) as [l|] eqn:E.
  - unfold chol_col. cbv zeta. destruct (Rle_dec _ 0) as [P|]; [|easy]. intros _.
    pose proof (chol_length A n l E) as L. destruct (chol_factor A n l E) as (D & T & F).
    rewrite (fold_sumn l _ (fun _ => 0)), L in P. change (A n n - sumn n (fun m => colf l m n * colf l m n) <= 0) in P.
    destruct (tri_solve n (colf l)) with (b := fun m => - colf l m n) as (y & Y); [intros m M; specialize (D m M); lra|exact T|].
    exists (fun i => if Nat.eq_dec i n then 1 else y i). split; [exists n; split; [lia|destruct (Nat.eq_dec n n); [lra|easy]]|].
    set (x := fun i => if Nat.eq_dec i n then 1 else y i).
    assert (X : quad (S n) A x = A n n - sumn n (fun m => colf l m n * colf l m n)).
    2:{ rewrite X. exact P. }
    assert (G : forall i k, (i < S n)%nat -> (k < S n)%nat -> A i k = sumn n (fun m => colf l m i * colf l m k) + (if Nat.eq_dec i n then if Nat.eq_dec k n then A n n - sumn n (fun m => colf l m n * colf l m n) else 0 else 0)).
    { intros i k I K. destruct (Nat.eq_dec i n) as [->|Ni]; destruct (Nat.eq_dec k n) as [->|Nk].
      - ring.
      - rewrite (F k n) by lia. ring.
      - rewrite (Sy i n) by lia. rewrite (F i n) by lia. rewrite Rplus_0_r. apply sumn_ext. intros; ring.
      - destruct (le_lt_dec k i) as [Q|Q]; [rewrite (F k i) by lia; ring|].
        rewrite (Sy i k) by lia. rewrite (F i k) by lia. rewrite Rplus_0_r. apply sumn_ext. intros; ring. }
    unfold quad.
    rewrite sumn_ext with (g := fun i => sumn n (fun m => (x i * colf l m i) * sumn (S n) (fun k => colf l m k * x k)) + (if Nat.eq_dec n i then A n n - sumn n (fun m => colf l m n * colf l m n) else 0)).
    2:{ intros i I.
        rewrite sumn_ext with (g := fun k => sumn n (fun m => x i * colf l m i * (colf l m k * x k)) + (if Nat.eq_dec n k then if Nat.eq_dec n i then A n n - sumn n (fun m => colf l m n * colf l m n) else 0 else 0)).
        2:{ intros k K. rewrite (G i k I K). unfold x at 2 4. 
            rewrite Rmult_plus_distr_l, Rmult_plus_distr_r. f_equal.
            - rewrite <- sumn_scal, <- sumn_scalr. apply sumn_ext. intros m M. unfold x. ring.
            - unfold x. destruct (Nat.eq_dec i n) as [->|], (Nat.eq_dec k n) as [->|]; repeat (destruct (Nat.eq_dec _ _); try lia; try easy); ring. }
        rewrite sumn_plus, sumn_swap, (sumn_pick (S n) (fun _ => if Nat.eq_dec n i then A n n - sumn n (fun m => colf l m n * colf l m n) else 0)) by lia.
        f_equal. apply sumn_ext. intros m M. apply sumn_scal. }
    rewrite sumn_plus, (sumn_pick (S n) (fun _ => A n n - sumn n (fun m => colf l m n * colf l m n))) by lia.
    rewrite sumn_swap, sumn_ext with (g := fun _ => 0); [rewrite sumn_0; ring|].
    intros m M. rewrite sumn_scalr. replace (sumn (S n) (fun k => colf l m k * x k)) with 0; [ring|].
    cbn [sumn]. unfold x at 2. destruct (Nat.eq_dec n n); [|easy].
    rewrite sumn_ext with (g := fun i => colf l m i * y i) by (intros i I; unfold x; destruct (Nat.eq_dec i n); [lia|reflexivity]).
    rewrite (Y m M). ring.
  - intros _. destruct IH as (x & (i & I & X) & Q); [intros i j I J; apply Sy; lia|reflexivity|].
    exists (fun k => if Nat.eq_dec k n then 0 else x k). split.
    + exists i. split; [lia|]. destruct (Nat.eq_dec i n); [lia|exact X].
    + unfold quad in *. cbn [sumn]. destruct (Nat.eq_dec n n); [|easy].
      rewrite sumn_ext with (g := fun i => sumn n (fun k => x i * A i k * x k)).
      2:{ intros k K. destruct (Nat.eq_dec k n); [lia|]. rewrite Rmult_0_r, Rplus_0_r. apply sumn_ext. intros j J. destruct (Nat.eq_dec j n); [lia|reflexivity]. }
      rewrite sumn_ext with (g := fun _ => 0) (f := fun i => 0 * A n i * _) by (intros; ring). rewrite sumn_0. lra.
Qed.
Lemma factor_full n A c : symmetric n A -> factor n A c -> forall i k, (i < n)%nat -> (k < n)%nat -> A i k = sumn n (fun m => c m i * c m k).
Proof.
  intros Sy (D & T & F) i k I K. destruct (le_lt_dec k i); [apply F; lia|]. rewrite Sy by assumption. rewrite (F i k) by lia.
  apply sumn_ext. intros; ring.
Qed.
Lemma quad_factor n A c x : (forall i k, (i < n)%nat -> (k < n)%nat -> A i k = sumn n (fun m => c m i * c m k)) ->
  quad n A x = sumn n (fun m => sumn n (fun i => c m i * x i) * sumn n (fun i => c m i * x i)).
Proof.
  intros H. unfold quad.
  rewrite sumn_ext with (g := fun i => sumn n (fun m => (x i * c m i) * sumn n (fun k => c m k * x k))).
  - rewrite sumn_swap. apply sumn_ext. intros m M. rewrite sumn_scalr. f_equal. apply sumn_ext. intros; ring.
  - intros i I. rewrite sumn_ext with (g := fun k => sumn n (fun m => x i * c m i * (c m k * x k))).
    + rewrite sumn_swap. apply sumn_ext. intros m M. apply sumn_scal.
    + intros k K. rewrite (H i k I K), <- sumn_scal, <- sumn_scalr. apply sumn_ext. intros; ring.
Qed.
Lemma chol_pd A n cs : symmetric n A -> chol_cols A n = Some cs -> positive_definite n A.
Proof.
  intros Sy E x (i & I & X). pose proof (chol_factor A n cs E) as H. rewrite (quad_factor n A (colf cs)) by (now apply factor_full).
  destruct H as (D & T & F).
  set (f := fun m => sumn n (fun i => colf cs m i * x i) * sumn n (fun i => colf cs m i * x i)).
  assert (N : forall m, (m < n)%nat -> 0 <= f m) by (intros; unfold f; apply Rle_0_sqr).
  destruct (Rle_lt_or_eq_dec _ _ (sumn_nneg n f N)) as [G|G]; [exact G|]. exfalso. apply X.
  apply (tri_zero n (colf cs)); [intros m M; specialize (D m M); lra|exact T| |exact I].
  intros m M. pose proof (sumn_zero_inv n f N (eq_sym G) m M) as Z. unfold f in Z. now apply Rmult_integral in Z as [Z|Z].
Qed.
Lemma chol_iff A n : symmetric n A -> (positive_definite n A <-> exists cs, chol_cols A n = Some cs).
Proof.
  intros Sy. split.
  - intros P. destruct (chol_cols A n) as [cs|] eqn:E; [eauto|]. exfalso. destruct (chol_fail A n Sy E) as (x & X & Q). specialize (P x X). lra.
  - intros (cs & E). now apply chol_pd in E.
Qed.

(** ** forward substitution *)
Lemma map2_seq_sum (L : nat -> nat -> R) i (z : list R) : length z = i ->
  xsum (map2 (fun k zk => xmul (Fin (L i k)) zk) (seq 0 i) (map Fin z)) = Fin (sumn i (fun k => L i k * nth k z 0)).
Proof.
  intros H. enough (G : forall l, xsum (map2 (fun k zk => xmul (Fin (L i k)) zk) (seq 0 (length l)) (map Fin l)) = Fin (sumn (length l) (fun k => L i k * nth k l 0))) by (subst i; apply G).
  clear z H. intros z. rewrite <- (rev_involutive z). induction (rev z) as [|c l IH]; [reflexivity|].
  cbn [rev]. rewrite map_app, app_length. cbn [map length]. rewrite Nat.add_1_r, seq_S. cbn [sumn plus].
  assert (X : forall (a b : list nat) (u v : list xr) g, length a = length u -> map2 g (a ++ b) (u ++ v) = (map2 g a u ++ map2 g b v : list xr)).
  { clear. induction a as [|x a IH]; intros b [|y u] v g H; try discriminate; cbn; [reflexivity|]. rewrite IH by (now injection H). reflexivity. }
  rewrite X by (now rewrite seq_length, map_length). unfold xsum in *. rewrite fold_right_app. cbn [map2 fold_right].
  rewrite app_nth2, Nat.sub_diag by auto. cbn [nth].
  rewrite sumn_ext with (g := fun k => L i k * nth k (rev l) 0) by (intros k K; now rewrite app_nth1).
  assert (Y : forall (l : list xr) r s, fold_right xadd (Fin 0) l = Fin s -> fold_right xadd (Fin r) l = Fin (s + r)).
  { clear. induction l as [|x l IH]; intros r s; cbn; [injection 1 as <-; f_equal; ring|]. destruct (fold_right xadd (Fin 0) l) as [t| | |] eqn:E; [|destruct x; discriminate..].
    rewrite (IH r t eq_refl). destruct x; cbn; try discriminate. injection 1 as <-. f_equal. ring. }
  rewrite xmul_fin, xadd_fin. rewrite (Y _ _ _ IH). f_equal. ring.
Qed.
Lemma solve_fin (L : nat -> nat -> xr) (M : nat -> nat -> R) (r : list R) n : (n <= length r)%nat ->
  (forall i j, (i < n)%nat -> (j < n)%nat -> L i j = Fin (M i j)) -> (forall i, (i < n)%nat -> M i i <> 0) ->
  exists z : list R, solve_lower L (map Fin r) n = map Fin z /\ length z = n /\
    forall i, (i < n)%nat -> sumn (S i) (fun k => M i k * nth k z 0) = nth i r 0.
Proof.
  induction n as [|n IH]; intros Hn HL HM; [exists []; repeat split; intros; lia|].
  destruct IH as (z & E & Lz & Z); [lia|auto with arith..|]. cbn [solve_lower]. cbv zeta. rewrite E.
  rewrite (nth_indep _ NaN (Fin 0)) by (rewrite map_length; lia). rewrite map_nth, HL by lia.
  replace (map2 (fun k zk => xmul (L n k) zk) (seq 0 n) (map Fin z)) with (map2 (fun k zk => xmul (Fin (M n k)) zk) (seq 0 n) (map Fin z)).
  2:{ assert (G : forall s u, (forall k, In k s -> (k < S n)%nat) -> map2 (fun k zk => xmul (Fin (M n k)) zk) s u = map2 (fun k zk => xmul (L n k) zk) s u).
      { induction s as [|k s IHs]; intros [|y u] G; try reflexivity. cbn. rewrite IHs by (intros; apply G; now right). rewrite HL; [reflexivity|lia|]. apply G. now left. }
      apply G. intros k K. apply in_seq in K. lia. }
  rewrite (map2_seq_sum M n z Lz), xsub_fin, xdiv_fin by (apply HM; lia).
  exists (z ++ [(nth n r 0 - sumn n (fun k => M n k * nth k z 0)) / M n n]). rewrite map_app. split; [reflexivity|].
  split; [rewrite app_length; cbn; lia|]. intros i I.
  destruct (Nat.eq_dec i n) as [->|].
  - cbn [sumn]. rewrite sumn_ext with (g := fun k => M n k * nth k z 0) by (intros k K; rewrite app_nth1 by lia; reflexivity).
    rewrite app_nth2, Lz, Nat.sub_diag by lia. cbn [nth]. field. apply HM. lia.
  - rewrite <- (Z i) by lia. apply sumn_ext. intros k K. rewrite app_nth1 by lia. reflexivity.
Qed.
(** the squared length of the solution is the quadratic form of the inverse *)
Lemma quad_inverse n A P c d z : (forall i k, (i < n)%nat -> (k < n)%nat -> A i k = sumn n (fun m => c m i * c m k)) ->
  (forall m, (m < n)%nat -> c m m <> 0) -> (forall m i, (m < n)%nat -> (i < m)%nat -> c m i = 0) -> inverse n A P ->
  (forall i, (i < n)%nat -> sumn n (fun m => c m i * z m) = d i) -> quad n P d = sumn n (fun m => z m * z m).
Proof.
  intros F D T I Z. set (w := fun i => sumn n (fun k => P i k * d k)).
  assert (AW : forall i, (i < n)%nat -> sumn n (fun k => A i k * w k) = d i).
  { intros i Hi. unfold w. rewrite sumn_ext with (g := fun k => sumn n (fun j => A i k * P k j * d j)).
    2:{ intros k K. rewrite <- sumn_scal. apply sumn_ext. intros; ring. }
    rewrite sumn_swap. rewrite sumn_ext with (g := fun j => if Nat.eq_dec i j then d j else 0).
    - now apply sumn_pick.
    - intros j J. rewrite sumn_scalr, (I i j Hi J). destruct (Nat.eq_dec i j); ring. }
  assert (CW : forall m, (m < n)%nat -> sumn n (fun k => c m k * w k) = z m).
  { intros m M. apply Rminus_diag_uniq. revert m M.
    apply (low_zero n (fun i m => c m i) D). { intros i m Hm Hi. now apply T. }
    intros i Hi. rewrite sumn_ext with (g := fun m => c m i * sumn n (fun k => c m k * w k) + - 1 * (c m i * z m)) by (intros; ring).
    rewrite sumn_plus, sumn_scal, (Z i Hi).
    rewrite sumn_ext with (g := fun m => sumn n (fun k => c m i * c m k * w k)) by (intros m M; rewrite <- sumn_scal; apply sumn_ext; intros; ring).
    rewrite sumn_swap. rewrite sumn_ext with (g := fun k => A i k * w k) by (intros k K; rewrite sumn_scalr, <- F by assumption; reflexivity).
    rewrite (AW i Hi). ring. }
  unfold quad. rewrite sumn_ext with (g := fun i => d i * w i).
  2:{ intros i Hi. unfold w. rewrite <- sumn_scal. apply sumn_ext. intros; ring. }
  rewrite sumn_ext with (g := fun i => sumn n (fun m => c m i * w i * z m)).
  2:{ intros i Hi. rewrite <- (Z i Hi), <- sumn_scalr. apply sumn_ext. intros; ring. }
  rewrite sumn_swap. apply sumn_ext. intros m M. rewrite sumn_scalr, (CW m M). reflexivity.
Qed.
