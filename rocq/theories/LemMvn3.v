(** C51: the log-density computed by the code. *)
From Coq Require Import Reals Lra Lia ZArith List Bool.
From Verif Require Import XR Special XTac ModelDist ModelVec LemDist LemVec RMx ModelMvn SpecMvn LemMvn LemMvn2.
Import ListNotations.
Open Scope R_scope.

Lemma forallb_map_true {A} (f : A -> bool) l : forallb f l = true <-> forall x, In x l -> f x = true.
Proof. apply forallb_forall. Qed.
Lemma xsum_seq n (f : nat -> R) : xsum (map (fun i => Fin (f i)) (seq 0 n)) = Fin (sumn n f).
Proof.
  rewrite <- map_map, LemVec.xsum_Fin. f_equal. induction n as [|n IH]; [reflexivity|].
  rewrite seq_S, map_app, rtotal_app, IH. cbn. ring.
Qed.
Lemma xsum_list (z : list R) (g : R -> R) : xsum (map (fun x => Fin (g x)) z) = Fin (sumn (length z) (fun i => g (nth i z 0))).
Proof.
  rewrite <- (map_map g Fin), LemVec.xsum_Fin. f_equal. rewrite <- (rev_involutive z). induction (rev z) as [|c l IH]; [reflexivity|].
  cbn [rev]. rewrite map_app, rtotal_app, app_length. cbn [length]. rewrite Nat.add_1_r. cbn [sumn map]. rewrite app_nth2, Nat.sub_diag by auto. cbn [nth].
  rewrite sumn_ext with (g := fun i => g (nth i (rev l) 0)) by (intros i I; now rewrite app_nth1). rewrite IH. cbn. ring.
Qed.
Lemma map2_sub (x mu : list R) : length x = length mu ->
  map2 xsub (map Fin x) (map Fin mu) = map Fin (map2 Rminus x mu) /\ length (map2 Rminus x mu) = length x /\ forall i, nth i (map2 Rminus x mu) 0 = nth i x 0 - nth i mu 0.
Proof.
  revert mu; induction x as [|a x IH]; intros [|b mu] L; try discriminate; cbn.
  - repeat split. intros [|i]; ring.
  - destruct (IH mu ltac:(now injection L)) as (-> & -> & H). repeat split. intros [|i]; [reflexivity|apply H].
Qed.
Lemma sumn_ln n f : (forall i, (i < n)%nat -> 0 < f i) -> sumn n (fun i => ln (f i)) = ln (prodn n f).
Proof.
  induction n as [|n IH]; intros H; cbn; [now rewrite ln_1|]. rewrite IH by auto with arith. rewrite ln_mult; [reflexivity|apply prodn_pos; intros i I; apply H; apply le_S, I|apply H; lia].
Qed.
Lemma diag_neg n A : chol_cols A n = None -> forallb (fun d => xgt d (Fin 0)) (map (fun i => cholesky A n i i) (seq 0 n)) = false.
Proof.
  intros E. unfold cholesky. rewrite E. destruct n as [|n]; [discriminate|]. reflexivity.
Qed.
Lemma mvn_raises n mu A x : symmetric n A -> ~ positive_definite n A -> mvnormal_logprob n mu A x = Raise.
Proof.
  intros Sy N. destruct (chol_cols A n) as [cs|] eqn:E.
  - exfalso. apply N. now apply chol_pd in E.
  - unfold mvnormal_logprob. cbv zeta. rewrite (diag_neg n A E). now apply check_false.
Qed.
Lemma mvn_value n (mu x : list R) A P : symmetric n A -> positive_definite n A -> inverse n A P -> length x = n -> length mu = n ->
  mvnormal_logprob n (map Fin mu) A (map Fin x) = Val (Fin (mvn_logpdf n A P (fun i => nth i x 0 - nth i mu 0))).
Proof.
  intros Sy PD I Lx Lm. destruct (proj1 (chol_iff A n Sy) PD) as (cs & E). pose proof (chol_factor A n cs E) as F.
  pose proof (factor_full n A (colf cs) Sy F) as FF. destruct F as (D & T & F).
  unfold mvnormal_logprob. cbv zeta. unfold cholesky. rewrite E.
  change (fun i : nat => Fin (nth i cs (fun _ => 0) i)) with (fun i : nat => Fin (colf cs i i)).
  assert (AP : forallb (fun d => xgt d (Fin 0)) (map (fun i => Fin (colf cs i i)) (seq 0 n)) = true).
  { apply forallb_forall. intros d J. apply in_map_iff in J. destruct J as (i & <- & J). apply in_seq in J. apply xgt_true. apply D. lia. }
  rewrite AP, check_true by reflexivity.
  destruct (map2_sub x mu ltac:(congruence)) as (R & RL & RN). rewrite R.
  destruct (solve_fin (fun i j => Fin (nth j cs (fun _ => 0) i)) (fun i j => colf cs j i) (map2 Rminus x mu) n) as (z & Z & Lz & SZ).
  - rewrite RL, Lx. apply le_n.
  - reflexivity.
  - intros i H. specialize (D i H). lra.
  - rewrite Z. rewrite map_map.
    rewrite map_ext with (f := fun x0 => xsq (Fin x0)) (g := fun x0 => Fin (x0 * x0)) by (intros a; apply xsq_fin).
    rewrite (xsum_list z (fun a => a * a)), Lz. rewrite map_map.
    rewrite map_ext_in with (g := fun i => Fin (ln (colf cs i i))).
    2:{ intros i J. apply in_seq in J. apply xlog_pos. apply D. lia. }
    rewrite xsum_seq. assert (0 < 2 * PI) by (pose proof PI_RGT_0; lra). rewrite xlog_pos by assumption. rewrite !xmul_fin, !xsub_fin. do 2 f_equal.
    unfold mvn_logpdf. rewrite map_length, Lx. rewrite (quad_inverse n A P (colf cs) _ (fun m => nth m z 0) FF).
    + rewrite (det_factor n A (colf cs) FF T). rewrite sumn_ln by exact D.
      pose proof (prodn_pos n (fun m => colf cs m m) D) as Q. rewrite (ln_mult _ _ Q Q). lra.
    + intros m M. specialize (D m M). lra.
    + exact T.
    + exact I.
    + intros i Hi. rewrite <- RN, <- (SZ i Hi). apply sumn_tail0; [lia|]. intros m M. rewrite (T m i) by lia. ring.
Qed.
Lemma det_pd n A : symmetric n A -> positive_definite n A -> 0 < rdet n A.
Proof.
  intros Sy PD. destruct (proj1 (chol_iff A n Sy) PD) as (cs & E). pose proof (chol_factor A n cs E) as F.
  pose proof (factor_full n A (colf cs) Sy F) as FF. destruct F as (D & T & F). rewrite (det_factor n A (colf cs) FF T).
  pose proof (prodn_pos n (fun m => colf cs m m) D). now apply Rmult_lt_0_compat.
Qed.
Lemma inverse_pd n A : symmetric n A -> positive_definite n A -> exists P, inverse n A P.
Proof. intros Sy PD. apply inverse_ex. pose proof (det_pd n A Sy PD). lra. Qed.
(** only the part of the matrix on and below the diagonal is read *)
Lemma chol_lower A B n : (forall i j, (i < n)%nat -> (j <= i)%nat -> A i j = B i j) ->
  match chol_cols A n, chol_cols B n with
  | None, None => True
  | Some a, Some b => length a = length b /\ forall i j, (i < n)%nat -> nth j a (fun _ => 0) i = nth j b (fun _ => 0) i
  | _, _ => False
  end.
Proof.
  enough (G : forall m, (m <= n)%nat -> (forall i j, (i < n)%nat -> (j <= i)%nat -> A i j = B i j) -> match chol_cols A m, chol_cols B m with
  | None, None => True
  | Some a, Some b => length a = length b /\ forall i j, (i < n)%nat -> nth j a (fun _ => 0) i = nth j b (fun _ => 0) i
  | _, _ => False
  end) by (intros H; now apply G).
  induction m as [|m IH]; intros Hm H; cbn [chol_cols]; [easy|].
  specialize (IH ltac:(lia) H). destruct (chol_cols A m) as [a|] eqn:Ea, (chol_cols B m) as [b|] eqn:Eb; try easy. destruct IH as [L IH].
  pose proof (chol_length A m a Ea) as La.
  assert (X : forall i, (i < n)%nat -> fold_right Rplus 0 (map (fun c => c i * c m) a) = fold_right Rplus 0 (map (fun c => c i * c m) b)).
  { intros i Hi. rewrite !(fold_sumn _ _ (fun _ => 0)), L. apply sumn_ext. intros k K. rewrite !IH by lia. reflexivity. }
  unfold chol_col. cbv zeta. rewrite (X m) by lia. rewrite (H m m) by lia.
  destruct (Rle_dec _ 0); [easy|]. split; [rewrite !app_length; cbn; lia|]. intros i j Hi.
  destruct (le_lt_dec (length a) j) as [Q|Q].
  - rewrite !app_nth2 by lia. rewrite <- L. destruct (j - length a)%nat as [|[|k]]; cbn [nth]; try reflexivity.
    destruct (i <? m)%nat eqn:C1; [reflexivity|]. destruct (i =? m)%nat eqn:C2; [reflexivity|].
    apply Nat.ltb_ge in C1. rewrite (X i) by exact Hi. rewrite (H i m) by lia. reflexivity.
  - rewrite !app_nth1 by lia. now apply IH.
Qed.
Lemma solve_ext (L M : nat -> nat -> xr) r n : (forall i j, (i < n)%nat -> L i j = M i j) -> solve_lower L r n = solve_lower M r n.
Proof.
  induction n as [|n IH]; intros H; [reflexivity|]. cbn [solve_lower]. cbv zeta. rewrite IH by auto with arith. rewrite (H n n) by lia.
  do 5 f_equal. generalize (solve_lower M r n). generalize (seq 0 n). induction l as [|k l IHl]; intros [|y z]; try reflexivity. cbn. rewrite H, IHl by lia. reflexivity.
Qed.
Lemma mvn_lower n mu A B x : (forall i j, (i < n)%nat -> (j <= i)%nat -> A i j = B i j) -> mvnormal_logprob n mu A x = mvnormal_logprob n mu B x.
Proof.
  intros H. pose proof (chol_lower A B n H) as C.
  assert (E : forall i j, (i < n)%nat -> cholesky A n i j = cholesky B n i j).
  { unfold cholesky. destruct (chol_cols A n) as [a|], (chol_cols B n) as [b|]; try easy. intros i j I. f_equal. now apply C. }
  unfold mvnormal_logprob. cbv zeta.
  assert (D : map (fun i => cholesky A n i i) (seq 0 n) = map (fun i => cholesky B n i i) (seq 0 n)).
  { apply map_ext_in. intros i I. apply in_seq in I. apply E. lia. }
  rewrite D. rewrite (solve_ext _ (fun i j => if forallb (fun d => xgt d (Fin 0)) (map (fun i0 => cholesky B n i0 i0) (seq 0 n)) then cholesky B n i j else Fin 1)); [reflexivity|].
  intros i j I. rewrite E by exact I. reflexivity.
Qed.
