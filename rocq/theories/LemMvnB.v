(** Lemmas for C76. *)
From Coq Require Import Reals Lra Lia List Arith Bool.
From Verif Require Import XR SpecDist ModelDist ModelVec SpecVec ModelIdx SpecIdx LemIdx2 LemElem ModelTen ModelBatch SpecBatch LemBatch ModelMvn SpecMvn LemMvn LemMvn3 ModelMvnB.
Import ListNotations.
Open Scope R_scope.

Lemma solve_length L r n : length (solve_lower L r n) = n.
Proof. induction n as [|n IH]; [reflexivity|]. cbn [solve_lower]. rewrite app_length, IH. cbn. lia. Qed.
Lemma map_nth_seq {A} (l : list A) x : map (fun k => nth k l x) (seq 0 (length l)) = l.
Proof. induction l as [|a l IH]; [reflexivity|]. cbn [length seq map nth]. f_equal. rewrite <- seq_shift, map_map. exact IH. Qed.
(** the rows of the solution *)
Lemma solve_rows d L r o : (length o <= 1)%nat -> nshp r = (o ++ [d])%list -> exists z,
  solve_nd d L (transpose r) = Val z /\ nshp (transpose z) = (o ++ [d])%list /\
  forall i, length i = length o -> row (transpose z) i = solve_lower L (row r i) d.
Proof.
  intros Ho Er. unfold solve_nd. cbn [transpose nshp]. rewrite Er, rev_app_distr. cbn [rev app].
  assert (Q : forall i, length i = length o -> map (fun k => nth k (solve_lower L (map (fun y => nelt r (i ++ [y])) (seq 0 d)) d) NaN) (seq 0 d) = solve_lower L (row r i) d).
  { intros i _. rewrite (row_eq r o d i Er). set (q := solve_lower L _ d). assert (Hq : length q = d) by apply solve_length. rewrite <- Hq. apply map_nth_seq. }
  destruct o as [|m [|? ?]]; [| |cbn in Ho; lia].
  - cbn [rev app]. rewrite Nat.eqb_refl. eexists. split; [reflexivity|]. split; [reflexivity|]. intros i Hi. destruct i; [|discriminate].
    rewrite <- (Q [] eq_refl). reflexivity.
  - cbn [rev app]. rewrite Nat.eqb_refl. eexists. split; [reflexivity|]. split; [reflexivity|]. intros i Hi. destruct i as [|j [|? ?]]; try discriminate.
    rewrite <- (Q [j] eq_refl). reflexivity.
Qed.
Lemma reduce_sq z o d i : nshp (transpose z) = (o ++ [d])%list -> nelt (reduce xsum (elem1 xsq (transpose z))) i = xsum (map xsq (row (transpose z) i)).
Proof. intros E. cbn [reduce nelt]. f_equal. unfold row at 1. cbn [elem1 nshp nelt]. unfold row. now rewrite map_map. Qed.
Lemma bc_two a b o : is_broadcast [a; b] o -> is_broadcast [b; a] o.
Proof. apply bc_sym. Qed.
(** every position is the log-probability of its own vector *)
Lemma mvn_rows d mu cov value bm bv o : nshp mu = (bm ++ [d])%list -> nshp value = (bv ++ [d])%list -> is_broadcast [bm; bv] o -> (length o <= 1)%nat ->
  (mvnormal_nd d mu cov value = Raise /\ forall i, length i = length o -> mvnormal_logprob d (row mu (align bm i)) cov (row value (align bv i)) = Raise) \/
  exists r, mvnormal_nd d mu cov value = Val r /\ nshp r = o /\
    forall i, length i = length o -> mvnormal_logprob d (row mu (align bm i)) cov (row value (align bv i)) = Val (nelt r i).
Proof.
  intros Em Ev B Ho. apply bc_two in B.
  destruct (elem2_ok xsub value mu (o ++ [d])) as (r & E & Sr & Nr); [rewrite Em, Ev; now apply bc_snoc|].
  assert (Rr := elem2_rows xsub value mu bv bm o d r Ev Em B Sr Nr).
  unfold mvnormal_nd. rewrite E. cbn [bind].
  set (apd := forallb (fun x => xgt x (Fin 0)) (map (fun i => cholesky cov d i i) (seq 0 d))).
  set (L := fun i j => if apd then cholesky cov d i j else Fin 1).
  destruct (solve_rows d L r o Ho Sr) as (z & Ez & Sz & Rz). rewrite Ez. cbn [bind]. rewrite Ev, rev_app_distr. cbn [rev app].
  unfold check_nd. cbn [bind forallb]. unfold mvnormal_logprob. fold apd. fold L.
  destruct apd eqn:P; cbn [andb].
  - right. eexists. split; [reflexivity|]. split.
    { cbn [elem1 nshp]. exact (reduce_shape xsum (elem1 xsq (transpose z)) o d Sz). }
    intros i Hi. unfold check. cbn [forallb andb]. f_equal. cbn [elem1 nelt]. rewrite (reduce_sq z o d i Sz), (Rz i Hi), (Rr i Hi), (row_len value bv d _ Ev). reflexivity.
  - left. split; [reflexivity|]. intros i Hi. reflexivity.
Qed.
Lemma mvn_batch d mu cov P value bm bv o (m x : list nat -> list R) :
  symmetric d cov -> positive_definite d cov -> inverse d cov P -> batch Fin mu bm d m -> batch Fin value bv d x -> is_broadcast [bm; bv] o -> (length o <= 1)%nat ->
  exists r, mvnormal_nd d mu cov value = Val r /\ nshp r = o /\
    forall i km kv, inside o i -> aligned bm i km -> aligned bv i kv -> nelt r i = Fin (mvn_logpdf d cov P (fun j => nth j (x kv) 0 - nth j (m km) 0)).
Proof.
  intros S D I Bm Bv B Ho.
  assert (G : forall i, inside o i -> length i = length o /\ inside bm (align bm i) /\ inside bv (align bv i) /\ (length bm <= length i)%nat /\ (length bv <= length i)%nat).
  { intros i Hi. pose proof (inside_length o i Hi) as Li. destruct B as (BL & B').
    assert (La : (length bm <= length i)%nat) by (rewrite Li; apply BL; cbn; auto). assert (Lv : (length bv <= length i)%nat) by (rewrite Li; apply BL; cbn; auto).
    repeat split; auto; [apply (align_inside bm o i); [apply (bc_in [bm; bv] o); [split; auto|now left]|exact Hi]|].
    apply (align_inside bv o i); [apply (bc_in [bm; bv] o); [split; auto|right; now left]|exact Hi]. }
  assert (V : forall i, inside o i -> mvnormal_logprob d (row mu (align bm i)) cov (row value (align bv i)) =
    Val (Fin (mvn_logpdf d cov P (fun j => nth j (x (align bv i)) 0 - nth j (m (align bm i)) 0)))).
  { intros i Hi. destruct (G i Hi) as (Li & Ia & Iv & La & Lv). rewrite (batch_row Fin mu bm d m _ Bm Ia), (batch_row Fin value bv d x _ Bv Iv).
    apply mvn_value; auto; [apply Bv, Iv|apply Bm, Ia]. }
  destruct (mvn_rows d mu cov value bm bv o (proj1 Bm) (proj1 Bv) B Ho) as [(E & N)|(r & E & Sr & N)].
  - exfalso. assert (Q := mvn_value d (repeat 0 d) (repeat 0 d) cov P S D I (repeat_length _ _) (repeat_length _ _)).
    unfold mvnormal_logprob, check in Q. cbn [forallb] in Q. unfold mvnormal_nd in E.
    destruct (elem2_ok xsub value mu (o ++ [d])) as (r & E2 & Sr & Nr); [rewrite (proj1 Bm), (proj1 Bv); apply bc_snoc; now apply bc_two|].
    rewrite E2 in E. cbn [bind] in E. set (apd := forallb _ _) in *. set (L := fun i j => if apd then _ else _) in E.
    destruct (solve_rows d L r o Ho Sr) as (z & Ez & _). rewrite Ez in E. cbn [bind] in E. rewrite (proj1 Bv), rev_app_distr in E. cbn in E.
    destruct apd; cbn in *; discriminate.
  - exists r. split; [exact E|]. split; [exact Sr|]. intros i km kv Hi Am Av. destruct (G i Hi) as (Li & Ia & Iv & La & Lv).
    apply (aligned_iff _ _ _ La) in Am. apply (aligned_iff _ _ _ Lv) in Av. subst km kv. specialize (N i Li). rewrite (V i Hi) in N. now injection N.
Qed.
Lemma mvn_batch_raises d mu cov value bm bv o : nshp mu = (bm ++ [d])%list -> nshp value = (bv ++ [d])%list -> is_broadcast [bm; bv] o ->
  symmetric d cov -> ~ positive_definite d cov -> mvnormal_nd d mu cov value = Raise.
Proof.
  intros Em Ev B S D. unfold mvnormal_nd. destruct (elem2 xsub value mu) as [r|]; [|reflexivity]. cbn [bind].
  assert (Q := mvn_raises d [] cov [] S D). unfold mvnormal_logprob, check in Q. cbn [forallb] in Q. set (apd := forallb _ _) in *. 
  destruct apd; [discriminate|]. cbn [andb]. destruct (solve_nd _ _ _); [|reflexivity]. cbn [bind]. rewrite Ev, rev_app_distr. reflexivity.
Qed.
Lemma mvn_rank d mu cov value bm bv o : nshp mu = (bm ++ [d])%list -> nshp value = (bv ++ [d])%list -> is_broadcast [bm; bv] o -> (2 <= length o)%nat ->
  mvnormal_nd d mu cov value = Raise.
Proof.
  intros Em Ev B Ho. unfold mvnormal_nd. destruct (elem2_ok xsub value mu (o ++ [d])) as (r & E & Sr & Nr); [rewrite Em, Ev; apply bc_snoc; now apply bc_two|].
  rewrite E. cbn [bind]. assert (Q : forall L, solve_nd d L (transpose r) = Raise).
  { intros L. unfold solve_nd. cbn [transpose nshp]. rewrite Sr, rev_app_distr. cbn [rev app].
    destruct (rev o) as [|a [|b l]] eqn:R; [| |reflexivity]; assert (X := rev_length o); rewrite R in X; cbn in X; lia. }
  now rewrite Q.
Qed.
(** A value that is broadcast along the vector axis: the constant is the one of
    the value's length, 1. *)
Lemma xsub_fin a X Y b : xsub (xsub (Fin a) X) Y = Fin b -> exists x y, X = Fin x /\ Y = Fin y /\ b = a - x - y.
Proof. destruct X as [x| | |], Y as [y| | |]; cbn; try discriminate. intros [= <-]. exists x, y. repeat split; ring. Qed.
Lemma repeat_map_seq {A} (v : A) n : map (fun _ => v) (seq 0 n) = repeat v n.
Proof. generalize 0%nat. induction n as [|n IH]; intros k; cbn; [reflexivity|]. f_equal. apply IH. Qed.
Lemma map2_map_seq {A B C} (f : A -> B -> C) g h l : map2 f (map g l) (map h l) = map (fun k : nat => f (g k) (h k)) l.
Proof. induction l as [|a l IH]; cbn; [reflexivity|]. f_equal. exact IH. Qed.
Lemma nth_repeat_lt (v x : R) n i : (i < n)%nat -> nth i (repeat v n) x = v.
Proof. revert i. induction n as [|n IH]; intros i H; [lia|]. destruct i; cbn; [reflexivity|]. apply IH. lia. Qed.
Lemma mvn_vector_axis d mu cov P value (m : list R) (v : R) :
  (1 < d)%nat -> symmetric d cov -> positive_definite d cov -> inverse d cov P ->
  nshp mu = [d] -> (forall k, (k < d)%nat -> nelt mu [k] = Fin (nth k m 0)) -> length m = d -> nshp value = [1%nat] -> nelt value [0%nat] = Fin v ->
  exists r, mvnormal_nd d mu cov value = Val r /\ nshp r = [] /\
    nelt r [] = Fin (mvn_logpdf d cov P (fun j => v - nth j m 0) + INR (d - 1) / 2 * ln (2 * PI)).
Proof.
  intros Hd S D I Em Vm Lm Ev Vv.
  assert (Q := mvn_value d m (repeat v d) cov P S D I (repeat_length _ _) Lm).
  assert (B : is_broadcast [nshp value; nshp mu] ([] ++ [d])).
  { rewrite Em, Ev. split; [intros x [<-|[<-|[]]]; cbn; auto|]. split; [right; exists [d]; cbn; auto|]. intros c Hc. cbn in Hc. assert (c = 0%nat) by lia. subst c.
    split; [intros x [<-|[<-|[]]]; cbn; auto|]. right. exists [d]. cbn. auto. }
  destruct (elem2_ok xsub value mu ([] ++ [d])%list B) as (r & E & Sr & Nr).
  assert (Rr : row r [] = map2 xsub (map Fin (repeat v d)) (map Fin m)).
  { rewrite (row_eq r [] d [] Sr). rewrite <- (map_nth_seq m 0), Lm, map_map, <- repeat_map_seq, map_map, map2_map_seq. apply map_ext_in. intros k Hk. apply in_seq in Hk.
    cbn [app]. rewrite Nr, Em, Ev. unfold align. cbn. rewrite Vv. destruct d as [|[|d]]; [lia|lia|]. cbn. rewrite Vm by lia. reflexivity. }
  unfold mvnormal_nd. rewrite E. cbn [bind]. unfold mvnormal_logprob in Q. cbv zeta in Q.
  set (apd := forallb (fun x => xgt x (Fin 0)) (map (fun i => cholesky cov d i i) (seq 0 d))) in *.
  set (L := fun i j => if apd then cholesky cov d i j else Fin 1) in *.
  destruct (solve_rows d L r [] (le_S _ _ (le_n _)) Sr) as (z & Ez & Sz & Rz). rewrite Ez. cbn [bind]. rewrite Ev. cbn [rev app].
  unfold check in Q. cbn [forallb] in Q. unfold check_nd. cbn [bind forallb]. destruct apd; [|discriminate Q]. cbn [andb] in *.
  apply (f_equal (fun r => match r with Val y => y | Raise => NaN end)) in Q. cbv beta iota in Q. rewrite map_length, repeat_length in Q.
  eexists. split; [reflexivity|]. split; [cbn [elem1 nshp]; exact (reduce_shape xsum (elem1 xsq (transpose z)) [] d Sz)|].
  cbn [elem1 nelt]. rewrite (reduce_sq z [] d [] Sz), (Rz [] eq_refl), Rr.
  set (q := xsum (map xsq _)) in *. set (ld := xsum (map xlog _)) in *.
  assert (H2 : xlog (Fin (2 * PI)) = Fin (ln (2 * PI))) by (cbn; destruct (Rlt_dec 0 (2 * PI)) as [|F]; [reflexivity|exfalso; apply F; pose proof PI_RGT_0; lra]).
  rewrite H2 in *. set (hq := xmul (Fin (1/2)) q) in *. cbn [xmul] in Q |- *. apply xsub_fin in Q as (x & y & Ex & Ey & Q). rewrite Ex, Ey. cbn [xsub xadd xneg]. f_equal.
  assert (W : mvn_logpdf d cov P (fun j => v - nth j m 0) = mvn_logpdf d cov P (fun j => nth j (repeat v d) 0 - nth j m 0)).
  { unfold mvn_logpdf. do 3 f_equal. unfold quad. apply sumn_ext. intros i Hi. apply sumn_ext. intros k Hk. rewrite !nth_repeat_lt by assumption. reflexivity. }
  rewrite W, Q, minus_INR by lia. cbn [INR]. lra.
Qed.
