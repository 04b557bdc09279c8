(** Lemmas on element-wise expressions of array variables. *)
From Coq Require Import Reals Lra Lia List Arith Bool.
From Coquelicot Require Import Coquelicot.
From Verif Require Import XR Special XTac SpecDist ModelDist ModelVec SpecVec ModelIdx SpecIdx LemIdx LemIdx2 LemMix ModelTen ModelConv LemConv
  ModelSub LemSub ModelTrans SpecTrans LemTrans LemTrans2 LemDisc LemDist LemScan ModelElem SpecElem RMx ModelMvn SpecMvn LemMvn LemMvn2 LemMvn3.
Import ListNotations.
Open Scope nat_scope.

Lemma inside_length o i : inside o i -> length i = length o.
Proof. induction 1; cbn; auto. Qed.
Lemma align_self o i : inside o i -> align o i = i.
Proof.
  intros H. unfold align. rewrite (inside_length o i H), Nat.sub_diag. cbn [skipn]. induction H as [|x d i o L H IH]; [reflexivity|].
  cbn [map2]. f_equal; [|exact IH]. destruct (Nat.eqb_spec d 1); lia.
Qed.
Lemma bcasts sh o : broadcasts sh o -> bcast_all [sh; o] = Val o /\ bcast_all [o; sh] = Val o /\ length sh <= length o.
Proof.
  intros B. split; [now apply bcast_all_spec|]. split.
  - apply bcast_all_spec. destruct B as (A & E & F). split; [intros s [<-|[<-|[]]]; apply A; cbn; auto|]. split.
    + destruct E as [E|(s & I & L)]; [now left|]. right. exists s. split; [|exact L]. destruct I as [<-|[<-|[]]]; cbn; auto.
    + intros r R. destruct (F r R) as [P Q]. split; [intros s [<-|[<-|[]]]; apply P; cbn; auto|].
      destruct Q as [Q|(s & I & L)]; [now left|]. right. exists s. split; [|exact L]. destruct I as [<-|[<-|[]]]; cbn; auto.
  - destruct B as (A & _). apply A. now left.
Qed.
Lemma broadcasts_refl o : broadcasts o o.
Proof.
  split; [intros s [<-|[<-|[]]]; auto|]. split; [right; exists o; cbn; auto|]. intros r R. split; [intros s [<-|[<-|[]]]; auto|]. right. exists o. cbn. auto.
Qed.

(** ** one operation *)
Open Scope R_scope.
Definition bw (e : elem) (v : xr) : xr :=
  match e with EAdd c => xsub v c | EMul c => xdiv v c | EExp => xlog v | ELog => xexp v | ERecip => xrecip v | _ => NaN end.
Definition jc (e : elem) (v : xr) : xr :=
  match e with EAdd _ => Fin 0 | EMul c => xneg (xlog (xabs c)) | EExp => xneg (xlog v) | ELog => v | ERecip => xmul (Fin (-2)) (xlog v) | _ => NaN end.
Definition prim_op (e : elem) : Prop := match e with EAdd _ | EMul _ | EExp | ELog | ERecip => True | _ => False end.
Lemma op_ok e x : prim_op e -> eadm e -> edom e x -> epos e x ->
  bw e (Fin (efun e x)) = Fin x /\ exists j g', jc e (Fin (efun e x)) = Fin j /\ is_derive (efun e) x g' /\ g' <> 0 /\ exp j = / Rabs g'.
Proof.
  intros P A D Q. destruct e as [[c| | |]|[c| | |]| | | | | | |]; cbn in P, A, D, Q; try tauto; cbn [bw jc efun].
  - split; [cbn; f_equal; ring|]. exists 0, 1. split; [reflexivity|]. split; [unfold efun; auto_derive; [auto|ring]|]. split; [lra|]. rewrite Rabs_R1, exp_0. field.
  - split; [rewrite xdiv_fin by auto; f_equal; now field|]. exists (- ln (Rabs c)), c. split; [rewrite xabs_fin, xlog_pos by (now apply Rabs_pos_lt); reflexivity|].
    split; [unfold efun; auto_derive; [auto|ring]|]. split; [auto|]. now apply exp_neg_ln_abs.
  - pose proof (exp_pos x) as E. split; [now rewrite xlog_pos, ln_exp by exact E|]. exists (- x), (exp x).
    split; [rewrite xlog_pos, ln_exp by exact E; reflexivity|]. split; [unfold efun; auto_derive; [auto|ring]|]. split; [lra|]. rewrite Rabs_pos_eq by lra. apply exp_Ropp.
  - split; [cbn; now rewrite exp_ln|]. exists (ln x), (/ x). split; [reflexivity|]. pose proof (Rinv_0_lt_compat x D).
    split; [unfold efun; auto_derive; [auto|field; lra]|]. split; [lra|]. rewrite Rabs_pos_eq, Rinv_inv, exp_ln by lra. reflexivity.
  - assert (S : 0 < x * x) by nra. pose proof (Rinv_0_lt_compat _ S) as S'. pose proof (Rinv_0_lt_compat x Q).
    split; [rewrite xrecip_fin by (apply Rinv_neq_0_compat; lra); now rewrite Rinv_inv|]. exists (-2 * ln (/ x)), (- / (x * x)).
    split; [rewrite xlog_pos by lra; reflexivity|]. split; [unfold efun; auto_derive; [lra|field; lra]|]. split; [lra|].
    rewrite Rabs_Ropp, Rabs_pos_eq, Rinv_inv, ln_Rinv by lra. replace (-2 * - ln x) with (ln x + ln x) by ring. rewrite exp_plus, exp_ln; auto.
Qed.

(** ** arrays *)
Lemma op_prim a i e : op_at a i e -> prim_op e.
Proof. destruct a; cbn; [intros (k & _ & ->)|intros (k & _ & ->)|intros ->..]; exact I. Qed.
Lemma backward_at a value o : nshp value = o -> operand_broadcasts a o -> exists bv, arr_backward a value = Val bv /\ nshp bv = o /\
  forall i e, inside o i -> op_at a i e -> nelt bv i = bw e (nelt value i).
Proof.
  intros <- B. destruct a as [c|c| | |]; cbn [arr_backward operand_broadcasts] in *.
  1,2: destruct (bcasts _ _ B) as (_ & E & L); unfold elemwise; cbn [map]; rewrite E; cbn [bind]; eexists; split; [reflexivity|]; split; [reflexivity|];
    intros i e I (k & K & ->); cbn [nelt]; rewrite (align_self _ _ I); apply aligned_iff in K; [|rewrite (inside_length _ _ I); exact L]; subst k; reflexivity.
  all: eexists; split; [reflexivity|]; split; [reflexivity|]; intros i e I ->; reflexivity.
Qed.
Definition wide_jac (a : arrtr) (o : list nat) : Prop := match a with AScale c => nshp c = o | _ => True end.
Lemma jac_at a value o i e : nshp value = o -> operand_broadcasts a o -> inside o i -> op_at a i e ->
  let j := arr_log_jac_det a value in broadcasts (nshp j) o /\ nelt j (align (nshp j) i) = jc e (nelt value i).
Proof.
  intros <- B I O. destruct a as [c|c| | |]; cbn [arr_log_jac_det operand_broadcasts op_at] in *.
  2: { destruct O as (k & K & ->). cbn. split; [exact B|]. destruct (bcasts _ _ B) as (_ & _ & L). apply aligned_iff in K; [|rewrite (inside_length _ _ I); exact L]. now subst k. }
  all: cbn [nd_map nshp nelt]; cbv zeta; split; [apply broadcasts_refl|]. { destruct O as (k & K & ->). reflexivity. }
  all: subst e; cbn [nelt nshp jc]; now rewrite (align_self _ _ I).
Qed.
Lemma jac_shape a value o : nshp value = o -> operand_broadcasts a o -> broadcasts (nshp (arr_log_jac_det a value)) o.
Proof. intros <- B. destruct a; cbn; try apply broadcasts_refl. exact B. Qed.

Lemma total_den (F : list nat -> res xr) d l : (forall i, In i l -> denotes (F i) (d i)) -> denotes (rmap xsum (rseq (map F l))) (rprod (map d l)).
Proof.
  induction l as [|i l IH]; intros H; [cbn; apply exp_0|].
  assert (Hi := H i (or_introl eq_refl)). assert (Hl := IH (fun k I => H k (or_intror I))). cbn [map rseq].
  destruct (F i) as [v|]; [|destruct Hi]. cbn [bind]. destruct (rseq (map F l)) as [vs|]; [|destruct Hl]. cbn [bind rmap] in *.
  unfold xsum, rprod in *. cbn [fold_right]. exact (den_add v _ _ _ Hi Hl).
Qed.

Lemma elementwise_ok a b value o e x f : v_supp b = 0%nat -> nshp value = o -> broadcasts (v_par b) o -> operand_broadcasts a o ->
  evaluates a o e x value ->
  (forall i k z, inside o i -> aligned (v_par b) i k -> z [] = Fin (x i) -> denotes (v_lp b k z) (f i (x i))) ->
  exists r d, arr_elemwise_logprob a b value = Val r /\ nshp r = o /\
    (forall i, inside o i -> pushforward_at (efun (e i)) (f i) (x i) (efun (e i) (x i)) (d i) /\ denotes (nelt r i) (d i)) /\
    denotes (factor_sum r) (rprod (map d (positions o))).
Proof.
  intros S V P B E L. destruct (backward_at a value o V B) as (bv & Eb & Sb & Nb).
  destruct (bcasts _ _ P) as (EP & _ & LP). pose proof (jac_shape a value o V B) as SJ. destruct (bcasts _ _ SJ) as (_ & EJ & _).
  unfold arr_elemwise_logprob. rewrite Eb. cbn [bind]. unfold logprob_nd. rewrite S, Sb, Nat.sub_0_r, firstn_all, EP. cbn [bind nshp]. rewrite EJ. cbn [bind].
  assert (Q : exists d : list nat -> R, forall i, inside o i -> pushforward_at (efun (e i)) (f i) (x i) (efun (e i) (x i)) (d i) /\
    denotes (bind (v_lp b (align (v_par b) (align o i)) (fun q => nelt bv (align o (align o i) ++ q)))
      (fun x0 => Val (xadd x0 (nelt (arr_log_jac_det a value) (align (nshp (arr_log_jac_det a value)) i))))) (d i)).
  { exists (fun i => f i (x i) / Rabs (Derive (efun (e i)) (x i))). intros i I. destruct (E i I) as (O & A & D & Pp & Vi).
    destruct (op_ok (e i) (x i) (op_prim _ _ _ O) A D Pp) as (Bw & j & g' & Jc & Dg & Ng & Ej).
    rewrite (is_derive_unique _ _ _ Dg). split; [split; [reflexivity|]; exists g'; auto|].
    rewrite !(align_self o i I). destruct (jac_at a value o i (e i) V B I O) as [_ ->]. rewrite Vi, Jc.
    assert (H := L i (align (v_par b) i) (fun q => nelt bv (i ++ q)) I). 
    assert (AL : aligned (v_par b) i (align (v_par b) i)) by (apply aligned_iff; [rewrite (inside_length _ _ I); exact LP|reflexivity]).
    specialize (H AL). cbv beta in H. rewrite app_nil_r, (Nb i (e i) I O), Vi, Bw in H. specialize (H eq_refl).
    destruct (v_lp b _ _) as [v|]; [|destruct H]. cbn [bind]. unfold Rdiv. rewrite <- Ej. apply (den_add v (Fin j)); [exact H|apply den_fin]. }
  destruct Q as [d Q]. eexists. exists d. split; [reflexivity|]. split; [reflexivity|]. split; [exact Q|].
  unfold factor_sum. cbn [nshp nelt]. apply total_den. intros i I. apply positions_in in I. now apply Q.
Qed.

(** ** vector-valued variables *)
Lemma rprod_mult l (u v : list nat -> R) : rprod (map (fun k => u k * v k) l) = rprod (map u l) * rprod (map v l).
Proof. induction l as [|k l IH]; unfold rprod in *; cbn; [ring|]. rewrite IH. ring. Qed.
Lemma rprod_const (l : list (list nat)) (p : R) : rprod (map (fun _ => p) l) = p ^ length l.
Proof. induction l as [|k l IH]; unfold rprod in *; cbn; [reflexivity|]. now rewrite IH. Qed.
Lemma rprod_inv l (u : list nat -> R) : (forall k, In k l -> u k <> 0) -> rprod (map (fun k => / u k) l) = / rprod (map u l).
Proof.
  induction l as [|k l IH]; intros H; unfold rprod in *; cbn; [now rewrite Rinv_1|]. rewrite IH by (intros; apply H; now right).
  rewrite Rinv_mult. reflexivity.
Qed.
Lemma positions_len1 n : length (positions [n]) = n.
Proof.
  cbn. generalize 0%nat. induction n as [|n IH]; intros s; cbn; [reflexivity|]. now rewrite (IH (S s)).
Qed.
(** support of one axis of length [n], no batch *)
Lemma vector_ok a b value n e x p : v_supp b = 1%nat -> v_par b = [] -> nshp value = [n] -> operand_broadcasts a [n] -> wide_jac a [n] ->
  evaluates a [n] e x value ->
  (forall z, (forall k, (k < n)%nat -> z [k] = Fin (x [k])) -> denotes (v_lp b [] z) p) ->
  exists r d, arr_elemwise_logprob a b value = Val r /\ vector_pushforward (positions [n]) (fun k => efun (e k)) x p d /\
    denotes (factor_sum r) (match n with 0 => 1 | S m => p ^ m * d end).
Proof.
  intros S0 P V B W E L. destruct (backward_at a value [n] V B) as (bv & Eb & Sb & Nb).
  assert (SJ : nshp (arr_log_jac_det a value) = [n]) by (destruct a; cbn in *; auto).
  unfold arr_elemwise_logprob. rewrite Eb. cbn [bind]. unfold logprob_nd. rewrite S0, Sb, P. cbn [length Nat.sub firstn].
  change (bcast_all [[]; []]) with (@Val (list nat) []). cbn [bind nshp]. rewrite SJ. change (bcast_all [[]; [n]]) with (Val [n]). cbn [bind].
  assert (In1 : forall i, In i (positions [n]) -> inside [n] i) by (intros i I; now apply positions_in).
  assert (Q : exists g' : list nat -> R, forall i, inside [n] i -> is_derive (efun (e i)) (x i) (g' i) /\ g' i <> 0 /\
     denotes (bind (v_lp b (align [] (align [] i)) (fun q => nelt bv (align [] (align [] i) ++ q)))
      (fun x0 => Val (xadd x0 (nelt (arr_log_jac_det a value) (align [n] i))))) (p * / Rabs (g' i))).
  { exists (fun i => Derive (efun (e i)) (x i)). intros i I. destruct (E i I) as (O & A & D & Pp & Vi).
    destruct (op_ok (e i) (x i) (op_prim _ _ _ O) A D Pp) as (Bw & j & g' & Jc & Dg & Ng & Ej).
    rewrite (is_derive_unique _ _ _ Dg). split; [exact Dg|]. split; [exact Ng|].
    destruct (jac_at a value [n] i (e i) V B I O) as [_ HJ]. rewrite SJ in HJ. rewrite HJ, Vi, Jc.
    change (align [] (align [] i)) with (@nil nat). cbn [app]. 
    assert (H : denotes (v_lp b [] (fun q => nelt bv q)) p).
    { apply L. intros k K. assert (Ik : inside [n] [k]) by (repeat constructor; exact K). destruct (E [k] Ik) as (O' & A' & D' & P' & V').
      rewrite (Nb [k] (e [k]) Ik O'), V'. apply (op_ok (e [k]) (x [k])); auto. now apply (op_prim a [k]). }
    destruct (v_lp b _ _) as [v|]; [|destruct H]. cbn [bind]. rewrite <- Ej. apply (den_add v (Fin j)); [exact H|apply den_fin]. }
  destruct Q as [g' Q]. eexists. exists (p / rprod (map (fun k => Rabs (g' k)) (positions [n]))). split; [reflexivity|]. split.
  - exists g'. split; [|reflexivity]. intros k K. destruct (Q k (In1 k K)) as (A & C & _). auto.
  - unfold factor_sum. cbn [nshp nelt].
    assert (T := total_den _ (fun i => p * / Rabs (g' i)) (positions [n]) (fun i I => proj2 (proj2 (Q i (In1 i I))))).
    rewrite (rprod_mult _ (fun _ => p)), rprod_const, positions_len1, rprod_inv in T by (intros k K; apply Rabs_no_R0; apply (Q k (In1 k K))).
    destruct n as [|m]; [|replace (p ^ m * (p / rprod (map (fun k => Rabs (g' k)) (positions [S m])))) with (p ^ S m * / rprod (map (fun k => Rabs (g' k)) (positions [S m]))) by (cbn [pow]; unfold Rdiv; ring); exact T].
    cbn in T. unfold rprod in T. cbn in T. rewrite Rinv_1, Rmult_1_r in T. exact T.
Qed.
(** a scale with a single element: its logarithm enters once *)
Lemma scalar_scale_ok b value n c x p : v_supp b = 1%nat -> v_par b = [] -> nshp value = [n] -> c <> 0 ->
  (forall k, (k < n)%nat -> nelt value [k] = Fin (c * x [k])) ->
  (forall z, (forall k, (k < n)%nat -> z [k] = Fin (x [k])) -> denotes (v_lp b [] z) p) ->
  exists r, arr_elemwise_logprob (AScale {| nshp := [1%nat]; nelt := fun _ => Fin c |}) b value = Val r /\ nshp r = [1%nat] /\
    denotes (factor_sum r) (p / Rabs c).
Proof.
  intros S P V C E L. unfold arr_elemwise_logprob. cbn [arr_backward]. unfold elemwise. cbn [map nshp]. rewrite V.
  assert (B1 : bcast_all [[n]; [1%nat]] = Val [n]) by (destruct n as [|[|n]]; reflexivity). rewrite B1. cbn [bind]. unfold logprob_nd. cbn [nshp]. rewrite S, P. cbn [length Nat.sub firstn].
  change (bcast_all [[]; []]) with (@Val (list nat) []). cbn [bind nshp arr_log_jac_det nd_map]. change (bcast_all [[]; [1%nat]]) with (Val [1%nat]). cbn [bind].
  eexists. split; [reflexivity|]. split; [reflexivity|]. unfold factor_sum. cbn [nshp nelt].
  replace (p / Rabs c) with (rprod (map (fun _ : list nat => p / Rabs c) (positions [1%nat]))) by (unfold rprod; cbn; ring).
  apply total_den. intros i _. unfold align at 1 2. cbn [length skipn map2 app].
  assert (H : denotes (v_lp b [] (fun q => x_div [nelt value (align [n] q); Fin c])) p).
  { apply L. intros k K. rewrite align_self by (repeat constructor; exact K). rewrite E by exact K. cbn [x_div]. rewrite xdiv_fin by exact C. f_equal. now field. }
  cbn [app map nelt]. destruct (v_lp b _ _) as [v|]; [|destruct H]. cbn [bind].
  cbn [nd_map nelt]. rewrite xabs_fin, xlog_pos by (now apply Rabs_pos_lt). cbn [xneg]. unfold Rdiv. rewrite <- exp_neg_ln_abs by exact C. apply (den_add v (Fin _)); [exact H|apply den_fin].
Qed.

(** ** witnesses *)
Definition std_normal : bvar := {| v_par := []; v_supp := 0; v_lp := fun _ z => normal_logprob (Fin 0) (Fin 1) (z []) |}.
Definition zeros2 : nd xr := {| nshp := [2%nat]; nelt := fun _ => Fin 0 |}.
Lemma broadcast_wrong : exists (b : bvar) (c value : nd xr) r p, v_par b = [] /\ v_supp b = 0%nat /\ nshp c = [2%nat] /\ nshp value = [2%nat] /\
  arr_elemwise_logprob (ALoc c) b value = Val r /\ denotes (factor_sum r) p /\ 0 < p /\
  forall x : R, exists i ci vi, inside [2%nat] i /\ nelt c i = Fin ci /\ nelt value i = Fin vi /\ 1 <= Rabs (x + ci - vi).
Proof.
  set (v := {| nshp := [2%nat]; nelt := fun i => match i with [0%nat] => Fin 0 | _ => Fin 5 end |} : nd xr).
  set (e := fun _ : list nat => EAdd (Fin 0)). set (x := fun i : list nat => match i with [0%nat] => 0 | _ => 5 end : R).
  destruct (elementwise_ok (ALoc zeros2) std_normal v [2%nat] e x (fun _ => normal_pdf 0 1)) as (r & d & E & Sr & Q & T).
  - reflexivity. - reflexivity.
  - apply bcast_all_spec. reflexivity.
  - apply bcast_all_spec. reflexivity.
  - intros i I. split; [|repeat split].
    + exists (align [2%nat] i). split; [|reflexivity]. apply aligned_iff; [rewrite (inside_length _ _ I); cbn; lia|reflexivity].
    + unfold e, efun, x, v. cbn [nelt]. destruct i as [|[|k] [|]]; f_equal; ring.
  - intros i k z I K Z. cbn. rewrite Z. apply normal_ok. lra.
  - exists std_normal, zeros2, v, r. exists (rprod (map d (positions [2%nat]))). repeat (split; [reflexivity || exact E || exact T|]). split.
    + assert (P : forall i, inside [2%nat] i -> 0 < d i).
      { intros i I. destruct (Q i I) as [(_ & g' & _ & Ng & ->) _]. apply Rdiv_lt_0_compat; [|now apply Rabs_pos_lt].
        unfold normal_pdf. pose proof PI_RGT_0. pose proof (sqrt_lt_R0 (2 * PI) ltac:(lra)). apply Rmult_lt_0_compat; [apply Rinv_0_lt_compat; lra|apply exp_pos]. }
      pose proof (P [0%nat] ltac:(repeat constructor)). pose proof (P [1%nat] ltac:(repeat constructor)). unfold rprod. cbn. rewrite Rmult_1_r. now apply Rmult_lt_0_compat.
    + intros t. destruct (Rle_dec t 2) as [H|H].
      * exists [1%nat], 0, 5. split; [repeat constructor|]. repeat (split; [reflexivity|]). rewrite Rabs_left; lra.
      * exists [0%nat], 0, 0. split; [repeat constructor|]. repeat (split; [reflexivity|]). rewrite Rabs_right; lra.
Qed.

(** the multivariate normal variable of dimension [n] *)
Definition mvn_var (n : nat) (mu : list R) (A : nat -> nat -> R) : bvar :=
  {| v_par := []; v_supp := 1; v_lp := fun _ z => mvnormal_logprob n (map Fin mu) A (map (fun k => z [k]) (seq 0 n)) |}.
Lemma mvn_var_den n mu A P x z : symmetric n A -> positive_definite n A -> inverse n A P -> length mu = n ->
  (forall k, (k < n)%nat -> z [k] = Fin (x [k])) ->
  denotes (v_lp (mvn_var n mu A) [] z) (exp (mvn_logpdf n A P (fun i => nth i (map (fun k => x [k]) (seq 0 n)) 0 - nth i mu 0))).
Proof.
  intros Sy PD Iv L Z. cbn [mvn_var v_lp].
  replace (map (fun k => z [k]) (seq 0 n)) with (map Fin (map (fun k => x [k]) (seq 0 n))).
  - rewrite (mvn_value n mu _ A P) by (auto; now rewrite map_length, seq_length). cbn. reflexivity.
  - rewrite map_map. apply map_ext_in. intros k K. apply in_seq in K. now rewrite Z by lia.
Qed.
Definition id2 (i j : nat) : R := if Nat.eq_dec i j then 1 else 0.
Lemma id2_pd : symmetric 2 id2 /\ positive_definite 2 id2 /\ inverse 2 id2 id2.
Proof.
  split; [|split].
  - intros i j _ _. unfold id2. destruct (Nat.eq_dec i j), (Nat.eq_dec j i); congruence.
  - intros x (i & I & X). unfold quad. cbn. unfold id2. cbn. assert (0 < x i * x i) by (now apply Rsqr_pos_lt).
    pose proof (Rle_0_sqr (x 0%nat)). pose proof (Rle_0_sqr (x 1%nat)). unfold Rsqr in *. destruct i as [|[|i]]; [lra|lra|lia].
  - intros i j I J. destruct i as [|[|i]]; [| |lia]; (destruct j as [|[|j]]; [| |lia]); cbn; unfold id2; cbn; field.
Qed.
Definition vec2 (x : list nat -> R) : nd xr := {| nshp := [2%nat]; nelt := fun i => Fin (x i) |}.
Lemma plus_zero x : exists r, let p := exp (mvn_logpdf 2 id2 id2 (fun i => nth i (map (fun k => x [k]) (seq 0 2)) 0 - nth i [0; 0] 0)) in
  denotes (v_lp (mvn_var 2 [0; 0] id2) [] (fun i => Fin (x i))) p /\
  arr_elemwise_logprob (ALoc zeros2) (mvn_var 2 [0; 0] id2) (vec2 x) = Val r /\ denotes (factor_sum r) (p * p).
Proof.
  destruct id2_pd as (Sy & PD & Iv). set (p := exp _).
  destruct (vector_ok (ALoc zeros2) (mvn_var 2 [0; 0] id2) (vec2 x) 2 (fun _ => EAdd (Fin 0)) x p) as (r & d & E & (g' & G & D) & T).
  - reflexivity. - reflexivity. - reflexivity. - apply bcast_all_spec. reflexivity. - exact I.
  - intros i Ii. split; [|repeat split].
    + exists (align [2%nat] i). split; [|reflexivity]. apply aligned_iff; [rewrite (inside_length _ _ Ii); cbn; lia|reflexivity].
    + unfold efun, vec2. cbn [nelt]. f_equal. ring.
  - intros z Z. now apply mvn_var_den.
  - exists r. cbv zeta. split; [now apply mvn_var_den|]. split; [exact E|].
    assert (d = p) as ->.
    { assert (H : forall k, In k (positions [2%nat]) -> g' k = 1).
      { intros k K. destruct (G k K) as [Dk _]. apply is_derive_unique in Dk. rewrite <- Dk. apply is_derive_unique. unfold efun. auto_derive; [auto|ring]. }
      rewrite D. rewrite (map_ext_in _ (fun _ => 1)) by (intros k K; rewrite H by exact K; apply Rabs_R1). unfold rprod. cbn. field. }
    replace (p * p) with (p ^ 1 * p) by ring. exact T.
Qed.
Lemma plus_zero_wrong : exists x r p q,
  denotes (v_lp (mvn_var 2 [0; 0] id2) [] (fun i => Fin (x i))) p /\
  arr_elemwise_logprob (ALoc zeros2) (mvn_var 2 [0; 0] id2) (vec2 x) = Val r /\ denotes (factor_sum r) q /\ q <> p.
Proof.
  set (K := fun x : list nat -> R => mvn_logpdf 2 id2 id2 (fun i => nth i (map (fun k => x [k]) (seq 0 2)) 0 - nth i [0; 0] 0)).
  assert (W : forall x, K x <> 0 -> exists r p q,
    denotes (v_lp (mvn_var 2 [0; 0] id2) [] (fun i => Fin (x i))) p /\
    arr_elemwise_logprob (ALoc zeros2) (mvn_var 2 [0; 0] id2) (vec2 x) = Val r /\ denotes (factor_sum r) q /\ q <> p).
  { intros x N. destruct (plus_zero x) as (r & A & B & C). exists r. eexists. eexists. split; [exact A|]. split; [exact B|]. split; [exact C|].
    fold (K x). rewrite <- exp_plus. intros H. apply exp_inv in H. lra. }
  set (x0 := fun _ : list nat => 0). set (x1 := fun i : list nat => match i with [0%nat] => 1 | _ => 0 end : R).
  destruct (Req_dec (K x0) 0) as [Z|Z]; [|exists x0; now apply W].
  exists x1. apply W. assert (K x1 = K x0 - 1 / 2); [|lra].
  unfold K, mvn_logpdf, quad. cbn. unfold id2, x0, x1. cbn. ring.
Qed.
