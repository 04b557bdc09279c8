(** C56, C57: element-wise expressions of array variables. *)
From Coq Require Import Reals Lra Lia List Arith Bool.
From Coquelicot Require Import Coquelicot.
From Verif Require Import XR XTac SpecDist ModelDist ModelVec SpecVec LemDist ModelIdx SpecIdx LemIdx LemIdx2 ModelTen ModelSub ModelTrans SpecTrans ModelElem SpecElem LemElem
  RMx ModelMvn SpecMvn.
Import ListNotations.
Open Scope R_scope.

(** A univariate variable with the shape of the expression, any operand that
    broadcasts to that shape, arrays of any rank: every element of the result
    denotes the density of the corresponding element of the expression, and
    the term added to the joint log-probability their product.  Missing: the
    points that [epos] excludes (reciprocals of negative numbers), and
    variables smaller than the expression, see C56_broadcast_refuted. *)
Theorem C56_elements_partial : forall a b value o e x f, v_supp b = 0%nat -> nshp value = o -> broadcasts (v_par b) o ->
  operand_broadcasts a o -> evaluates a o e x value ->
  (forall i k z, inside o i -> aligned (v_par b) i k -> z [] = Fin (x i) -> denotes (v_lp b k z) (f i (x i))) ->
  exists r d, arr_elemwise_logprob a b value = Val r /\ nshp r = o /\
    (forall i, inside o i -> pushforward_at (efun (e i)) (f i) (x i) (efun (e i) (x i)) (d i) /\ denotes (nelt r i) (d i)) /\
    denotes (factor_sum r) (rprod (map d (positions o))).
Proof. exact elementwise_ok. Qed.
Print Assumptions C56_elements_partial.
(** normal(mu, 1, size=(n, m)) * [c0, ...] with a vector of means and a row of scales *)
Definition ex_row (m : nat) (u : nat -> R) : nd xr := {| nshp := [m]; nelt := fun i => Fin (u (hd 0%nat i)) |}.
Definition ex_base (m : nat) (mu : nat -> R) : bvar :=
  {| v_par := [m]; v_supp := 0; v_lp := fun k z => normal_logprob (Fin (mu (hd 0%nat k))) (Fin 1) (z []) |}.
Definition col (i : list nat) : nat := nth 1 i 0%nat.
Example C56_elements_ex : forall n m mu c (x : list nat -> R), (2 <= m)%nat -> (forall k, c k <> 0) ->
  exists r d, arr_elemwise_logprob (AScale (ex_row m c)) (ex_base m mu) {| nshp := [n; m]; nelt := fun i => Fin (c (col i) * x i) |} = Val r /\
    nshp r = [n; m] /\
    (forall i, inside [n; m] i -> pushforward_at (efun (EMul (Fin (c (col i))))) (normal_pdf (mu (col i)) 1) (x i) (efun (EMul (Fin (c (col i)))) (x i)) (d i) /\
      denotes (nelt r i) (d i)) /\
    denotes (factor_sum r) (rprod (map d (positions [n; m]))).
Proof.
  intros n m mu c x M C.
  assert (B : bcast_all [[m]; [n; m]] = Val [n; m]).
  { apply bcast_all_spec. split; [intros s [<-|[<-|[]]]; cbn; lia|]. split; [right; exists [n; m]; cbn; auto|].
    intros [|[|r]] R; cbn in R; [| |lia]; (split; [intros s [<-|[<-|[]]]; cbn; auto|right; exists [n; m]; cbn; auto]). }
  assert (AL : forall i, inside [n; m] i -> aligned [m] i [col i]).
  { intros i Ii. apply aligned_iff; [rewrite (inside_length _ _ Ii); cbn; lia|].
    inversion Ii as [|a ? i' ? La T]; subst. inversion T as [|b ? i'' ? Lb T']; subst. inversion T'; subst. cbn. destruct (Nat.eqb_spec m 1); [lia|reflexivity]. }
  apply (C56_elements_partial _ _ _ [n; m] (fun i => EMul (Fin (c (col i)))) x (fun i => normal_pdf (mu (col i)) 1)); try reflexivity.
  - now apply bcast_all_spec.
  - now apply bcast_all_spec.
  - intros i Ii. split; [exists [col i]; split; [now apply AL|reflexivity]|]. split; [apply C|]. split; [exact I|]. split; [exact I|]. reflexivity.
  - intros i k z Ii K Z. cbn. rewrite Z. apply aligned_iff in K; [|rewrite (inside_length _ _ Ii); cbn; lia].
    pose proof (AL i Ii) as K'. apply aligned_iff in K'; [|rewrite (inside_length _ _ Ii); cbn; lia]. change (v_par (ex_base m mu)) with [m] in K. rewrite <- K' in K. subst k. cbn. apply normal_ok. lra.
Qed.

(** normal(0, 1, size=(1,)) + c for a vector [c]: the elements of the value are
    scored as independent, with a positive density at a value at distance 1 or
    more from every possible draw. *)
Theorem C56_broadcast_refuted : exists (b : bvar) (c value : nd xr) r p, v_par b = [] /\ v_supp b = 0%nat /\ nshp c = [2%nat] /\ nshp value = [2%nat] /\
  arr_elemwise_logprob (ALoc c) b value = Val r /\ denotes (factor_sum r) p /\ 0 < p /\
  forall x : R, exists i ci vi, inside [2%nat] i /\ nelt c i = Fin ci /\ nelt value i = Fin vi /\ 1 <= Rabs (x + ci - vi).
Proof. exact broadcast_wrong. Qed.
Print Assumptions C56_broadcast_refuted.

(** A vector variable with density [p] at [x] and an operand as long as the
    vector: the term added to the joint log-probability denotes [p^(n-1)] times
    the density [d] of the transformed vector.  It is the density for [n = 1]
    (or [p = 1]) only; see C57_vector_refuted. *)
Theorem C57_vector_partial : forall a b value n e x p, v_supp b = 1%nat -> v_par b = [] -> nshp value = [n] -> operand_broadcasts a [n] -> wide_jac a [n] ->
  evaluates a [n] e x value ->
  (forall z, (forall k, (k < n)%nat -> z [k] = Fin (x [k])) -> denotes (v_lp b [] z) p) ->
  exists r d, arr_elemwise_logprob a b value = Val r /\ vector_pushforward (positions [n]) (fun k => efun (e k)) x p d /\
    denotes (factor_sum r) (match n with 0 => 1 | S m => p ^ m * d end).
Proof. exact vector_ok. Qed.
Print Assumptions C57_vector_partial.
(** exp of a bivariate normal vector *)
Example C57_vector_ex : forall x : list nat -> R, exists r d p,
  denotes (v_lp (mvn_var 2 [0; 0] id2) [] (fun i => Fin (x i))) p /\
  arr_elemwise_logprob AExp (mvn_var 2 [0; 0] id2) {| nshp := [2%nat]; nelt := fun i => Fin (exp (x i)) |} = Val r /\
  vector_pushforward (positions [2%nat]) (fun _ => exp) x p d /\ denotes (factor_sum r) (p ^ 1 * d).
Proof.
  intros x. destruct id2_pd as (Sy & PD & Iv).
  destruct (C57_vector_partial AExp (mvn_var 2 [0; 0] id2) {| nshp := [2%nat]; nelt := fun i => Fin (exp (x i)) |} 2 (fun _ => EExp) x
    (exp (mvn_logpdf 2 id2 id2 (fun i => nth i (map (fun k => x [k]) (seq 0 2)) 0 - nth i [0; 0] 0)))) as (r & d & E & V & T); try reflexivity; try exact I.
  - intros i Ii. repeat split.
  - intros z Z. now apply mvn_var_den.
  - exists r, d. eexists. split; [now apply (mvn_var_den 2 [0; 0] id2 id2 x)|]. split; [exact E|]. split; [exact V|exact T].
Qed.
(** X + 0 for a bivariate standard normal X: the density at [x] differs from that of X. *)
Theorem C57_vector_refuted : exists x r p q,
  denotes (v_lp (mvn_var 2 [0; 0] id2) [] (fun i => Fin (x i))) p /\
  arr_elemwise_logprob (ALoc zeros2) (mvn_var 2 [0; 0] id2) (vec2 x) = Val r /\ denotes (factor_sum r) q /\ q <> p.
Proof. exact plus_zero_wrong. Qed.
Print Assumptions C57_vector_refuted.
(** A single number times a vector variable of length [n]: the density is
    divided by |c| instead of |c|^n. *)
Theorem C57_scalar_scale_partial : forall b value n c x p, v_supp b = 1%nat -> v_par b = [] -> nshp value = [n] -> c <> 0 ->
  (forall k, (k < n)%nat -> nelt value [k] = Fin (c * x [k])) ->
  (forall z, (forall k, (k < n)%nat -> z [k] = Fin (x [k])) -> denotes (v_lp b [] z) p) ->
  exists r, arr_elemwise_logprob (AScale {| nshp := [1%nat]; nelt := fun _ => Fin c |}) b value = Val r /\ nshp r = [1%nat] /\
    denotes (factor_sum r) (p / Rabs c).
Proof. exact scalar_scale_ok. Qed.
Print Assumptions C57_scalar_scale_partial.
Example C57_scalar_scale_ex : forall (x : list nat -> R), exists r p,
  denotes (v_lp (mvn_var 2 [0; 0] id2) [] (fun i => Fin (x i))) p /\
  arr_elemwise_logprob (AScale {| nshp := [1%nat]; nelt := fun _ => Fin 3 |}) (mvn_var 2 [0; 0] id2)
    {| nshp := [2%nat]; nelt := fun i => Fin (3 * x i) |} = Val r /\ denotes (factor_sum r) (p / Rabs 3).
Proof.
  intros x. destruct id2_pd as (Sy & PD & Iv).
  destruct (C57_scalar_scale_partial (mvn_var 2 [0; 0] id2) {| nshp := [2%nat]; nelt := fun i => Fin (3 * x i) |} 2 3 x
    (exp (mvn_logpdf 2 id2 id2 (fun i => nth i (map (fun k => x [k]) (seq 0 2)) 0 - nth i [0; 0] 0)))) as (r & E & _ & T); try reflexivity; try lra.
  - intros z Z. now apply mvn_var_den.
  - exists r. eexists. split; [now apply (mvn_var_den 2 [0; 0] id2 id2 x)|]. split; [exact E|exact T].
Qed.
