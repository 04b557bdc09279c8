(** C76: batches of multivariate normal variables. *)
From Coq Require Import Reals Lra Lia List Arith Bool.
From Verif Require Import XR SpecDist ModelDist ModelVec ModelIdx SpecIdx ModelTen ModelBatch SpecBatch ModelMvn SpecMvn ModelMvnB LemMvnB PropMvn.
Import ListNotations.
Open Scope R_scope.

(** Every position of a batch has the log-density of its own vector about its
    own mean, whichever of the means and the values are broadcast.  Missing:
    batches with two or more axes, [C76_rank_refuted]. *)
Theorem C76_density_partial : forall d mu cov P value bm bv o (m x : list nat -> list R),
  symmetric d cov -> positive_definite d cov -> inverse d cov P ->
  batch Fin mu bm d m -> batch Fin value bv d x -> is_broadcast [bm; bv] o -> (length o <= 1)%nat ->
  exists r, mvnormal_nd d mu cov value = Val r /\ nshp r = o /\
    forall i km kv, inside o i -> aligned bm i km -> aligned bv i kv ->
      nelt r i = Fin (mvn_logpdf d cov P (fun j => nth j (x kv) 0 - nth j (m km) 0)).
Proof. exact mvn_batch. Qed.
Print Assumptions C76_density_partial.
(** A symmetric matrix that is not positive definite makes the batch fail. *)
Theorem C76_raises : forall d mu cov value bm bv o, nshp mu = (bm ++ [d])%list -> nshp value = (bv ++ [d])%list -> is_broadcast [bm; bv] o ->
  symmetric d cov -> ~ positive_definite d cov -> mvnormal_nd d mu cov value = Raise.
Proof. exact mvn_batch_raises. Qed.
Print Assumptions C76_raises.
(** Batches with two or more axes are refused, whatever the covariance. *)
Theorem C76_rank : forall d mu cov value bm bv o, nshp mu = (bm ++ [d])%list -> nshp value = (bv ++ [d])%list -> is_broadcast [bm; bv] o ->
  (2 <= length o)%nat -> mvnormal_nd d mu cov value = Raise.
Proof. exact mvn_rank. Qed.
Print Assumptions C76_rank.
(** A value with one entry that is broadcast against the means: the constant of
    the log-density is that of one dimension. *)
Theorem C76_vector_axis : forall d mu cov P value (m : list R) (v : R),
  (1 < d)%nat -> symmetric d cov -> positive_definite d cov -> inverse d cov P ->
  nshp mu = [d] -> (forall k, (k < d)%nat -> nelt mu [k] = Fin (nth k m 0)) -> length m = d -> nshp value = [1%nat] -> nelt value [0%nat] = Fin v ->
  exists r, mvnormal_nd d mu cov value = Val r /\ nshp r = [] /\
    nelt r [] = Fin (mvn_logpdf d cov P (fun j => v - nth j m 0) + INR (d - 1) / 2 * ln (2 * PI)).
Proof. exact mvn_vector_axis. Qed.
Print Assumptions C76_vector_axis.

(** Two values under one mean: the hypotheses hold and the rows differ. *)
Definition mb_mu : nd xr := {| nshp := [2%nat]; nelt := fun i => match i with [0%nat] => Fin 0 | _ => Fin 1 end |}.
Definition mb_val : nd xr := {| nshp := [2%nat; 2%nat]; nelt := fun i => match i with [0%nat; 0%nat] => Fin 1 | [0%nat; 1%nat] => Fin 3 | [1%nat; 0%nat] => Fin 5 | _ => Fin 7 end |}.
Definition mb_x (i : list nat) : list R := match i with [0%nat] => [1; 3] | _ => [5; 7] end.
Lemma mb_bc : is_broadcast [[]; [2%nat]] [2%nat].
Proof.
  split; [intros s [<-|[<-|[]]]; cbn; lia|]. split; [right; exists [2%nat]; cbn; auto|]. intros r Hr. cbn in Hr. assert (r = 0%nat) by lia. subst r.
  split; [intros s [<-|[<-|[]]]; cbn; auto|]. right. exists [2%nat]. cbn. auto.
Qed.
Example C76_density_ex : exists r, mvnormal_nd 2 mb_mu ex_cov mb_val = Val r /\ nshp r = [2%nat] /\
  nelt r [0%nat] = Fin (mvn_logpdf 2 ex_cov ex_prec (fun j => nth j [1; 3] 0 - nth j [0; 1] 0)) /\
  nelt r [1%nat] = Fin (mvn_logpdf 2 ex_cov ex_prec (fun j => nth j [5; 7] 0 - nth j [0; 1] 0)).
Proof.
  destruct ex_pd as (S & D & I).
  destruct (C76_density_partial 2 mb_mu ex_cov ex_prec mb_val [] [2%nat] [2%nat] (fun _ => [0; 1]) mb_x S D I) as (r & E & Sr & N).
  - split; [reflexivity|]. intros c Hc. inversion Hc. split; [reflexivity|]. intros [|[|k]] Hk; [reflexivity|reflexivity|lia].
  - split; [reflexivity|]. intros c Hc. inversion Hc as [|x d l ? Hx Hl]; subst. inversion Hl; subst. destruct x as [|[|x]]; [| |lia]; (split; [reflexivity|]; intros [|[|k]] Hk; [reflexivity|reflexivity|lia]).
  - exact mb_bc.
  - cbn. lia.
  - exists r. split; [exact E|]. split; [exact Sr|].
    assert (A : forall t, (t < 2)%nat -> inside [2%nat] [t] /\ aligned [] [t] [] /\ aligned [2%nat] [t] [t]).
    { intros t Ht. split; [constructor; [exact Ht|constructor]|]. split; (split; [reflexivity|]); intros q Hq; cbn in Hq; [lia|]. assert (q = 0%nat) by lia. now subst q. }
    destruct (A 0%nat) as (A1 & A2 & A3); [lia|]. destruct (A 1%nat) as (B1 & B2 & B3); [lia|]. split; [exact (N _ _ _ A1 A2 A3)|exact (N _ _ _ B1 B2 B3)].
Qed.
(** Values with two batch axes, which the variable itself has for a size of two
    axes, have no log-probability: the call raises, also for a positive definite
    covariance. *)
Theorem C76_rank_refuted : exists d mu cov value bv (x : list nat -> list R), symmetric d cov /\ positive_definite d cov /\
  batch Fin mu [] d (fun _ => repeat 0 d) /\ batch Fin value bv d x /\ is_broadcast [[]; bv] bv /\ (0 < d)%nat /\ mvnormal_nd d mu cov value = Raise.
Proof.
  set (val := {| nshp := [1%nat; 1%nat; 2%nat]; nelt := fun _ => Fin 0 |} : nd xr).
  set (mu := {| nshp := [2%nat]; nelt := fun _ => Fin 0 |} : nd xr).
  exists 2%nat, mu, ex_cov, val, [1%nat; 1%nat], (fun _ => [0; 0]). destruct ex_pd as (S & D & _). split; [exact S|]. split; [exact D|].
  assert (B : is_broadcast [[]; [1%nat; 1%nat]] [1%nat; 1%nat]).
  { split; [intros s [<-|[<-|[]]]; cbn; lia|]. split; [right; exists [1%nat; 1%nat]; cbn; auto|]. intros r Hr. cbn in Hr.
    split; [intros s [<-|[<-|[]]]; destruct r as [|[|r]]; cbn; auto|]. destruct r as [|[|r]]; cbn; auto; lia. }
  split; [|split; [|split; [exact B|split; [lia|]]]].
  - split; [reflexivity|]. intros c _. split; [reflexivity|]. intros [|[|k]] Hk; [reflexivity|reflexivity|lia].
  - split; [reflexivity|]. intros c _. split; [reflexivity|]. intros [|[|k]] Hk; [reflexivity|reflexivity|lia].
  - apply (C76_rank 2 mu ex_cov val [] [1%nat; 1%nat] [1%nat; 1%nat]); [reflexivity|reflexivity|exact B|cbn; lia].
Qed.
Print Assumptions C76_rank_refuted.
(** A value that is broadcast along the vector axis does not get the density of
    the broadcast vector. *)
Theorem C76_vector_axis_refuted : exists d mu cov P value (m : list R) (v : R) r, symmetric d cov /\ positive_definite d cov /\ inverse d cov P /\
  nshp mu = [d] /\ (forall k, (k < d)%nat -> nelt mu [k] = Fin (nth k m 0)) /\ nshp value = [1%nat] /\ nelt value [0%nat] = Fin v /\
  mvnormal_nd d mu cov value = Val r /\ nelt r [] <> Fin (mvn_logpdf d cov P (fun j => v - nth j m 0)).
Proof.
  destruct ex_pd as (S & D & I).
  set (val := {| nshp := [1%nat]; nelt := fun _ => Fin 3 |} : nd xr).
  assert (M : forall k, (k < 2)%nat -> nelt mb_mu [k] = Fin (nth k [0; 1] 0)) by (intros [|[|k]] H; [reflexivity|reflexivity|lia]).
  destruct (C76_vector_axis 2 mb_mu ex_cov ex_prec val [0; 1] 3 ltac:(lia) S D I eq_refl M eq_refl eq_refl eq_refl) as (r & E & _ & N).
  exists 2%nat, mb_mu, ex_cov, ex_prec, val, [0; 1], 3, r. repeat (split; [assumption || reflexivity|]). rewrite N. intros [= X]. cbn in X.
  assert (0 < ln (2 * PI)) by (rewrite <- ln_1; apply ln_increasing; pose proof PI2_1; lra). lra.
Qed.
Print Assumptions C76_vector_axis_refuted.
