(** C65: batches of vector-valued variables. *)
From Coq Require Import Reals Lra Lia List Arith ZArith Bool.
From Verif Require Import XR Special SpecDist ModelDist ModelVec SpecVec ModelIdx SpecIdx ModelTen ModelBatch SpecBatch LemBatch LemBatch2.
Import ListNotations.
Open Scope R_scope.

(** Every position of a batch of Dirichlet variables has the density of its own
    vector, whichever of the concentrations and the values are broadcast. *)
Theorem C65_dirichlet : forall alpha value ba bv K o (al x : list nat -> list R),
  batch Fin alpha ba K al -> batch Fin value bv K x -> is_broadcast [ba; bv] o -> (0 < K)%nat ->
  (forall c, inside ba c -> List.Forall (fun a => 0 < a) (al c)) -> (forall c, inside bv c -> List.Forall (fun v => 0 < v <= 1) (x c)) ->
  exists r, dirichlet_nd alpha value = Val r /\ nshp r = o /\
    forall i ka kv, inside o i -> aligned ba i ka -> aligned bv i kv -> denotes (Val (nelt r i)) (dirichlet_pdf (al ka) (x kv)).
Proof. exact dirichlet_batch. Qed.
Print Assumptions C65_dirichlet.
(** One concentration that is not positive anywhere in the batch, and nothing else, makes the whole batch fail. *)
Theorem C65_dirichlet_raises : forall alpha value ba bv K o (al x : list nat -> list R),
  batch Fin alpha ba K al -> nshp value = (bv ++ [K])%list -> is_broadcast [ba; bv] o ->
  (dirichlet_nd alpha value = Raise <-> exists c a, inside ba c /\ In a (al c) /\ a <= 0).
Proof. exact dirichlet_batch_raises. Qed.
Print Assumptions C65_dirichlet_raises.

(** Every position of a batch of multinomial variables has the mass of its own counts. *)
Theorem C65_multinomial : forall n p value bn bp bv K o (m : list nat -> nat) (w : list nat -> list R) (k : list nat -> list nat),
  array_of (fun j => Fin (INR j)) n bn m -> batch Fin p bp K w -> batch (fun j => Fin (INR j)) value bv K k -> is_broadcast [bn; bp; bv] o ->
  (forall c, inside bp c -> prob_vector (w c)) ->
  exists r, multinomial_nd n p value = Val r /\ nshp r = o /\
    forall i kn kp kv, inside o i -> aligned bn i kn -> aligned bp i kp -> aligned bv i kv -> denotes (Val (nelt r i)) (multinomial_pmf (m kn) (w kp) (k kv)).
Proof. exact multinomial_batch. Qed.
Print Assumptions C65_multinomial.

(** The same for categorical variables, when the weights are one vector or the
    value has more axes than the batch of weights.  Other values are missing:
    [C65_categorical_axis]. *)
Theorem C65_categorical_partial : forall p value b bv K o (w : list nat -> list R) (k : list nat -> nat),
  batch Fin p b K w -> array_of Z.of_nat value bv k -> is_broadcast [bv; b] o ->
  (forall c, inside b c -> weights (w c)) -> (forall c, inside bv c -> (k c < K)%nat) ->
  b = [] \/ (length b < length bv)%nat ->
  exists r, categorical_nd p value = Val r /\ nshp r = o /\
    forall i kp kv, inside o i -> aligned b i kp -> aligned bv i kv -> denotes (Val (nelt r i)) (categorical_pmf (w kp) (k kv)).
Proof.
  intros p value b bv K o w k Bp Av B W Hk L. destruct (categorical_batch p value b bv K o w k Bp Av B W Hk) as (r & E & S & N).
  assert (X : extra b bv = 0%nat).
  { unfold extra. destruct L as [->|L]; [reflexivity|]. replace (length bv <=? length b)%nat with false by (symmetry; apply Nat.leb_gt; exact L). now rewrite andb_false_r. }
  rewrite X in S, N. exists r. auto.
Qed.
Print Assumptions C65_categorical_partial.
(** A batch of weights with at least as many axes as the value: the entries are
    right, but the result has an additional leading axis of length one. *)
Theorem C65_categorical_axis : forall p value b bv K o (w : list nat -> list R) (k : list nat -> nat),
  batch Fin p b K w -> array_of Z.of_nat value bv k -> is_broadcast [bv; b] o ->
  (forall c, inside b c -> weights (w c)) -> (forall c, inside bv c -> (k c < K)%nat) ->
  b <> [] -> (length bv <= length b)%nat ->
  exists r, categorical_nd p value = Val r /\ nshp r = 1%nat :: o /\
    forall i kp kv, inside o i -> aligned b i kp -> aligned bv i kv -> denotes (Val (nelt r (0%nat :: i))) (categorical_pmf (w kp) (k kv)).
Proof.
  intros p value b bv K o w k Bp Av B W Hk N0 L. destruct (categorical_batch p value b bv K o w k Bp Av B W Hk) as (r & E & S & N).
  assert (X : extra b bv = 1%nat).
  { unfold extra. replace (length bv <=? length b)%nat with true by (symmetry; apply Nat.leb_le; exact L).
    replace (1 <=? length b)%nat with true by (symmetry; apply Nat.leb_le; destruct b; [easy|cbn; lia]). reflexivity. }
  rewrite X in S, N. exists r. auto.
Qed.
Print Assumptions C65_categorical_axis.

(** two weight vectors and two values *)
Definition two_weights : nd xr := {| nshp := [2; 3]%nat; nelt := fun i => match i with [0; 0]%nat => Fin 1 | [0; _]%nat => Fin 0 | [_; 0]%nat => Fin 0 | _ => Fin 2 end |}.
Definition two_values : nd Z := {| nshp := [2]%nat; nelt := fun i => match i with [0%nat] => 0%Z | _ => 2%Z end |}.
Definition w2 (c : list nat) : list R := match c with [0%nat] => [1; 0; 0] | _ => [0; 2; 2] end.
Definition k2 (c : list nat) : nat := match c with [0%nat] => 0%nat | _ => 2%nat end.
Lemma one_axis c : inside [2]%nat c -> c = [0]%nat \/ c = [1]%nat.
Proof. intros H. inversion H as [|x ? ? ? Hx Hy]. inversion Hy. subst. destruct x as [|[|x]]; [auto|auto|lia]. Qed.
Lemma three_lt k : (k < 3)%nat -> k = 0%nat \/ k = 1%nat \/ k = 2%nat. Proof. lia. Qed.
Lemma batch2 : batch Fin two_weights [2]%nat 3 w2 /\ array_of Z.of_nat two_values [2]%nat k2 /\ is_broadcast [[2]; [2]]%nat [2]%nat /\
  (forall c, inside [2]%nat c -> weights (w2 c)) /\ (forall c, inside [2]%nat c -> (k2 c < 3)%nat).
Proof.
  split; [|split; [|split; [|split]]].
  - split; [reflexivity|]. intros c H. destruct (one_axis c H) as [-> | ->]; (split; [reflexivity|]); intros k Hk; destruct (three_lt k Hk) as [-> |[-> | ->]]; reflexivity.
  - split; [reflexivity|]. intros c H. destruct (one_axis c H) as [-> | ->]; reflexivity.
  - apply LemIdx.bcast_all_spec. reflexivity.
  - intros c H. destruct (one_axis c H) as [-> | ->]; (split; [repeat constructor; lra|cbn; lra]).
  - intros c H. destruct (one_axis c H) as [-> | ->]; cbn; lia.
Qed.
(** "The log-probability of a batch of categorical variables has the shape of
    the batch" is false: for two weight vectors and two values the result is a
    1 x 2 array. *)
Theorem C65_categorical_refuted : exists p value b bv K o (w : list nat -> list R) (k : list nat -> nat),
  batch Fin p b K w /\ array_of Z.of_nat value bv k /\ is_broadcast [bv; b] o /\
  (forall c, inside b c -> weights (w c)) /\ (forall c, inside bv c -> (k c < K)%nat) /\
  exists r, categorical_nd p value = Val r /\ nshp r <> o.
Proof.
  exists two_weights, two_values, [2]%nat, [2]%nat, 3%nat, [2]%nat, w2, k2. destruct batch2 as (A & B & C & D & E).
  do 5 (split; [assumption|]). destruct (C65_categorical_axis two_weights two_values [2]%nat [2]%nat 3 [2]%nat w2 k2 A B C D E) as (r & R & S & _); [easy|cbn; lia|].
  exists r. split; [exact R|]. rewrite S. discriminate.
Qed.
Print Assumptions C65_categorical_refuted.
(** second position: weight 2 of 4 *)
Example C65_categorical_axis_ex : exists r, categorical_nd two_weights two_values = Val r /\ nshp r = [1; 2]%nat /\ denotes (Val (nelt r [0; 1]%nat)) (1 / 2).
Proof.
  destruct batch2 as (A & B & C & D & E). destruct (C65_categorical_axis two_weights two_values [2]%nat [2]%nat 3 [2]%nat w2 k2 A B C D E) as (r & R & S & N); [easy|cbn; lia|].
  exists r. split; [exact R|]. split; [exact S|].
  replace (1 / 2) with (categorical_pmf (w2 [1]%nat) (k2 [1]%nat)) by (unfold categorical_pmf; cbn; field).
  apply N; [constructor; [lia|constructor]| |]; (split; [reflexivity|]; intros [|r0] Hr; [reflexivity|cbn in Hr; lia]).
Qed.
(** one value per draw: the value has more axes than the weights *)
Definition one_weights : nd xr := {| nshp := [3]%nat; nelt := fun i => match i with [0%nat] => Fin 1 | [1%nat] => Fin 0 | _ => Fin 3 end |}.
Example C65_categorical_ex : exists r, categorical_nd one_weights two_values = Val r /\ nshp r = [2]%nat /\ denotes (Val (nelt r [1]%nat)) (3 / 4).
Proof.
  destruct batch2 as (_ & B & _ & _ & E).
  destruct (C65_categorical_partial one_weights two_values [] [2]%nat 3 [2]%nat (fun _ => [1; 0; 3]) k2) as (r & R & S & N); [|exact B| | |exact E|now left|].
  - split; [reflexivity|]. intros c H. inversion H; subst. split; [reflexivity|]. intros k Hk; destruct (three_lt k Hk) as [-> |[-> | ->]]; reflexivity.
  - apply LemIdx.bcast_all_spec. reflexivity.
  - intros c _. split; [repeat constructor; lra|cbn; lra].
  - exists r. split; [exact R|]. split; [exact S|]. replace (3 / 4) with (categorical_pmf [1; 0; 3] (k2 [1]%nat)) by (unfold categorical_pmf; cbn; field).
    apply (N [1]%nat []); [constructor; [lia|constructor]| |]; (split; [reflexivity|]; intros [|r0] Hr; [cbn in *; try lia; reflexivity|cbn in Hr; lia]).
Qed.
(** two Dirichlet concentrations at one point *)
Definition two_alphas : nd xr := {| nshp := [2; 2]%nat; nelt := fun i => match i with [0; _]%nat => Fin 1 | _ => Fin 2 end |}.
Definition one_point : nd xr := {| nshp := [2]%nat; nelt := fun _ => Fin (1/2) |}.
Definition al2 (c : list nat) : list R := match c with [0%nat] => [1; 1] | _ => [2; 2] end.
Lemma two_lt k : (k < 2)%nat -> k = 0%nat \/ k = 1%nat. Proof. lia. Qed.
Example C65_dirichlet_ex : exists r, dirichlet_nd two_alphas one_point = Val r /\ nshp r = [2]%nat /\
  denotes (Val (nelt r [1]%nat)) (dirichlet_pdf [2; 2] [1/2; 1/2]) /\ denotes (Val (nelt r [0]%nat)) (dirichlet_pdf [1; 1] [1/2; 1/2]).
Proof.
  destruct (C65_dirichlet two_alphas one_point [2]%nat [] 2 [2]%nat al2 (fun _ => [1/2; 1/2])) as (r & R & S & N).
  - split; [reflexivity|]. intros c H. destruct (one_axis c H) as [-> | ->]; (split; [reflexivity|]); intros k Hk; destruct (two_lt k Hk) as [-> | ->]; reflexivity.
  - split; [reflexivity|]. intros c H. inversion H; subst. split; [reflexivity|]. intros k Hk; destruct (two_lt k Hk) as [-> | ->]; reflexivity.
  - apply LemIdx.bcast_all_spec. reflexivity.
  - lia.
  - intros c H. destruct (one_axis c H) as [-> | ->]; repeat constructor; lra.
  - intros c H. repeat constructor; lra.
  - exists r. split; [exact R|]. split; [exact S|].
    split; [apply (N [1]%nat [1]%nat [])|apply (N [0]%nat [0]%nat [])]; try (constructor; [lia|constructor]);
      (split; [reflexivity|]; intros [|r0] Hr; [cbn in *; try lia; reflexivity|cbn in Hr; lia]).
Qed.
(** and with one concentration of zero *)
Example C65_dirichlet_raises_ex : dirichlet_nd {| nshp := [2; 2]%nat; nelt := fun i => match i with [1; 1]%nat => Fin 0 | _ => Fin 2 end |} one_point = Raise.
Proof.
  apply (C65_dirichlet_raises _ one_point [2]%nat [] 2 [2]%nat (fun c => match c with [0%nat] => [2; 2] | _ => [2; 0] end) (fun _ => [])).
  - split; [reflexivity|]. intros c H. destruct (one_axis c H) as [-> | ->]; (split; [reflexivity|]); intros k Hk; destruct (two_lt k Hk) as [-> | ->]; reflexivity.
  - reflexivity.
  - apply LemIdx.bcast_all_spec. reflexivity.
  - exists [1]%nat, 0. split; [constructor; [lia|constructor]|]. split; [cbn; auto|lra].
Qed.
(** two numbers of trials, one probability vector, one vector of counts: only
    the first number is the total of the counts *)
Definition trials2 : nd xr := {| nshp := [2]%nat; nelt := fun i => match i with [0%nat] => Fin (INR 2) | _ => Fin (INR 3) end |}.
Definition half2 : nd xr := {| nshp := [2]%nat; nelt := fun _ => Fin (1/2) |}.
Definition ones2 : nd xr := {| nshp := [2]%nat; nelt := fun _ => Fin (INR 1) |}.
Example C65_multinomial_ex : exists r, multinomial_nd trials2 half2 ones2 = Val r /\ nshp r = [2]%nat /\
  denotes (Val (nelt r [0]%nat)) (1/2) /\ denotes (Val (nelt r [1]%nat)) 0.
Proof.
  destruct (C65_multinomial trials2 half2 ones2 [2]%nat [] [] 2 [2]%nat (fun c => match c with [0%nat] => 2%nat | _ => 3%nat end) (fun _ => [1/2; 1/2]) (fun _ => [1; 1]%nat)) as (r & R & S & N).
  - split; [reflexivity|]. intros c H. destruct (one_axis c H) as [-> | ->]; reflexivity.
  - split; [reflexivity|]. intros c H. inversion H; subst. split; [reflexivity|]. intros k Hk; destruct (two_lt k Hk) as [-> | ->]; reflexivity.
  - split; [reflexivity|]. intros c H. inversion H; subst. split; [reflexivity|]. intros k Hk; destruct (two_lt k Hk) as [-> | ->]; reflexivity.
  - apply LemIdx.bcast_all_spec. reflexivity.
  - intros c _. split; [repeat constructor; lra|cbn; lra].
  - exists r. split; [exact R|]. split; [exact S|]. split.
    + replace (1/2) with (multinomial_pmf 2 [1/2; 1/2] [1; 1]%nat) by (unfold multinomial_pmf; cbn; field).
      apply (N [0]%nat [0]%nat [] []); try (constructor; [lia|constructor]); (split; [reflexivity|]; intros [|r0] Hr; [cbn in *; try lia; reflexivity|cbn in Hr; lia]).
    + change 0 with (multinomial_pmf 3 [1/2; 1/2] [1; 1]%nat).
      apply (N [1]%nat [1]%nat [] []); try (constructor; [lia|constructor]); (split; [reflexivity|]; intros [|r0] Hr; [cbn in *; try lia; reflexivity|cbn in Hr; lia]).
Qed.
