(** C32 - C34, C37, C38: keys, values, pairing, failures and reduction. *)
From Coq Require Import Reals Lra List Arith Bool Lia Permutation.
From Verif Require Import XR ModelVec ModelJoint SpecJoint LemJoint.
Import ListNotations.
Open Scope nat_scope.

(** A graph with a one-output node 0 (variable 10) and a two-output node 1
    (variables 20 and 21); a log-probability is recorded as (node, output, values). *)
Definition ex_mout (n : nat) : list nat := match n with 0 => [10] | 1 => [20; 21] | _ => [] end.
Definition ex_lp (n : nat) (vs : list nat) : list (nat * nat * list nat) :=
  map (fun i => (n, i, vs)) (seq 0 (length (ex_mout n))).
Definition bx : binding := {| b_old := 1; b_node := Some 0; b_var := 10; b_valvar := 110; b_val := 210 |}.
Definition by0 : binding := {| b_old := 2; b_node := Some 1; b_var := 20; b_valvar := 120; b_val := 220 |}.
Definition by1 : binding := {| b_old := 3; b_node := Some 1; b_var := 21; b_valvar := 121; b_val := 221 |}.
Lemma ex_one : one_each ex_mout ex_lp.
Proof. intros n vs H. unfold ex_lp. rewrite map_length, seq_length. easy. Qed.
Lemma ex_nodup : forall n, NoDup (ex_mout n).
Proof. intros [|[|n]]; repeat constructor; cbn; intuition congruence. Qed.
Lemma ex_owned : forall bs, incl bs [bx; by0; by1] -> well_owned ex_mout bs.
Proof.
  intros bs H. split; [exact ex_nodup|]. intros b n I J. apply H in I.
  destruct I as [<-|[<-|[<-|[]]]], n as [|[|n]]; cbn in J; intuition (try congruence; easy).
Qed.

(** ** C32 *)
(** Whatever the request, the keys of a returned mapping are exactly the
    requested and the realized variables. *)
Theorem C32_keys : forall L mout (lp : nat -> list nat -> list L) requested vvs realized bs out vv,
  length vvs = length requested ->
  map b_old bs = map fst (rv_values requested vvs realized) ->
  well_owned mout bs -> one_each mout lp ->
  assign mout lp (map fst realized) bs = Ok (out, vv) ->
  keys_exact (map fst out) requested (map fst realized).
Proof. exact @keys_lemma. Qed.
Print Assumptions C32_keys.
(** requests [x; y0; x] with y1 realized *)
Example C32_case : rv_values [1; 2; 1] [208; 220; 210] [(3, 221)] = [(1, 210); (2, 220); (3, 221)] /\
  exists out vv, assign ex_mout ex_lp [3] [bx; by0; by1] = Ok (out, vv) /\ map fst out = [1; 2; 3] /\ vv = [210; 220].
Proof. split; [easy|]. do 2 eexists. split; [reflexivity|]. easy. Qed.

(** ** C33 *)
(** When the outputs of each node are bound together and in output order (in
    particular for nodes with one measurable output), the values come back in
    request order. *)
Theorem C33_order_partial : forall L mout (lp : nat -> list nat -> list L) realized block ns out vv,
  let bs := flat_map block ns in
  NoDup ns -> (forall n, In n ns -> block n <> [] /\ map b_var (block n) = mout n /\ forall b, In b (block n) -> b_node b = Some n) ->
  well_owned mout bs -> one_each mout lp -> NoDup (map b_old bs) ->
  assign mout lp realized bs = Ok (out, vv) -> vv = unrealized_values realized bs.
Proof. exact @value_order. Qed.
Print Assumptions C33_order_partial.
(** With distinct requested variables and a disjoint realized map the
    dictionary keeps the order of the request. *)
Theorem C33_request_order : forall requested vvs realized, length vvs = length requested ->
  NoDup (requested ++ map fst realized) -> rv_values requested vvs realized = combine requested vvs ++ realized.
Proof. exact rv_values_order. Qed.
Print Assumptions C33_request_order.
Example C33_case : let bs := flat_map (fun n => match n with 0 => [bx] | _ => [by0; by1] end) [1; 0] in
  (exists out, assign ex_mout ex_lp [2] bs = Ok (out, [221; 210])) /\ unrealized_values [2] bs = [221; 210] /\
  rv_values [3; 1] [221; 210] [(2, 220)] = [(3, 221); (1, 210); (2, 220)].
Proof. cbn. split; [eexists; reflexivity|easy]. Qed.
(** In general the order is not kept: y0, x, y1 come back as y0, y1, x. *)
Theorem C33_interleaved_refuted : exists mout (lp : nat -> list nat -> list (nat * nat * list nat)) bs out vv,
  well_owned mout bs /\ one_each mout lp /\ NoDup (map b_old bs) /\
  assign mout lp [] bs = Ok (out, vv) /\ vv <> unrealized_values [] bs.
Proof.
  exists ex_mout, ex_lp, [by0; bx; by1].
  eexists _, _. split; [apply ex_owned; intros b I; cbn in *; tauto|]. split; [exact ex_one|].
  split; [repeat constructor; cbn; intuition congruence|]. split; [reflexivity|]. cbn. discriminate.
Qed.
Print Assumptions C33_interleaved_refuted.
(** Requesting y1 with y0 realized returns the realized value as the value variable of y1. *)
Theorem C33_realized_refuted : exists mout (lp : nat -> list nat -> list (nat * nat * list nat)) realized bs out vv,
  well_owned mout bs /\ one_each mout lp /\ NoDup (map b_old bs) /\
  assign mout lp realized bs = Ok (out, vv) /\
  exists b, In b bs /\ In (b_old b) realized /\ vv = [b_val b] /\ ~ In (b_val b) (unrealized_values realized bs).
Proof.
  exists ex_mout, ex_lp, [2], [by1; by0].
  eexists _, _. split; [apply ex_owned; intros b I; cbn in *; tauto|]. split; [exact ex_one|].
  split; [repeat constructor; cbn; intuition congruence|]. split; [reflexivity|].
  exists by0. cbn. intuition discriminate.
Qed.
Print Assumptions C33_realized_refuted.

(** ** C34 *)
(** If the bound outputs of each node are bound in output order, every
    variable's log-probability is taken at its own value. *)
Theorem C34_in_order_partial : forall L mout (lp : nat -> list nat -> list L) realized bs out vv,
  well_owned mout bs -> one_each mout lp -> NoDup (map b_old bs) ->
  assign mout lp realized bs = Ok (out, vv) ->
  (forall n, (exists b, In b bs /\ b_node b = Some n) -> map b_var (filter (of_node n) bs) = mout n) ->
  forall b, In b bs -> paired mout lp bs out b.
Proof. exact @assign_paired. Qed.
Print Assumptions C34_in_order_partial.
(** y0, x, y1: interleaved with another variable but in output order *)
Example C34_case : map b_var (filter (of_node 1) [by0; bx; by1]) = ex_mout 1 /\
  assign ex_mout ex_lp [] [by0; bx; by1] = Ok ([(2, (1, 0, [120; 121])); (3, (1, 1, [120; 121])); (1, (0, 0, [110]))], [220; 221; 210]).
Proof. easy. Qed.
(** In general false: requesting y1 before y0 evaluates y0 at the value of y1. *)
Theorem C34_permuted_refuted : exists mout (lp : nat -> list nat -> list (nat * nat * list nat)) bs out vv b,
  well_owned mout bs /\ one_each mout lp /\ NoDup (map b_old bs) /\
  assign mout lp [] bs = Ok (out, vv) /\ In b bs /\ ~ paired mout lp bs out b.
Proof.
  exists ex_mout, ex_lp, [by1; by0].
  eexists _, _, by0. split; [apply ex_owned; intros b I; cbn in *; tauto|]. split; [exact ex_one|].
  split; [repeat constructor; cbn; intuition congruence|]. split; [reflexivity|]. split; [cbn; auto|].
  intros (n & i & vs & l & N & I & _ & V & El & Io). cbn in N. injection N as <-.
  destruct i as [|[|i]]; cbn in I; try discriminate; [|destruct i; discriminate].
  specialize (V by0 0 (or_intror (or_introl eq_refl)) eq_refl). destruct vs as [|v vs]; [discriminate|].
  cbn in V. injection V as ->. cbn in El. injection El as <-. cbn in Io. destruct Io as [E|[E|[]]]; discriminate.
Qed.
Print Assumptions C34_permuted_refuted.

(** ** C37 *)
(** If a mapping is returned, every requested variable has a measurable form
    and its own log-probability, and no measurable output is bound twice. *)
Theorem C37_no_omission : forall L mout (lp : nat -> list nat -> list L) realized bs out vv,
  well_owned mout bs -> one_each mout lp ->
  assign mout lp realized bs = Ok (out, vv) ->
  ~ no_measurable_form mout bs /\ ~ bound_twice bs /\ forall b, In b bs -> In (b_old b) (map fst out).
Proof. exact @no_omission_lemma. Qed.
Print Assumptions C37_no_omission.
(** the failures are DensityNotFound, ValueError or AssertionError, except when a measurable output is bound twice *)
Theorem C37_kind_partial : forall L mout (lp : nat -> list nat -> list L) realized bs e,
  well_owned mout bs -> ~ bound_twice bs ->
  (forall b n, In b bs -> b_node b = Some n -> mout n <> [] -> In (b_var b) (mout n)) ->
  assign mout lp realized bs = Err e -> e = DensityNotFound \/ e = ValueError \/ e = AssertionError.
Proof. exact @kind_lemma. Qed.
Print Assumptions C37_kind_partial.
Theorem C37_no_owner : forall L mout (lp : nat -> list nat -> list L) realized bs,
  no_owner bs -> assign mout lp realized bs = Err DensityNotFound.
Proof. exact @assign_no_owner. Qed.
Print Assumptions C37_no_owner.
(** the loops fail only for the reasons in the property: when every binding is
    of a measurable output of its node, no output is bound twice and the other
    measurable outputs of the node are bound too, there is a result *)
Theorem C37_defined : forall L mout (lp : nat -> list nat -> list L) realized bs,
  (forall n, NoDup (mout n)) -> NoDup (map b_var bs) ->
  (forall b, In b bs -> exists n, b_node b = Some n /\ In (b_var b) (mout n) /\
     forall o, In o (mout n) -> exists b', In b' bs /\ b_var b' = o /\ b_node b' = Some n) ->
  exists out vv, assign mout lp realized bs = Ok (out, vv).
Proof. exact @assign_total. Qed.
Print Assumptions C37_defined.
(** an unmeasurable node; two values on the one output of a node; a node with only one of its outputs bound *)
Example C37_case :
  assign ex_mout ex_lp [] [{| b_old := 5; b_node := Some 7; b_var := 50; b_valvar := 150; b_val := 250 |}; bx] = Err DensityNotFound /\
  assign ex_mout ex_lp [] [bx; {| b_old := 4; b_node := Some 0; b_var := 10; b_valvar := 111; b_val := 211 |}] = Err ValueError /\
  assign ex_mout ex_lp [] [bx; by1] = Err AssertionError /\
  no_owner [bx; {| b_old := 5; b_node := None; b_var := 50; b_valvar := 150; b_val := 250 |}].
Proof. split; [easy|]. split; [easy|]. split; [easy|]. eexists. split; [cbn; right; left; reflexivity|]. easy. Qed.
(** two values on output y0 of the two-output node: a KeyError, outside the documented kinds *)
Theorem C37_kind_refuted : exists mout (lp : nat -> list nat -> list (nat * nat * list nat)) bs,
  well_owned mout bs /\ one_each mout lp /\ NoDup (map b_old bs) /\ bound_twice bs /\
  assign mout lp [] bs = Err KeyError.
Proof.
  exists ex_mout, ex_lp, [by0; {| b_old := 4; b_node := Some 1; b_var := 20; b_valvar := 122; b_val := 222 |}].
  split; [split; [exact ex_nodup|]|].
  { intros b n [<-|[<-|[]]] J; destruct n as [|[|n]]; cbn in J; intuition (try congruence; easy). }
  split; [exact ex_one|]. split; [repeat constructor; cbn; intuition congruence|].
  split; [|reflexivity]. intros N. inversion N as [|? ? Q _]; subst. apply Q. cbn. auto.
Qed.
Print Assumptions C37_kind_refuted.
(** a dispatch that returns fewer log-probabilities than outputs loses a factor without any error *)
Theorem C37_short_dispatch_refuted : exists mout (lp : nat -> list nat -> list nat) bs out vv b,
  well_owned mout bs /\ NoDup (map b_old bs) /\ assign mout lp [] bs = Ok (out, vv) /\
  In b bs /\ ~ In (b_old b) (map fst out).
Proof.
  exists ex_mout, (fun n vs => [n]), [by0; by1]. eexists _, _, by1.
  split; [apply ex_owned; intros b I; cbn in *; tauto|].
  split; [repeat constructor; cbn; intuition congruence|]. split; [reflexivity|]. cbn. intuition discriminate.
Qed.
Print Assumptions C37_short_dispatch_refuted.

(** ** C38 *)
(** the joint log-probability is the sum of all entries of all factors *)
Theorem C38_all_entries : forall f fs, joint_reduce (f :: fs) = Some (xsum (concat (f :: fs))).
Proof. exact joint_concat. Qed.
Print Assumptions C38_all_entries.
Theorem C38_real : forall f fs rs, concat (f :: fs) = map Fin rs -> joint_reduce (f :: fs) = Some (Fin (fold_right Rplus 0%R rs)).
Proof. exact @joint_real. Qed.
Print Assumptions C38_real.
Theorem C38_minus_inf : forall f fs, In NInf (concat (f :: fs)) -> ~ In NaN (concat (f :: fs)) -> ~ In PInf (concat (f :: fs)) ->
  joint_reduce (f :: fs) = Some NInf.
Proof. exact @joint_ninf. Qed.
Print Assumptions C38_minus_inf.
Theorem C38_nan : forall f fs, joint_reduce (f :: fs) = Some NaN <->
  In NaN (concat (f :: fs)) \/ (In PInf (concat (f :: fs)) /\ In NInf (concat (f :: fs))).
Proof. exact @joint_nan. Qed.
Print Assumptions C38_nan.
Theorem C38_order : forall fs gs, Permutation (concat fs) (concat gs) -> fs <> [] -> gs <> [] -> joint_reduce fs = joint_reduce gs.
Proof. exact @joint_order. Qed.
Print Assumptions C38_order.
Example C38_case : joint_reduce [[Fin 1; Fin 2]; []; [Fin 3]] = Some (Fin 6) /\
  joint_reduce [[Fin 1; NInf]; [Fin 3]] = Some NInf /\ joint_reduce [] = None /\
  Permutation (concat [[Fin 3]; [Fin 1; Fin 2]]) (concat [[Fin 1; Fin 2]; [Fin 3]]).
Proof.
  split; [cbn; do 2 f_equal; lra|]. split; [easy|]. split; [easy|]. cbn.
  apply (Permutation_app_comm [Fin 3] [Fin 1; Fin 2]).
Qed.
