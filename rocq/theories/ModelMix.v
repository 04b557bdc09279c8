(** Mixtures: /repo/aeppl/mixture.py 204-409. *)
From Coq Require Import Reals List Arith ZArith Bool Lia.
From Verif Require Import XR ModelVec ModelIdx.
Import ListNotations.
Open Scope nat_scope.

(** A measurable array variable with scalar support: its shape and the
    log-probability of each of its elements (parameters fixed). *)
Record comp := { cshp : list nat; clp : list nat -> xr -> res xr }.

(** NumPy's resolution of one integer index *)
Definition resolve (n : nat) (z : Z) : res nat :=
  let z' := if (z <? 0)%Z then (z + Z.of_nat n)%Z else z in
  if ((0 <=? z') && (z' <? Z.of_nat n))%Z then Val (Z.to_nat z') else Raise.
Fixpoint resolve_all (sh : list nat) (zs : list Z) : res (list nat) :=
  match sh, zs with
  | [], [] => Val []
  | n :: sh, z :: zs => bind (resolve n z) (fun k => bind (resolve_all sh zs) (fun ks => Val (k :: ks)))
  | _, _ => Raise
  end.
(** one element of [rv[indices]]: the lifted variable's log-probability is the
    element's (mixture.py:394-396 with [rv_pull_down], which moves the indexing
    into the parameters; an index outside the shape raises IndexError) *)
Definition elem_logprob (c : comp) (zs : list Z) (v : xr) : res xr :=
  bind (resolve_all (cshp c) zs) (fun i => clp c i v).
(** mixture.py:389 [rv = rv[0]] *)
Definition take0 (c : comp) : res comp :=
  match cshp c with
  | 0 :: _ | [] => Raise
  | _ :: sh => Val {| cshp := sh; clp := fun i => clp c (0 :: i) |}
  end.
(** mixture.py:371 [comp[None]]; [at.stack] along axis [j] also makes each
    part [insert j 1] *)
Definition insert {A} (j : nat) (x : A) (l : list A) : list A := firstn j l ++ x :: skipn j l.
Definition remove_nth {A} (j : nat) (l : list A) : list A := firstn j l ++ skipn (S j) l.
Definition expand_dims (j : nat) (c : comp) : comp :=
  {| cshp := insert j 1 (cshp c); clp := fun i => clp c (remove_nth j i) |}.

(** Inputs of the [MixtureRV] node: how the components were joined
    (mixture.py:211-233, 370-375) *)
Inductive joining := JVector              (* MakeVector of scalars (or switch): join_axis is None *)
                   | JJoin (axis : nat).  (* Join along a constant axis *)

(** mixture.py:381-397 at output position [o]: [None] is the uninitialised
    memory of [at.empty] (379) *)
Fixpoint mix_loop (j : nat) (bc : list arr) (comps : list comp) (m : nat) (value : list nat -> xr) (o : list nat)
    (acc : option (res xr)) : option (res xr) :=
  match comps with
  | [] => acc
  | c :: comps =>
      let here := match nth_error bc j with Some a => (get a o =? Z.of_nat m)%Z | None => false end in
      let others := remove_nth j (map (fun a => get a o) bc) in
      let acc := if here then Some (bind (take0 c) (fun c => elem_logprob c others (value o))) else acc in
      mix_loop j bc comps (S m) value o acc
  end.
Definition mixture_array (jn : joining) (ix : list index) (comps : list comp) (value : list nat -> xr) :
    res (list nat * (list nat -> option (res xr))) :=
  let j := match jn with JVector => 0 | JJoin a => a end in
  let comps' := match jn with JVector => map (expand_dims 0) comps | JJoin _ => comps end in
  let original_shape := match jn with JVector => [length comps]
                                    | JJoin _ => match comps with c :: _ => cshp c | [] => [] end end in
  bind (expand_indices ix original_shape) (fun bc =>
    match bc with
    | [] => Raise
    | a :: _ => Val (shp a, fun o => mix_loop j bc comps' 0 value o None)
    end).

(** mixture.py:399-407, element-wise in the value: [lps] are the components'
    log-probabilities (of one element, when components are arrays).  [ifelse]
    is lazy: the branch not taken is not evaluated. *)
Fixpoint mix_scalar (lps : list (xr -> res xr)) (m : nat) (i : Z) (v : xr) (acc : res xr) : res xr :=
  match lps with
  | [] => acc
  | lp :: lps =>
      let term := if (i =? Z.of_nat m)%Z then lp v else Val (Fin 0) in
      mix_scalar lps (S m) i v (bind acc (fun a => bind term (fun t => Val (xadd a t))))
  end.
Definition mixture_scalar (lps : list (xr -> res xr)) (i : Z) (v : xr) : res xr := mix_scalar lps 0 i v (Val (Fin 0)).

(** mixture.py:305-347: the condition becomes the index, the branches the
    components, in the order of the [switch] node *)
Definition switch_mixture (cond : Z) (lpA lpB : xr -> res xr) (v : xr) : res xr := mixture_scalar [lpA; lpB] cond v.

(** mixture.py:267: the mixing indices of a node are its inputs.  For
    [Subtensor] nodes the inputs are only the symbolic entries; the constant
    entries live in the op's [idx_list] and are not consulted.  Advanced nodes
    carry every entry as an input. *)
Inductive entry := EConst (i : index) | EInput (i : index).
Definition mixing_indices (basic_subtensor : bool) (es : list entry) : list index :=
  flat_map (fun e => match e with EInput i => [i] | EConst i => if basic_subtensor then [] else [i] end) es.
