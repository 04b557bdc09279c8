(** Models of arrays with stacks, joins, shuffles, cumulative sums and indexed
    arrays spelled out element by element: an element of a stack, join, shuffle
    or indexed array is an element of one of its parts; see [SpecEls]. *)
From Coq Require Import Reals List Arith ZArith.
From Verif Require Import XR ModelDist ModelIdx SpecIdx ModelTen SpecTen ModelSub ModelNest ModelSys SpecSys ModelEls SpecEls ModelElsV.
Import ListNotations.
Open Scope nat_scope.

Definition vinputs (nd : vnode) : list nat :=
  match nd with VCon _ => [] | VRv _ _ l | VMany _ l | VOther _ l | VVec l | VJoin _ l => l | VOne _ a | VShuf _ a | VCum _ a | VTake _ _ a => [a] | VSub a b | VDiv a b => [a; b] end.
Definition vacyclic (h : list vnode) : Prop := forall v nd a, nth_error h v = Some nd -> In a (vinputs nd) -> a < v.
Definition view (nd : vnode) : Prop := match nd with VVec _ | VJoin _ _ | VShuf _ _ | VCum _ _ | VTake _ _ _ => True | _ => False end.

(** [sh v] is the shape of node [v]; see [SpecEls.well_shaped] *)
Definition v_well_shaped (afs : nat -> list (nd xr) -> nd xr) (h : list vnode) (sh : nat -> list nat) : Prop :=
  forall v nd, nth_error h v = Some nd ->
  match nd with
  | VCon c => nshp c = sh v
  | VRv _ s ps => s = sh v /\ forall p, In p ps -> is_broadcast [sh p; sh v] (sh v)
  | VOne _ a => sh v = sh a
  | VMany _ l => is_broadcast (map sh l) (sh v)
  | VSub a b | VDiv a b => is_broadcast [sh a; sh b] (sh v)
  | VOther k l => forall args, map nshp args = map sh l -> nshp (afs k args) = sh v
  | VVec l => l <> [] /\ sh v = [length l] /\ forall a, In a l -> sh a = []
  | VJoin axis l => exists ax sizes, axis_is (length (sh v)) axis ax /\ joinable ax (map sh l) sizes (sh v)
  | VShuf o a => valid_order (length (sh a)) o /\ shuffled_shape o (sh a) (sh v)
  | VCum axis a => sh v = sh a /\ exists ax n, axis_is (length (sh v)) axis ax /\ nth_error (sh v) ax = Some (S n)
  | VTake ix t a => np_shape ix (sh a) (sh v) /\ nshp t = sh v /\ forall i, inside (sh v) i -> np_element ix (sh a) i (nelt t i) /\ inside (sh a) (nelt t i)
  end.
(** element [i] of the node [nd] (of shape [s]) is element [j] of its input [a] *)
Definition same_element (sh : nat -> list nat) (s : list nat) (nd : vnode) (i : list nat) (a : nat) (j : list nat) : Prop :=
  match nd with
  | VVec l => exists k, i = [k] /\ nth_error l k = Some a /\ j = []
  | VJoin axis l => exists ax sizes k, axis_is (length s) axis ax /\ joinable ax (map sh l) sizes s /\ nth_error l k = Some a /\ part_at ax sizes i k j
  | VShuf o b => a = b /\ source o (length (sh b)) i j
  | VCum axis b => a = b /\ j = i /\ exists ax, axis_is (length s) axis ax /\ nth_error i ax = Some 0
  | VTake _ t b => a = b /\ j = nelt t i
  | _ => False
  end.
(** the scalar node that computes the element [i] of node [v] *)
Definition v_element (afs : nat -> list (nd xr) -> nd xr) (fs : nat -> list xr -> xr) (sh : nat -> list nat) (ix : nat -> list nat -> nat)
  (v : nat) (i : list nat) (nd : vnode) (e : snode) : Prop :=
  let at_ a j := aligned (sh a) i j in
  match nd with
  | VCon c => e = SCon (nelt c i)
  | VRv d _ ps => exists l, e = SRv d l /\ Forall2 (fun p n => exists j, at_ p j /\ n = ix p j) ps l
  | VOne u a => e = SOne u (ix a i)
  | VMany n l => exists m, e = SMany n m /\ Forall2 (fun a n => exists j, at_ a j /\ n = ix a j) l m
  | VSub a b => exists j k, at_ a j /\ at_ b k /\ e = SSub (ix a j) (ix b k)
  | VDiv a b => exists j k, at_ a j /\ at_ b k /\ e = SDiv (ix a j) (ix b k)
  | VOther k l => exists k', e = SOther k' (flat_map (elements_of sh ix) l) /\
      forall args, map nshp args = map sh l -> fs k' (flat_map (fun a => map (nelt a) (positions (nshp a))) args) = nelt (afs k args) i
  | VCum axis a => exists ax k i', axis_is (length (sh v)) axis ax /\ nth_error i ax = Some (S k) /\ same_but ax i i' /\ nth_error i' ax = Some k /\
      e = SMany NAdd [ix v i'; ix a i]                     (* the previous element, and one more *)
  | _ => False
  end.
(** an element that is not an element of an input *)
Definition own (h : list vnode) (sh : nat -> list nat) (v : nat) (i : list nat) : Prop :=
  exists nd, nth_error h v = Some nd /\ inside (sh v) i /\ forall a j, ~ same_element sh (sh v) nd i a j.
(** [g] has one node for every element of its own of every node of [h] *)
Record v_spelled_out (afs : nat -> list (nd xr) -> nd xr) (fs : nat -> list xr -> xr) (h : list vnode) (sh : nat -> list nat)
  (g : list snode) (ix : nat -> list nat -> nat) : Prop := {
  vs_node : forall v nd i, nth_error h v = Some nd -> own h sh v i ->
    exists e, nth_error g (ix v i) = Some e /\ v_element afs fs sh ix v i nd e;
  vs_same : forall v nd i a j, nth_error h v = Some nd -> inside (sh v) i -> same_element sh (sh v) nd i a j -> ix v i = ix a j;
  vs_inj : forall v w i j, own h sh v i -> own h sh w j -> ix v i = ix w j -> v = w /\ i = j }.

(** [hidden a]: unrequested part of a requested stack, join, shuffle or
    cumulative sum, or of a hidden one: its elements get values *)
Inductive hidden (h : list vnode) (req : list nat) : nat -> Prop :=
| hd_req v nd a : nth_error h v = Some nd -> view nd -> In v req -> In a (vinputs nd) -> ~ In a req -> hidden h req a
| hd_part v nd a : nth_error h v = Some nd -> view nd -> hidden h req v -> In a (vinputs nd) -> ~ In a req -> hidden h req a.
Definition elementwise (nd : vnode) : Prop := match nd with VOne _ _ | VMany _ _ | VSub _ _ | VDiv _ _ => True | _ => False end.
(** [above a]: an unrequested stack, join, ... or an element-wise function of one *)
Inductive above (h : list vnode) (req : list nat) : nat -> Prop :=
| ab_view v nd : nth_error h v = Some nd -> view nd -> ~ In v req -> above h req v
| ab_elem v nd a : nth_error h v = Some nd -> elementwise nd -> ~ In v req -> In a (vinputs nd) -> above h req a -> above h req v.
Record tidy (ddt : nat -> dtype) (h : list vnode) (sh : nat -> list nat) (req : list nat) : Prop := {
  (** hidden variables are used in the requested arrays only *)
  ti_used : forall a u nd, hidden h req a -> nth_error h u = Some nd -> In a (vinputs nd) -> view nd /\ (In u req \/ hidden h req u);
  (** stacks, joins and shuffles are not broadcast *)
  ti_flat : forall v nd a, nth_error h v = Some nd -> elementwise nd -> In a (vinputs nd) -> above h req a -> sh v = sh a;
  (** discrete variables only in stacks, joins and shuffles that are requested (or part of requested ones) *)
  ti_int : forall v nd a d s ps, nth_error h v = Some nd -> view nd -> ~ In v req -> ~ hidden h req v -> In a (vinputs nd) ->
    nth_error h a = Some (VRv d s ps) -> ddt d <> DInt;
  (** cumulative sums are requested; their inputs are not stacks, ..., not discrete, and not used elsewhere *)
  ti_cum : forall v axis a, nth_error h v = Some (VCum axis a) -> In v req /\
    (forall nd, nth_error h a = Some nd -> ~ view nd) /\
    (forall d s ps, nth_error h a = Some (VRv d s ps) -> ddt d <> DInt) /\
    (forall u nd, nth_error h u = Some nd -> In a (vinputs nd) -> u = v) }.
