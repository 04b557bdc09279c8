(** Index expansion of /repo/aeppl/mixture.py (46-163). *)
From Coq Require Import List Arith ZArith Bool Lia.
From Verif Require Import XR ModelVec.
Import ListNotations.
Open Scope nat_scope.

(** An integer array: a shape and its elements by multi-index (only
    multi-indices inside the shape are ever read). *)
Record arr := { shp : list nat; get : list nat -> Z }.
Definition ndim (a : arr) : nat := length (shp a).

(** One entry of an index tuple: newaxis, a slice with literal or absent
    parts, a Python/symbolic integer, an integer array.  Simplification:
    boolean arrays and Ellipsis are not modelled (Ellipsis never reaches
    [expand_indices]: Aesara's [__getitem__] removes it). *)
Inductive index : Type :=
| INew
| ISlice (start stop step : option Z)
| IInt (z : Z)
| IArr (a : arr).

(** mixture.py:42-43 *)
Definition is_newaxis (i : index) : bool := match i with INew => true | _ => false end.
(** aesara.tensor.subtensor.is_basic_idx (used at mixture.py:67, 97): slices and None *)
Definition is_basic (i : index) : bool := match i with INew | ISlice _ _ _ => true | _ => false end.
(** mixture.py:83 [getattr(idx, "ndim", 0)] *)
Definition idx_ndim (i : index) : nat := match i with IArr a => ndim a | _ => 0 end.
(** mixture.py:100 [at.as_tensor(idx)] *)
Definition as_tensor (i : index) : arr :=
  match i with IArr a => a | IInt z => {| shp := []; get := fun _ => z |} | _ => {| shp := []; get := fun _ => 0%Z |} end.

(** mixture.py:128-129 [get_canonical_form_slice] of Aesara by its documented
    contract: a slice with [0 <= start <= stop <= length], positive step, plus
    a reversal flag that the caller drops.  The slice selects the same set of
    positions in ascending order. *)
Definition clampZ (lo hi z : Z) : Z := Z.max lo (Z.min hi z).
Definition canonical_slice (start stop step : option Z) (n : Z) : Z * Z * Z :=
  let s := match step with Some s => s | None => 1%Z end in
  let fix_ z := if (z <? 0)%Z then (z + n)%Z else z in
  if (0 <? s)%Z then
    let a := match start with None => 0%Z | Some z => clampZ 0 n (fix_ z) end in
    let b := match stop with None => n | Some z => clampZ 0 n (fix_ z) end in
    (Z.min a b, b, s)
  else
    let a := match start with None => (n - 1)%Z | Some z => clampZ (-1) (n - 1) (fix_ z) end in
    let b := match stop with None => (-1)%Z | Some z => clampZ (-1) (n - 1) (fix_ z) end in
    let len := Z.max 0 ((a - b - 1) / (- s) + 1) in
    let last := (a - (len - 1) * (- s))%Z in
    (if (len =? 0)%Z then (a + 1)%Z else last, (a + 1)%Z, (- s)%Z).
(** [at.arange(start, stop, step)] for a positive step *)
Definition arange (start stop step : Z) : arr :=
  let len := Z.to_nat ((stop - start + step - 1) / step) in
  {| shp := [len]; get := fun i => (start + step * Z.of_nat (hd 0%nat i))%Z |}.

(** [x[(None,) * k]] and [x[(Ellipsis,) + (None,) * k]] *)
Definition pad_left (k : nat) (a : arr) : arr :=
  {| shp := repeat 1 k ++ shp a; get := fun i => get a (skipn k i) |}.
Definition pad_right (k : nat) (a : arr) : arr :=
  {| shp := shp a ++ repeat 1 k; get := fun i => get a (firstn (length (shp a)) i) |}.

(** NumPy broadcasting of shapes, right-aligned (on reversed lists) *)
Fixpoint rbcast (a b : list nat) : res (list nat) :=
  match a, b with
  | [], _ => Val b
  | _, [] => Val a
  | x :: a, y :: b =>
      bind (if x =? y then Val x else if x =? 1 then Val y else if y =? 1 then Val x else Raise)
           (fun d => bind (rbcast a b) (fun s => Val (d :: s)))
  end.
Definition bcast_all (l : list (list nat)) : res (list nat) :=
  bind (fold_right (fun a r => bind r (rbcast (rev a))) (Val []) l) (fun s => Val (rev s)).
(** coordinates of the source element of an array of shape [sh] *)
Definition align (sh : list nat) (i : list nat) : list nat :=
  map2 (fun d x => if d =? 1 then 0 else x) sh (skipn (length i - length sh) i).
Definition broadcast_to (s : list nat) (a : arr) : arr :=
  {| shp := s; get := fun i => get a (align (shp a) i) |}.
(** mixture.py:163 [at.broadcast_arrays] *)
Definition broadcast_arrays (l : list arr) : res (list arr) :=
  bind (bcast_all (map shp l)) (fun s => Val (map (broadcast_to s) l)).

(** mixture.py:69-76: position of the first advanced index ([len(shape)] if
    none) and whether advanced indices bookend basic ones.  The ValueError of
    [list.index] is [None]. *)
Fixpoint find_from (b : bool) (l : list bool) (d : nat) : option nat :=
  match l with
  | [] => None
  | x :: l => if (d =? 0) && Bool.eqb x b then Some 0
              else option_map S (find_from b l (pred d))
  end.
Definition moved_subspace (types : list bool) : bool :=
  match find_from false types 0 with
  | Some first_adv =>
      match find_from true types first_adv with
      | Some first_bsc => match find_from false types first_bsc with Some _ => true | None => false end
      | None => false
      end
  | None => false
  end.
Definition first_adv_idx (types : list bool) (len_shape : nat) : nat :=
  match find_from false types 0 with Some d => d | None => len_shape end.

(** mixture.py:96-161, the loop.  State: position [d], remaining shape
    [shape_copy], [n_preceding_basics]; [Raise] is the IndexError of
    [shape_copy.pop(0)] on an exhausted shape.  Simplification: the assertion
    at 159 is omitted (it is implied: C21 gives one array per axis). *)
Section Loop.
Variables (moved : bool) (first_adv n_basic n_sub : nat).
Let n_out := n_sub + n_basic.
Fixpoint expand_loop (d : nat) (ix : list index) (shape_copy : list nat) (n_prec : nat) : res (list arr) :=
  match ix with
  | [] => Val []
  | i :: ix =>
      if negb (is_basic i) then
        match shape_copy with
        | [] => Raise
        | _ :: shape_copy =>
            let t := as_tensor i in
            let e := if moved then pad_right n_basic t
                     else pad_right (n_basic - n_prec) (pad_left n_prec t) in
            bind (expand_loop (S d) ix shape_copy n_prec) (fun r => Val (e :: r))
        end
      else match i with
      | ISlice start stop step =>
          match shape_copy with
          | [] => Raise
          | s :: shape_copy =>
              let '(a, b, c) := canonical_slice start stop step (Z.of_nat s) in
              let t := arange a b c in
              let e := if moved then pad_right (n_basic - n_prec - 1) (pad_left (n_sub + n_prec) t)
                       else let n_preceding_dims := (if first_adv <? d then n_sub else 0) + n_prec in
                            pad_right (n_out - n_preceding_dims - 1) (pad_left n_preceding_dims t) in
              bind (expand_loop (S d) ix shape_copy (S n_prec)) (fun r => Val (e :: r))
          end
      | _ => expand_loop (S d) ix shape_copy (S n_prec)
      end
  end.
End Loop.

(** mixture.py:59-61: append full slices for the missing dimensions (a
    negative count gives none) *)
Definition full_indices (ix : list index) (shape : list nat) : list index :=
  ix ++ repeat (ISlice None None None)
              (length shape - length (filter (fun i => negb (is_newaxis i)) ix)).

(** mixture.py:46-163 *)
Definition expand_indices (ix : list index) (shape : list nat) : res (list arr) :=
  let full := full_indices ix shape in
  let types := map is_basic full in
  let moved := moved_subspace types in
  let first_adv := first_adv_idx types (length shape) in
  let n_basic := length (filter is_basic full) in
  let n_sub := list_max (map idx_ndim (filter (fun i => negb (is_basic i)) full)) in
  bind (expand_loop moved first_adv n_basic n_sub 0 full shape 0) broadcast_arrays.
