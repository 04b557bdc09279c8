(** NumPy's indexing rules, as in the NumPy manual ("Indexing on ndarrays").
    Only the syntax of index tuples ([index], [arr]) is shared with the model. *)
From Coq Require Import List Arith ZArith Bool Lia.
From Verif Require Import ModelIdx.
Import ListNotations.
Open Scope nat_scope.

(** ** Slices: CPython's [slice.indices] *)
Definition py_step (step : option Z) : Z := match step with Some s => s | None => 1%Z end.
Definition py_start (start : option Z) (s n : Z) : Z :=
  let lo := if (s <? 0)%Z then (-1)%Z else 0%Z in
  let hi := if (s <? 0)%Z then (n - 1)%Z else n in
  match start with
  | None => if (s <? 0)%Z then hi else lo
  | Some z => if (z <? 0)%Z then Z.max (z + n) lo else Z.min z hi
  end.
Definition py_stop (stop : option Z) (s n : Z) : Z :=
  let lo := if (s <? 0)%Z then (-1)%Z else 0%Z in
  let hi := if (s <? 0)%Z then (n - 1)%Z else n in
  match stop with
  | None => if (s <? 0)%Z then lo else hi
  | Some z => if (z <? 0)%Z then Z.max (z + n) lo else Z.min z hi
  end.
(** the [k]-th selected position, if there is one *)
Definition slice_nth (start stop step : option Z) (n k : nat) (pos : nat) : Prop :=
  let s := py_step step in
  let z := (py_start start s (Z.of_nat n) + Z.of_nat k * s)%Z in
  Z.of_nat pos = z /\ (if (s <? 0)%Z then (py_stop stop s (Z.of_nat n) < z)%Z else (z < py_stop stop s (Z.of_nat n))%Z).
(** [c] positions are selected *)
Definition slice_count (start stop step : option Z) (n c : nat) : Prop :=
  forall k, k < c <-> exists pos, slice_nth start stop step n k pos.
(** an integer index: negative ones count from the end *)
Definition wraps (n : nat) (z : Z) (pos : nat) : Prop :=
  pos < n /\ (z = Z.of_nat pos \/ z = Z.of_nat pos - Z.of_nat n)%Z.

(** ** Broadcasting *)
(** [r]-th entry from the right, [x0] beyond the left end *)
Definition rnth (x0 : nat) (l : list nat) (r : nat) : nat := nth r (rev l) x0.
(** [s] is the broadcast of the shapes [l] *)
Definition is_broadcast (l : list (list nat)) (s : list nat) : Prop :=
  (forall sh, In sh l -> length sh <= length s) /\
  (s = [] \/ exists sh, In sh l /\ length sh = length s) /\
  forall r, r < length s ->
    (forall sh, In sh l -> rnth 1 sh r = 1 \/ rnth 1 sh r = rnth 1 s r) /\
    (rnth 1 s r = 1 \/ exists sh, In sh l /\ rnth 1 sh r = rnth 1 s r).
(** [c]: coordinates in an array of shape [sh] of the element broadcast to [i] *)
Definition aligned (sh i c : list nat) : Prop :=
  length c = length sh /\
  forall r, r < length sh -> rnth 0 c r = if rnth 1 sh r =? 1 then 0 else rnth 0 i r.
(** multi-indices of an array *)
Definition inside (s o : list nat) : Prop := Forall2 (fun x d => x < d) o s.

(** ** Index tuples *)
Definition advanced (i : index) : Prop := match i with IInt _ | IArr _ => True | _ => False end.
Definition basic (i : index) : Prop := match i with INew | ISlice _ _ _ => True | _ => False end.
(** advanced indices separated by a slice or newaxis *)
Definition separated (ix : list index) : Prop :=
  exists l1 a l2 b l3 c l4, ix = l1 ++ a :: l2 ++ b :: l3 ++ c :: l4 /\ advanced a /\ basic b /\ advanced c.
(** [p] slices and newaxes precede the first advanced index *)
Definition leading (ix : list index) (p : nat) : Prop :=
  exists l1 l2, ix = l1 ++ l2 /\ List.Forall basic l1 /\ length l1 = p /\
                match l2 with [] => True | a :: _ => advanced a end.
(** where the dimensions [sub] of the advanced indices go among the
    dimensions [bs] of the slices and newaxes *)
Definition placed {A} (ix : list index) (sub bs o : list A) : Prop :=
  (separated ix -> o = sub ++ bs) /\
  (~ separated ix -> exists p, leading ix p /\ o = firstn p bs ++ sub ++ skipn p bs).
Definition adv_shape (i : index) : list (list nat) :=
  match i with IArr a => [shp a] | IInt _ => [[]] | _ => [] end.
(** dimensions contributed by slices and newaxes *)
Inductive basic_dims : list index -> list nat -> list nat -> Prop :=
| bd_nil : basic_dims [] [] []
| bd_new ix sh bs : basic_dims ix sh bs -> basic_dims (INew :: ix) sh (1 :: bs)
| bd_slice a b s ix n sh c bs : py_step s <> 0%Z -> slice_count a b s n c ->
    basic_dims ix sh bs -> basic_dims (ISlice a b s :: ix) (n :: sh) (c :: bs)
| bd_int z ix n sh bs : basic_dims ix sh bs -> basic_dims (IInt z :: ix) (n :: sh) bs
| bd_arr a ix n sh bs : basic_dims ix sh bs -> basic_dims (IArr a :: ix) (n :: sh) bs.
(** the element at subspace coordinates [sub] and basic coordinates [bs] is
    the element [src] of the indexed array *)
Inductive picks (sub : list nat) : list index -> list nat -> list nat -> list nat -> Prop :=
| pk_nil : picks sub [] [] [] []
| pk_new ix sh bs src : picks sub ix sh bs src -> picks sub (INew :: ix) sh (0 :: bs) src
| pk_slice a b s ix n sh k bs x src : slice_nth a b s n k x ->
    picks sub ix sh bs src -> picks sub (ISlice a b s :: ix) (n :: sh) (k :: bs) (x :: src)
| pk_int z ix n sh bs x src : wraps n z x ->
    picks sub ix sh bs src -> picks sub (IInt z :: ix) (n :: sh) bs (x :: src)
| pk_arr a c ix n sh bs x src : aligned (shp a) sub c -> wraps n (get a c) x ->
    picks sub ix sh bs src -> picks sub (IArr a :: ix) (n :: sh) bs (x :: src).
(** missing trailing dimensions are full slices *)
Inductive completes : list index -> list nat -> list index -> Prop :=
| cp_done sh : completes [] sh (repeat (ISlice None None None) (length sh))
| cp_new ix sh full : completes ix sh full -> completes (INew :: ix) sh (INew :: full)
| cp_use i ix n sh full : i <> INew -> completes ix sh full -> completes (i :: ix) (n :: sh) (i :: full).

(** [A[ix]] of an array of shape [sh] has shape [o] *)
Definition np_shape (ix : list index) (sh o : list nat) : Prop :=
  exists full sub bs, completes ix sh full /\ is_broadcast (flat_map adv_shape full) sub /\
    basic_dims full sh bs /\ placed full sub bs o.
(** and its element at [o] is [A[src]] *)
Definition np_element (ix : list index) (sh o src : list nat) : Prop :=
  exists full subsh sub bs, completes ix sh full /\ is_broadcast (flat_map adv_shape full) subsh /\
    length sub = length subsh /\ placed full sub bs o /\ picks sub full sh bs src.
Definition positive_steps (ix : list index) : Prop :=
  List.Forall (fun i => match i with ISlice _ _ s => (0 < py_step s)%Z | _ => True end) ix.
