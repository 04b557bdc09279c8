(** Transforms of arrays, element by element. *)
From Coq Require Import Reals List Arith.
From Verif Require Import XR ModelIdx SpecIdx ModelTen ModelSub SpecElem ModelTrans ModelNest ModelSys SpecSys ModelEls SpecEls ModelElsT.
Import ListNotations.
Open Scope nat_scope.

(** the transform of the element at position [i] *)
Inductive element_transform (i : list nat) : atr -> tr -> Prop :=
| et_loc c j : aligned (nshp c) i j -> element_transform i (XLoc c) (TLoc (nelt c j))
| et_scale c j : aligned (nshp c) i j -> element_transform i (XScale c) (TScale (nelt c j))
| et_log : element_transform i XLog TLog
| et_exp : element_transform i XExp TExp
| et_recip : element_transform i XRecip TRecip
| et_between a b j k : aligned (nshp a) i j -> aligned (nshp b) i k ->
    element_transform i (XInterval (Some a) (Some b)) (TInterval (Some (nelt a j)) (Some (nelt b k)))
| et_above a j : aligned (nshp a) i j -> element_transform i (XInterval (Some a) None) (TInterval (Some (nelt a j)) None)
| et_under b k : aligned (nshp b) i k -> element_transform i (XInterval None (Some b)) (TInterval None (Some (nelt b k)))
| et_logodds : element_transform i XLogOdds TLogOdds
| et_circular : element_transform i XCircular TCircular
| et_nil : element_transform i (XChain []) (TChain [])
| et_cons x t l m : element_transform i x t -> element_transform i (XChain l) (TChain m) -> element_transform i (XChain (x :: l)) (TChain (t :: m)).
(** the parameters broadcast to the shape [s] *)
Inductive params_fit (s : list nat) : atr -> Prop :=
| pf_loc c : broadcasts (nshp c) s -> params_fit s (XLoc c)
| pf_scale c : broadcasts (nshp c) s -> params_fit s (XScale c)
| pf_log : params_fit s XLog
| pf_exp : params_fit s XExp
| pf_recip : params_fit s XRecip
| pf_between a b : broadcasts (nshp a) s -> broadcasts (nshp b) s -> params_fit s (XInterval (Some a) (Some b))
| pf_above a : broadcasts (nshp a) s -> params_fit s (XInterval (Some a) None)
| pf_under b : broadcasts (nshp b) s -> params_fit s (XInterval None (Some b))
| pf_logodds : params_fit s XLogOdds
| pf_circular : params_fit s XCircular
| pf_nil : params_fit s (XChain [])
| pf_cons x l : params_fit s x -> params_fit s (XChain l) -> params_fit s (XChain (x :: l)).
(** the number of axes that the parameters of the transform leave in the
    determinant of a value with [n] axes: a scale has its own axes, the links
    of a chain have equally many *)
Inductive axes (n : nat) : atr -> nat -> Prop :=
| ax_scale c : axes n (XScale c) (length (nshp c))
| ax_one x r : axes n x r -> axes n (XChain [x]) r
| ax_cons x l r : axes n x r -> axes n (XChain l) r -> axes n (XChain (x :: l)) r
| ax_other x : match x with XScale _ | XChain _ => False | _ => True end -> axes n x n.
(** chains of transforms whose determinants have different numbers of axes do not occur *)
Definition even_axes (h : list gnode) (sh : nat -> list nat) (tf : nat -> option (list (nd xr) -> atr)) : Prop :=
  forall v n F args, nth_error h v = Some n -> tf v = Some F -> map nshp args = map sh (ginputs n) -> F args = XChain [] \/ exists r, axes (length (sh v)) (F args) r.

(** [xs] are the values of the operands of the node of element [i] *)
Definition operands_at (nd : gnode) (i : list nat) (args : list (ModelTen.nd xr)) (xs : list xr) : Prop :=
  match nd with
  | GOther _ _ => xs = flat_map (fun a => map (nelt a) (positions (nshp a))) args
  | _ => Forall2 (fun a x => exists j, aligned (nshp a) i j /\ x = nelt a j) args xs
  end.
(** [tf'] has the transforms [tf] of the arrays at every element *)
Definition transforms_spelled_out (h : list gnode) (sh : nat -> list nat) (ix : nat -> list nat -> nat)
  (tf : nat -> option (list (nd xr) -> atr)) (tf' : nat -> option (list xr -> tr)) : Prop :=
  forall v n i, nth_error h v = Some n -> inside (sh v) i ->
  match tf v with
  | None => tf' (ix v i) = None
  | Some F => exists f, tf' (ix v i) = Some f /\
      forall args xs, map nshp args = map sh (ginputs n) -> operands_at n i args xs -> params_fit (sh v) (F args) /\ element_transform i (F args) (f xs)
  end.
(** [w] is computed, possibly by way of other random variables, from [v] *)
Inductive array_from (h : list gnode) : nat -> nat -> Prop :=
| af_here w v nd : nth_error h w = Some nd -> In v (ginputs nd) -> array_from h w v
| af_there w a v nd : nth_error h w = Some nd -> In a (ginputs nd) -> array_from h a v -> array_from h w v.
(** no array that is transformed is requested after one computed from it *)
Definition arrays_in_order (h : list gnode) (tf : nat -> option (list (nd xr) -> atr)) (req : list nat) : Prop :=
  forall l v r w, req = l ++ v :: r -> tf v <> None -> In w l -> ~ array_from h w v.
