(** Sums and differences of normal variables: /repo/aeppl/convolutions.py 8-50. *)
From Coq Require Import Reals List Arith Bool.
From Verif Require Import XR ModelVec ModelIdx ModelTen.
Import ListNotations.
Open Scope nat_scope.

(** A NormalRV: the [size] input (empty when none was given) and the two
    parameter arrays; the generator is left out. *)
Record nrv := { n_size : list nat; n_mu : nd xr; n_sigma : nd xr }.

(** Elemwise over arrays with broadcasting *)
Definition elemwise (f : list xr -> xr) (l : list (nd xr)) : res (nd xr) :=
  bind (bcast_all (map nshp l))
       (fun s => Val {| nshp := s; nelt := fun i => f (map (fun a => nelt a (align (nshp a) i)) l) |}).
Definition x_add (l : list xr) : xr := match l with x :: l => fold_left xadd l x | [] => Fin 0 end.
Definition x_sub (l : list xr) : xr := match l with [x; y] => xsub x y | _ => NaN end.
(** [x ** 2] (convolutions.py:30) *)
Definition nd_sq (a : nd xr) : nd xr := {| nshp := nshp a; nelt := fun i => xsq (nelt a i) |}.

(** convolutions.py:12-43 after its guards (14-15 and 24-25 are in
    [add_normals_applies], ModelWalk.v); [sub]: the op is at.sub *)
Definition add_independent_normals (sub : bool) (inputs : list nrv) : res nrv :=
  bind (bcast_all (map n_size inputs)) (fun new_size =>
  bind (elemwise (if sub then x_sub else x_add) (map n_mu inputs)) (fun mean =>
  bind (elemwise (fun l => xsqrt (x_add l)) (map (fun v => nd_sq (n_sigma v)) inputs)) (fun sd =>
  Val {| n_size := new_size; n_mu := mean; n_sigma := sd |}))).

(** Shape of a NormalRV (Aesara's RandomVariable with scalar parameters): the
    broadcast of the parameters, or [size], to which the parameters have to
    broadcast. *)
Definition list_eqb (a b : list nat) : bool := if list_eq_dec Nat.eq_dec a b then true else false.
Definition rv_shape (v : nrv) : res (list nat) :=
  bind (bcast_all [nshp (n_mu v); nshp (n_sigma v)]) (fun p =>
  match n_size v with
  | [] => Val p
  | s => bind (bcast_all [s; p]) (fun q => if list_eqb q s then Val s else Raise)
  end).
(** parameters of the element at [i] *)
Definition mu_at (v : nrv) (i : list nat) : xr := nelt (n_mu v) (align (nshp (n_mu v)) i).
Definition sigma_at (v : nrv) (i : list nat) : xr := nelt (n_sigma v) (align (nshp (n_sigma v)) i).
