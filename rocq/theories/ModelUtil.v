(** Resizing random variables and reading observed data:
    /repo/aeppl/utils.py 38-102. *)
From Coq Require Import Reals List Arith ZArith Bool String.
From Verif Require Import XR ModelVec ModelIdx ModelTen ModelSub.
Import ListNotations.
Open Scope nat_scope.

(** ** change_rv_size (utils.py 38-78) *)
(** What the function reads of a [RandomVariable] op (Aesara): [ndim_supp],
    the ranks [ndims_params] of one parameter set, and the support shape as a
    function of the parameters' shapes ([_supp_shape_from_params]). *)
Record rvop := { ndim_supp : nat; ndims_params : list nat; supp_shape : list (list nat) -> list nat }.
(** The output of a random variable node: op, inputs (utils.py:56), name and
    tag dictionary (57-58).  Sizes are literal; the generator and the dtype are
    only handed on, so they are plain labels. *)
Record rvar := { vop : rvop; vrng : nat; vsize : list nat; vdtype : nat; vparams : list (nd xr);
                 vname : option string; vtag : list (string * nat) }.
(** batch dimensions of a parameter whose sets have rank [n] *)
Definition batch_of (n : nat) (sh : list nat) : list nat := firstn (List.length sh - n) sh.
Definition batches (op : rvop) (ps : list (nd xr)) : list (list nat) := map2 batch_of (ndims_params op) (map nshp ps).
Definition supp_of (op : rvop) (ps : list (nd xr)) : list nat :=
  if ndim_supp op =? 0 then [] else supp_shape op (map nshp ps).
(** Aesara's [RandomVariable._infer_shape(size, dist_params)]: a given size is
    taken as it is, otherwise the batch dimensions are broadcast. *)
Definition infer_shape (op : rvop) (size : list nat) (ps : list (nd xr)) : res (list nat) :=
  match size with
  | [] => bind (bcast_all (batches op ps)) (fun b => Val (b ++ supp_of op ps))
  | _ => Val (size ++ supp_of op ps)
  end.
(** [new_size]: an int or a vector *)
Inductive newsize := NInt (k : nat) | NVec (l : list nat).
(** utils.py:63, 67: [at.atleast_1d], [at.as_tensor(new_size, ndim=1)] *)
Definition as_vector (n : newsize) : list nat := match n with NInt k => [k] | NVec l => l end.
(** utils.py:69-70 [make_node(...).outputs[-1]]: the shape is inferred when
    the node is built.  [fresh]: the tags Aesara puts on the new variable
    (e.g. its trace). *)
Definition make_node (fresh : list (string * nat)) (op : rvop) (rng : nat) (size : list nat) (dtype : nat) (ps : list (nd xr)) : res rvar :=
  bind (infer_shape op size ps) (fun _ =>
  Val {| vop := op; vrng := rng; vsize := size; vdtype := dtype; vparams := ps; vname := None; vtag := fresh |}).
Fixpoint lookup (k : string) (d : list (string * nat)) : option nat :=
  match d with [] => None | (k', v) :: d => if String.eqb k k' then Some v else lookup k d end.
(** utils.py:72-73 *)
Definition setdefault (d : list (string * nat)) (kv : string * nat) : list (string * nat) :=
  match lookup (fst kv) d with Some _ => d | None => d ++ [kv] end.
(** utils.py 38-78; test values (75-76) are not modelled. *)
Definition change_rv_size (fresh : list (string * nat)) (r : rvar) (new : newsize) (expand : bool) : res rvar :=
  bind (if expand
        then bind (if (ndim_supp (vop r) =? 0) && (List.length (vsize r) =? 0)
                   then infer_shape (vop r) (vsize r) (vparams r) else Val (vsize r))
                  (fun size => Val (as_vector new ++ size))
        else Val (as_vector new)) (fun new_size =>
  bind (make_node fresh (vop r) (vrng r) new_size (vdtype r) (vparams r)) (fun v =>
  Val {| vop := vop v; vrng := vrng v; vsize := vsize v; vdtype := vdtype v; vparams := vparams v;
         vname := vname r; vtag := fold_left setdefault (vtag r) (vtag v) |})).

(** ** extract_obs_data (utils.py 81-102) *)
(** What is written into the data: something known or an unknown variable. *)
Inductive inserted := Known (f : list nat -> R) | Unknown (v : nat).
(** The expressions the function distinguishes: constants, shared variables,
    [AdvancedIncSubtensor(1)] nodes (set or increment) with base, inserted
    value, its shape and the index inputs, and anything else.  An index input
    that is a constant or shared is [Some] of its value, anything else [None]
    (a masked array is not used as an index). *)
Inductive obs := OConst (a : nd R) | OShared (a : nd R)
| OInc (set : bool) (x : obs) (w : inserted) (dsh : list nat) (ix : list (option index)) | OOther.
(** utils.py:88-102: the data and, for a masked array, its mask.  A
    [MaskedArray] built from masked data keeps that data's mask (NumPy's
    [keep_mask=True]); [np.zeros_like] of it has zeros as data. *)
Fixpoint extract_obs_data (x : obs) : res (nd R * option (list nat -> bool)) :=
  match x with
  | OConst a | OShared a => Val (a, None)
  | OInc _ x _ _ ix =>
      bind (extract_obs_data x) (fun dm =>
      bind (all_val (map (fun i => match i with Some i => Val i | None => Raise end) ix)) (fun mask_idx =>
      bind (np_set (nshp (fst dm)) (fun _ => false) mask_idx [] (fun _ => true)) (fun mask =>
      Val (fst dm, Some (fun p => match snd dm with Some m => m p | None => false end || mask p)))))
  | OOther => Raise
  end.
