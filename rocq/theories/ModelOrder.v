(** The measurable rewrites applied one node at a time, in any order: the
    equilibrium run of rewriting.py:158-183 and 279-283 over the rewrites of
    transforms.py:386-597 and censoring.py:37-70, 189-212.  Expressions are
    trees: a shared variable stands for equal subtrees, which are rewritten
    together (several steps here).  Not modelled: the limit on the number of
    rewrites (aesara.config.optdb__max_use_ratio). *)
From Coq Require Import Reals List Bool Arith.
From Verif Require Import XR ModelVec ModelTrans ModelCens ModelMix ModelNest ModelGuard.
Import ListNotations.

(** An expression during the run: [XMeas m] is a node that was replaced by the
    measurable variable [m]; the other constructors are as in [gexpr]. *)
Inductive xexpr : Type :=
| XRv (i : nat) | XCon (c : xr) | XIn (c : xr) | XSelf
| XMeas (m : gm)
| XOne (u : unary) (e : xexpr) | XMany (n : nary) (es : list xexpr) | XSub (a b : xexpr) | XDiv (a b : xexpr)
| XClip (d : dtype) (e lo hi : xexpr) | XRound (op : rounding) (e : xexpr) | XOther (k : nat) (es : list xexpr).
Fixpoint start (e : gexpr) : xexpr :=
  match e with
  | GRv i => XRv i | GCon c => XCon c | GIn c => XIn c | GSelf => XSelf
  | GOne u e => XOne u (start e) | GMany n es => XMany n (map start es) | GSub a b => XSub (start a) (start b) | GDiv a b => XDiv (start a) (start b)
  | GClip d e lo hi => XClip d (start e) (start lo) (start hi) | GRound op e => XRound op (start e) | GOther k es => XOther k (map start es)
  end.

Section Run.
Variable dt : nat -> dtype.
Variable fs : nat -> list xr -> xr.
Variable rho : nat -> xr.

(** what a measurable variable computes from the draws: a
    MeasurableElemwiseTransform, a MeasurableClip and a MeasurableRound are
    Elemwise ops with the scalar op of the rewrite (transforms.py:589-594,
    censoring.py:33, 63-66, 150-152, 211); the other transforms are never built *)
Fixpoint computes (m : gm) : xr :=
  match m with
  | GB i => rho i
  | GE t m => match t with
              | TLoc c => xadd (computes m) c
              | TScale c => xmul (computes m) c
              | TLog => xlog (computes m)
              | TExp => xexp (computes m)
              | TRecip => xrecip (computes m)
              | _ => NaN
              end
  | GC _ m lo hi => xclip (computes m) (bval lo) (bval hi)
  | GR op m => round_val op (computes m)
  end.
(** what the rewrites see of a node now: whether it is measurable
    (transforms.py:533-539, censoring.py:47-53, 198-205), whether the walk
    (557-578) reaches a measurable variable, its value *)
Definition plain (r : bool) (v : xr) : gann := {| g_m := None; g_rand := r; g_val := v |}.
Definition self_val (s : xexpr) (base v : xr) : xr := match s with XSelf => base | _ => v end.
Fixpoint view (s : xexpr) : gann :=
  match s with
  | XRv i => {| g_m := Some (GB i); g_rand := true; g_val := rho i |}
  | XCon c | XIn c => gcon c
  | XSelf => gcon NaN
  | XMeas m => {| g_m := Some m; g_rand := true; g_val := computes m |}
  | XOne u e => plain (g_rand (view e)) (un_val u (g_val (view e)))
  | XMany n es => plain (existsb g_rand (map view es)) (nary_val n (map g_val (map view es)))
  | XSub a b => plain (g_rand (view a) || g_rand (view b)) (xsub (g_val (view a)) (g_val (view b)))
  | XDiv a b => plain (g_rand (view a) || g_rand (view b)) (xdiv (g_val (view a)) (g_val (view b)))
  | XClip d e lo hi => plain (g_rand (view e) || g_rand (view lo) || g_rand (view hi))
      (xclip (g_val (view e)) (self_val lo (g_val (view e)) (g_val (view lo))) (self_val hi (g_val (view e)) (g_val (view hi))))
  | XRound op e => plain (g_rand (view e)) (round_val op (g_val (view e)))
  | XOther k es => plain (existsb g_rand (map view es)) (fs k (map g_val (map view es)))
  end.
(** censoring.py:57-58 *)
Definition x_bound (inf : xr) (s : xexpr) : bound :=
  match s with XSelf => BConst inf | XCon c => BConst c | _ => BSym (g_val (view s)) end.
(** the rewrite of the root node; [None]: the rewrite returns None *)
Definition rule (s : xexpr) : option gm :=
  match s with
  | XOne u e => g_m (g_unary dt u (view e))                     (* transforms.py:436-455, 496-504 *)
  | XMany n es => g_m (g_nary dt n (map view es))               (* 458-493 *)
  | XSub a b => g_m (g_sub dt (view a) (view b))                (* 409-433 *)
  | XDiv a b => g_m (g_div dt (view a) (view b))                (* 386-406 *)
  | XClip d e lo hi => match g_m (view e) with Some m => Some (GC d m (x_bound NInf lo) (x_bound PInf hi)) | None => None end  (* censoring.py:37-70 *)
  | XRound op e => g_m (g_round dt op (view e))                 (* 189-212 *)
  | _ => None
  end.
(** one rewrite of one node *)
Inductive step : xexpr -> xexpr -> Prop :=
| st_here s m : rule s = Some m -> step s (XMeas m)
| st_one u a b : step a b -> step (XOne u a) (XOne u b)
| st_many n l a b r : step a b -> step (XMany n (l ++ a :: r)) (XMany n (l ++ b :: r))
| st_sub_l a b c : step a b -> step (XSub a c) (XSub b c)
| st_sub_r a b c : step a b -> step (XSub c a) (XSub c b)
| st_div_l a b c : step a b -> step (XDiv a c) (XDiv b c)
| st_div_r a b c : step a b -> step (XDiv c a) (XDiv c b)
| st_clip d a b lo hi : step a b -> step (XClip d a lo hi) (XClip d b lo hi)
| st_clip_lo d e a b hi : step a b -> step (XClip d e a hi) (XClip d e b hi)
| st_clip_hi d e lo a b : step a b -> step (XClip d e lo a) (XClip d e lo b)
| st_round op a b : step a b -> step (XRound op a) (XRound op b)
| st_other k l a b r : step a b -> step (XOther k (l ++ a :: r)) (XOther k (l ++ b :: r)).
Inductive run : nat -> xexpr -> xexpr -> Prop :=
| r_nil s : run 0 s s
| r_cons n a b c : step a b -> run n b c -> run (S n) a c.
(** Rewriting and undoing in any order: rewriting.py:51-81 keeps the replaced
    variables, 286-292 puts (some of) them back. *)
Inductive back_and_forth : xexpr -> xexpr -> Prop :=
| bf_nil s : back_and_forth s s
| bf_do a b c : back_and_forth a b -> step b c -> back_and_forth a c
| bf_undo a b c : back_and_forth a b -> step c b -> back_and_forth a c.
(** the run ends when no rewrite applies (an equilibrium) *)
Definition complete (s : xexpr) : Prop := forall s', ~ step s s'.
(** the measurable form of the requested variable, if any *)
Definition form (s : xexpr) : option gm := g_m (view s).
End Run.

(** number of operations of an expression *)
Fixpoint ops (e : gexpr) : nat :=
  match e with
  | GRv _ | GCon _ | GIn _ | GSelf => 0
  | GOne _ e | GRound _ e => S (ops e)
  | GMany _ es | GOther _ es => S (list_sum (map ops es))
  | GSub a b | GDiv a b => S (ops a + ops b)
  | GClip _ e lo hi => S (ops e + ops lo + ops hi)
  end.
