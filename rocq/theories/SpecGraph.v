(** Specifications for C14, C35, C36: what a model graph means at a point. *)
From Coq Require Import List Arith.
From Verif Require Import XR ModelJoint ModelGraph SpecJoint.
Import ListNotations.
Open Scope nat_scope.

(** An interpretation: values of the variables without owner, draws of the
    random variables as functions of generator and parameters, deterministic
    functions, log-densities, inverse transforms and log-Jacobian terms. *)
Record sem (V L : Type) := {
  s_in : nat -> V; s_draw : nat -> nat -> list V -> V; s_det : nat -> list V -> V;
  s_back : nat -> V -> list V -> V; s_ld : nat -> list V -> V -> L;
  s_lj : nat -> V -> list V -> L; s_add : L -> L -> L }.
Arguments s_in {V L}. Arguments s_draw {V L}. Arguments s_det {V L}. Arguments s_back {V L}.
Arguments s_ld {V L}. Arguments s_lj {V L}. Arguments s_add {V L}.

(** a user's model: inputs, random variables and deterministic nodes, every
    node after its arguments *)
Definition model_graph (g : heap) : Prop :=
  forall v nd, nth_error g v = Some nd ->
    match nop nd with OIn => nargs nd = [] | ORv _ _ | ODet _ => True | _ => False end /\
    forall a, In a (nargs nd) -> a < v.

Section Sem.
Context {V L : Type} (S : sem V L).

(** ** What the compiled graph computes *)
(** a ValuedVariable computes its first input (abstract.py:155-156), a
    TransformedVariable cannot be computed (transforms.py:84-87) *)
Definition run_op (o : op) (xs : list V) : option V :=
  match o, xs with
  | OIn, _ => None
  | ORv rng dist, xs => Some (s_draw S rng dist xs)
  | OTrv tr rng dist, xs => Some (s_draw S rng dist xs)
  | ODet f, xs => Some (s_det S f xs)
  | OVal, [x; _] => Some x
  | OBack tr, x :: ps => Some (s_back S tr x ps)
  | _, _ => None
  end.
Inductive ev (h : heap) : nat -> V -> Prop :=
| ev_in : forall v ps, nth_error h v = Some (mk OIn ps) -> ev h v (s_in S v)
| ev_op : forall v o ps xs y, nth_error h v = Some (mk o ps) -> evs h ps xs -> run_op o xs = Some y -> ev h v y
with evs (h : heap) : list nat -> list V -> Prop :=
| evs_nil : evs h [] []
| evs_cons : forall p ps x xs, ev h p x -> evs h ps xs -> evs h (p :: ps) (x :: xs).
(** the value of a log-probability graph *)
Definition fvalue (h : heap) (f : factor) (y : L) : Prop :=
  exists xs x, evs h (f_params f) xs /\ ev h (f_value f) x /\
    match f_trans f with
    | None => y = s_ld S (f_dist f) xs x
    | Some (tr, b) => exists z, ev h b z /\ y = s_add S (s_ld S (f_dist f) xs x) (s_lj S tr z xs)
    end.

(** ** What the model says *)
(** the value of a variable of the model when the variables in the domain of
    [rho] have the values given by [rho] *)
Inductive means (g : heap) (rho : nat -> option V) : nat -> V -> Prop :=
| me_val : forall v x, rho v = Some x -> means g rho v x
| me_in : forall v ps, rho v = None -> nth_error g v = Some (mk OIn ps) -> means g rho v (s_in S v)
| me_rv : forall v rng dist ps xs, rho v = None -> nth_error g v = Some (mk (ORv rng dist) ps) ->
    meanss g rho ps xs -> means g rho v (s_draw S rng dist xs)
| me_det : forall v f ps xs, rho v = None -> nth_error g v = Some (mk (ODet f) ps) ->
    meanss g rho ps xs -> means g rho v (s_det S f xs)
with meanss (g : heap) (rho : nat -> option V) : list nat -> list V -> Prop :=
| mes_nil : meanss g rho [] []
| mes_cons : forall p ps x xs, means g rho p x -> meanss g rho ps xs -> meanss g rho (p :: ps) (x :: xs).

(** log-density of [rv] at its value, its parameters computed from the values
    of the variables it depends on; [tr] is the transform of [rv] with the
    value [z] in the transformed space *)
Definition model_factor (g : heap) (rho : nat -> option V) (rv : nat) (trans : option (nat * V)) (y : L) : Prop :=
  exists rng dist ps xs x, nth_error g rv = Some (mk (ORv rng dist) ps) /\ meanss g rho ps xs /\ rho rv = Some x /\
    match trans with
    | None => y = s_ld S dist xs x
    | Some (tr, z) => y = s_add S (s_ld S dist xs x) (s_lj S tr z xs)
    end.

(** the point at which the result is evaluated: requested variables have the
    values of the returned value variables, back-transformed if they have a
    transform; realized ones the values of the given expressions *)
Definition point (g : heap) (requested vv : list nat) (realized trs : list (nat * nat)) (rho : nat -> option V) : Prop :=
  (forall i rv v, nth_error requested i = Some rv -> nth_error vv i = Some v ->
     match dget trs rv with
     | None => rho rv = Some (s_in S v)
     | Some tr => exists rng dist ps xs, nth_error g rv = Some (mk (ORv rng dist) ps) /\
                    meanss g rho ps xs /\ rho rv = Some (s_back S tr (s_in S v) xs)
     end) /\
  (forall rv val, In (rv, val) realized -> exists x, ev g val x /\ rho rv = Some x) /\
  (forall rv, rho rv <> None -> In rv requested \/ In rv (map fst realized)).
End Sem.

(** [v] is used, directly or through other nodes, in computing [u] *)
Inductive depends (h : heap) : nat -> nat -> Prop :=
| dep_refl : forall u, depends h u u
| dep_step : forall u nd a v, nth_error h u = Some nd -> In a (nargs nd) -> depends h a v -> depends h u v.
Definition fdepends (h : heap) (f : factor) (v : nat) : Prop :=
  exists u, (In u (f_params f) \/ u = f_value f \/ exists tr, f_trans f = Some (tr, u)) /\ depends h u v.

(** a request: distinct variables of the model, transforms for requested
    RandomVariables only *)
Definition request (g : heap) (requested : list nat) (realized trs : list (nat * nat)) : Prop :=
  model_graph g /\ NoDup (requested ++ map fst realized) /\
  (forall rv, In rv requested -> rv < length g) /\
  (forall rv val, In (rv, val) realized -> rv < length g /\ val < length g) /\
  (forall rv, dget trs rv <> None -> In rv requested /\ exists rng dist ps, nth_error g rv = Some (mk (ORv rng dist) ps)).
(** transformed variables are requested before the variables that depend on them *)
Definition transformed_first (g : heap) (requested : list nat) (trs : list (nat * nat)) : Prop :=
  forall i j x y, nth_error requested i = Some x -> nth_error requested j = Some y ->
    dget trs x <> None -> x <> y -> depends g y x -> i < j.
(** a node that draws from generator [rng] *)
Definition draws (nd : node) (rng dist : nat) : Prop :=
  nop nd = ORv rng dist \/ exists tr, nop nd = OTrv tr rng dist.
(** the transform part of the factor of the [i]-th requested variable *)
Definition trans_of {V L} (S : sem V L) (use_jacobian : bool) (trs : list (nat * nat)) (rv v : nat) : option (nat * V) :=
  match dget trs rv with Some tr => if use_jacobian then Some (tr, s_in S v) else None | None => None end.

(** the result of conditional_logprob is right: one factor per variable, one
    fresh input per requested variable, and at every point the factor of a
    variable is the model's *)
Definition factorises (uj : bool) (g : heap) (requested : list nat) (realized trs : list (nat * nat))
    (h : heap) (fs : list (nat * factor)) (vv : list nat) : Prop :=
  keys_exact (map fst fs) requested (map fst realized) /\ length vv = length requested /\ NoDup vv /\
  (forall i rv v, nth_error requested i = Some rv -> nth_error vv i = Some v -> length g <= v /\ nth_error h v = Some (mk OIn [])) /\
  forall V L (S : sem V L) rho, point S g requested vv realized trs rho -> forall rv f, In (rv, f) fs ->
    (forall i v, nth_error requested i = Some rv -> nth_error vv i = Some v ->
       forall y, fvalue S h f y <-> model_factor S g rho rv (trans_of S uj trs rv v) y) /\
    (In rv (map fst realized) -> forall y, fvalue S h f y <-> model_factor S g rho rv None y).
