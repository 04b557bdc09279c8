(** Specification for C41: histories of the registry. *)
From Coq Require Import List Arith.
From Verif Require Import XR ModelReg.
Import ListNotations.
Open Scope nat_scope.

Section Hist.
Variables (hp : nat -> nat) (H : nat -> nat -> nat -> nat).

(** one event: a node with an op of an ordinary class is made, or a node is
    marked; a call that raises changes nothing *)
Inductive event : state * list anode -> state * list anode -> Prop :=
| ev_op : forall s ns k p, event (s, ns) ({| ops := ops s ++ [{| o_ty := Plain k; o_props := p |}]; reg := reg s; fresh := fresh s |}, ns)
| ev_node : forall s ns i l, i < length (ops s) -> event (s, ns) ({| ops := ops s; reg := reg s; fresh := fresh s + l |}, {| a_op := i; a_outs := seq (fresh s) l |} :: ns)
| ev_mark : forall s ns n f s' n', In n ns -> assign hp H s n f = Val (s', n') -> event (s, ns) (s', n' :: ns).
Inductive later : state * list anode -> state * list anode -> Prop :=
| la_refl : forall w, later w w
| la_step : forall w w' w'', later w w' -> event w' w'' -> later w w''.
(** the start: dispatch functions of ordinary classes only, no ops *)
Definition initial (w : state * list anode) : Prop :=
  exists r x, w = ({| ops := []; reg := map (fun p => (Plain (fst p), snd p)) r; fresh := x |}, []).
Definition reachable (w : state * list anode) : Prop := exists w0, initial w0 /\ later w0 w.

(** no two marked (op, function) pairs have the same hash and different functions *)
Definition no_collision (s : state) : Prop :=
  forall i j b p f b' p' f' q q', nth_error (ops s) i = Some {| o_ty := Unm b p f; o_props := q |} ->
    nth_error (ops s) j = Some {| o_ty := Unm b' p' f'; o_props := q' |} ->
    hash hp H (Unm b p f) = hash hp H (Unm b' p' f') -> f = f'.
End Hist.
