(** Programs that are asked for the version. *)
From Coq Require Import List Arith ZArith Ascii String.
From Verif Require Import SpecVersion SpecKeywords ModelGitRun.
Import ListNotations.
Open Scope list_scope.

(** [t] is [s] without white space at its ends *)
Definition trimmed (s t : text) : Prop :=
  exists a b, s = a ++ t ++ b /\ Forall white a /\ Forall white b /\ (forall c u, t = c :: u -> ~ white c) /\ (forall c u, t = u ++ [c] -> ~ white c).
(** [p] is the first of the programs that is there *)
Definition first_there (progs : list text) (exec : text -> spawn) (p : text) : Prop :=
  exists pre post, progs = pre ++ p :: post /\ Forall (fun c => exec c = Absent) pre /\ exec p <> Absent.
(** the programs answer [t]: the first one that is there ends without error and prints it *)
Definition answers (progs : list text) (exec : text -> spawn) (t : text) : Prop :=
  exists p s, first_there progs exec p /\ exec p = Ran 0 s /\ trimmed s t.
(** none is there, or the first one cannot be run, or it ends with an error *)
Definition no_answer (progs : list text) (exec : text -> spawn) : Prop :=
  Forall (fun c => exec c = Absent) progs \/ exists p, first_there progs exec p /\ (exec p = Broken \/ exists rc s, exec p = Ran rc s /\ rc <> 0%Z).
Definition keyword_marks : text * text * text := (lit "$Format:%d$", lit "$Format:%H$", lit "$Format:%ci$").
