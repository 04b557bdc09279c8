(** C67, C68: the preamble of a printed model. *)
From Coq Require Import List Arith Bool String Ascii Lia.
From Verif Require Import XR ModelVec ModelPrint ModelPrint2 SpecPrint LemPrint SpecPrint2 LemPrint2 LemPrint3 LemPrint4.
Import ListNotations.
Open Scope nat_scope.
Open Scope string_scope.
Open Scope list_scope.

(** ** C67.  In the print-out of any graph every random variable that occurs in
    it, however deep and however often, is defined exactly once, after all the
    random variables that occur in its definition. *)
Theorem C67_defined latex tidy name variables g (A : acyclic g) outs ts s : print_graph latex tidy name variables g outs = Val (ts, s) ->
  NoDup (map fst (defs s)) /\ (forall v, In v (map fst (defs s)) <-> shown g outs v /\ is_rv (g v)) /\
  forall a d b, defs s = a ++ d :: b -> forall u w, In u (inputs_of (g (fst d))) -> occurs g u w -> is_rv (g w) -> In w (map fst a).
Proof. exact (defs_ok latex tidy name variables g A outs ts s). Qed.
Print Assumptions C67_defined.
(** every other variable that is printed by name has its space stated exactly once *)
Theorem C67_spaces latex tidy name variables g (A : acyclic g) outs ts s : print_graph latex tidy name variables g outs = Val (ts, s) ->
  NoDup (map fst (shapes s)) /\ (forall v, In v (map fst (shapes s)) <-> shown g outs v /\ is_named (g v)).
Proof. exact (shapes_ok latex tidy name variables g A outs ts s). Qed.
Print Assumptions C67_spaces.
(** One text per variable: the same wherever the variable occurs, in the body
    and in the preamble; names are the user's or free letters, and a letter
    stands for one variable only. *)
Theorem C67_texts latex tidy name variables g (A : acyclic g) outs ts s : print_graph latex tidy name variables g outs = Val (ts, s) ->
  exists text, ts = map text outs /\ (forall v, shown g outs v -> reads g text v) /\
    (forall v, shown g outs v -> match g v with
       | PNamed k dims => In (v, shape_info latex (text v) k dims) (shapes s)
       | PRv op pp k dims l => exists line, In (v, line) (defs s) /\ dist_line latex (text v) op (map tidy (mapi pp 0 (map text l))) k dims = Val line
       | _ => True end) /\
    ((forall v, shown g outs v -> is_rv (g v) \/ is_named (g v) -> ~ unnamed name v -> In v variables) -> forall v, shown g outs v -> is_rv (g v) \/ is_named (g v) ->
       (~ unnamed name v -> name v = Some (text v)) /\ (unnamed name v -> free_letter name variables (text v)) /\
       (unnamed name v -> forall w, shown g outs w -> is_rv (g w) \/ is_named (g w) -> text v = text w -> v = w)).
Proof. exact (texts_ok latex tidy name variables g A outs ts s). Qed.
Print Assumptions C67_texts.
(** Printing succeeds when there are letters enough and no percent signs in the
    names of the random variables. *)
Theorem C67_succeeds latex tidy name variables g (A : acyclic g) outs free :
  (forall v, shown g outs v -> is_rv (g v) \/ is_named (g v) -> ~ unnamed name v -> In v variables) ->
  (forall v n, shown g outs v -> is_rv (g v) -> name v = Some n -> lacks "%" n) ->
  NoDup free -> (forall x, In x free -> free_letter name variables x) ->
  (forall l, NoDup l -> (forall u, In u l -> shown g outs u /\ lettered g name u) -> List.length l <= List.length free) ->
  exists r, print_graph latex tidy name variables g outs = Val r.
Proof.
  intros V P Nf F B. apply (graph_total latex tidy name variables g A); [apply line_total|exact V|intros v n H1 H2 H3; apply lacks_iff; now apply (P v)|].
  intros l Nl Hl. etransitivity; [exact (B l Nl Hl)|]. apply NoDup_incl_length; [exact Nf|]. intros x Hx. apply avail0_in. exact (F x Hx).
Qed.
Print Assumptions C67_succeeds.

(** ** C68.  The line of a random variable is the one that is meant exactly
    when its name has no space and, if the length of an axis is not known, no
    percent sign: the name is taken off the front of "name in R" as a set of
    characters, and the space's text is then part of a format. *)
Theorem C68_exactly_partial : forall latex name op params k dims,
  dist_line latex name op params k dims = Val (meant latex name op params k dims) <-> lacks " " name /\ (lacks "%" name \/ forall d, In d dims -> d <> None).
Proof. exact line_exact. Qed.
Print Assumptions C68_exactly_partial.
(** the statements of spaces have no such limits *)
Theorem C68_space : forall name k dims, shape_info false name k dims =
  (name ++ " in " ++ meant_set k ++ match dims with [] => "" | _ => "**(" ++ concat " x " (meant_dims false name dims) ++ ")" end)%string.
Proof. intros. rewrite shape_meant. destruct dims; reflexivity. Qed.
Print Assumptions C68_space.
Theorem C68_space_latex : forall name k dims, shape_info true name k dims =
  (name ++ " \in \mathbb{" ++ meant_set k ++ "}" ++ match dims with [] => "" | _ => "^{" ++ concat " \times " (meant_dims true name dims) ++ "}" end)%string.
Proof. intros. rewrite shape_meant. destruct dims; reflexivity. Qed.
Print Assumptions C68_space_latex.
(** a random variable named "weight in kg": the line ends in "R" instead of "in R" *)
Theorem C68_name_refuted : exists name op params k dims line, dist_line false name op params k dims = Val line /\ line <> meant false name op params k dims.
Proof. exists "weight in kg", "N", ["0"; "1**2"], KFloat, [], "weight in kg ~ N(0, 1**2)R". split; [vm_compute; reflexivity|discriminate]. Qed.
Print Assumptions C68_name_refuted.
(** a vector named "50%" of unknown length: printing raises *)
Theorem C68_percent_refuted : exists name op params k dims, dist_line false name op params k dims = Raise.
Proof. exists "50%", "N", ["0"; "1**2"], KFloat, [None]. vm_compute. reflexivity. Qed.
Print Assumptions C68_percent_refuted.

(** *** Examples *)
(** y ~ N(x * x, s), x ~ N(m, s), with s unnamed and printed twice; y + x *)
Definition eg (v : nat) : pnode :=
  match v with
  | 0 => PNamed KFloat []
  | 1 => PNamed KFloat []
  | 2 => PRv "N" (fun i t => if Nat.eqb i 1 then t ++ "**2" else t)%string KFloat [] [0; 1]
  | 3 => PExpr (fun l => "(" ++ concat " * " l ++ ")")%string [2; 2]
  | 4 => PRv "N" (fun i t => if Nat.eqb i 1 then t ++ "**2" else t)%string KFloat [None] [3; 1]
  | 5 => PExpr (fun l => "(" ++ concat " + " l ++ ")")%string [4; 2]
  | _ => PConst "0"
  end.
Definition eg_name (v : nat) : option string := match v with 0 => Some "m" | 4 => Some "y" | _ => None end.
Lemma eg_acyclic : acyclic eg.
Proof. intros v u. do 6 (destruct v as [|v]; [cbn; lia|]). intros []. Qed.
Definition eg_printed := print_graph false (fun t => t) eg_name [0; 1; 2; 3; 4; 5] eg [5].
Example C67_case : match eg_printed with
  | Val (ts, s) => ts = ["(y + a)"] /\ map snd (shapes s) = ["m in R"; "b in R"] /\ map snd (defs s) = ["a ~ N(m, b**2) in R"; "y ~ N((a * a), b**2) in R**(N^y_0)"]
  | Raise => False end.
Proof. vm_compute. repeat split; reflexivity. Qed.
Example C67_case_succeeds : exists r, print_graph false (fun t => t) eg_name [0; 1; 2; 3; 4; 5] eg [5] = Val r.
Proof.
  apply C67_succeeds with (free := ["a"; "b"; "c"]).
  - exact eg_acyclic.
  - intros v _ K N. do 6 (destruct v as [|v]; [cbn; tauto|]). destruct K as [[]|[]].
  - intros v n _ _ N. do 6 (destruct v as [|v]; [first [discriminate|injection N as <-; intros [|[|i]]; discriminate]|]). discriminate.
  - repeat constructor; cbn; intuition discriminate.
  - intros x H. split; [destruct H as [<-|[<-|[<-|[]]]]; vm_compute; tauto|]. intros (u & _ & E). do 6 (destruct u as [|u]; [first [discriminate|injection E as E; subst x; cbn in H; intuition discriminate]|]). discriminate.
  - intros l Nl Hl. change (List.length ["a"; "b"; "c"]) with (List.length [1; 2; 3]). apply NoDup_incl_length; [exact Nl|]. intros v Hv. destruct (Hl v Hv) as [_ [K U]].
    do 6 (destruct v as [|v]; [cbn in *; first [tauto|destruct U as [U|U]; discriminate|destruct K as [[]|[]]]|]). destruct K as [[]|[]].
Qed.
Example C68_case : dist_line true "X" "\operatorname{N}" ["0"; "{1}^{2}"] KFloat [Some 2; None] = Val "X \sim \operatorname{N}\left(0, {1}^{2}\right)\,  \in \mathbb{R}^{2 \times N^{X}_{1}}".
Proof. vm_compute. reflexivity. Qed.
