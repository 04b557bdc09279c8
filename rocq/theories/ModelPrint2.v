(** Pretty printing of whole models: the definitions of the random variables
    and the shapes in the preamble, /repo/aeppl/printing.py 61-199, 252-417,
    475-545.
    Simplifications: numbers stand for variables, an input has a smaller number;
    which printer serves which operation is given by the kind of the node
    (Aesara's dispatch is not modelled); the texts of deterministic operations
    are given by a function of the texts of their inputs; the random generators
    and their empty texts are left out.  Assignments that repeat what is in the
    memo already (192, 316) are left out. *)
From Coq Require Import List Arith Bool String Ascii DecimalString.
From Verif Require Import XR ModelVec ModelPrint.
Import ListNotations.
Open Scope nat_scope.
Open Scope string_scope.

(** ** Strings *)
Fixpoint mem_char (c : ascii) (s : string) : bool := match s with EmptyString => false | String d s => Ascii.eqb c d || mem_char c s end.
(** [s.lstrip(chars)]: leading characters that occur in [chars] are removed *)
Fixpoint lstrip (chars s : string) : string :=
  match s with EmptyString => EmptyString | String c r => if mem_char c chars then lstrip chars r else s end.
(** [fmt % args] with string arguments.  Conversions other than [%s] and [%%]
    raise: here they can only come after the last argument is used. *)
Fixpoint percent (fmt : string) (args : list string) : res string :=
  match fmt with
  | EmptyString => match args with [] => Val EmptyString | _ => Raise end
  | String "%" (String "s" r) => match args with a :: args => rmap (fun t => a ++ t) (percent r args) | [] => Raise end
  | String "%" (String "%" r) => rmap (String "%") (percent r args)
  | String "%" _ => Raise
  | String c r => rmap (String c) (percent r args)
  end.
(** [str] of a non-negative integer *)
Definition dec (n : nat) : string := NilEmpty.string_of_uint (Nat.to_uint n).

(** ** Shapes (printing.py:353-417) *)
Inductive kind := KInt | KUint | KFloat | KOther.
(** 357-364 *)
Definition space_char (k : kind) : string := match k with KInt => "Z" | KUint => "N" | KFloat => "R" | KOther => "?" end.
(** 371-403: [dims] are the lengths of the axes, where the shape feature knows them *)
Fixpoint shape_dims (latex : bool) (name : string) (i : nat) (dims : list (option nat)) : list string :=
  match dims with
  | [] => []
  | d :: dims =>
      (match d with
       | Some n => dec n
       | None => if latex then "N^{" ++ name ++ "}_{" ++ dec i ++ "}" else "N^" ++ name ++ "_" ++ dec i
       end) :: shape_dims latex name (S i) dims
  end.
(** 405-417 *)
Definition shape_info (latex : bool) (name : string) (k : kind) (dims : list (option nat)) : string :=
  let ds := shape_dims latex name 0 dims in
  if latex
  then let t := concat " \times " ds in name ++ " \in \mathbb{" ++ space_char k ++ "}" ++ (match t with EmptyString => "" | _ => "^{" ++ t ++ "}" end)
  else name ++ " in " ++ space_char k ++ (match ds with [] => "" | _ => "**(" ++ concat " x " ds ++ ")" end).

(** ** A random variable's line (printing.py:148-186) *)
Definition dist_line (latex : bool) (name op : string) (params : list string) (k : kind) (dims : list (option nat)) : res string :=
  let fmt := if latex then "%s \sim %s\left(%s\right)" else "%s ~ %s(%s)" in
  let info := lstrip name (shape_info latex name k dims) in
  let fmt := if latex then fmt ++ "\, " ++ info else fmt ++ info in
  percent fmt [name; op; concat ", " params].

(** ** Variables *)
Inductive pnode : Type :=
| PConst (text : string)                                    (* 282-287 *)
| PNamed (k : kind) (dims : list (option nat))              (* 288-312 *)
| PExpr (text : list string -> string) (inputs : list nat)  (* Aesara's operator printers *)
| PRv (op : string) (pp : nat -> string -> string) (k : kind) (dims : list (option nat)) (params : list nat). (* 102-199; [pp]: process_param, 85-100, 640-647 *)
Record pst := { names : pstate; shapes : list (nat * string); defs : list (nat * string) }.
Definition known (v : nat) (s : pst) : option string := lookup v (memo (names s)).
Definition remember (v : nat) (t : string) (s : pst) : pst :=
  {| names := {| memo := (v, t) :: memo (names s); available := available (names s) |}; shapes := shapes s; defs := defs s |}.
(** one text after the other, left to right *)
Fixpoint in_order (f : nat -> pst -> res (string * pst)) (l : list nat) (s : pst) : res (list string * pst) :=
  match l with
  | [] => Val ([], s)
  | v :: l => bind (f v s) (fun '(t, s) => bind (in_order f l s) (fun '(ts, s) => Val (t :: ts, s)))
  end.
Fixpoint mapi (f : nat -> string -> string) (i : nat) (l : list string) : list string :=
  match l with [] => [] | x :: l => f i x :: mapi f (S i) l end.
Section P.
  Variables (latex : bool) (tidy : string -> string) (* 176-179, rounding of numbers *)
    (name : nat -> option string) (variables : list nat) (g : nat -> pnode).
  (** VariableWithShapePrinter.process_variable_name within the state (319-351) *)
  Definition naming (v : nat) (s : pst) : res (string * pst) :=
    bind (process_variable_name name variables v (names s)) (fun '(n, ps) => Val (n, {| names := ps; shapes := shapes s; defs := defs s |})).
  (** [pprinter.process]; the fuel bounds the depth *)
  Fixpoint process (fuel v : nat) (s : pst) : res (string * pst) :=
    match known v s with
    | Some t => Val (t, s)                                           (* 103-104, 269-270 *)
    | None =>
        match fuel with
        | 0 => Raise
        | S fuel =>
            match g v with
            | PConst t => Val (t, remember v t s)
            | PNamed k dims =>
                bind (naming v s) (fun '(n, s) =>
                Val (n, {| names := names s; shapes := shapes s ++ [(v, shape_info latex n k dims)]; defs := defs s |}))
            | PExpr text inputs =>
                bind (in_order (process fuel) inputs s) (fun '(ts, s) => let t := text ts in Val (t, remember v t s))
            | PRv op pp k dims params =>
                bind (naming v s) (fun '(n, s) =>                     (* 143-148; the shape is set and taken out again, 157-158 *)
                bind (in_order (process fuel) params s) (fun '(_, s) =>  (* 165-169 *)
                bind (in_order (process fuel) params s) (fun '(ts, s) => (* 173-180 *)
                bind (dist_line latex n op (map tidy (mapi pp 0 ts)) k dims) (fun line =>
                Val (n, {| names := names s; shapes := shapes s; defs := defs s ++ [(v, line)] |})))))   (* 194-197 *)
            end
        end
    end.
  (** 539-545: the outputs one after the other, in one state *)
  Definition print_graph (outs : list nat) : res (list string * pst) :=
    in_order (fun v => process (S v) v) outs {| names := initial; shapes := []; defs := [] |}.
End P.
