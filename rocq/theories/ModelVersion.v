(** The version string of the package: /repo/aeppl/_version.py.  Strings are
    lists of characters; the outputs of git are inputs of the model; dates and
    the messages printed when verbose are not modelled. *)
From Coq Require Import List Arith Ascii String Bool.
Import ListNotations.
Open Scope char_scope.

Definition str := list ascii.
(** a string literal *)
Definition q (s : string) : str := list_ascii_of_string s.
(** [s.startswith(p)] with the rest, [s[len(p):]] *)
Fixpoint after (p s : str) : option str :=
  match p, s with
  | [], _ => Some s
  | c :: p, d :: s => if c =? d then after p s else None
  | _ :: _, [] => None
  end.
(** [s.endswith(p)] with the part before it, [s[:s.rindex(p)]] *)
Definition before (p s : str) : option str := option_map (@rev ascii) (after (rev p) (rev s)).
(** a character in [\d], in [[0-9a-f]] *)
Definition digit (c : ascii) : bool := let n := nat_of_ascii c in (48 <=? n)%nat && (n <=? 57)%nat.
Definition hexdigit (c : ascii) : bool := let n := nat_of_ascii c in digit c || ((97 <=? n)%nat && (n <=? 102)%nat).
(** ["%d" % n] *)
Fixpoint dec_from (fuel n : nat) : str :=
  match fuel with
  | 0 => []
  | S fuel => (if (n <? 10)%nat then [] else dec_from fuel (n / 10)) ++ [ascii_of_nat (48 + n mod 10)]
  end.
Definition dec (n : nat) : str := dec_from (S n) n.
(** [int(s)] *)
Definition int (s : str) : nat := fold_left (fun n c => 10 * n + (nat_of_ascii c - 48)) s 0.

(** [(\d+)-g([0-9a-f]+)$]: the digits, then the commit *)
Fixpoint span (s : str) : str * str :=
  match s with
  | c :: t => if digit c then let (d, r) := span t in (c :: d, r) else ([], s)
  | [] => ([], [])
  end.
Definition tail (s : str) : option (str * str) :=
  match span s with
  | (c :: d, "-" :: "g" :: h :: t) => if forallb hexdigit (h :: t) then Some (c :: d, h :: t) else None
  | _ => None
  end.
(** _version.py:269, [re.search(r'^(.+)-(\d+)-g([0-9a-f]+)$', s)]: the first
    group is the longest possible; names of git refs have no control characters *)
Fixpoint search (nonempty : bool) (s : str) : option (str * str * str) :=
  match s with
  | [] => None
  | c :: s =>
      match search true s with
      | Some (t, d, h) => Some (c :: t, d, h)
      | None => if nonempty && (c =? "-") then option_map (fun p => ([], fst p, snd p)) (tail s) else None
      end
  end.

(** the dictionary of _version.py:248-310 without "long" and "date" *)
Record pieces := Pieces { closest : option str; distance : nat; short : str; dirty : bool }.
Inductive parsed := Unparseable (s : str) | Wrong_prefix (tag : str) | Parsed (p : pieces).
(** _version.py:219-310; [describe_out] and [full_out] are the outputs of
    "git describe" and "git rev-parse HEAD", [count] that of "git rev-list --count" *)
Definition git_pieces_from_vcs (tag_prefix describe_out full_out : str) (count : nat) : parsed :=
  let (git_describe, d) := match before (q "-dirty") describe_out with Some s => (s, true) | None => (describe_out, false) end in
  if existsb (fun c => c =? "-") git_describe then
    match search false git_describe with
    | None => Unparseable describe_out
    | Some (full_tag, n, h) =>
        match after tag_prefix full_tag with
        | None => Wrong_prefix full_tag
        | Some t => Parsed (Pieces (Some t) (int n) h d)
        end
    end
  else Parsed (Pieces None count (firstn 7 full_out) d).

(** [if pieces["closest-tag"]] *)
Definition tagged (p : pieces) : option str := match closest p with Some (c :: t) => Some (c :: t) | _ => None end.
(** [pieces["distance"] or pieces["dirty"]] *)
Definition moved (p : pieces) : bool := negb (distance p =? 0)%nat || dirty p.
Definition opt (b : bool) (s : str) : str := if b then s else [].
(** _version.py:313-317 *)
Definition plus_or_dot (tag : str) : str := if existsb (fun c => c =? "+") tag then q "." else q "+".
(** _version.py:320-342 *)
Definition render_pep440 (p : pieces) : str :=
  match tagged p with
  | Some t => t ++ opt (moved p) (plus_or_dot t ++ dec (distance p) ++ q ".g" ++ short p ++ opt (dirty p) (q ".dirty"))
  | None => q "0+untagged." ++ dec (distance p) ++ q ".g" ++ short p ++ opt (dirty p) (q ".dirty")
  end.
(** _version.py:345-358 *)
Definition render_pep440_pre (p : pieces) : str :=
  match tagged p with
  | Some t => t ++ opt (negb (distance p =? 0)%nat) (q ".post0.dev" ++ dec (distance p))
  | None => q "0.post0.dev" ++ dec (distance p)
  end.
(** _version.py:361-385 *)
Definition render_pep440_post (p : pieces) : str :=
  match tagged p with
  | Some t => t ++ opt (moved p) (q ".post" ++ dec (distance p) ++ opt (dirty p) (q ".dev0") ++ plus_or_dot t ++ q "g" ++ short p)
  | None => q "0.post" ++ dec (distance p) ++ opt (dirty p) (q ".dev0") ++ q "+g" ++ short p
  end.
(** _version.py:388-407 *)
Definition render_pep440_old (p : pieces) : str :=
  match tagged p with
  | Some t => t ++ opt (moved p) (q ".post" ++ dec (distance p) ++ opt (dirty p) (q ".dev0"))
  | None => q "0.post" ++ dec (distance p) ++ opt (dirty p) (q ".dev0")
  end.
(** _version.py:410-427 *)
Definition render_git_describe (p : pieces) : str :=
  match tagged p with
  | Some t => t ++ opt (negb (distance p =? 0)%nat) (q "-" ++ dec (distance p) ++ q "-g" ++ short p)
  | None => short p
  end ++ opt (dirty p) (q "-dirty").
(** _version.py:430-447 *)
Definition render_git_describe_long (p : pieces) : str :=
  match tagged p with
  | Some t => t ++ q "-" ++ dec (distance p) ++ q "-g" ++ short p
  | None => short p
  end ++ opt (dirty p) (q "-dirty").
(** _version.py:450-479; an unknown style raises ValueError (None) *)
Inductive style := Default | Pep440 | Pre | Post | Old | Describe | DescribeLong | Unknown.
Definition render_pieces (p : pieces) (s : style) : option str :=
  match s with
  | Default | Pep440 => Some (render_pep440 p) | Pre => Some (render_pep440_pre p) | Post => Some (render_pep440_post p)
  | Old => Some (render_pep440_old p) | Describe => Some (render_git_describe p) | DescribeLong => Some (render_git_describe_long p)
  | Unknown => None
  end.
(** "version" of the result; pieces with an error give "unknown" *)
Definition render (r : parsed) (s : style) : option str :=
  match r with Parsed p => render_pieces p s | _ => Some (q "unknown") end.

(** [s.strip(cs)] *)
Fixpoint lstrip (f : ascii -> bool) (s : str) : str := match s with c :: t => if f c then lstrip f t else s | [] => [] end.
Definition strip (f : ascii -> bool) (s : str) : str := rev (lstrip f (rev (lstrip f s))).
(** [str.isspace] on ASCII *)
Definition space (c : ascii) : bool := let n := nat_of_ascii c in ((9 <=? n) && (n <=? 13) || (28 <=? n) && (n <=? 32))%nat.
(** [s.split(",")] *)
Fixpoint split (s : str) : list str :=
  match s with
  | [] => [[]]
  | c :: t => if c =? "," then [] :: split t else match split t with w :: ws => (c :: w) :: ws | [] => [[c]] end
  end.
(** [<=] on strings, by code points, and [sorted] *)
Fixpoint leb (s t : str) : bool :=
  match s, t with
  | [], _ => true
  | _ :: _, [] => false
  | c :: s, d :: t => if c =? d then leb s t else (nat_of_ascii c <? nat_of_ascii d)%nat
  end.
Fixpoint insert (s : str) (l : list str) : list str :=
  match l with [] => [s] | t :: m => if leb s t then s :: l else t :: insert s m end.
Definition sort (l : list str) : list str := fold_right insert [] l.
Definition tag_list (refs : list str) : list str :=
  flat_map (fun r => match after (q "tag: ") r with Some t => [t] | None => [] end) refs.
Fixpoint first_tag (tag_prefix : str) (l : list str) : option str :=
  match l with [] => None | r :: l => match after tag_prefix r with Some t => Some t | None => first_tag tag_prefix l end end.
(** _version.py:160-215: "version" for the expanded keyword "refnames"; None for
    NotThisMethod.  The sets are lists: a ref that occurs twice changes nothing. *)
Definition git_versions_from_keywords (refnames tag_prefix : str) : option str :=
  let refnames := strip space refnames in
  match after (q "$Format") refnames with
  | Some _ => None
  | None =>
      let refs := map (strip space) (split (strip (fun c => (c =? "(") || (c =? ")")) refnames)) in
      let tags := match tag_list refs with [] => filter (existsb digit) refs | ts => ts end in
      Some (match first_tag tag_prefix (sort tags) with Some r => r | None => q "0+unknown" end)
  end.
(** _version.py:105-127; [root] lists the path components, the last one first;
    [os.path.dirname] of the root directory is itself *)
Fixpoint versions_from_parentdir (fuel : nat) (parentdir_prefix : str) (root : list str) : option str :=
  match fuel with
  | 0 => None
  | S fuel =>
      match after parentdir_prefix (hd [] root) with
      | Some v => Some v
      | None => versions_from_parentdir fuel parentdir_prefix (tl root)
      end
  end.
(** _version.py:482-525 with the configuration of 37-48; [vcs] is None outside
    of a git checkout, [file] the path of _version.py *)
Definition get_versions (refnames : str) (vcs : option (str * str * nat)) (file : list str) : str :=
  match git_versions_from_keywords refnames (q "v") with
  | Some v => v
  | None =>
      let root := tl (tl file) in
      match vcs with
      | Some (describe_out, full_out, count) =>
          match render (git_pieces_from_vcs (q "v") describe_out full_out count) Pep440 with Some v => v | None => q "0+unknown" end
      | None =>
          match versions_from_parentdir 3 (q "aeppl-") root with Some v => v | None => q "0+unknown" end
      end
  end.
