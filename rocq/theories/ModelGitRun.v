(** Running git for the version: run_command, the five calls of
    git_pieces_from_vcs and the dictionary that get_versions returns.
    /repo/aeppl/_version.py 70-102, 218-310, 450-525. *)
From Coq Require Import List Arith ZArith Ascii String Bool.
From Verif Require Import ModelVersion ModelKeywords.
Import ListNotations.
Open Scope list_scope.

(** subprocess.Popen and communicate (_version.py:79-82, 96): there is no such
    program (ENOENT); another EnvironmentError; a process with this return code
    and this output *)
Inductive spawn := Absent | Broken | Ran (rc : Z) (out : str).
(** _version.py:70-102.  The output is stripped as a text: bytes.strip leaves
    the separators 28-31, which the callers strip themselves. *)
Fixpoint run_command (commands : list str) (exec : str -> spawn) : option str * option Z :=
  match commands with
  | [] => (None, None)
  | c :: commands =>
      match exec c with
      | Absent => run_command commands exec
      | Broken => (None, None)
      | Ran rc out => if (rc =? 0)%Z then (Some (strip space out), Some rc) else (None, Some rc)
      end
  end.
(** the calls in _version.py:230, 239, 247, 298 and 303 *)
Inductive call := GitDir | DescribeHead | RevParseHead | CountHead | ShowDate.
(** int(s): digits only; signs and underscores, which git does not print, are left out *)
Definition as_int (s : str) : option nat :=
  match strip space s with [] => None | s => if forallb digit s then Some (int s) else None end.

(** _version.py:218-310: NotThisMethod; another exception; the pieces with "long" and "date" *)
Inductive vcs_pieces := Not_vcs | Crash | Info (p : parsed) (long : str) (date : option str).
Section Git.
Variable gits : list str.                        (* _version.py:226-228 *)
Variable sys : call -> str -> spawn.
Definition output (c : call) : option str := fst (run_command gits (sys c)).
(** 230-310.  The pieces without the count are those of
    [ModelVersion.git_pieces_from_vcs]; 294-300: the commits are counted when
    there is no tag; 298-300: int(None) is a TypeError; 303: None.strip() an
    AttributeError; 307: an IndexError.  With an error in the pieces (274-288) the
    date is not asked for. *)
Definition run_pieces (tag_prefix : str) : vcs_pieces :=
  match snd (run_command gits (sys GitDir)) with
  | Some 0%Z =>
      match output DescribeHead, output RevParseHead with
      | Some d, Some f =>
          let full_out := strip space f in
          match git_pieces_from_vcs tag_prefix (strip space d) full_out 0 with
          | Parsed p =>
              match match closest p with Some _ => Some (distance p) | None => match output CountHead with Some c => as_int c | None => None end end with
              | None => Crash
              | Some n =>
                  match output ShowDate with
                  | None => Crash
                  | Some t => match iso_date (strip space t) with
                              | None => Crash
                              | Some t => Info (Parsed (Pieces (closest p) n (short p) (dirty p))) full_out (Some t)
                              end
                  end
              end
          | r => Info r full_out None
          end
      | _, _ => Not_vcs
      end
  | _ => Not_vcs
  end.
End Git.

(** the dictionaries in _version.py:208-216, 117-119, 452-457, 477-479, 501-504, 522-525 *)
Record info := Version { i_version : str; i_revision : option str; i_dirty : option bool; i_error : bool; i_date : option str }.
(** _version.py:160-215 for the keywords of the module (20-30), all of them set;
    None: NotThisMethod; Some None: IndexError *)
Definition from_keywords (refnames full date tag_prefix : str) : option (option info) :=
  match iso_date date with
  | None => Some None
  | Some iso =>
      match git_versions_from_keywords refnames tag_prefix with
      | None => None
      | Some v =>
          let tag := keyword_tag refnames tag_prefix in
          Some (Some (Version v (Some (strip space full)) (Some false) (match tag with Some _ => false | None => true end) (match tag with Some _ => Some iso | None => None end)))
      end
  end.
(** _version.py:450-479, the default style; 482-525: None for an exception that is
    not NotThisMethod.  [file] is the path of _version.py, last component first. *)
Definition get_version_info (gits : list str) (sys : call -> str -> spawn) (refnames full date : str) (file : list str) : option info :=
  match from_keywords refnames full date (q "v") with
  | Some r => r
  | None =>
      match run_pieces gits sys (q "v") with
      | Crash => None
      | Info (Parsed p) long date => Some (Version (render_pep440 p) (Some long) (Some (dirty p)) false date)
      | Info _ long _ => Some (Version (q "unknown") (Some long) None true None)
      | Not_vcs =>
          match versions_from_parentdir 3 (q "aeppl-") (tl (tl file)) with
          | Some v => Some (Version v None (Some false) false None)
          | None => Some (Version (q "0+unknown") None None true None)
          end
      end
  end.
