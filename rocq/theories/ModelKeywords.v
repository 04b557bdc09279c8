(** git_get_keywords (aeppl/_version.py:130-156, versioneer.py:940-966): the
    keywords that setup.py reads from the text of _version.py; and the dates. *)
From Coq Require Import List Arith Ascii String Bool.
From Verif Require Import ModelVersion.
Import ListNotations.
Open Scope char_scope.
Open Scope list_scope.

(** the double quote and the line feed *)
Definition dq : ascii := ascii_of_nat 34.
Definition lf : ascii := ascii_of_nat 10.
(** _version.py:142, 146, 150: the group (.* ) of the pattern at the start of
    [s]: all characters up to the last quote before a line feed *)
Fixpoint up_to_last (s : str) : option str :=
  match s with
  | [] => None
  | c :: t =>
      if c =? lf then None
      else match up_to_last t with Some g => Some (c :: g) | None => if c =? dq then Some [] else None end
  end.
(** _version.py:142, 146, 150: re.search for an equals sign, white space and a
    quoted text; the group of the first match.  A quote is no white space, so
    that the pattern takes all of the white space. *)
Fixpoint quoted (s : str) : option str :=
  match s with
  | [] => None
  | c :: t =>
      match (if c =? "=" then match lstrip space t with d :: u => if d =? dq then up_to_last u else None | [] => None end else None) with
      | Some g => Some g
      | None => quoted t
      end
  end.
(** _version.py:141-144: one line and one keyword; [name] is git_refnames,
    git_full or git_date *)
Definition read_line (name line : str) : option str :=
  match after (name ++ q " =") (strip space line) with Some _ => quoted line | None => None end.
(** _version.py:137-156: a later line overwrites an earlier one; a file that
    cannot be opened is the empty one.  The lines are those of [readlines]. *)
Definition get_keyword (name : str) (lines : list str) : option str :=
  fold_left (fun k line => match read_line name line with Some v => Some v | None => k end) lines None.
Record keywords := Keywords { refnames : option str; full : option str; date : option str }.
Definition git_get_keywords (lines : list str) : keywords :=
  Keywords (get_keyword (q "git_refnames") lines) (get_keyword (q "git_full") lines) (get_keyword (q "git_date") lines).

(** str.splitlines()[-1] (_version.py:168, 313): None for the IndexError of an
    empty text.  Only line feeds separate lines here. *)
Fixpoint first_line (s : str) : str := match s with [] => [] | c :: t => if c =? lf then [] else c :: first_line t end.
Definition last_line (s : str) : option str :=
  match rev s with [] => None | c :: t => Some (rev (first_line (if c =? lf then t else c :: t))) end.
(** str.replace(old, new, 1) of a single character *)
Fixpoint replace1 (old : ascii) (new : str) (s : str) : str :=
  match s with [] => [] | c :: t => if c =? old then new ++ t else c :: replace1 old new t end.
(** _version.py:164-176, 311-314: the date *)
Definition iso_date (d : str) : option str :=
  option_map (fun l => replace1 " " [] (replace1 " " (q "T") (strip space l))) (last_line d).

(** _version.py:178-211: the tag that gives the version, if there is one; the
    same computation as in [git_versions_from_keywords] of ModelVersion *)
Definition keyword_tag (refnames tag_prefix : str) : option str :=
  let refs := map (strip space) (split (strip (fun c => (c =? "(") || (c =? ")")) (strip space refnames))) in
  first_tag tag_prefix (sort (match tag_list refs with [] => filter (existsb digit) refs | ts => ts end)).
(** what [git_versions_from_keywords] (_version.py:160-215) returns for the
    keywords of a file (versioneer.py:1433-1443, setup.py): the version, the
    full revision and the date, which is left out without a suitable tag *)
Inductive outcome := Not_this_method | Failed | Found (v rev : str) (d : option str).
Definition versions_from_file_keywords (lines : list str) (tag_prefix : str) : outcome :=
  let k := git_get_keywords lines in
  match refnames k, full k, date k with
  | None, None, None => Not_this_method
  | r, f, d =>
      match match d with Some d => option_map Some (iso_date d) | None => Some None end with
      | None => Failed (* IndexError *)
      | Some iso =>
          match r with
          | None => Failed (* KeyError *)
          | Some r =>
              match git_versions_from_keywords r tag_prefix, f with
              | None, _ => Not_this_method
              | Some _, None => Failed (* KeyError *)
              | Some v, Some f => Found v (strip space f) (match keyword_tag r tag_prefix with Some _ => iso | None => None end)
              end
          end
      end
  end.
