(** Lemmas on the printed lines. *)
From Coq Require Import List Arith Bool String Ascii Lia Decimal DecimalNat DecimalString.
From Verif Require Import XR ModelVec ModelPrint ModelPrint2 SpecPrint SpecPrint2.
Import ListNotations.
Open Scope nat_scope.
Open Scope string_scope.

Lemma mem_app c a b : mem_char c (a ++ b) = mem_char c a || mem_char c b.
Proof. induction a as [|d a IH]; cbn; [reflexivity|]. now rewrite IH, orb_assoc. Qed.
Lemma lacks_iff c s : lacks c s <-> mem_char c s = false.
Proof.
  unfold lacks. induction s as [|d s IH]; cbn [mem_char]; [split; [reflexivity|intros _ i; destruct i; discriminate]|]. rewrite orb_false_iff, <- IH. split.
  - intros H. split; [|intros i; exact (H (S i))]. apply Ascii.eqb_neq. intros ->. exact (H 0 eq_refl).
  - intros [H1 H2] [|i]; cbn; [|apply H2]. intros [= ->]. now rewrite Ascii.eqb_refl in H1.
Qed.
Lemma mem_concat c sep l : mem_char c sep = false -> mem_char c (concat sep l) = existsb (mem_char c) l.
Proof.
  intros H. induction l as [|x l IH]; [reflexivity|]. destruct l as [|y l]; [cbn; now rewrite orb_false_r|]. change (concat sep (x :: y :: l)) with (x ++ sep ++ concat sep (y :: l)). rewrite !mem_app, H, IH. reflexivity.
Qed.
Lemma dec_plain n : mem_char "%" (dec n) = false.
Proof. unfold dec. generalize (Nat.to_uint n). intros u. induction u; cbn; auto. Qed.
Lemma dec_nonempty n : dec n <> "".
Proof.
  unfold dec. intros H. assert (E : Nat.to_uint n = Nil) by (destruct (Nat.to_uint n); try discriminate; reflexivity). pose proof (Unsigned.of_to n) as Q. rewrite E in Q. cbn in Q. subst n. discriminate.
Qed.
Lemma lstrip_app n a b : (forall c, mem_char c a = true -> mem_char c n = true) -> lstrip n (a ++ b) = lstrip n b.
Proof.
  induction a as [|d a IH]; intros H; [reflexivity|]. cbn [append lstrip]. rewrite (H d) by (cbn; now rewrite Ascii.eqb_refl). apply IH. intros c Hc. apply H. cbn. now rewrite Hc, orb_true_r.
Qed.
Lemma lstrip_own n b : lstrip n (n ++ b) = lstrip n b.
Proof. now apply lstrip_app. Qed.
Lemma lstrip_len n s : String.length (lstrip n s) <= String.length s.
Proof. induction s as [|c s IH]; cbn; [lia|]. destruct (mem_char c n); cbn; lia. Qed.
Lemma lstrip_mem c n s : mem_char c s = false -> mem_char c (lstrip n s) = false.
Proof. induction s as [|d s IH]; cbn [lstrip mem_char]; [auto|]. intros H. destruct (mem_char d n); [|exact H]. apply orb_false_iff in H as [_ H]. auto. Qed.
(** ** percent *)
Lemma percent_plain c r args : c <> "%"%char -> percent (String c r) args = rmap (String c) (percent r args).
Proof. intros H. destruct c as [[] [] [] [] [] [] [] []]; try reflexivity. now contradiction H. Qed.
Lemma percent_lacks s : mem_char "%" s = false -> percent s [] = Val s.
Proof.
  induction s as [|c s IH]; [reflexivity|]. cbn [mem_char]. intros H. apply orb_false_iff in H as [H1 H2]. rewrite percent_plain by (intros ->; discriminate). now rewrite IH.
Qed.
Lemma percent_len : forall k s r, String.length s <= k -> percent s [] = Val r -> String.length r <= String.length s /\ (mem_char "%" s = true -> String.length r < String.length s).
Proof.
  induction k as [|k IH]; intros s r L E.
  - destruct s; [|cbn in L; lia]. cbn in E. injection E as <-. split; [lia|discriminate].
  - destruct s as [|c s]; [cbn in E; injection E as <-; split; [lia|discriminate]|]. cbn [String.length] in L. destruct (ascii_dec c "%") as [->|N].
    + destruct s as [|d s]; [discriminate|]. destruct (ascii_dec d "s") as [->|Ns]; [discriminate|]. destruct (ascii_dec d "%") as [->|N2].
      * cbn [percent] in E. destruct (percent s []) as [t|] eqn:Es; [|discriminate]. cbn [rmap bind] in E. injection E as <-. cbn [String.length] in *. destruct (IH s t ltac:(lia) Es). split; [lia|intros _; lia].
      * exfalso. destruct d as [[] [] [] [] [] [] [] []]; cbn in E; try discriminate; now (contradiction Ns || contradiction N2).
    + rewrite percent_plain in E by exact N. destruct (percent s []) as [t|] eqn:Es; [|discriminate]. cbn [rmap bind] in E. injection E as <-. cbn [String.length mem_char]. destruct (IH s t ltac:(lia) Es) as [I1 I2]. split; [lia|].
      intros H. apply orb_true_iff in H as [H|H]; [apply Ascii.eqb_eq in H; congruence|]. apply I2 in H. lia.
Qed.
(** ** the space of a variable *)
Definition space (latex : bool) (name : string) (k : kind) (dims : list (option nat)) : string :=
  if latex then "\in \mathbb{" ++ meant_set k ++ "}" ++ (match dims with [] => "" | _ => "^{" ++ concat " \times " (meant_dims latex name dims) ++ "}" end)
  else "in " ++ meant_set k ++ (match dims with [] => "" | _ => "**(" ++ concat " x " (meant_dims latex name dims) ++ ")" end).
Lemma dims_meant latex name dims i : shape_dims latex name i dims =
  map (fun '(i, d) => match d with Some n => dec n | None => if latex then "N^{" ++ name ++ "}_{" ++ dec i ++ "}" else "N^" ++ name ++ "_" ++ dec i end) (combine (seq i (List.length dims)) dims).
Proof. revert i; induction dims as [|d dims IH]; intros i; [reflexivity|]. cbn [shape_dims List.length seq combine map]. now rewrite IH. Qed.
Lemma app_assoc_s a b c : (a ++ b) ++ c = a ++ (b ++ c).
Proof. induction a as [|x a IH]; cbn; [reflexivity|]. now rewrite IH. Qed.
Lemma concat_nonempty sep l : l <> [] -> (forall x, In x l -> x <> "") -> concat sep l <> "".
Proof. destruct l as [|x [|y l]]; intros N H; [easy| |]; cbn [concat]; [apply H; now left|]. specialize (H x (or_introl eq_refl)). destruct x; easy. Qed.
Lemma shape_meant latex name k dims : shape_info latex name k dims = name ++ " " ++ space latex name k dims.
Proof.
  unfold shape_info, space. cbv zeta. rewrite dims_meant. fold (meant_dims latex name dims). destruct latex.
  - destruct dims as [|d dims]; [reflexivity|]. set (m := meant_dims true name (d :: dims)). assert (E : concat " \times " m <> "").
    { apply concat_nonempty; [discriminate|]. intros x H. unfold m, meant_dims in H. apply in_map_iff in H as ([i o] & <- & _). destruct o; [apply dec_nonempty|discriminate]. }
    destruct (concat " \times " m); [easy|reflexivity].
  - destruct dims as [|d dims]; reflexivity.
Qed.
Lemma meant_space latex name op params k dims : meant latex name op params k dims =
  if latex then name ++ " \sim " ++ op ++ "\left(" ++ concat ", " params ++ "\right)\,  " ++ space latex name k dims
  else name ++ " ~ " ++ op ++ "(" ++ concat ", " params ++ ") " ++ space latex name k dims.
Proof. unfold meant, space. destruct latex; reflexivity. Qed.
Lemma space_percent latex name k dims : mem_char "%" (space latex name k dims) = mem_char "%" name && existsb (fun d => match d with None => true | _ => false end) dims.
Proof.
  assert (D : existsb (mem_char "%") (meant_dims latex name dims) = mem_char "%" name && existsb (fun d => match d with None => true | _ => false end) dims).
  { unfold meant_dims. generalize 0. induction dims as [|d dims IH]; intros i; cbn [List.length seq combine map existsb]; [now rewrite andb_false_r|]. rewrite IH. destruct d as [n|]; [now rewrite dec_plain|].
    assert (Q : mem_char "%" (if latex then "N^{" ++ name ++ "}_{" ++ dec i ++ "}" else "N^" ++ name ++ "_" ++ dec i) = mem_char "%" name) by (destruct latex; cbn [append mem_char]; rewrite !mem_app; cbn [append mem_char]; rewrite ?mem_app, dec_plain; cbn; now rewrite orb_false_r).
    rewrite Q. destruct (mem_char "%" name); reflexivity. }
  assert (K : mem_char "%" (meant_set k) = false) by (destruct k; reflexivity).
  unfold space. destruct latex; cbn [append mem_char]; rewrite ?mem_app, K; cbn [append mem_char]; (destruct dims as [|d dims]; [cbn; now rewrite andb_false_r|]); cbn [append mem_char]; rewrite mem_app, mem_concat, D by reflexivity; cbn; now rewrite orb_false_r.
Qed.
(** ** the line *)
Lemma line_percent latex name op params k dims : dist_line latex name op params k dims =
  rmap (fun t => if latex then name ++ " \sim " ++ op ++ "\left(" ++ concat ", " params ++ "\right)\, " ++ t else name ++ " ~ " ++ op ++ "(" ++ concat ", " params ++ ")" ++ t)
    (percent (lstrip name (" " ++ space latex name k dims)) []).
Proof.
  unfold dist_line. cbv zeta. rewrite shape_meant, lstrip_own. generalize (lstrip name (" " ++ space latex name k dims)). intros info. generalize (concat ", " params). intros ps.
  destruct latex; cbn [append percent]; destruct (percent info []); reflexivity.
Qed.
Lemma length_app_s a b : String.length (a ++ b) = String.length a + String.length b.
Proof. induction a as [|x a IH]; cbn; [reflexivity|]. now rewrite IH. Qed.
Lemma line_exact latex name op params k dims :
  dist_line latex name op params k dims = Val (meant latex name op params k dims) <-> lacks " " name /\ (lacks "%" name \/ forall d, In d dims -> d <> None).
Proof.
  rewrite !lacks_iff, line_percent, meant_space. set (sp := space latex name k dims). split.
  - intros E. destruct (percent (lstrip name (" " ++ sp)) []) as [t|] eqn:P; [|discriminate]. cbn [rmap bind] in E. injection E as E.
    assert (L : String.length t = S (String.length sp)).
    { apply (f_equal String.length) in E. destruct latex; repeat (rewrite length_app_s in E; cbn [append String.length] in E); lia. }
    destruct (percent_len _ _ _ (le_n _) P) as [L1 L2]. pose proof (lstrip_len name (" " ++ sp)) as L3. change (" " ++ sp) with (String " " sp) in L1, L2, L3. cbn [String.length] in L3.
    destruct (mem_char " " name) eqn:Sn.
    { exfalso. cbn [lstrip] in L1. rewrite Sn in L1. pose proof (lstrip_len name sp). lia. }
    split; [reflexivity|]. cbn [lstrip] in L2. rewrite Sn in L2. cbn [mem_char String.length] in L2. destruct (mem_char "%" sp) eqn:Ps.
    { exfalso. assert (C : true = true) by reflexivity. rewrite orb_true_r in L2. apply L2 in C. lia. }
    unfold sp in Ps. rewrite space_percent in Ps. apply andb_false_iff in Ps as [Ps|Ps]; [now left|]. right. intros d Hd ->. assert (existsb (fun d => match d with None => true | _ => false end) dims = true); [apply existsb_exists; now exists None|congruence].
  - intros [Sn H]. change (" " ++ sp) with (String " " sp). cbn [lstrip]. rewrite Sn. rewrite percent_lacks.
    + cbn [rmap bind]. destruct latex; reflexivity.
    + cbn [mem_char]. unfold sp. rewrite space_percent. destruct H as [-> | H]; [reflexivity|]. replace (existsb _ dims) with false; [now rewrite andb_false_r|]. symmetry. apply not_true_is_false. intros C. apply existsb_exists in C as (d & Hd & C). specialize (H d Hd). destruct d; easy.
Qed.
Lemma line_total latex n op ps k dims : mem_char "%" n = false -> exists line, dist_line latex n op ps k dims = Val line.
Proof.
  intros H. rewrite line_percent, percent_lacks; [eexists; reflexivity|]. apply lstrip_mem. cbn [append mem_char]. rewrite space_percent, H. reflexivity.
Qed.
