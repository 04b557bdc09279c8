(** Proofs for the version strings. *)
From Coq Require Import List Arith Ascii String Bool Lia.
From Verif Require Import ModelVersion SpecVersion.
Import ListNotations.
Open Scope char_scope.
Open Scope list_scope.

(** ** characters *)
Lemma asc c d : (c =? d) = true <-> c = d.
Proof. apply Ascii.eqb_eq. Qed.
Lemma inb c l : existsb (fun d => d =? c) l = true -> In c l.
Proof. intros H. apply existsb_exists in H. destruct H as (d & I & E). apply asc in E. now subst. Qed.
Ltac chars := match goal with H : In ?c _ |- _ => cbn in H; repeat (destruct H as [<-|H]; [try (apply inb; reflexivity); try reflexivity; try (repeat split; discriminate)|]); destruct H end.
Lemma digit_iff c : digit c = true <-> decimal c.
Proof.
  split.
  - intros H. apply inb. revert H. destruct c as [[] [] [] [] [] [] [] []]; vm_compute; auto.
  - unfold decimal. intros H. chars.
Qed.
Lemma hex_iff c : hexdigit c = true <-> lower_hex c.
Proof.
  split.
  - intros H. apply inb. revert H. destruct c as [[] [] [] [] [] [] [] []]; vm_compute; auto.
  - unfold lower_hex. intros H. chars.
Qed.
Lemma hex_alnum c : lower_hex c -> alphanumeric c.
Proof. unfold lower_hex, alphanumeric. intros H. chars. Qed.
Lemma dec_alnum c : decimal c -> alphanumeric c.
Proof. unfold decimal, alphanumeric. intros H. chars. Qed.
Lemma dec_hex c : decimal c -> lower_hex c.
Proof. unfold decimal, lower_hex. intros H. chars. Qed.
Lemma hex_not c : lower_hex c -> c <> "-" /\ c <> "+" /\ c <> "." /\ c <> "y".
Proof. unfold lower_hex. intros H. chars. Qed.
Lemma alnum_not c : alphanumeric c -> c <> "-" /\ c <> "+" /\ c <> ".".
Proof. unfold alphanumeric. intros H. chars. Qed.

(** ** numerals *)
Lemma nth_digit d : d < 10 -> nth d (lit "0123456789") "0" = ascii_of_nat (48 + d) /\ decimal (nth d (lit "0123456789") "0") /\
  nat_of_ascii (nth d (lit "0123456789") "0") = 48 + d.
Proof. intros H. do 10 (destruct d as [|d]; [split; [reflexivity|]; split; [apply inb; reflexivity|reflexivity]|]). lia. Qed.
Lemma written_number n s : written n s -> s <> [] /\ Forall decimal s.
Proof.
  induction 1 as [d D|n d s P D W (_ & IH)]; (split; [discriminate|]); constructor; auto; now apply nth_digit.
Qed.
Lemma written_pos n s : written n s -> 0 < n \/ exists c, s = [c].
Proof. intros H. inversion H; subst; [right; eauto|left; lia]. Qed.
Lemma dec_fuel n : forall f g, n < f -> n < g -> dec_from f n = dec_from g n.
Proof.
  induction n as [n IH] using lt_wf_ind. intros [|f] [|g] F G; try lia. cbn [dec_from].
  destruct (Nat.ltb_spec n 10); [reflexivity|]. f_equal.
  assert (D : n / 10 < n) by (apply Nat.div_lt; lia). apply IH; lia.
Qed.
Lemma dec_step n d : 0 < n -> d < 10 -> dec (10 * n + d) = dec n ++ [ascii_of_nat (48 + d)].
Proof.
  intros P D. unfold dec at 1. cbn [dec_from]. destruct (Nat.ltb_spec (10 * n + d) 10); [lia|].
  replace ((10 * n + d) / 10) with n by (apply Nat.div_unique with d; lia). replace ((10 * n + d) mod 10) with d by (apply Nat.mod_unique with n; lia).
  f_equal. apply dec_fuel; lia.
Qed.
Lemma dec_small d : d < 10 -> dec d = [ascii_of_nat (48 + d)].
Proof. intros D. unfold dec. cbn [dec_from]. destruct (Nat.ltb_spec d 10); [|lia]. now rewrite Nat.mod_small. Qed.
Lemma written_dec n s : written n s -> rev s = dec n.
Proof.
  induction 1 as [d D|n d s P D W IH].
  - rewrite dec_small by exact D. cbn. f_equal. now apply nth_digit.
  - rewrite dec_step by assumption. cbn. rewrite IH. do 2 f_equal. now apply nth_digit.
Qed.
Lemma dec_written n : written n (rev (dec n)).
Proof.
  induction n as [n IH] using lt_wf_ind. destruct (Nat.lt_ge_cases n 10) as [H|H].
  - rewrite dec_small by exact H. cbn [rev app]. rewrite <- (proj1 (nth_digit n H)). now constructor.
  - pose proof (Nat.div_mod n 10 ltac:(lia)) as E. set (m := n / 10) in *. set (d := n mod 10) in *.
    assert (D : d < 10) by (apply Nat.mod_upper_bound; lia). assert (P : 0 < m) by (apply Nat.div_str_pos; lia).
    rewrite E, dec_step by assumption. rewrite rev_app_distr. cbn [rev app]. rewrite <- (proj1 (nth_digit d D)). constructor; auto. apply IH. lia.
Qed.
Lemma numeral_dec n s : numeral n s <-> s = dec n.
Proof.
  unfold numeral. split.
  - intros H. apply written_dec in H. now rewrite rev_involutive in H.
  - intros ->. apply dec_written.
Qed.
Lemma number_dec n : number (dec n).
Proof.
  destruct (written_number _ _ (dec_written n)) as (A & B). split.
  - intros E. apply A. now rewrite E.
  - apply Forall_rev in B. now rewrite rev_involutive in B.
Qed.
Lemma int_dec n : int (dec n) = n.
Proof.
  induction n as [n IH] using lt_wf_ind. destruct (Nat.lt_ge_cases n 10) as [H|H].
  - rewrite dec_small by exact H. rewrite <- (proj1 (nth_digit n H)). unfold int. cbn [fold_left]. rewrite (proj2 (proj2 (nth_digit n H))). lia.
  - pose proof (Nat.div_mod n 10 ltac:(lia)) as E. set (m := n / 10) in *. set (d := n mod 10) in *.
    assert (D : d < 10) by (apply Nat.mod_upper_bound; lia). assert (P : 0 < m) by (apply Nat.div_str_pos; lia).
    rewrite E, dec_step by assumption. unfold int in *. rewrite fold_left_app, IH by lia. cbn [fold_left].
    rewrite <- (proj1 (nth_digit d D)), (proj2 (proj2 (nth_digit d D))). lia.
Qed.
Lemma dec_inj n m : dec n = dec m -> n = m.
Proof. intros H. rewrite <- (int_dec n), <- (int_dec m). now rewrite H. Qed.

(** ** affixes *)
Lemma after_iff p s t : after p s = Some t <-> s = p ++ t.
Proof.
  revert s. induction p as [|c p IH]; intros s; [cbn; split; congruence|]. destruct s as [|d s]; cbn; [split; discriminate|].
  destruct (Ascii.eqb_spec c d) as [->|N]; [rewrite IH; split; congruence|]. split; [discriminate|]. congruence.
Qed.
Lemma before_iff p s t : before p s = Some t <-> s = t ++ p.
Proof.
  unfold before. destruct (after (rev p) (rev s)) as [u|] eqn:E; cbn.
  - apply after_iff in E. apply (f_equal (@rev ascii)) in E. rewrite rev_app_distr, !rev_involutive in E. subst s. split.
    + intros H. injection H as <-. reflexivity.
    + intros H. apply app_inv_tail in H. now subst.
  - split; [discriminate|]. intros ->. rewrite rev_app_distr in E. assert (A : after (rev p) (rev p ++ rev t) = Some (rev t)) by now apply after_iff. congruence.
Qed.

(** ** the regular expression *)
Lemma span_digits d r : Forall decimal d -> (forall c t, r = c :: t -> digit c = false) -> span (d ++ r) = (d, r).
Proof.
  intros F N. induction F as [|c d C F IH]; cbn [app].
  - destruct r as [|c t]; [reflexivity|]. cbn. now rewrite (N c t eq_refl).
  - cbn. rewrite (proj2 (digit_iff c) C), IH. reflexivity.
Qed.
Lemma hex_forallb h : Forall lower_hex h -> forallb hexdigit h = true.
Proof. intros F. apply forallb_forall. intros c I. apply hex_iff. eapply Forall_forall; eauto. Qed.
Lemma tail_ok d h : number d -> commit h -> tail (d ++ lit "-g" ++ h) = Some (d, h).
Proof.
  intros (D & F) (H & G). unfold tail. rewrite span_digits; [|exact F|intros c t E; cbn in E; injection E as <- _; reflexivity].
  destruct d as [|c d]; [easy|]. destruct h as [|x h]; [easy|]. cbn [lit list_ascii_of_string app]. now rewrite (hex_forallb _ G).
Qed.
(** nothing matches where no digits follow the hyphen *)
Lemma search_none s : (forall a b, s = a ++ "-" :: b -> tail b = None) -> forall ne, search ne s = None.
Proof.
  induction s as [|c s IH]; intros N ne; [reflexivity|]. cbn [search]. rewrite IH by (intros a b E; apply (N (c :: a) b); cbn; congruence).
  destruct (ne && (c =? "-")) eqn:E; [|reflexivity]. apply andb_true_iff in E. destruct E as [_ E]. apply asc in E. subst c.
  now rewrite (N [] s eq_refl).
Qed.
Lemma hyphen_split a b x y : ~ In "-" x -> x ++ "-" :: y = a ++ "-" :: b -> a = x /\ b = y \/ exists z, a = x ++ "-" :: z /\ y = z ++ "-" :: b.
Proof.
  revert a. induction x as [|c x IH]; intros [|d a] N E; cbn in E.
  - injection E as ->. now left.
  - injection E as <- ->. right. exists a. auto.
  - injection E as -> _. exfalso. apply N. now left.
  - injection E as <- E. destruct (IH a (fun I => N (or_intror I)) E) as [(-> & ->)|(z & -> & ->)]; [now left|]. right. exists z. auto.
Qed.
Lemma number_nodash d : number d -> ~ In "-" d.
Proof. intros (_ & F) I. apply (proj1 (Forall_forall _ _) F) in I. apply dec_hex, hex_not in I. now destruct I. Qed.
Lemma commit_nodash h : commit h -> ~ In "-" h.
Proof. intros (_ & F) I. apply (proj1 (Forall_forall _ _) F) in I. apply hex_not in I. now destruct I. Qed.
Lemma nodash_tail h b : ~ In "-" h -> forall a, h <> a ++ "-" :: b.
Proof. intros N a ->. apply N, in_or_app. right. now left. Qed.
Lemma search_ok t d h : number d -> commit h -> forall ne, (t = [] -> ne = true) -> search ne (t ++ lit "-" ++ d ++ lit "-g" ++ h) = Some (t, d, h).
Proof.
  intros D H. induction t as [|c t IH]; intros ne N.
  - cbn [app lit list_ascii_of_string search]. rewrite (N eq_refl).
    rewrite search_none.
    + cbn [andb]. rewrite Ascii.eqb_refl. pose proof (tail_ok d h D H) as T. cbn [lit list_ascii_of_string app] in T. now rewrite T.
    + intros a b E. destruct (hyphen_split a b d ("g" :: h) (number_nodash d D) E) as [(-> & ->)|(z & _ & E')]; [reflexivity|].
      destruct z as [|x z]; [discriminate|]. cbn in E'. injection E' as _ E'. exfalso. exact (nodash_tail h b (commit_nodash h H) z E').
  - cbn [app search]. rewrite IH by reflexivity. reflexivity.
Qed.
