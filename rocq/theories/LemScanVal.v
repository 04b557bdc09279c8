(** Lemmas on values of sliced scan outputs. *)
From Coq Require Import Reals Lra Lia List Arith ZArith Bool.
From Verif Require Import XR SpecDist ModelVec ModelScan SpecScan LemScan ModelScanVal SpecScanVal.
Import ListNotations.
Open Scope nat_scope.

Lemma upd_length {A} (l : list A) i x : length (upd_at l i x) = length l.
Proof. revert i. induction l as [|a l IH]; intros [|i]; cbn; auto. Qed.
Lemma upd_same {A} (l : list A) i x : i < length l -> nth_error (upd_at l i x) i = Some x.
Proof. revert i. induction l as [|a l IH]; intros [|i]; cbn; intros H; try lia; [reflexivity|]. apply IH. lia. Qed.
Lemma upd_other {A} (l : list A) i j x : i <> j -> nth_error (upd_at l i x) j = nth_error l j.
Proof. revert i j. induction l as [|a l IH]; intros [|i] [|j] H; cbn; try lia; auto. Qed.
Lemma fold_length {A} (ps : list (nat * A)) : forall l, length (fold_left (fun l px => upd_at l (fst px) (snd px)) ps l) = length l.
Proof. induction ps as [|p ps IH]; intros l; cbn; [reflexivity|]. now rewrite IH, upd_length. Qed.
Lemma fold_other {A} (ps : list nat) : forall (val l : list A) i, ~ In i ps -> nth_error (fold_left (fun l px => upd_at l (fst px) (snd px)) (combine ps val) l) i = nth_error l i.
Proof.
  induction ps as [|p ps IH]; intros [|v val] l i N; cbn; try reflexivity. rewrite IH by (intros I; apply N; now right). apply upd_other. intros ->. apply N. now left.
Qed.
Lemma fold_at {A} (ps : list nat) : NoDup ps -> forall (val l : list A) j p, length val = length ps -> (forall q, In q ps -> q < length l) -> nth_error ps j = Some p ->
  nth_error (fold_left (fun l px => upd_at l (fst px) (snd px)) (combine ps val) l) p = nth_error val j.
Proof.
  induction 1 as [|q ps I N IH]; intros [|v val] l j p L Lt E; cbn in L; try discriminate; [now destruct j|]. cbn [combine fold_left fst snd]. destruct j as [|j]; cbn in E |- *.
  - injection E as ->. rewrite fold_other by exact I. apply upd_same. apply Lt. now left.
  - apply IH; [lia|intros q' Q; rewrite upd_length; apply Lt; now right|exact E].
Qed.

Lemma set_positions_ok {A} (l : list A) ps val : length val = length ps ->
  set_positions l ps val = Val (fold_left (fun l px => upd_at l (fst px) (snd px)) (combine ps val) l).
Proof.
  intros L. unfold set_positions.
  assert (E : match val with [x] => repeat x (length ps) | _ => val end = val). { destruct val as [|x [|y val]]; try reflexivity. cbn in L. now rewrite <- L. }
  rewrite E, L, Nat.eqb_refl. reflexivity.
Qed.
Lemma py_clip_le n z : py_clip n z <= n.
Proof. unfold py_clip. destruct (z <? 0)%Z eqn:E; lia. Qed.
Lemma range_nth start stop st j p : st <> 0%Z -> nth_error (range start stop st) j = Some p <->
  p = Z.to_nat (start + Z.of_nat j * st) /\ ((0 < st)%Z /\ (start + Z.of_nat j * st < stop)%Z \/ (st < 0)%Z /\ (stop < start + Z.of_nat j * st)%Z).
Proof.
  intros NZ. unfold range. rewrite nth_error_map. set (k := Z.to_nat _).
  assert (K : j < k <-> ((0 < st)%Z /\ (start + Z.of_nat j * st < stop)%Z \/ (st < 0)%Z /\ (stop < start + Z.of_nat j * st)%Z)).
  { unfold k. destruct (Z.ltb_spec st 0).
    - assert (P : (0 < - st)%Z) by lia. pose proof (Z.mul_div_le (start - stop - st - 1) (- st) P). pose proof (Z.mul_succ_div_gt (start - stop - st - 1) (- st) P).
      set (q := ((start - stop - st - 1) / - st)%Z) in *. split; [intros L; right|intros [[? ?]|[_ L]]]; [split; [lia|nia]|lia|]. assert ((Z.of_nat j < q)%Z) by nia. lia.
    - assert (P : (0 < st)%Z) by lia. pose proof (Z.mul_div_le (stop - start + st - 1) st P). pose proof (Z.mul_succ_div_gt (stop - start + st - 1) st P).
      set (q := ((stop - start + st - 1) / st)%Z) in *. split; [intros L; left|intros [[_ L]|[? ?]]]; [split; [lia|nia]| |lia]. assert ((Z.of_nat j < q)%Z) by nia. lia. }
  rewrite <- K. destruct (lt_dec j k) as [L|L].
  - rewrite (nth_error_nth' (seq 0 k) 0) by (now rewrite seq_length). rewrite seq_nth by exact L. cbn [option_map Nat.add]. split; [intros E; injection E as <-; auto|intros [-> _]; reflexivity].
  - rewrite (proj2 (nth_error_None (seq 0 k) j)) by (rewrite seq_length; lia). split; [discriminate|intros [_ ?]; lia].
Qed.
Lemma tpositions_nth n s : valid n s -> exists ps, tpositions n s = Val ps /\ forall j p, nth_error ps j = Some p <-> nth_of n s j p.
Proof.
  destruct s as [z|b e st]; cbn [valid tpositions nth_of].
  - intros V. rewrite (proj2 (Bool.andb_true_iff _ _)) by lia. eexists. split; [reflexivity|]. intros j p. unfold counted, py_clip. destruct j as [|j]; cbn.
    + split; [intros E; injection E as <-|intros (_ & L & E); f_equal]; destruct (Z.ltb_spec z 0); lia.
    + split; [destruct j; discriminate|intros (? & _); discriminate].
  - intros NZ. rewrite (proj2 (Z.eqb_neq st 0) NZ). eexists. split; [reflexivity|]. intros j p. rewrite range_nth by exact NZ. unfold nth_of_slice, indices, counted. cbn [fst snd].
    pose proof (Zle_0_nat n). set (m := Z.of_nat n) in *. assert (Pn : (p < n <-> (Z.of_nat p < m)%Z)) by lia. rewrite Pn. clear Pn.
    destruct (Z.ltb_spec st 0) as [Neg|Pos].
    + assert (M : (0 <= Z.of_nat j * - st)%Z) by nia. set (d := (Z.of_nat j * st)%Z) in *. assert (D : (d <= 0)%Z) by lia. clearbody d m. clear M.
      destruct b as [b|]; destruct e as [e|]; repeat match goal with |- context [(?x <? 0)%Z] => destruct (Z.ltb_spec x 0) end; lia.
    + assert (M : (0 <= Z.of_nat j * st)%Z) by nia. set (d := (Z.of_nat j * st)%Z) in *. clearbody d m.
      destruct b as [b|]; destruct e as [e|]; repeat match goal with |- context [(?x <? 0)%Z] => destruct (Z.ltb_spec x 0) end; lia.
Qed.
Lemma tpositions_valid n s ps : tpositions n s = Val ps -> valid n s.
Proof. destruct s as [z|b e st]; cbn; [destruct (_ && _)%bool eqn:E; [|discriminate]; apply andb_prop in E; lia|destruct (Z.eqb_spec st 0); [discriminate|auto]]. Qed.
Lemma tpositions_spec n s : (valid n s -> exists ps, tpositions n s = Val ps /\ forall j p, nth_error ps j = Some p <-> nth_of n s j p) /\
  (~ valid n s -> tpositions n s = Raise).
Proof. split; [apply tpositions_nth|]. intros V. destruct (tpositions n s) as [ps|] eqn:E; [|reflexivity]. destruct (V (tpositions_valid _ _ _ E)). Qed.
Lemma nth_of_inj n s i j p : nth_of n s i p -> nth_of n s j p -> i = j.
Proof. destruct s as [z|b e st]; cbn; [lia|]. unfold nth_of_slice. intros (_ & [(? & E & _)|(? & E & _)]) (_ & [(? & F & _)|(? & F & _)]); try lia; nia. Qed.
Lemma nth_of_lt n s j p : nth_of n s j p -> p < n.
Proof. destruct s as [z|b e st]; cbn; [lia|now intros [? _]]. Qed.
Lemma tpositions_ok n s ps : tpositions n s = Val ps -> NoDup ps /\ forall p, In p ps -> p < n.
Proof.
  intros T. destruct (tpositions_nth n s (tpositions_valid _ _ _ T)) as (ps' & T' & H). rewrite T in T'. injection T' as <-. split.
  - apply NoDup_nth_error. intros i j Li E. destruct (nth_error ps i) as [p|] eqn:Ei; [|apply nth_error_None in Ei; lia]. symmetry in E. apply H in Ei, E. exact (nth_of_inj _ _ _ _ _ Ei E).
  - intros p I. apply In_nth_error in I as (j & E). apply H in E. exact (nth_of_lt _ _ _ _ E).
Qed.
Lemma full_value_ok {A} (o : sout A) junk s val init ps : o_init o = Some init -> tpositions (o_len o) s = Val ps -> length val = length ps ->
  exists w, full_value o junk s val = Val w /\ length w = o_len o /\
    (forall i, i < length init -> nth_error w i = nth_error init i) /\
    (forall j p, nth_error ps j = Some p -> length init <= p -> nth_error w p = nth_error val j) /\
    (forall i, length init <= i < o_len o -> ~ In i ps -> nth_error w i = Some (junk i)).
Proof.
  intros I T L. unfold full_value, set_subtensor. rewrite map_length, seq_length, T. cbn [bind]. rewrite set_positions_ok by exact L. cbn [bind]. rewrite I, set_positions_ok by (now rewrite seq_length).
  destruct (tpositions_ok _ _ _ T) as [N Lt]. set (l0 := map junk (seq 0 (o_len o))). assert (L0 : length l0 = o_len o) by (unfold l0; now rewrite map_length, seq_length).
  set (v := fold_left _ (combine ps val) l0). assert (Lv : length v = o_len o) by (unfold v; now rewrite fold_length).
  assert (Lo : length init <= o_len o) by (unfold o_len; rewrite I; lia).
  eexists. split; [reflexivity|]. split; [now rewrite fold_length|]. split; [|split].
  - intros i Li. apply fold_at; [apply seq_NoDup|now rewrite seq_length|intros q Q; apply in_seq in Q; lia|].
    rewrite (nth_error_nth' _ 0) by (now rewrite seq_length). f_equal. rewrite seq_nth; lia.
  - intros j p E Lp. rewrite fold_other by (rewrite in_seq; lia). apply fold_at; auto. intros q Q. rewrite L0. auto.
  - intros i Li Ni. rewrite fold_other by (rewrite in_seq; lia). unfold v. rewrite fold_other by exact Ni. unfold l0. rewrite nth_error_map.
    rewrite (nth_error_nth' _ 0) by (rewrite seq_length; lia). cbn. now rewrite seq_nth by lia.
Qed.
Lemma nth_error_ext {A} (l m : list A) : (forall i, nth_error l i = nth_error m i) -> l = m.
Proof.
  revert m. induction l as [|a l IH]; intros [|b m] H; [reflexivity|discriminate (H 0)|discriminate (H 0)|]. pose proof (H 0) as E. injection E as <-. f_equal. apply IH. intros i. exact (H (S i)).
Qed.
Lemma full_selects {A} (o : sout A) junk val init x s : o_init o = Some init -> length x = o_steps o -> selects init x s val ->
  full_value o junk s val = Val (init ++ x).
Proof.
  intros I L (V & Lv & Cov & Agr). assert (Len : o_len o = length init + length x) by (unfold o_len; now rewrite I, L). rewrite <- Len in V, Lv, Cov, Agr.
  destruct (tpositions_nth _ _ V) as (ps & T & P).
  destruct (full_value_ok o junk s val init ps I T) as (w & E & Lw & A1 & A2 & _).
  - assert (Q : forall j, j < length val <-> j < length ps).
    { intros j. rewrite Lv. split; [intros (p & Hp); apply P in Hp; apply nth_error_Some; congruence|]. intros Lj. destruct (nth_error ps j) as [p|] eqn:Ej; [exists p; now apply P|apply nth_error_None in Ej; lia]. }
    destruct (Nat.lt_trichotomy (length val) (length ps)) as [H|[H|H]]; [apply Q in H; lia|exact H|apply Q in H; lia].
  - rewrite E. f_equal. apply nth_error_ext. intros i. destruct (lt_dec i (length init)) as [H|H]; [rewrite nth_error_app1 by exact H; auto|].
    destruct (lt_dec i (o_len o)) as [H2|H2].
    + destruct (Cov i) as (j & Hj); [lia|]. rewrite (A2 j i) by (try apply P; auto; lia). apply Agr; [exact Hj|lia].
    + rewrite (proj2 (nth_error_None w i)) by lia. symmetry. apply nth_error_None. rewrite app_length. lia.
Qed.
Lemma full_junk {A} (o : sout A) s val init ps (a b : A) : a <> b -> o_init o = Some init -> tpositions (o_len o) s = Val ps -> length val = length ps ->
  ((forall junk junk', full_value o junk s val = full_value o junk' s val) <-> (forall i, length init <= i < o_len o -> In i ps)).
Proof.
  intros NE I T L. split.
  - intros H i Li. destruct (in_dec Nat.eq_dec i ps) as [|N]; [assumption|]. exfalso. specialize (H (fun _ => a) (fun _ => b)).
    destruct (full_value_ok o (fun _ => a) s val init ps I T L) as (w & E & _ & _ & _ & A3). destruct (full_value_ok o (fun _ => b) s val init ps I T L) as (w' & E' & _ & _ & _ & A3').
    rewrite E, E' in H. injection H as <-. pose proof (A3 i Li N) as X. pose proof (A3' i Li N) as Y. congruence.
  - intros H junk junk'. destruct (full_value_ok o junk s val init ps I T L) as (w & E & Lw & A1 & A2 & _). destruct (full_value_ok o junk' s val init ps I T L) as (w' & E' & Lw' & A1' & A2' & _).
    rewrite E, E'. f_equal. apply nth_error_ext. intros i. destruct (lt_dec i (length init)) as [Hi|Hi]; [now rewrite A1, A1'|]. destruct (lt_dec i (o_len o)) as [H2|H2].
    + destruct (In_nth_error ps i) as (j & Ej); [apply H; lia|]. rewrite (A2 j i Ej), (A2' j i Ej) by lia. reflexivity.
    + rewrite !(proj2 (nth_error_None _ i)) by lia. reflexivity.
Qed.

(** ** several requests *)
Lemma update_live {A} (outs : list (sout A)) junk reqs : forall live r, update_values outs junk live reqs = Val r ->
  NoDup (flat_map (fun q => match snd q with VSlice _ _ => [fst q] | VFull _ => [] end) reqs) /\
  incl (flat_map (fun q => match snd q with VSlice _ _ => [fst q] | VFull _ => [] end) reqs) live.
Proof.
  induction reqs as [|[i [v|s v]] reqs IH]; intros live r; cbn [update_values flat_map snd fst app].
  - intros _. split; [constructor|intros x []].
  - destruct (update_values _ _ live reqs) as [r'|] eqn:E; [|discriminate]. intros _. exact (IH live r' E).
  - destruct (nth_error outs i) as [o|]; [|discriminate]. destruct (full_value _ _ _ _) as [w|]; [|discriminate]. cbn [bind]. destruct (existsb (Nat.eqb i) live) eqn:Ex; [|discriminate].
    destruct (update_values _ _ (filter _ live) reqs) as [r'|] eqn:E; [|discriminate]. intros _. destruct (IH _ _ E) as [N I]. split.
    + constructor; [|exact N]. intros X. apply I in X. apply filter_In in X as [_ X]. now rewrite Nat.eqb_refl in X.
    + intros x [<-|X]; [|apply I in X; now apply filter_In in X]. apply existsb_exists in Ex as (z & Z & Ez). apply Nat.eqb_eq in Ez. now subst.
Qed.
Lemma update_requests {A} (junk : nat -> nat -> A) (l : list (sreq A)) N : forall outs i live,
  (forall q, In q l -> length (r_rest q) = N /\ selects (r_init q) (r_rest q) (r_slice q) (r_val q)) ->
  (forall j q, nth_error l j = Some q -> nth_error outs (i + j) = Some {| o_init := Some (r_init q); o_steps := N |}) ->
  (forall j, j < length l -> In (i + j) live) ->
  update_values outs junk live (requests i l) = Val (combine (seq i (length l)) (map (fun q => r_init q ++ r_rest q) l)).
Proof.
  induction l as [|q l IH]; intros outs i live Ln O Lv; cbn [requests update_values length seq map combine fst snd]; [reflexivity|].
  assert (E0 : nth_error outs i = Some {| o_init := Some (r_init q); o_steps := N |}) by (pose proof (O 0 q eq_refl) as Q; rewrite Nat.add_0_r in Q; exact Q). rewrite E0.
  destruct (Ln q (or_introl eq_refl)) as [L1 L2].
  rewrite (full_selects {| o_init := Some (r_init q); o_steps := N |} (junk i) (r_val q) (r_init q) (r_rest q) (r_slice q) eq_refl L1 L2). cbn [bind].
  assert (Ex : existsb (Nat.eqb i) live = true). { apply existsb_exists. exists i. split; [|apply Nat.eqb_refl]. specialize (Lv 0). rewrite Nat.add_0_r in Lv. apply Lv. cbn. lia. }
  rewrite Ex, (IH outs (S i)).
  - reflexivity.
  - intros iv I. apply Ln. now right.
  - intros j iv E. replace (S i + j) with (i + S j) by lia. exact (O (S j) iv E).
  - intros j Lj. apply filter_In. split; [replace (S i + j) with (i + S j) by lia; apply Lv; cbn; lia|]. destruct (Nat.eqb_spec i (S i + j)); [lia|reflexivity].
Qed.
Lemma vars_requests {A} (taps : list (list Z)) (l : list (sreq A)) i : length taps = length l ->
  map (fun tv => {| s_taps := fst tv; s_value := snd (snd tv) |}) (combine taps (combine (seq i (length l)) (map (fun q => r_init q ++ r_rest q) l))) =
  map (fun tv => {| s_taps := fst tv; s_value := r_init (snd tv) ++ r_rest (snd tv) |}) (combine taps l).
Proof.
  revert taps i. induction l as [|iv l IH]; intros [|t taps] i L; cbn in L |- *; try discriminate; [reflexivity|]. f_equal. apply IH. lia.
Qed.
Lemma sliced_joint {A} (step : nat -> nat -> list ((nat * Z) * A) -> res xr) D (taps : list (list Z)) (l : list (sreq A)) (junk : nat -> nat -> A) N :
  let vars := map (fun tv => {| s_taps := fst tv; s_value := r_init (snd tv) ++ r_rest (snd tv) |}) (combine taps l) in
  l <> [] -> length taps = length l -> step_computes step D vars (fun u => match nth_error l u with Some q => length (r_init q) | None => 0 end) N ->
  (forall t q, In (t, q) (combine taps l) -> tap_list t /\ max_lag t (length (r_init q)) /\ symmetric t /\ length (r_rest q) = N /\ selects (r_init q) (r_rest q) (r_slice q) (r_val q)) ->
  exists out, scan_request step taps (map (fun q => {| o_init := Some (r_init q); o_steps := N |}) l) junk (requests 0 l) = Val out /\
    denotes (Val (xsum (concat out))) (scan_density D vars (fun u => match nth_error l u with Some q => length (r_init q) | None => 0 end) N).
Proof.
  intros vars NE Lt SC H. unfold scan_request.
  assert (In2 : forall iv, In iv l -> exists t, In (t, iv) (combine taps l)).
  { intros iv I. apply In_nth_error in I as (j & E). destruct (nth_error taps j) as [t|] eqn:Et; [|apply nth_error_None in Et; assert (j < length l) by (apply nth_error_Some; congruence); lia].
    exists t. clear - E Et. revert l taps E Et. induction j as [|j IH]; intros [|x l] [|y taps] E Et; try discriminate; cbn in *; [injection E as ->; injection Et as ->; now left|right; now apply IH]. }
  rewrite (update_requests junk l N); [|intros iv I; destruct (In2 iv I) as (t & T); destruct (H t iv T) as (_ & _ & _ & ? & ?); auto|intros j iv E; cbn; rewrite nth_error_map, E; reflexivity|intros j Lj; apply in_seq; rewrite map_length; cbn; lia].
  cbn [bind]. rewrite combine_length, seq_length, !map_length, Nat.min_id, Nat.eqb_refl, vars_requests by exact Lt. fold vars.
  assert (Lv : length vars = length l) by (unfold vars; rewrite map_length, combine_length; lia).
  destruct (scan_joint step D vars (fun u => match nth_error l u with Some q => length (r_init q) | None => 0 end) N) as (out & E & _ & Dn).
  - intros Z. rewrite Z in Lv. destruct l; [easy|discriminate].
  - exact SC.
  - intros u x Eu. unfold vars in Eu. rewrite nth_error_map in Eu. destruct (nth_error (combine taps l) u) as [[t iv]|] eqn:Ec; [|discriminate]. injection Eu as <-. cbn [s_taps s_value fst snd].
    assert (El : nth_error l u = Some iv). { clear - Ec. revert taps l Ec. induction u as [|u IH]; intros [|t0 taps] [|x l] Ec; try discriminate; cbn in *; [now injection Ec as -> ->|eauto]. }
    rewrite El. destruct (H t iv (nth_error_In _ _ Ec)) as (T1 & T2 & T3 & T4 & _). repeat (split; [assumption|]). rewrite app_length. lia.
  - eexists. split; [exact E|exact Dn].
Qed.
(** ** slices that cover every step *)
Lemma tail_selects {A} (init x : list A) : selects init x (TSlice (Some (Z.of_nat (length init))) None 1) x.
Proof.
  unfold selects. cbn [valid nth_of]. unfold nth_of_slice, counted. destruct (Z.ltb_spec (Z.of_nat (length init)) 0); [lia|]. split; [lia|]. split; [|split].
  - intros j. split; [intros L; exists (length init + j); lia|intros (p & H'); lia].
  - intros i L. exists (i - length init). lia.
  - intros j p H' L. rewrite nth_error_app2 by lia. f_equal. lia.
Qed.
Lemma reversed_selects {A} (init x : list A) : selects init x (TSlice None None (-1)) (rev (init ++ x)).
Proof.
  unfold selects. cbn [valid nth_of]. unfold nth_of_slice, counted. split; [lia|]. split; [|split].
  - intros j. rewrite rev_length, app_length. split; [intros L; exists (length init + length x - 1 - j); lia|intros (p & H'); lia].
  - intros i L. exists (length init + length x - 1 - i). lia.
  - intros j p H' L. destruct (nth_error (init ++ x) p) as [a|] eqn:E; [|apply nth_error_None in E; rewrite app_length in E; lia].
    rewrite <- E. rewrite !(nth_error_nth' _ a) by (rewrite ?rev_length, app_length; lia). f_equal. rewrite rev_nth by (rewrite app_length; lia). f_equal. rewrite app_length. lia.
Qed.
