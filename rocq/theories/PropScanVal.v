(** C62: values of sliced scan outputs. *)
From Coq Require Import Reals Lra Lia List Arith ZArith Bool.
From Verif Require Import XR XTac SpecDist ModelDist LemDist ModelVec LemDisc ModelScan SpecScan LemScan ModelScanVal SpecScanVal LemScanVal.
Import ListNotations.
Open Scope nat_scope.

(** The positions an index selects, in their order: those of Python's integers
    and slices, with any step; nothing else is accepted. *)
Theorem C62_slices n s : (valid n s -> exists ps, tpositions n s = Val ps /\ forall j p, nth_error ps j = Some p <-> nth_of n s j p) /\
  (~ valid n s -> tpositions n s = Raise).
Proof. exact (tpositions_spec n s). Qed.
Print Assumptions C62_slices.
Example C62_slices_ex : tpositions 7 (TSlice (Some (-2)%Z) (Some 0%Z) (-2)) = Val [5; 3; 1] /\ tpositions 7 (TSlice (Some (-9)%Z) None 3) = Val [0; 3; 6] /\ valid 7 (TSlice None None (-2)).
Proof. repeat split; try reflexivity. cbn. lia. Qed.
(** The value that replaces the one of [out\[s\]]: the initial values first, the
    requested positions with the given values, and uninitialised memory at all
    other positions. *)
Theorem C62_positions {A} (o : sout A) junk s val init ps : o_init o = Some init -> tpositions (o_len o) s = Val ps -> length val = length ps ->
  exists w, full_value o junk s val = Val w /\ length w = o_len o /\
    (forall i, i < length init -> nth_error w i = nth_error init i) /\
    (forall j p, nth_error ps j = Some p -> length init <= p -> nth_error w p = nth_error val j) /\
    (forall i, length init <= i < o_len o -> ~ In i ps -> nth_error w i = Some (junk i)).
Proof. exact (full_value_ok o junk s val init ps). Qed.
Print Assumptions C62_positions.
(** It does not depend on the uninitialised memory exactly when the slice
    covers every step.  Missing: other slices (refuted below). *)
Theorem C62_covered_partial {A} (o : sout A) s val init ps (a b : A) : a <> b -> o_init o = Some init -> tpositions (o_len o) s = Val ps -> length val = length ps ->
  ((forall junk junk', full_value o junk s val = full_value o junk' s val) <-> (forall i, length init <= i < o_len o -> In i ps)).
Proof. exact (full_junk o s val init ps a b). Qed.
Print Assumptions C62_covered_partial.
(** Any number of outputs with initial values, each requested by a slice that
    covers every step (from the first step on, backwards, …): the
    log-probability denotes the product of the step densities of the series that
    start with the initial values and take the given values at the positions of
    the slice, for all contents of the uninitialised memory.  Missing: tap sets
    that are not symmetric (C44). *)
Theorem C62_joint_partial {A} (step : nat -> nat -> list ((nat * Z) * A) -> res xr) D (taps : list (list Z)) (l : list (sreq A)) (junk : nat -> nat -> A) N :
  let vars := map (fun tv => {| s_taps := fst tv; s_value := r_init (snd tv) ++ r_rest (snd tv) |}) (combine taps l) in
  l <> [] -> length taps = length l -> step_computes step D vars (fun u => match nth_error l u with Some q => length (r_init q) | None => 0 end) N ->
  (forall t q, In (t, q) (combine taps l) -> tap_list t /\ max_lag t (length (r_init q)) /\ symmetric t /\ length (r_rest q) = N /\ selects (r_init q) (r_rest q) (r_slice q) (r_val q)) ->
  exists out, scan_request step taps (map (fun q => {| o_init := Some (r_init q); o_steps := N |}) l) junk (requests 0 l) = Val out /\
    denotes (Val (xsum (concat out))) (scan_density D vars (fun u => match nth_error l u with Some q => length (r_init q) | None => 0 end) N).
Proof. exact (sliced_joint step D taps l junk N). Qed.
Print Assumptions C62_joint_partial.
Example C62_selects_ex {A} (init x : list A) :
  selects init x (TSlice (Some (Z.of_nat (length init))) None 1) x /\ selects init x (TSlice None None (-1)) (rev (init ++ x)).
Proof. split; [apply tail_selects|apply reversed_selects]. Qed.
(** Two slices of one output are refused (KeyError). *)
Theorem C62_twice {A} (outs : list (sout A)) junk reqs live r : update_values outs junk live reqs = Val r ->
  NoDup (flat_map (fun q => match snd q with VSlice _ _ => [fst q] | VFull _ => [] end) reqs).
Proof. exact (fun H => proj1 (update_live outs junk reqs live r H)). Qed.
Print Assumptions C62_twice.

(** A random walk x_t ~ N(x_(t-1), 1) from [x0], requested as [out\[1:\]] *)
Definition look (e : list ((nat * Z) * R)) (k : Z) : R :=
  match List.find (fun p => Nat.eqb (fst (fst p)) 0 && Z.eqb (snd (fst p)) k)%bool e with Some p => snd p | None => 0%R end.
Definition walk_step (_ _ : nat) (e : list ((nat * Z) * R)) : res xr := normal_logprob (Fin (look e (-1))) (Fin 1) (Fin (look e 0)).
Definition walk_D (_ _ : nat) (f : nat -> Z -> option R) : R :=
  match f 0 (-1)%Z, f 0 0%Z with Some m, Some x => normal_pdf m 1 x | _, _ => 0%R end.
Example C62_joint_ex : forall (x0 : R) (xs : list R) junk, exists out : list (list xr),
  scan_request walk_step [[(-1)%Z]] [{| o_init := Some [x0]; o_steps := length xs |}] junk [(0, VSlice (TSlice (Some 1%Z) None 1) xs)] = Val out /\
  denotes (Val (xsum (concat out))) (prod [prod (map (fun t => normal_pdf (nth t (x0 :: xs) 0%R) 1 (nth t xs 0%R)) (seq 0 (length xs)))]).
Proof.
  intros x0 xs junk. destruct (C62_joint_partial walk_step walk_D [[(-1)%Z]] [{| r_init := [x0]; r_rest := xs; r_slice := TSlice (Some 1%Z) None 1; r_val := xs |}] junk (length xs)) as (out & E & D).
  - discriminate.
  - reflexivity.
  - intros t v e Ht Hv H K. set (f := history _ _ _) in *. clearbody f.
    assert (F : forall k, In k [0; -1]%Z -> f 0 k = Some (look e k)).
    { intros k I. destruct (K 0 _ k eq_refl I) as (y & Iy). unfold look. destruct (List.find _ e) as [[[u k'] x]|] eqn:E.
      - apply List.find_some in E as [I1 E]. cbn in E. apply Bool.andb_true_iff in E as [E1 E2]. apply Nat.eqb_eq in E1. apply Z.eqb_eq in E2. subst. apply H, I1.
      - exfalso. apply (List.find_none _ _ E) in Iy. cbn in Iy. rewrite Z.eqb_refl in Iy. discriminate. }
    unfold walk_D, walk_step. rewrite !F by (cbn; auto). apply normal_ok. lra.
  - intros t iv [I|[]]. injection I as <- <-. destruct (lags_ok 1) as (T & M & S). repeat (split; [assumption|]). split; [reflexivity|]. exact (tail_selects [x0] xs).
  - exists out. split; [exact E|]. unfold scan_density in D. cbn [length map combine seq nth_error fst snd s_value r_init r_rest] in D.
    replace (map (fun t => normal_pdf (nth t (x0 :: xs) 0%R) 1 (nth t xs 0%R)) (seq 0 (length xs)))
      with (map (fun t => walk_D t 0 (fun u k => match nth_error [{| s_taps := [(-1)%Z]; s_value := [x0] ++ xs |}] u with Some x => lagged (s_value x) match nth_error [{| r_init := [x0]; r_rest := xs; r_slice := TSlice (Some 1%Z) None 1; r_val := xs |}] u with Some q => length (r_init q) | None => 0 end t k | None => None end)) (seq 0 (length xs))); [exact D|].
    apply map_ext_in. intros t I. apply in_seq in I. unfold walk_D. cbn [nth_error s_value length r_init]. unfold lagged.
    rewrite (proj2 (Z.leb_le 0 (Z.of_nat t + Z.of_nat 1 + -1)%Z)) by lia. rewrite (proj2 (Z.leb_le 0 (Z.of_nat t + Z.of_nat 1 + 0)%Z)) by lia.
    replace (Z.to_nat (Z.of_nat t + Z.of_nat 1 + -1)) with t by lia. replace (Z.to_nat (Z.of_nat t + Z.of_nat 1 + 0)) with (S t) by lia.
    cbn [app]. rewrite (nth_error_nth' (x0 :: xs) 0%R (n := t)) by (cbn; lia). cbn [nth_error]. now rewrite (nth_error_nth' xs 0%R) by lia.
Qed.
Example C62_positions_ex : full_value {| o_init := Some [7; 8]; o_steps := 3 |} (fun i => 100 + i) (TSlice (Some 1%Z) (Some (-1)%Z) 1) [1; 2; 3] = Val [7; 8; 2; 3; 104].
Proof. reflexivity. Qed.

(** The walk requested as [out\[-1\]]: the density returned for the last value
    depends on the contents of the uninitialised memory that stands for the
    first step (scan.py:445-454). *)
Theorem C62_uninitialised_refuted : exists (o : sout R) junk junk' s v out out' d d',
  scan_request walk_step [[(-1)%Z]] [o] junk [(0, VSlice s [v])] = Val out /\ denotes (Val (xsum (concat out))) d /\
  scan_request walk_step [[(-1)%Z]] [o] junk' [(0, VSlice s [v])] = Val out' /\ denotes (Val (xsum (concat out'))) d' /\ d <> d'.
Proof.
  assert (V : forall m x, exists l, normal_logprob (Fin m) (Fin 1) (Fin x) = Val (Fin l) /\ exp l = normal_pdf m 1 x).
  { intros m x. pose proof (normal_ok m 1 x ltac:(lra)) as Dn. assert (P : (0 < normal_pdf m 1 x)%R).
    { unfold normal_pdf. pose proof PI_RGT_0. pose proof (sqrt_lt_R0 (2 * PI) ltac:(lra)). apply Rmult_lt_0_compat; [apply Rinv_0_lt_compat; lra|apply exp_pos]. }
    destruct (normal_logprob _ _ _) as [[l| | |]|]; cbn in Dn; try easy; [|lra]. exists l. auto. }
  assert (E : forall j, scan_request walk_step [[(-1)%Z]] [{| o_init := Some [0%R]; o_steps := 2 |}] (fun _ _ => j) [(0, VSlice (TInt (-1)) [0%R])] =
    rseq [rseq [normal_logprob (Fin 0) (Fin 1) (Fin j); normal_logprob (Fin j) (Fin 1) (Fin 0)]]) by reflexivity.
  destruct (V 0 0)%R as (a & Ea & Xa). destruct (V 0 1)%R as (b & Eb & Xb). destruct (V 1 0)%R as (c & Ec & Xc).
  exists {| o_init := Some [0%R]; o_steps := 2 |}, (fun _ _ => 0%R), (fun _ _ => 1%R), (TInt (-1)), 0%R, [[Fin a; Fin a]], [[Fin b; Fin c]], (exp (a + (a + 0))), (exp (b + (c + 0))).
  rewrite !E, Ea, Eb, Ec. do 4 (split; [reflexivity|]). rewrite !exp_plus, exp_0, Xa, Xb, Xc, !Rmult_1_r. unfold normal_pdf.
  set (k := (/ (1 * sqrt (2 * PI)))%R). assert (K : (0 < k)%R).
  { unfold k. pose proof PI_RGT_0. pose proof (sqrt_lt_R0 (2 * PI) ltac:(lra)). apply Rinv_0_lt_compat. lra. }
  intros H. assert (H1 : (exp (- (0 - 0) ^ 2 / (2 * 1 ^ 2)) * exp (- (0 - 0) ^ 2 / (2 * 1 ^ 2)) = exp (- (1 - 0) ^ 2 / (2 * 1 ^ 2)) * exp (- (0 - 1) ^ 2 / (2 * 1 ^ 2)))%R).
  { apply (Rmult_eq_reg_l (k * k)); [|nra]. lra. }
  rewrite <- !exp_plus in H1. apply exp_inv in H1. field_simplify in H1. lra.
Qed.
Print Assumptions C62_uninitialised_refuted.
