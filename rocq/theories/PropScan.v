(** C44, C45: log-probability scans. *)
From Coq Require Import Reals Lra Lia List Arith ZArith.
From Verif Require Import XR SpecDist ModelVec ModelScan SpecScan LemScan.
Import ListNotations.
Open Scope nat_scope.

(** C44.  The full claim, that all the steps read the right lags for every tap
    set, is false (see the refutations); it holds exactly when the set of taps
    together with 0 is its own mirror image, as for contiguous taps and single
    taps. *)
Theorem C44_symmetric_partial {A} (v : nat) (taps : list Z) (value : list A) (L : nat) :
  tap_list taps -> max_lag taps L -> symmetric taps -> reads_right taps value L (convert1 v taps value) v.
Proof. exact (scan_reads v taps value L). Qed.
Print Assumptions C44_symmetric_partial.
Theorem C44_contiguous_partial {A} (v L : nat) (value : list A) :
  reads_right (map (fun i => - Z.of_nat i)%Z (seq 1 L)) value L (convert1 v (map (fun i => - Z.of_nat i)%Z (seq 1 L)) value) v.
Proof. exact (let H := lags_ok L in scan_reads v (lags L) value L (proj1 H) (proj1 (proj2 H)) (proj2 (proj2 H))). Qed.
Print Assumptions C44_contiguous_partial.
Theorem C44_exactly_partial {A} (v : nat) (taps : list Z) (value : list A) (L : nat) :
  tap_list taps -> max_lag taps L -> NoDup value -> L < length value ->
  reads_right taps value L (convert1 v taps value) v <-> symmetric taps.
Proof. exact (scan_iff v taps value L). Qed.
Print Assumptions C44_exactly_partial.
(** taps -3 and -1: step 0 reads position 1 for tap -1, not 2 *)
Theorem C44_lags_refuted : exists taps (value : list nat) L k s, tap_list taps /\ max_lag taps L /\ L < length value /\
  In k taps /\ In ((0, k), s) (fst (convert1 0 taps value)) /\ nth_error s 0 <> lagged value L 0 k.
Proof.
  exists [-3; -1]%Z, (seq 0 10), 3, (-1)%Z, [1; 2; 3; 4; 5; 6; 7].
  split; [split; [repeat constructor; cbn; intuition discriminate|cbn; lia]|].
  split; [split; cbn; [auto|lia]|]. split; [cbn; lia|]. split; [cbn; auto|]. split; [vm_compute; auto|]. vm_compute. discriminate.
Qed.
Print Assumptions C44_lags_refuted.
(** taps -5, -4 and -3: two steps are lost *)
Theorem C44_steps_refuted : exists taps (value : list nat) L, tap_list taps /\ max_lag taps L /\ L < length value /\
  S (snd (convert1 0 taps value)) < length value - L.
Proof.
  exists [-5; -4; -3]%Z, (seq 0 10), 5.
  split; [split; [repeat constructor; cbn; intuition discriminate|cbn; lia]|].
  split; [split; cbn; [auto|lia]|]. split; [cbn; lia|]. vm_compute. auto.
Qed.
Print Assumptions C44_steps_refuted.

(** C45, for every family of conditional densities [D] that the inner graph
    computes, any number of variables, taps and steps. *)
Theorem C45_steps {A} (step : nat -> nat -> list ((nat * Z) * A) -> res xr) (D : nat -> nat -> (nat -> Z -> option A) -> R) (vars : list (svar A)) (L : nat -> nat) (N : nat) :
  vars <> [] -> step_computes step D vars L N ->
  (forall u x, nth_error vars u = Some x -> tap_list (s_taps x) /\ max_lag (s_taps x) (L u) /\ symmetric (s_taps x) /\ length (s_value x) = N + L u) ->
  exists out, logprob_scan step vars = Val (map (fun v => map (out v) (seq 0 N)) (seq 0 (length vars))) /\
    (forall v t, v < length vars -> t < N -> denotes (Val (out v t)) (D t v (history vars L t))) /\
    denotes (Val (xsum (concat (map (fun v => map (out v) (seq 0 N)) (seq 0 (length vars)))))) (scan_density D vars L N).
Proof. exact (scan_joint step D vars L N). Qed.
Print Assumptions C45_steps.

(** A case: an integer autoregression with lags 1 and 2, log-weight
    x_t (x_{t-1} + x_{t-2}). *)
Definition look (e : list ((nat * Z) * Z)) (k : Z) : Z :=
  match List.find (fun p => Nat.eqb (fst (fst p)) 0 && Z.eqb (snd (fst p)) k)%bool e with Some p => snd p | None => 0%Z end.
Definition ar_step (t v : nat) (e : list ((nat * Z) * Z)) : res xr :=
  Val (Fin (IZR (look e 0 * (look e (-1) + look e (-2)) + Z.of_nat t))).
Definition ar_density (t v : nat) (f : nat -> Z -> option Z) : R :=
  match f 0 0%Z, f 0 (-1)%Z, f 0 (-2)%Z with Some x, Some y, Some z => exp (IZR (x * (y + z) + Z.of_nat t)) | _, _, _ => 0%R end.
Definition ar_vars : list (svar Z) := [{| s_taps := [-1; -2]%Z; s_value := [1; 2; 3; 4; 5]%Z |}].
Example C45_case : tap_list [-1; -2]%Z /\ max_lag [-1; -2]%Z 2 /\ symmetric [-1; -2]%Z /\ step_computes ar_step ar_density ar_vars (fun _ => 2) 3 /\
  logprob_scan ar_step ar_vars = Val [[Fin (IZR 9); Fin (IZR 21); Fin (IZR 37)]].
Proof.
  destruct (lags_ok 2) as (T & M & S). repeat (split; [assumption|]). split.
  - intros t v e Ht Hv H K. set (f := history ar_vars (fun _ => 2) t) in *. clearbody f.
    assert (F : forall k, In k [0; -1; -2]%Z -> f 0 k = Some (look e k)).
    { intros k I. destruct (K 0 _ k eq_refl I) as (y & Iy). unfold look. destruct (List.find _ e) as [[[u k'] x]|] eqn:E.
      - apply List.find_some in E as [I1 E]. cbn in E. apply Bool.andb_true_iff in E as [E1 E2]. apply Nat.eqb_eq in E1. apply Z.eqb_eq in E2. subst. apply H, I1.
      - exfalso. apply (List.find_none _ _ E) in Iy. cbn in Iy. rewrite Z.eqb_refl in Iy. discriminate. }
    unfold ar_density, ar_step. rewrite !F by (cbn; auto). cbn. reflexivity.
  - vm_compute. reflexivity.
Qed.
Example C44_case : reads_right [-2]%Z [5; 6; 7; 8] 2 (convert1 3 [-2]%Z [5; 6; 7; 8]) 3 /\ convert1 3 [-2]%Z [5; 6; 7; 8] = ([((3, 0%Z), [7; 8]); ((3, (-2)%Z), [5; 6])], 2).
Proof.
  split; [|vm_compute; reflexivity]. apply C44_symmetric_partial.
  - split; [repeat constructor; cbn; intuition|cbn; lia].
  - split; cbn; [auto|lia].
  - intros L M k I. rewrite (max_lag_unique [-2]%Z L 2 M) by (split; cbn; [auto|lia]). destruct I as [<-|[<-|[]]]; cbn; auto.
Qed.
