(** Lemmas for C63. *)
From Coq Require Import Reals Lra Lia List Arith ZArith Bool.
From Verif Require Import XR SpecDist ModelVec LemJoint ModelScan SpecScan LemScan ModelScanDet SpecScanDet.
Import ListNotations.
Open Scope nat_scope.

Lemma rseq_cons_inv {A} (x : res A) l r : rseq (x :: l) = Val r -> exists a r', x = Val a /\ r = a :: r' /\ rseq l = Val r'.
Proof. cbn. destruct x as [a|]; cbn; [|easy]. destruct (rseq l) as [r'|]; cbn; [|easy]. intros [= <-]. exists a, r'. auto. Qed.
Lemma denotes_exp x c : denotes (Val x) (exp c) -> x = Fin c.
Proof. pose proof (exp_pos c). destruct x; cbn; try easy; [|lra]. intros E. apply exp_inv in E. congruence. Qed.

Definition vars_ok (vars : list (svar R)) (L : nat -> nat) (N : nat) : Prop :=
  forall u x, nth_error vars u = Some x -> tap_list (s_taps x) /\ max_lag (s_taps x) (L u) /\ symmetric (s_taps x) /\ length (s_value x) = N + L u.

(** ** the inner inputs of the random outputs *)
Lemma scan_envs (vars : list (svar R)) L N : vars <> [] -> vars_ok vars L N -> exists seqs, convert 0 vars ([], 0) = (seqs, N) /\
  rseq (map (fun t => bind (read t seqs) (fun e => Val (t, e))) (seq 0 N)) = Val (map (fun t => (t, env t seqs)) (seq 0 N)) /\
  forall t, t < N -> agrees (env t seqs) (history vars L t) (map (fun x => 0%Z :: s_taps x) vars) /\ agrees (earlier (env t seqs)) (history vars L t) (map s_taps vars).
Proof.
  intros NE W. set (seqs := all_seqs 0 vars). exists seqs.
  assert (C : convert 0 vars ([], 0) = (seqs, N)).
  { rewrite (convert_all N vars 0 ([], 0)); [easy| |right; exact NE]. intros u x E. destruct (W u x E) as (T & M & S & Q).
    rewrite (steps_symmetric _ _ _ (L u) T M S). lia. }
  assert (G : forall u k s, In ((u, k), s) seqs -> exists x, nth_error vars u = Some x /\ forall t, t < N -> nth_error s t = lagged (s_value x) (L u) t k /\ nth_error s t <> None).
  { intros u k s I. apply (in_all vars 0) in I as (u' & x & E & I). destruct (W u' x E) as (T & M & S & Q). cbn in I.
    assert (J := seqs_in u' _ _ u k s T I). destruct J as (-> & a & i & Ia & Ik & Es). exists x. split; [exact E|]. intros t Ht.
    destruct (scan_reads u' (s_taps x) (s_value x) (L u') T M S) as (_ & _ & _ & R). assert (K := R k s t I ltac:(lia)). split; [exact K|].
    rewrite K. unfold lagged. apply nth_error_In, in_rev in Ik. assert (P1 := neg_taps _ k T Ik). assert (P2 := lag_low _ _ k M Ik).
    destruct (Z.leb_spec 0 (Z.of_nat t + Z.of_nat (L u') + k)); [|lia]. apply nth_error_Some. lia. }
  split; [exact C|]. split.
  - apply rseq_map. intros t It. apply in_seq in It. rewrite read_env; [easy|]. intros [[u k] s] I. destruct (G u k s I) as (x & _ & K). apply (K t). lia.
  - intros t Ht.
    assert (A1 : forall u k y, In ((u, k), y) (env t seqs) -> history vars L t u k = Some y).
    { intros u k y I. apply in_env in I as (s & I & E). destruct (G u k s I) as (x & Ex & K). unfold history. rewrite Ex. destruct (K t Ht) as [<- _]. exact E. }
    assert (A2 : forall u x k, nth_error vars u = Some x -> In k (0%Z :: s_taps x) -> exists y, In ((u, k), y) (env t seqs)).
    { intros u x k E I. destruct (W u x E) as (T & M & S & Q). destruct (names_spec u (s_taps x) (s_value x) T) as [_ N2].
      apply N2, in_map_iff in I as ([u' k'] & E1 & I). cbn in E1. subst k'. apply in_map_iff in I as ([[u2 k2] s] & E1 & I). cbn in E1. injection E1 as -> ->.
      assert (u' = u) as -> by (destruct (seqs_in u _ _ u' k s T I) as [-> _]; easy).
      assert (J : In ((u, k), s) seqs) by (apply (in_all vars 0); exists u, x; easy).
      destruct (G u k s J) as (x' & Ex & K). destruct (K t Ht) as [_ K2]. destruct (nth_error s t) as [y|] eqn:Y; [|easy].
      exists y. apply in_env. exists s. easy. }
    split; split.
    + exact A1.
    + intros u l k E I. rewrite nth_error_map in E. destruct (nth_error vars u) as [x|] eqn:Ex; [|discriminate]. injection E as <-. exact (A2 u x k Ex I).
    + intros u k y I. apply filter_In in I as [I _]. auto.
    + intros u l k E I. rewrite nth_error_map in E. destruct (nth_error vars u) as [x|] eqn:Ex; [|discriminate]. injection E as <-.
      destruct (A2 u x k Ex (or_intror I)) as (y & J). exists y. apply filter_In. split; [exact J|]. cbn. apply Z.ltb_lt. destruct (W u x Ex) as ((_ & T) & _). apply T, I.
Qed.

(** ** the series of the computed outputs *)
Lemma ext_list {A} (l m : list A) : (forall i, nth_error l i = nth_error m i) -> l = m.
Proof.
  revert m. induction l as [|a l IH]; intros [|b m] H; [reflexivity|discriminate (H 0)|discriminate (H 0)|]. pose proof (H 0) as E. injection E as <-. f_equal. apply IH. intros i. exact (H (S i)).
Qed.
Lemma nth_combine {A B} (l : list A) (m : list B) i : nth_error (combine l m) i = match nth_error l i, nth_error m i with Some a, Some b => Some (a, b) | _, _ => None end.
Proof. revert m i. induction l as [|a l IH]; intros [|b m] [|i]; cbn; auto. now destruct (nth_error l i). Qed.
Lemma taps_of_ok j s taps : (forall k, In k taps -> (- Z.of_nat (length s) <= k < 0)%Z) ->
  exists e, taps_of j s taps = Val e /\
    (forall u k x, In ((u, k), x) e -> u = j /\ In k taps /\ nth_error s (Z.to_nat (Z.of_nat (length s) + k)) = Some x) /\
    (forall k, In k taps -> exists y, In ((j, k), y) e).
Proof.
  induction taps as [|k taps IH]; intros H; cbn [taps_of].
  - exists []. split; [reflexivity|]. split; [intros u k x []|intros k []].
  - pose proof (H k (or_introl eq_refl)) as B. rewrite (proj2 (Z.leb_le 0 _)) by lia.
    destruct (nth_error s (Z.to_nat (Z.of_nat (length s) + k))) as [x|] eqn:E; [|apply nth_error_None in E; lia].
    destruct IH as (e & -> & A1 & A2); [intros k' I; apply H; now right|]. cbn [bind]. exists (((j, k), x) :: e). split; [reflexivity|]. split.
    + intros u k' y [I|I]; [injection I as <- <- <-; split; [reflexivity|split; [now left|exact E]]|]. destruct (A1 _ _ _ I) as (-> & I1 & I2). split; [reflexivity|split; [now right|exact I2]].
    + intros k' [<-|I]; [exists x; now left|]. destruct (A2 k' I) as (y & Iy). exists y. now right.
Qed.
Lemma own_env_ok cs : forall ser j, length ser = length cs ->
  (forall i c s k, nth_error cs i = Some c -> nth_error ser i = Some s -> In k (c_taps c) -> (- Z.of_nat (length s) <= k < 0)%Z) ->
  exists e, own_env j cs ser = Val e /\
    (forall u k x, In ((u, k), x) e -> exists i c s, u = j + i /\ nth_error cs i = Some c /\ nth_error ser i = Some s /\ In k (c_taps c) /\ nth_error s (Z.to_nat (Z.of_nat (length s) + k)) = Some x) /\
    (forall i c k, nth_error cs i = Some c -> In k (c_taps c) -> exists y, In ((j + i, k), y) e).
Proof.
  induction cs as [|c cs IH]; intros [|s ser] j Le H; cbn in Le; try discriminate; cbn [own_env].
  - exists []. split; [reflexivity|]. split; [intros u k x []|]. intros [|i] c k E; discriminate.
  - destruct (taps_of_ok j s (c_taps c)) as (a & -> & A1 & A2); [intros k I; exact (H 0 c s k eq_refl eq_refl I)|]. cbn [bind].
    destruct (IH ser (S j)) as (b & -> & B1 & B2); [lia|intros i c' s' k E1 E2; exact (H (S i) c' s' k E1 E2)|]. cbn [bind]. exists (a ++ b). split; [reflexivity|]. split.
    + intros u k x I. apply in_app_iff in I as [I|I].
      * destruct (A1 _ _ _ I) as (-> & I1 & I2). exists 0, c, s. rewrite Nat.add_0_r. repeat split; auto.
      * destruct (B1 _ _ _ I) as (i & c' & s' & -> & E1 & E2 & I1 & I2). exists (S i), c', s'. split; [lia|]. repeat split; auto.
    + intros [|i] c' k E I; cbn in E.
      * injection E as <-. destruct (A2 k I) as (y & Iy). exists y. rewrite Nat.add_0_r. apply in_app_iff. now left.
      * destruct (B2 i c' k E I) as (y & Iy). exists y. apply in_app_iff. right. now rewrite Nat.add_succ_r.
Qed.

Section series.
Variable (cs : list (cout * (nat -> hist -> hist -> R))) (vars : list (svar R)) (L : nat -> nat) (N : nat).
Variable e : nat -> inputs.
Hypothesis e_ok : forall t, t < N -> agrees (earlier (e t)) (history vars L t) (map s_taps vars).
Hypothesis taps_ok : forall c g k, In (c, g) cs -> In k (c_taps c) -> (- Z.of_nat (length (c_init c)) <= k < 0)%Z.
Hypothesis g_ok : forall c g, In (c, g) cs -> series_computes c g vars (map fst cs).

Fixpoint B (T : nat) : list (list R) :=
  match T with
  | 0 => map (fun cg => c_init (fst cg)) cs
  | S T => extend (B T) (map (fun cg => snd cg T (history vars L T) (c_history (map fst cs) (B T) T)) cs)
  end.
Lemma B_nth T : forall j c g, nth_error cs j = Some (c, g) -> exists s, nth_error (B T) j = Some s /\ length s = length (c_init c) + T /\ firstn (length (c_init c)) s = c_init c.
Proof.
  induction T as [|T IH]; intros j c g E; cbn [B].
  - exists (c_init c). rewrite nth_error_map, E. cbn. repeat split; [lia|apply firstn_all].
  - destruct (IH j c g E) as (s & Es & Ls & Fs). unfold extend. rewrite nth_error_map, nth_combine, Es, nth_error_map, E. cbn. eexists. split; [reflexivity|]. rewrite app_length. cbn. split; [lia|].
    rewrite firstn_app, Fs. replace (length (c_init c) - length s) with 0 by lia. cbn. apply app_nil_r.
Qed.
Lemma B_length T : length (B T) = length cs.
Proof. induction T as [|T IH]; cbn [B]; [apply map_length|]. unfold extend. rewrite map_length, combine_length, map_length, IH. lia. Qed.
Lemma B_next T j c g s : nth_error cs j = Some (c, g) -> nth_error (B T) j = Some s ->
  nth_error (B (S T)) j = Some (s ++ [g T (history vars L T) (c_history (map fst cs) (B T) T)]).
Proof. intros E Es. cbn [B]. unfold extend. rewrite nth_error_map, nth_combine, Es, nth_error_map, E. reflexivity. Qed.
(** [S] has the first [T] steps of the series *)
Definition starts (S : list (list R)) (T : nat) : Prop :=
  forall j c g s, nth_error cs j = Some (c, g) -> nth_error (B T) j = Some s -> exists s', nth_error S j = Some (s ++ s').
Lemma starts_more T n : starts (B (T + n)) T.
Proof.
  induction n as [|n IH]; intros j c g s E Es.
  - rewrite Nat.add_0_r. exists []. now rewrite app_nil_r.
  - destruct (IH j c g s E Es) as (s' & E'). rewrite Nat.add_succ_r. rewrite (B_next _ j c g _ E E'). rewrite <- app_assoc. eauto.
Qed.
Lemma cs_fst j c : nth_error (map fst cs) j = Some c -> exists g, nth_error cs j = Some (c, g).
Proof. rewrite nth_error_map. destruct (nth_error cs j) as [[c' g]|]; [|discriminate]. cbn. intros E. injection E as ->. eauto. Qed.
Lemma own_agrees T : exists ce, own_env 0 (map fst cs) (B T) = Val ce /\ forall S, starts S T -> agrees ce (c_history (map fst cs) S T) (map c_taps (map fst cs)).
Proof.
  destruct (own_env_ok (map fst cs) (B T) 0) as (ce & E & A1 & A2).
  - rewrite B_length. now rewrite map_length.
  - intros i c s k Ec Es I. destruct (cs_fst _ _ Ec) as (g & Eg). destruct (B_nth T i c g Eg) as (s' & Es' & Ls & _). rewrite Es in Es'. injection Es' as <-.
    pose proof (taps_ok c g k (nth_error_In _ _ Eg) I). lia.
  - exists ce. split; [exact E|]. intros S St. split.
    + intros u k x I. destruct (A1 u k x I) as (i & c & s & -> & Ec & Es & Ik & Ex). cbn [Nat.add]. destruct (cs_fst _ _ Ec) as (g & Eg). destruct (St i c g s Eg Es) as (s' & E').
      unfold c_history. rewrite Ec, E'. destruct (B_nth T i c g Eg) as (s2 & Es2 & Ls & _). rewrite Es in Es2. injection Es2 as <-.
      pose proof (taps_ok c g k (nth_error_In _ _ Eg) Ik). unfold lagged. rewrite (proj2 (Z.leb_le 0 _)) by lia.
      replace (Z.of_nat T + Z.of_nat (length (c_init c)) + k)%Z with (Z.of_nat (length s) + k)%Z by lia. rewrite nth_error_app1 by lia. exact Ex.
    + intros u l k E1 I. rewrite nth_error_map in E1. destruct (nth_error (map fst cs) u) as [c|] eqn:Ec; [|discriminate]. injection E1 as <-. exact (A2 u c k Ec I).
Qed.
Lemma B_same T S c g : T < N -> starts S T -> In (c, g) cs -> g T (history vars L T) (c_history (map fst cs) S T) = g T (history vars L T) (c_history (map fst cs) (B T) T).
Proof.
  intros Ht St I. destruct (own_agrees T) as (ce & _ & A). pose proof (g_ok c g I T _ ce _ _ (e_ok T Ht) (A S St)) as E1.
  pose proof (starts_more T 0) as S0. rewrite Nat.add_0_r in S0. pose proof (g_ok c g I T _ ce _ _ (e_ok T Ht) (A (B T) S0)) as E2. congruence.
Qed.
Lemma B_solves : solves cs vars L N (B N).
Proof.
  split; [apply B_length|]. intros j c g s E Es. destruct (B_nth N j c g E) as (s' & Es' & Ls & Fs). rewrite Es in Es'. injection Es' as <-. split; [exact Ls|]. split; [exact Fs|].
  intros t Ht. destruct (B_nth t j c g E) as (st & Est & Lst & _).
  pose proof (B_next t j c g st E Est) as E1. pose proof (starts_more (S t) (N - S t)) as S1. replace (S t + (N - S t)) with N in S1 by lia.
  destruct (S1 j c g _ E E1) as (s' & E2). rewrite Es in E2. injection E2 as ->. rewrite <- app_assoc, nth_error_app2 by lia. replace (length (c_init c) + t - length st) with 0 by lia. cbn. f_equal. symmetry.
  apply (B_same t _ c g); [exact Ht| |exact (nth_error_In _ _ E)]. pose proof (starts_more t (N - t)) as S2. replace (t + (N - t)) with N in S2 by lia. exact S2.
Qed.
Lemma solves_unique S : solves cs vars L N S -> S = B N.
Proof.
  intros (LS & H). assert (St : forall T, T <= N -> starts S T).
  { induction T as [|T IH]; intros LT j c g s E Es.
    - cbn [B] in Es. rewrite nth_error_map, E in Es. cbn in Es. injection Es as <-. destruct (nth_error S j) as [s'|] eqn:Ej.
      + destruct (H j c g s' E Ej) as (_ & F & _). exists (skipn (length (c_init c)) s'). f_equal. rewrite <- (firstn_skipn (length (c_init c)) s') at 1. now rewrite F.
      + apply nth_error_None in Ej. assert (j < length cs) by (apply nth_error_Some; congruence). lia.
    - destruct (B_nth T j c g E) as (s0 & E0 & L0 & _). rewrite (B_next T j c g s0 E E0) in Es. injection Es as <-.
      destruct (IH ltac:(lia) j c g s0 E E0) as (s' & Ej). destruct (H j c g _ E Ej) as (Ls & _ & Rec). specialize (Rec T ltac:(lia)).
      rewrite nth_error_app2 in Rec by lia. replace (length (c_init c) + T - length s0) with 0 in Rec by lia. destruct s' as [|x s']; [discriminate|]. cbn in Rec. injection Rec as ->.
      exists s'. rewrite Ej. f_equal. rewrite <- app_assoc. cbn [app]. do 2 f_equal. apply (B_same T _ c g); [lia|apply IH; lia|exact (nth_error_In _ _ E)]. }
  apply ext_list. intros j. destruct (nth_error cs j) as [[c g]|] eqn:E.
  - destruct (B_nth N j c g E) as (s & Es & Ls & _). destruct (St N ltac:(lia) j c g s E Es) as (s' & E'). rewrite Es, E'. destruct (H j c g _ E E') as (Ln & _). rewrite app_length in Ln.
    destruct s'; [now rewrite app_nil_r|cbn in Ln; lia].
  - apply nth_error_None in E. rewrite !(proj2 (nth_error_None _ j)); [reflexivity|rewrite B_length; lia|lia].
Qed.
Lemma run_ok : forall n T, T + n <= N -> exists ces, run (map fst cs) (map (fun t => (t, e t)) (seq T n)) (B T) = Val (B (T + n), ces) /\
  forall i, i < n -> exists ce, nth_error ces i = Some ce /\ agrees ce (c_history (map fst cs) (B (T + n)) (T + i)) (map c_taps (map fst cs)).
Proof.
  induction n as [|n IH]; intros T LT; cbn [seq map run].
  - exists []. rewrite Nat.add_0_r. split; [reflexivity|]. intros i Li. lia.
  - destruct (own_agrees T) as (ce & Ee & A). rewrite Ee. cbn [bind]. pose proof (starts_more T 0) as S0. rewrite Nat.add_0_r in S0.
    rewrite map_map, (rseq_map _ (fun cg => snd cg T (history vars L T) (c_history (map fst cs) (B T) T))).
    2:{ intros [c g] I. apply (g_ok c g I T); [apply e_ok; lia|apply A, S0]. }
    cbn [bind]. change (extend (B T) _) with (B (S T)). destruct (IH (S T) ltac:(lia)) as (ces & -> & H). cbn [bind fst snd]. exists (ce :: ces). rewrite Nat.add_succ_r. split; [reflexivity|].
    intros [|i] Li; cbn [nth_error].
    + exists ce. split; [reflexivity|]. rewrite Nat.add_0_r. apply A. pose proof (starts_more T (S n)) as S1. rewrite Nat.add_succ_r in S1. exact S1.
    + destruct (H i ltac:(lia)) as (ce' & E' & A'). exists ce'. split; [exact E'|]. rewrite Nat.add_succ_r. exact A'.
Qed.
End series.

Lemma all_given_some {A} (l : list A) : all_given (map Some l) = Val l.
Proof. induction l as [|x l IH]; cbn; [easy|]. now rewrite IH. Qed.
Lemma all_given_none {A} (l : list (option A)) : In None l -> all_given l = Raise.
Proof. induction l as [|[x|] l IH]; cbn; [easy| |easy]. intros [H|H]; [easy|]. now rewrite IH. Qed.
Lemma random_taps_app a b : random_taps (a ++ b) = random_taps a ++ random_taps b.
Proof. apply flat_map_app. Qed.
Lemma computed_app a b : computed (a ++ b) = computed a ++ computed b.
Proof. apply flat_map_app. Qed.
Lemma random_map l : random_taps (map Random l) = l.
Proof. induction l as [|t l IH]; cbn; [easy|]. unfold random_taps in IH. now rewrite IH. Qed.
Lemma computed_map l : computed (map Computed l) = l.
Proof. induction l as [|t l IH]; cbn; [easy|]. unfold computed in IH. now rewrite IH. Qed.
Lemma random_computed l : random_taps (map Computed l) = [].
Proof. induction l; cbn; auto. Qed.
Lemma computed_random l : computed (map Random l) = [].
Proof. induction l; cbn; auto. Qed.
Lemma combine_firstn {A B} (l : list A) (m k : list B) : length l = length m -> combine l (m ++ k) = combine l m.
Proof. revert m. induction l as [|x l IH]; intros [|y m] H; cbn in *; try easy. f_equal. apply IH. congruence. Qed.
Lemma xsum_fin l : xsum (map Fin l) = Fin (total l).
Proof. unfold xsum. induction l as [|x l IH]; cbn; [easy|]. rewrite IH. reflexivity. Qed.
Lemma denotes_shift s y d : denotes (Val y) d -> denotes (Val (xadd (Fin s) y)) (exp s * d).
Proof. destruct y; cbn; try easy; [intros <-; apply exp_plus|intros ->; ring]. Qed.


Definition c_ok (cs : list (cout * (nat -> hist -> hist -> R))) (vars : list (svar R)) : Prop :=
  forall c g, In (c, g) cs -> (forall k, In k (c_taps c) -> (- Z.of_nat (length (c_init c)) <= k < 0)%Z) /\ series_computes c g vars (map fst cs).
Lemma series_exist cs vars L N : vars <> [] -> vars_ok vars L N -> c_ok cs vars -> exists S, solves cs vars L N S /\ forall S', solves cs vars L N S' -> S' = S.
Proof.
  intros NE W CO. destruct (scan_envs vars L N NE W) as (seqs & _ & _ & A).
  exists (B cs vars L N). split.
  - apply (B_solves cs vars L N (fun t => env t seqs)); [intros t Ht; now apply A|intros c g k I; now apply (CO c g I)|intros c g I; now apply (CO c g I)].
  - intros S'. apply (solves_unique cs vars L N (fun t => env t seqs)); [intros t Ht; now apply A|intros c g k I; now apply (CO c g I)|intros c g I; now apply (CO c g I)].
Qed.
Lemma leading step D (outs : list scan_out) (values : list (list R)) (cs : list (cout * (nat -> hist -> hist -> R))) (L : nat -> nat) N (S : list (list R)) :
  let vars := map (fun tv => {| s_taps := fst tv; s_value := snd tv |}) (combine (random_taps outs) values) in
  random_taps outs <> [] -> length values = length outs -> computed outs = map fst cs -> vars_ok vars L N -> c_ok cs vars ->
  density_computes step D vars L N (map fst cs) S -> solves cs vars L N S ->
  exists out, conditional_scan step outs (map Some values) = Val (map (map Fin) S ++ map (fun v => map (out v) (seq 0 N)) (seq 0 (length (random_taps outs)))) /\
    (forall v t, v < length (random_taps outs) -> t < N -> denotes (Val (out v t)) (D t v (history vars L t) (c_history (map fst cs) S t))) /\
    denotes (Val (xsum (concat (map (map Fin) S ++ map (fun v => map (out v) (seq 0 N)) (seq 0 (length (random_taps outs)))))))
      (exp (total (concat S)) * scan_density (fun t v h => D t v h (c_history (map fst cs) S t)) vars L N).
Proof.
  intros vars NR LV EC W CO SC Sol.
  assert (Lr : length (random_taps outs) <= length outs). { clear. induction outs as [|[t|c] outs IH]; cbn; [lia| |]; unfold random_taps in *; cbn in *; lia. }
  assert (LVs : length vars = length (random_taps outs)) by (unfold vars; rewrite map_length, combine_length; lia).
  assert (NV : vars <> []) by (intros Z; rewrite Z in LVs; destruct (random_taps outs); [easy|discriminate]).
  destruct (scan_envs vars L N NV W) as (seqs & C & Rd & A).
  assert (H1 : forall t, t < N -> agrees (earlier (env t seqs)) (history vars L t) (map s_taps vars)) by (intros t Ht; now apply A).
  assert (H2 : forall c g k, In (c, g) cs -> In k (c_taps c) -> (- Z.of_nat (length (c_init c)) <= k < 0)%Z) by (intros c g k I; now apply (CO c g I)).
  assert (H3 : forall c g, In (c, g) cs -> series_computes c g vars (map fst cs)) by (intros c g I; now apply (CO c g I)).
  pose proof (solves_unique cs vars L N _ H1 H2 H3 S Sol) as ES.
  destruct (run_ok cs vars L N _ H1 H2 H3 N 0 ltac:(lia)) as (ces & Er & Hc). cbn [Nat.add] in Er, Hc. rewrite <- ES in Er, Hc.
  set (step' := fun t v e => step t v e (nth t ces [])). set (D' := fun t v h => D t v h (c_history (map fst cs) S t)).
  assert (E : exists out, logprob_scan step' vars = Val (map (fun v => map (out v) (seq 0 N)) (seq 0 (length vars))) /\
    (forall v t, v < length vars -> t < N -> denotes (Val (out v t)) (D' t v (history vars L t)))).
  { set (out := fun v t => match step' t v (env t seqs) with Val x => x | Raise => NaN end).
    assert (O : forall v t, v < length vars -> t < N -> step' t v (env t seqs) = Val (out v t) /\ denotes (Val (out v t)) (D' t v (history vars L t))).
    { intros v t Hv Ht. unfold out. assert (Q : denotes (step' t v (env t seqs)) (D' t v (history vars L t))).
      { unfold step', D'. destruct (Hc t Ht) as (ce & Ece & Ac). replace (nth t ces []) with ce by (symmetry; exact (nth_error_nth ces t [] Ece)). apply SC; [exact Ht|exact Hv|now apply A|exact Ac]. }
      destruct (step' t v (env t seqs)); [easy|destruct Q]. }
    exists out. split; [|intros v t Hv Ht; now apply O]. unfold logprob_scan. rewrite C, Rd. cbn [bind]. apply rseq_map. intros v Iv. apply in_seq in Iv. rewrite map_map. apply rseq_map. intros t It. apply in_seq in It. apply O; lia. }
  destruct E as (out & E & H). rewrite LVs in *. exists out. split; [|split; [exact H|]].
  - unfold conditional_scan. rewrite all_given_some. cbn [bind]. rewrite LV, Nat.eqb_refl.
    unfold logprob_ScanRV. destruct (random_taps outs) as [|t0 ts] eqn:ET; [easy|]. fold vars. rewrite C, Rd. cbn [bind]. rewrite EC.
    replace (map c_init (map fst cs)) with (B cs vars L 0) by (cbn [B]; now rewrite map_map).
    etransitivity; [exact (f_equal (fun x => bind x _) Er)|]. cbn [bind fst snd]. etransitivity; [exact (f_equal (fun x => bind x _) E)|]. reflexivity.
  - rewrite concat_app, xsum_app, <- concat_map, xsum_fin. apply denotes_shift. rewrite <- LemJoint.xsum_concat, map_map. unfold scan_density. rewrite LVs. apply xsum_denotes, Forall2_map. intros v I. apply in_seq in I.
    apply xsum_denotes, Forall2_map. intros t It. apply in_seq in It. apply (H v t); lia.
Qed.
Lemma unvalued step outs given : In None given -> conditional_scan step outs given = Raise.
Proof. intros I. unfold conditional_scan. now rewrite all_given_none. Qed.
Lemma no_random step cs given : conditional_scan step (map Computed cs) given = Raise.
Proof. unfold conditional_scan, logprob_ScanRV. rewrite random_computed. destruct (all_given given); cbn; [|easy]. now destruct (_ =? _). Qed.
Lemma all_random step D (rs : list (list Z * list R)) (L : nat -> nat) N :
  let vars := map (fun tv => {| s_taps := fst tv; s_value := snd tv |}) rs in
  rs <> [] -> vars_ok vars L N -> step_computes step D vars L N ->
  exists out, conditional_scan (fun t v e _ => step t v e) (map (fun r => Random (fst r)) rs) (map Some (map snd rs)) = Val (map (fun v => map (out v) (seq 0 N)) (seq 0 (length rs))) /\
    (forall v t, v < length rs -> t < N -> denotes (Val (out v t)) (D t v (history vars L t))) /\
    denotes (Val (xsum (concat (map (fun v => map (out v) (seq 0 N)) (seq 0 (length rs)))))) (scan_density D vars L N).
Proof.
  intros vars NE W SC. pose proof (leading (fun t v e _ => step t v e) (fun t v h _ => D t v h) (map (fun r => Random (fst r)) rs) (map snd rs) [] L N []) as Q.
  assert (ET : random_taps (map (fun r : list Z * list R => Random (fst r)) rs) = map fst rs) by (rewrite <- (map_map fst Random rs); apply random_map).
  assert (EV : map (fun tv => {| s_taps := fst tv; s_value := snd tv |}) (combine (map fst rs) (map snd rs)) = vars).
  { unfold vars. clear. induction rs as [|[a b] rs IH]; cbn; [easy|]. now rewrite IH. }
  cbn zeta in Q. rewrite ET, EV, !map_length in Q. destruct Q as (out & E & H & J).
  - destruct rs; [easy|discriminate].
  - reflexivity.
  - rewrite <- (map_map fst Random rs). apply computed_random.
  - exact W.
  - intros c g [].
  - intros t v e ce Ht Hv [A1 A2] _. apply SC; [exact Ht|exact Hv|exact A1|]. intros u x k Ex I. apply (A2 u (0%Z :: s_taps x) k); [now rewrite nth_error_map, Ex|exact I].
  - split; [reflexivity|]. intros [|j] c g s E; discriminate.
  - exists out. cbn [map app concat total fold_right] in E, J. rewrite exp_0, Rmult_1_l in J. auto.
Qed.
