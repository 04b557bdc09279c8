(** Lemmas for C46. *)
From Coq Require Import Reals Lra Lia List Arith Permutation.
From Verif Require Import XR SpecDist ModelVec SpecScan LemScan ModelChain SpecChain.
Import ListNotations.
Open Scope R_scope.

(** ** sums *)
Lemma rsum_app l m : rsum (l ++ m) = rsum l + rsum m.
Proof. unfold rsum. induction l as [|x l IH]; cbn; [ring|]. rewrite IH. ring. Qed.
Lemma rsum_scal c l : rsum (map (Rmult c) l) = c * rsum l.
Proof. unfold rsum. induction l as [|x l IH]; cbn; [ring|]. rewrite IH. ring. Qed.
Lemma rsum_map_scal {A} c (f : A -> R) l : rsum (map (fun x => c * f x) l) = c * rsum (map f l).
Proof. rewrite <- rsum_scal, map_map. easy. Qed.
Lemma rsum_map_add {A} (f g : A -> R) l : rsum (map (fun x => f x + g x) l) = rsum (map f l) + rsum (map g l).
Proof. unfold rsum. induction l as [|x l IH]; cbn; [ring|]. rewrite IH. ring. Qed.
Lemma rsum_zero {A} (l : list A) : rsum (map (fun _ => 0) l) = 0.
Proof. unfold rsum. induction l as [|x l IH]; cbn; [easy|]. rewrite IH. ring. Qed.
Lemma rsum_swap {A B} (f : A -> B -> R) l m : rsum (map (fun x => rsum (map (f x) m)) l) = rsum (map (fun y => rsum (map (fun x => f x y) l)) m).
Proof.
  induction l as [|x l IH]; cbn [map]; [rewrite rsum_zero; easy|]. change (rsum (?a :: ?b)) with (a + rsum b). 
  transitivity (rsum (map (f x) m) + rsum (map (fun x => rsum (map (f x) m)) l)); [easy|]. rewrite IH, <- rsum_map_add. f_equal.
Qed.
Lemma rsum_perm l m : Permutation l m -> rsum l = rsum m.
Proof. unfold rsum. induction 1; cbn; lra. Qed.
Lemma rsum_nonneg l : nonneg l -> 0 <= rsum l.
Proof. unfold rsum, nonneg. induction l as [|x l IH]; intros H; cbn; [lra|]. assert (Q := H x (or_introl eq_refl)). assert (P := IH (fun y I => H y (or_intror I))). lra. Qed.
Lemma rsum_flat {A} (f : A -> list R) l : rsum (flat_map f l) = rsum (map (fun x => rsum (f x)) l).
Proof. induction l as [|x l IH]; [easy|]. cbn [flat_map map]. rewrite rsum_app, IH. easy. Qed.
Lemma combine_seq (F : R -> nat -> R) p : forall k, map (fun pa => F (fst pa) (snd pa)) (combine p (seq k (length p))) = map (fun i => F (nth i p 0) (k + i)%nat) (seq 0 (length p)).
Proof.
  induction p as [|x p IH]; intros k; [easy|]. cbn [length seq combine map fst snd nth]. rewrite Nat.add_0_r. f_equal. rewrite IH, <- seq_shift, map_map.
  apply map_ext. intros i. cbn [nth]. f_equal. lia.
Qed.
Lemma nth_map_seq p : map (fun i => nth i p 0) (seq 0 (length p)) = p.
Proof. induction p as [|x p IH]; [easy|]. cbn [length seq map nth]. f_equal. rewrite <- seq_shift, map_map. exact IH. Qed.
Lemma rsum_pick (f : nat -> R) s n : (s < n)%nat -> rsum (map (fun i => if Nat.eq_dec i s then f i else 0) (seq 0 n)) = f s.
Proof.
  intros H. replace n with (s + (1 + (n - S s)))%nat by lia. rewrite seq_app, map_app, rsum_app, seq_app, map_app, rsum_app. cbn [seq map Nat.add].
  assert (Z : forall k m, (s < k \/ k + m <= s)%nat -> rsum (map (fun i => if Nat.eq_dec i s then f i else 0) (seq k m)) = 0).
  { intros k m Q. rewrite (map_ext_in _ (fun _ => 0)); [apply rsum_zero|]. intros i I. apply in_seq in I. destruct (Nat.eq_dec i s); [lia|easy]. }
  rewrite !Z by lia. unfold rsum. cbn. destruct (Nat.eq_dec s s); [ring|easy].
Qed.

(** ** the sampler *)
Lemma mass_bind {A} (d : dist A) (f : A -> dist (list nat)) w : mass (dbind d f) w = rsum (map (fun pa => fst pa * mass (f (snd pa)) w) d).
Proof.
  unfold mass, dbind. induction d as [|[p a] d IH]; [easy|]. cbn [flat_map map fst snd]. rewrite map_app, rsum_app, IH. cbn [rsum fold_right]. f_equal.
  rewrite map_map, <- rsum_map_scal. f_equal. apply map_ext. intros [q b]. cbn [fst snd]. destruct (list_eq_dec Nat.eq_dec b w); ring.
Qed.
Lemma mass_categorical p (f : nat -> dist (list nat)) w : mass (dbind (categorical p) f) w = rsum (map (fun i => nth i p 0 * mass (f i) w) (seq 0 (length p))).
Proof. rewrite mass_bind. unfold categorical. rewrite (combine_seq (fun x i => x * mass (f i) w)). easy. Qed.
Lemma mass_cons s (d : dist (list nat)) s' w : mass (dbind d (fun rest => dret (s :: rest))) (s' :: w) = if Nat.eq_dec s s' then mass d w else 0.
Proof.
  rewrite mass_bind. unfold mass at 2. destruct (Nat.eq_dec s s') as [<-|N].
  - f_equal. apply map_ext. intros [p l]. unfold mass, dret, rsum. cbn [map fst snd fold_right]. destruct (list_eq_dec Nat.eq_dec l w) as [->|E].
    + destruct (list_eq_dec Nat.eq_dec (s :: w) (s :: w)); [ring|easy].
    + destruct (list_eq_dec Nat.eq_dec (s :: l) (s :: w)); [congruence|ring].
  - rewrite (map_ext _ (fun _ => 0)); [apply rsum_zero|]. intros [p l]. unfold mass, dret, rsum. cbn [map fst snd fold_right]. destruct (list_eq_dec Nat.eq_dec (s :: l) (s' :: w)); [congruence|ring].
Qed.
Lemma path_ext (G H : nat -> nat -> nat -> R) w : forall t u s, (forall j a b, G (t + j)%nat a b = H (u + j)%nat a b) -> path G t s w = path H u s w.
Proof.
  induction w as [|s' w IH]; intros t u s E; cbn; [easy|]. assert (E0 := E 0%nat s s'). rewrite !Nat.add_0_r in E0. rewrite E0. f_equal. apply IH.
  intros j a b. specialize (E (S j) a b). rewrite !Nat.add_succ_r in E. exact E.
Qed.
Lemma row_length M G s : square M G -> (s < M)%nat -> length (nth s G []) = M.
Proof. intros [L R] H. apply R, nth_In. lia. Qed.
Lemma mass_loop M Gs : forall s w, (forall G, In G Gs -> square M G) -> (s < M)%nat -> sequence M (length Gs) w ->
  mass (loop Gs s) w = path (ents Gs) 0 s w.
Proof.
  induction Gs as [|G Gs IH]; intros s w Q Hs [Lw Hw].
  - destruct w; [|discriminate]. unfold mass, loop, dret. cbn. ring.
  - destruct w as [|s' w]; [discriminate|]. cbn [loop]. rewrite mass_categorical. rewrite (row_length M) by (try apply Q; try left; easy).
    rewrite (map_ext _ (fun i => if Nat.eq_dec i s' then nth i (nth s G []) 0 * mass (loop Gs i) w else 0)).
    + rewrite rsum_pick by (apply Hw; left; easy). cbn [path]. f_equal. rewrite IH.
      * apply path_ext. intros j a b. easy.
      * intros G' I. apply Q. right. exact I.
      * apply Hw. left. easy.
      * split; [cbn in Lw; lia|]. intros x I. apply Hw. right. exact I.
    + intros i. rewrite mass_cons. destruct (Nat.eq_dec i s'); ring.
Qed.
Lemma mass_chain M Gs g0 w : (forall G, In G Gs -> square M G) -> length g0 = M -> sequence M (length Gs) w ->
  mass (discrete_markov_chain Gs g0) w = chain_prob M (fun h => nth h g0 0) (ents Gs) w.
Proof.
  intros Q L W. unfold discrete_markov_chain. rewrite mass_categorical, L. unfold chain_prob. f_equal. apply map_ext_in. intros h I. apply in_seq in I.
  rewrite (mass_loop M) by (assumption || lia). easy.
Qed.

(** ** the log-likelihood *)
Lemma log_denotes q : 0 <= q -> denotes (Val (xlog (Fin q))) q.
Proof. intros [H| <-]; [rewrite xlog_pos by exact H; cbn; apply exp_ln, H|rewrite xlog_zero; easy]. Qed.
Lemma column_eq M G s : square M G -> (s < M)%nat -> column G s = Val (map (fun row => nth s row 0) G).
Proof.
  intros [L R] H. unfold column. apply rseq_map. intros row I. unfold idx. rewrite (nth_error_nth' row 0); [easy|]. rewrite (R row I). exact H.
Qed.
Lemma vdot_eq (g0 : list R) : forall G s, length g0 = length G -> vdot g0 (map (fun row => nth s row 0) G) = rsum (map (fun h => nth h g0 0 * ent G h s) (seq 0 (length g0))).
Proof.
  unfold vdot. induction g0 as [|g g0 IH]; intros [|row G] s L; try discriminate; [easy|]. cbn [map map2 length seq fold_right rsum nth]. cbn in L.
  rewrite (IH G s) by lia. f_equal. rewrite <- seq_shift, map_map. easy.
Qed.
(** what the code computes: the first transition uses the first matrix, the
    transition into position [t > 0] the matrix of position [t - 1] *)
Definition shifted (Gs : list (list (list R))) (t a b : nat) : R := ents Gs (Nat.pred t) a b.
Lemma skipn_S {A} : forall j (w : list A) x l, skipn j w = x :: l -> l = skipn (S j) w.
Proof. induction j as [|j IH]; intros [|y w] x l E; cbn in *; try discriminate; [congruence|]. apply (IH w x l E). Qed.
Lemma path_prod Gs w : forall n j, (length w = n + S j)%nat ->
  path (shifted Gs) (S j) (nth j w 0%nat) (skipn (S j) w) = prod (map (fun t => ents Gs t (nth t w 0%nat) (nth (S t) w 0%nat)) (seq j n)).
Proof.
  induction n as [|n IH]; intros j L.
  - rewrite skipn_all2 by lia. easy.
  - destruct (skipn (S j) w) as [|x l] eqn:E; [apply (f_equal (@length _)) in E; rewrite skipn_length in E; cbn in E; lia|].
    assert (X : nth (S j) w 0%nat = x) by (rewrite <- (firstn_skipn (S j) w), E, app_nth2; rewrite firstn_length_le by lia; [rewrite Nat.sub_diag; easy|lia]).
    assert (Y : l = skipn (S (S j)) w) by (apply (skipn_S _ _ x), E).
    cbn [path seq map prod fold_right]. rewrite X. f_equal. rewrite Y, <- X. rewrite IH by lia. easy.
Qed.
Lemma mc_computes M Gs g0 w : Gs <> [] -> (forall G, In G Gs -> square M G /\ forall row, In row G -> nonneg row) -> length g0 = M -> nonneg g0 ->
  sequence M (length Gs) w ->
  exists out, discrete_mc_logp Gs g0 w = Val out /\ length out = length w /\
    denotes (Val (xsum out)) (chain_prob M (fun h => nth h g0 0) (shifted Gs) w).
Proof.
  intros NE Q L N0 [Lw Hw]. unfold discrete_mc_logp.
  assert (B : broadcast_to (length w) Gs = Val Gs).
  { unfold broadcast_to. destruct Gs as [|G [|G' Gs]]; [easy|rewrite Lw; easy|]. rewrite Lw, Nat.eqb_refl. easy. }
  rewrite B. cbn [bind]. destruct Gs as [|G1 Gs']; [easy|]. set (Gs := G1 :: Gs') in *. destruct w as [|s0 w']; [discriminate|]. set (w := s0 :: w') in *.
  assert (Q1 : square M G1 /\ forall row, In row G1 -> nonneg row) by (apply Q; left; easy).
  assert (H0 : (s0 < M)%nat) by (apply Hw; left; easy).
  change (idx Gs 0) with (Val G1). change (idx w 0) with (Val s0). cbn [bind]. rewrite (column_eq M) by easy. cbn [bind].
  set (q := fun t => ents Gs t (nth t w 0%nat) (nth (S t) w 0%nat)).
  assert (R : forall t, (S t < length w)%nat -> bind (idx Gs t) (fun G => bind (idx w t) (fun a => bind (idx w (S t)) (fun b => bind (idx G a) (fun row => idx row b)))) = Val (q t) /\ 0 <= q t).
  { intros t Ht. unfold q, ents, ent. unfold idx at 1. rewrite (nth_error_nth' Gs []) by lia. cbn [bind].
    unfold idx at 1. rewrite (nth_error_nth' w 0%nat) by lia. cbn [bind]. unfold idx at 1. rewrite (nth_error_nth' w 0%nat) by lia. cbn [bind].
    assert (IG : In (nth t Gs []) Gs) by (apply nth_In; lia). destruct (Q _ IG) as [[LG RG] PG].
    assert (Ha : (nth t w 0 < M)%nat) by (apply Hw, nth_In; lia). assert (Hb : (nth (S t) w 0 < M)%nat) by (apply Hw, nth_In; lia).
    assert (IR : In (nth (nth t w 0%nat) (nth t Gs []) []) (nth t Gs [])) by (apply nth_In; lia).
    unfold idx at 1. rewrite (nth_error_nth' (nth t Gs []) []) by lia. cbn [bind]. unfold idx. rewrite (nth_error_nth' _ 0) by (rewrite (RG _ IR); exact Hb).
    split; [easy|]. apply (PG _ IR). apply nth_In. rewrite (RG _ IR). exact Hb. }
  rewrite (rseq_map _ q) by (intros t I; apply in_seq in I; apply R; lia). cbn [bind]. eexists. split; [reflexivity|]. split.
  - cbn [length]. rewrite !map_length, seq_length. unfold w. cbn. lia.
  - rewrite vdot_eq by (destruct Q1 as [[LG _] _]; lia). rewrite L.
    assert (E : chain_prob M (fun h => nth h g0 0) (shifted Gs) w = prod (rsum (map (fun h => nth h g0 0 * ent G1 h s0) (seq 0 M)) :: map q (seq 0 (length w - 1)))).
    { unfold chain_prob. cbn [prod fold_right]. fold (prod (map q (seq 0 (length w - 1)))). unfold q. rewrite <- (path_prod Gs w (length w - 1) 0) by (unfold w; cbn; lia).
      rewrite Rmult_comm, <- rsum_map_scal. f_equal. apply map_ext. intros h. unfold w at 1. cbn [path nth skipn]. unfold shifted at 1, ents at 1. cbn [Nat.pred nth Gs]. unfold w. cbn [nth skipn]. ring. }
    rewrite E. apply xsum_denotes. constructor.
    + apply log_denotes. apply rsum_nonneg. intros x I. apply in_map_iff in I as (h & <- & I). apply in_seq in I. destruct Q1 as [[LG RG] PG].
      apply Rmult_le_pos; [apply N0, nth_In; lia|]. unfold ent. apply (PG (nth h G1 [])); apply nth_In; [lia|]. rewrite RG by (apply nth_In; lia). lia.
    + rewrite map_map. apply Forall2_map. intros t I. apply in_seq in I. apply log_denotes, R. lia.
Qed.
Lemma broadcast_one (G : list (list R)) T : broadcast_to (S T) [G] = broadcast_to (S T) (repeat G (S T)).
Proof. unfold broadcast_to. destruct T as [|T]; [easy|]. cbn [repeat]. replace (length (G :: G :: repeat G T) =? S (S T))%nat with true by (cbn [length]; rewrite repeat_length, Nat.eqb_refl; easy). easy. Qed.
Lemma mc_repeat G g0 w : w <> [] -> discrete_mc_logp [G] g0 w = discrete_mc_logp (repeat G (length w)) g0 w.
Proof. intros N. destruct w as [|s w]; [easy|]. unfold discrete_mc_logp. cbn [length]. rewrite broadcast_one. easy. Qed.
Lemma nth_repeat' {A} (x d : A) n t : (t < n)%nat -> nth t (repeat x n) d = x.
Proof. revert t. induction n as [|n IH]; intros [|t] H; cbn; try lia; [easy|]. apply IH. lia. Qed.
Lemma path_ext_len (G H : nat -> nat -> nat -> R) w : forall t s, (forall j a b, (t <= j < t + length w)%nat -> G j a b = H j a b) -> path G t s w = path H t s w.
Proof.
  induction w as [|s' w IH]; intros t s E; cbn; [easy|]. rewrite E by (cbn; lia). f_equal. apply IH. intros j a b I. apply E. cbn. lia.
Qed.
Lemma chain_repeat M g0 G w : chain_prob M g0 (shifted (repeat G (length w))) w = chain_prob M g0 (ents (repeat G (length w))) w.
Proof.
  unfold chain_prob. f_equal. apply map_ext. intros h. f_equal. apply path_ext_len. intros j a b I. unfold shifted, ents. rewrite !nth_repeat' by lia. easy.
Qed.
Lemma in_repeat {A} (x y : A) n : In y (repeat x n) -> y = x.
Proof. intros I. apply repeat_spec in I. exact I. Qed.
Lemma mc_homogeneous M G g0 w : square M G -> (forall row, In row G -> nonneg row) -> length g0 = M -> nonneg g0 -> w <> [] -> (forall s, In s w -> (s < M)%nat) ->
  exists out, discrete_mc_logp [G] g0 w = Val out /\ length out = length w /\ denotes (Val (xsum out)) (mass (discrete_markov_chain (repeat G (length w)) g0) w).
Proof.
  intros Q P L N NE Hw. assert (W : sequence M (length (repeat G (length w))) w) by (rewrite repeat_length; easy).
  destruct (mc_computes M (repeat G (length w)) g0 w) as (out & E & K & D); try assumption.
  - destruct w; easy.
  - intros G' I. apply in_repeat in I. subst. easy.
  - exists out. rewrite mc_repeat by exact NE. split; [exact E|]. split; [exact K|].
    rewrite (mass_chain M) by (try assumption; intros G' I; apply in_repeat in I; subst; easy). rewrite <- chain_repeat. exact D.
Qed.

(** ** total mass *)
Fixpoint words (M T : nat) : list (list nat) :=
  match T with O => [[]] | S T => flat_map (fun s => map (cons s) (words M T)) (seq 0 M) end.
Lemma words_in M T : forall w, In w (words M T) <-> sequence M T w.
Proof.
  induction T as [|T IH]; intros w; cbn [words].
  - split; [intros [<-|[]]; split; easy|]. intros [L _]. destruct w; [left; easy|discriminate].
  - rewrite in_flat_map. split.
    + intros (s & I & J). apply in_seq in I. apply in_map_iff in J as (v & <- & J). apply IH in J as [L H]. split; [cbn; lia|]. intros x [<-|K]; [lia|apply H, K].
    + intros [L H]. destruct w as [|s w]; [discriminate|]. exists s. split; [apply in_seq; assert (Q := H s (or_introl eq_refl)); lia|].
      apply in_map, IH. split; [cbn in L; lia|]. intros x I. apply H. right. exact I.
Qed.
Lemma words_nodup M T : NoDup (words M T).
Proof.
  induction T as [|T IH]; cbn [words]; [repeat constructor; easy|].
  assert (Q : forall l, NoDup l -> NoDup (flat_map (fun s => map (cons s) (words M T)) l)).
  { induction l as [|s l IHl]; intros N; [constructor|]. inversion N as [|? ? N1 N2]; subst. cbn [flat_map].
    assert (A : forall (l1 l2 : list (list nat)), NoDup l1 -> NoDup l2 -> (forall x, In x l1 -> ~ In x l2) -> NoDup (l1 ++ l2)).
    { induction l1 as [|y l1 IH1]; intros l2 D1 D2 X; [exact D2|]. inversion D1; subst. cbn. constructor.
      - intros I. apply in_app_or in I as [I|I]; [easy|]. apply (X y (or_introl eq_refl) I).
      - apply IH1; try assumption. intros z I. apply X. right. exact I. }
    apply A; [apply FinFun.Injective_map_NoDup; [intros x y E; congruence|exact IH]|apply IHl, N2|].
    intros x I J. apply in_map_iff in I as (v & <- & _). apply in_flat_map in J as (s' & J1 & J2). apply in_map_iff in J2 as (v' & E & _). injection E as <- _. easy. }
  apply Q, seq_NoDup.
Qed.
Lemma path_total M (Gs : nat -> nat -> nat -> R) T : forall t s, (forall j a, (a < M)%nat -> (t <= j < t + T)%nat -> rsum (map (Gs j a) (seq 0 M)) = 1) -> (s < M)%nat ->
  rsum (map (path Gs t s) (words M T)) = 1.
Proof.
  induction T as [|T IH]; intros t s H Hs; cbn [words]; [cbn; unfold rsum; cbn; ring|].
  rewrite flat_map_concat_map, concat_map, map_map, <- flat_map_concat_map, rsum_flat. rewrite (map_ext_in _ (Gs t s)).
  - apply H; [exact Hs|lia].
  - intros s' I. apply in_seq in I. rewrite map_map. cbn [path]. rewrite rsum_map_scal, IH; [ring| |lia]. intros j a Ha Hj. apply H; [exact Ha|lia].
Qed.
Lemma chain_total M g0 (Gs : nat -> nat -> nat -> R) T : (forall j a, (a < M)%nat -> (j < T)%nat -> rsum (map (Gs j a) (seq 0 M)) = 1) -> rsum (map g0 (seq 0 M)) = 1 ->
  rsum (map (chain_prob M g0 Gs) (words M T)) = 1.
Proof.
  intros H H0. unfold chain_prob. rewrite (rsum_swap (fun w h => g0 h * path Gs 0 h w) (words M T) (seq 0 M)). rewrite <- H0. f_equal. apply map_ext_in. intros h I. apply in_seq in I.
  rewrite rsum_map_scal, path_total; [ring| |lia]. intros j a Ha Hj. apply H; [exact Ha|lia].
Qed.
Lemma stoch_row M Gs T j a : length Gs = T -> (forall G, In G Gs -> stochastic M G) -> (a < M)%nat -> (j < T)%nat -> rsum (map (ents Gs j a) (seq 0 M)) = 1.
Proof.
  intros L S Ha Hj. unfold ents. assert (I : In (nth j Gs []) Gs) by (apply nth_In; lia). destruct (S _ I) as [LG R].
  assert (IR : In (nth a (nth j Gs []) []) (nth j Gs [])) by (apply nth_In; lia). destruct (R _ IR) as (LR & _ & E). rewrite <- E, <- (nth_map_seq (nth a (nth j Gs []) [])) at 1.
  rewrite LR. easy.
Qed.
Lemma perm_words M T l : NoDup l -> (forall w, In w l <-> sequence M T w) -> Permutation l (words M T).
Proof. intros N H. apply NoDup_Permutation; [exact N|apply words_nodup|]. intros w. rewrite H, words_in. easy. Qed.
Lemma stoch_square M G : stochastic M G -> square M G /\ forall row, In row G -> nonneg row.
Proof. intros [L R]. split; [split; [exact L|intros row I; apply R, I]|intros row I; apply R, I]. Qed.
Lemma denotes_fun r a b : denotes r a -> denotes r b -> a = b.
Proof. destruct r as [[]|]; cbn; try easy; congruence. Qed.
Lemma sampler_total M Gs g0 l : (forall G, In G Gs -> stochastic M G) -> probs M g0 -> NoDup l -> (forall w, In w l <-> sequence M (length Gs) w) ->
  rsum (map (mass (discrete_markov_chain Gs g0)) l) = 1.
Proof.
  intros S (L & N & E) ND H. rewrite (rsum_perm _ (map (mass (discrete_markov_chain Gs g0)) (words M (length Gs)))) by (apply Permutation_map, perm_words; assumption).
  rewrite (map_ext_in _ (chain_prob M (fun h => nth h g0 0) (ents Gs))).
  - apply chain_total; [intros j a Ha Hj; apply (stoch_row M Gs (length Gs)); easy|]. rewrite <- L, nth_map_seq. exact E.
  - intros w I. apply mass_chain; [intros G IG; apply stoch_square, S, IG|exact L|apply words_in, I].
Qed.
Lemma mc_total M Gs g0 l (p : list nat -> R) : Gs <> [] -> (forall G, In G Gs -> stochastic M G) -> probs M g0 -> NoDup l -> (forall w, In w l <-> sequence M (length Gs) w) ->
  (forall w, In w l -> exists out, discrete_mc_logp Gs g0 w = Val out /\ denotes (Val (xsum out)) (p w)) -> rsum (map p l) = 1.
Proof.
  intros NE S (L & N & E) ND H P. rewrite (rsum_perm _ (map p (words M (length Gs)))) by (apply Permutation_map, perm_words; assumption).
  rewrite (map_ext_in _ (chain_prob M (fun h => nth h g0 0) (shifted Gs))).
  - apply chain_total; [|rewrite <- L, nth_map_seq; exact E]. intros j a Ha Hj. apply (stoch_row M Gs (length Gs)); try easy. lia.
  - intros w I. apply words_in in I. assert (J := proj2 (H w) I). destruct (P w J) as (out & E1 & D1).
    destruct (mc_computes M Gs g0 w) as (out' & E2 & _ & D2); try assumption; [intros G IG; apply stoch_square, S, IG|].
    rewrite E1 in E2. injection E2 as <-. exact (denotes_fun _ _ _ D1 D2).
Qed.
