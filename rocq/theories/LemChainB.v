(** Lemmas for C77. *)
From Coq Require Import Reals Lra Lia List Arith Permutation FunctionalExtensionality.
From Verif Require Import XR ModelVec ModelIdx ModelTen ModelSub ModelBatch ModelMvnB ModelChain ModelChainB
  SpecIdx SpecVec SpecElem SpecChain SpecChainB LemIdx LemIdx2 LemSub LemUtil LemElem LemBatch LemChain.
Import ListNotations.
Open Scope R_scope.

(** expectations *)
Definition ex {A} (d : dist A) (F : A -> R) : R := rsum (map (fun pa => fst pa * F (snd pa)) d).
Lemma ex_ext {A} (d : dist A) F F' : (forall pa, In pa d -> F (snd pa) = F' (snd pa)) -> ex d F = ex d F'.
Proof. intros H. unfold ex. f_equal. apply map_ext_in. intros pa I. rewrite (H pa I). reflexivity. Qed.
Lemma ex_ret {A} (a : A) F : ex (dret a) F = F a.
Proof. unfold ex, dret, rsum. cbn. ring. Qed.
Lemma ex_scal {A} (d : dist A) c F : ex d (fun a => c * F a) = c * ex d F.
Proof. unfold ex. rewrite <- rsum_map_scal. f_equal. apply map_ext. intros; ring. Qed.
Lemma ex_bind {A B} (d : dist A) (f : A -> dist B) F : ex (dbind d f) F = ex d (fun a => ex (f a) F).
Proof.
  unfold ex, dbind. induction d as [|[p a] d IH]; cbn [map flat_map fst snd]; [reflexivity|].
  rewrite map_app, rsum_app, IH. cbn [map rsum fold_right]. change (fold_right Rplus 0) with rsum. f_equal.
  rewrite map_map. cbn [fst snd]. rewrite <- rsum_map_scal. f_equal. apply map_ext. intros [q b]. cbn [fst snd]. ring.
Qed.
Lemma ex_cat p F : ex (categorical p) F = rsum (map (fun k => nth k p 0 * F k) (seq 0 (length p))).
Proof. unfold ex, categorical. rewrite (combine_seq (fun q k => q * F k)). reflexivity. Qed.
Lemma rprod_mul {A} (u v : A -> R) l : rprod (map (fun x => u x * v x) l) = rprod (map u l) * rprod (map v l).
Proof. induction l as [|x l IH]; cbn; [ring|]. change (fold_right Rmult 1) with rprod. rewrite IH. ring. Qed.
Lemma rprod_perm l m : Permutation l m -> rprod l = rprod m.
Proof. induction 1; cbn; change (fold_right Rmult 1) with rprod; congruence || lra || (try rewrite IHPermutation; ring). Qed.

Lemma draws_prod p (g : list nat -> nat -> R) ps : NoDup ps ->
  ex (draws ps p) (fun f => rprod (map (fun i => g i (f i)) ps)) = rprod (map (fun i => ex (categorical (p i)) (g i)) ps).
Proof.
  induction ps as [|i ps IH]; intros N; cbn [draws map].
  - rewrite ex_ret. reflexivity.
  - inversion N as [|? ? NI N']; subst. rewrite ex_bind. cbn [rprod fold_right]. change (fold_right Rmult 1) with rprod.
    rewrite <- IH by assumption. rewrite (Rmult_comm (ex _ _)), <- ex_scal. apply ex_ext. intros [q k] _. cbn [snd].
    rewrite ex_bind. rewrite (Rmult_comm (ex _ _)), <- ex_scal. apply ex_ext. intros [q' f] _. cbn [snd]. rewrite ex_ret.
    cbn [rprod fold_right]. change (fold_right Rmult 1) with rprod. destruct (list_eq_dec Nat.eq_dec i i); [|easy]. f_equal.
    f_equal. apply map_ext_in. intros j J. destruct (list_eq_dec Nat.eq_dec j i); [congruence|reflexivity].
Qed.
Lemma ex_draw (p : nd R) s K F : nshp p = (s ++ [K])%list -> ex (draw p) F = ex (draws (positions s) (row p)) (fun f => F {| nshp := s; nelt := f |}).
Proof.
  intros E. unfold draw. rewrite E, removelast_last, ex_bind. apply ex_ext. intros [q f] _. cbn [snd]. apply ex_ret.
Qed.

(** index tuples *)
Lemma inside_nth s p k : inside s p -> (k < length s)%nat -> (nth k p 0 < nth k s 1)%nat.
Proof. intros I. revert k. induction I; intros k L; cbn in *; [lia|]. destruct k; [assumption|]. apply IHI; lia. Qed.
Lemma align_nth_eq s i k : length s = length i -> (k < length s)%nat -> nth k (align s i) 0%nat = if (nth k s 1 =? 1)%nat then 0%nat else nth k i 0%nat.
Proof. intros L K. rewrite align_nth by lia. replace (length i - length s + k)%nat with k by lia. reflexivity. Qed.

Lemma ogrid_len s : length (ogrid s) = length s.
Proof. unfold ogrid. now rewrite map_length, seq_length. Qed.
Lemma ogrid_at s p : inside s p -> map (fun t => nelt t (align (nshp t) p)) (ogrid s) = p.
Proof.
  intros I. pose proof (inside_length _ _ I) as L. unfold ogrid. rewrite map_map. cbn [nelt nshp].
  apply (nth_ext _ _ 0%nat 0%nat); [rewrite map_length, seq_length; lia|].
  intros k K. rewrite map_length, seq_length in K.
  rewrite (nth_indep _ 0%nat ((fun k => nth k (align (map (fun j => if (j =? k)%nat then nth k s 1%nat else 1%nat) (seq 0 (length s))) p) 0%nat) 0%nat)) by (rewrite map_length, seq_length; lia).
  rewrite (map_nth (fun k => nth k (align (map (fun j => if (j =? k)%nat then nth k s 1%nat else 1%nat) (seq 0 (length s))) p) 0%nat)).
  rewrite seq_nth by assumption. cbn [plus].
  assert (X : nth k (map (fun j => if (j =? k)%nat then nth k s 1%nat else 1%nat) (seq 0 (length s))) 1%nat = nth k s 1%nat).
  { rewrite (nth_indep _ 1%nat ((fun j => if (j =? k)%nat then nth k s 1%nat else 1%nat) 0%nat)) by (rewrite map_length, seq_length; lia).
    rewrite (map_nth (fun j => if (j =? k)%nat then nth k s 1%nat else 1%nat)), seq_nth by assumption. cbn [plus]. now rewrite Nat.eqb_refl. }
  rewrite align_nth_eq by (rewrite map_length, seq_length; lia). rewrite X.
  destruct (Nat.eqb_spec (nth k s 1%nat) 1) as [E|]; [|reflexivity]. pose proof (inside_nth s p k I K). lia.
Qed.
Lemma ogrid_bc s : is_broadcast (map nshp (ogrid s) ++ [s]) s.
Proof.
  assert (G : forall sh, In sh (map nshp (ogrid s)) -> length sh = length s /\ forall j, (j < length s)%nat -> nth j sh 1%nat = 1%nat \/ nth j sh 1%nat = nth j s 1%nat).
  { intros sh I. unfold ogrid in I. rewrite map_map in I. apply in_map_iff in I as (k & <- & K). cbn [nshp]. apply in_seq in K. cbn in K.
    split; [now rewrite map_length, seq_length|]. intros j J.
    rewrite (nth_indep _ 1%nat ((fun j => if (j =? k)%nat then nth k s 1%nat else 1%nat) 0%nat)) by (rewrite map_length, seq_length; lia).
    rewrite (map_nth (fun j => if (j =? k)%nat then nth k s 1%nat else 1%nat)), seq_nth by assumption. cbn [plus]. destruct (Nat.eqb_spec j k); [subst; now right|now left]. }
  split; [|split].
  - intros sh I. apply in_app_or in I as [I|[<-|[]]]; [|lia]. apply G in I as [-> _]. lia.
  - right. exists s. split; [apply in_or_app; right; now left|reflexivity].
  - intros r R. split.
    + intros sh I. apply in_app_or in I as [I|[<-|[]]]; [|now right]. apply G in I as [L J]. unfold rnth. rewrite !rev_nth by lia. rewrite L. apply J. lia.
    + right. exists s. split; [apply in_or_app; right; now left|reflexivity].
Qed.

Section LOOP.
Context (s0 : list nat) (N M : nat) (G : nd R).
Hypothesis (SG : nshp G = (s0 ++ [N; M; M])%list).
Let P := positions s0.
Definition Gof (p : list nat) (t a k : nat) : R := nelt G (p ++ [t; a; k]).
Lemma firstn_pre {A} (p q : list A) n : length p = n -> firstn n (p ++ q) = p.
Proof. intros <-. rewrite firstn_app, Nat.sub_diag, firstn_all. cbn. now rewrite app_nil_r. Qed.
Lemma skipn_pre {A} (p q : list A) n : length p = n -> skipn n (p ++ q) = q.
Proof. intros <-. rewrite skipn_app, Nat.sub_diag, skipn_all. reflexivity. Qed.
Lemma step_shape n : nshp (at_step (length s0) n G) = (s0 ++ [M; M])%list.
Proof.
  unfold at_step. cbn [nshp]. rewrite SG, firstn_pre by reflexivity. f_equal.
  change (s0 ++ [N; M; M])%list with (s0 ++ [N] ++ [M; M])%list. rewrite app_assoc, skipn_pre; [reflexivity|]. rewrite app_length. cbn. lia.
Qed.
Lemma pick_shape n st : nshp (pick s0 (at_step (length s0) n G) (ogrid s0 ++ [st])) = (s0 ++ [M])%list.
Proof.
  unfold pick. cbn [nshp]. rewrite step_shape. f_equal. rewrite app_length, ogrid_len. cbn [length].
  change (s0 ++ [M; M])%list with (s0 ++ [M] ++ [M])%list. rewrite app_assoc, skipn_pre; [reflexivity|]. rewrite app_length. cbn. lia.
Qed.
Lemma pick_row n st p : nshp st = s0 -> inside s0 p -> row (pick s0 (at_step (length s0) n G) (ogrid s0 ++ [st])) p = map (Gof p n (nelt st p)) (seq 0 M).
Proof.
  intros E I. rewrite (row_eq _ s0 M) by apply pick_shape. apply map_ext. intros k. unfold pick. cbn [nelt].
  pose proof (inside_length _ _ I) as L. rewrite firstn_pre, skipn_pre by assumption. rewrite map_app. cbn [map]. rewrite ogrid_at by assumption.
  rewrite E, align_self by assumption. unfold at_step, Gof. cbn [nelt]. rewrite <- app_assoc. cbn [app]. rewrite firstn_pre, skipn_pre by assumption. reflexivity.
Qed.
(** the indicator of the series [ws] *)
Definition hits (ws : list nat -> list nat) (l : list (nd nat)) : R :=
  rprod (map (fun p => if list_eq_dec Nat.eq_dec (map (fun a => nelt a (rev p)) l) (ws p) then 1 else 0) P).
Lemma loop_prob n : forall t st (ws : list nat -> list nat), nshp st = rev s0 ->
  (forall p, In p P -> length (ws p) = n /\ forall x, In x (ws p) -> (x < M)%nat) ->
  ex (loop_nd s0 s0 G (seq t n) st) (hits ws) = rprod (map (fun p => path (Gof p) t (nelt st (rev p)) (ws p)) P).
Proof.
  induction n as [|n IH]; intros t st ws E W; cbn [seq loop_nd].
  - rewrite ex_ret. unfold hits. f_equal. apply map_ext_in. intros p I. destruct (W p I) as [L _]. destruct (ws p); [reflexivity|discriminate].
  - rewrite ex_bind. rewrite (ex_draw _ s0 M) by apply pick_shape. fold P.
    transitivity (ex (draws P (row (pick s0 (at_step (length s0) t G) (ogrid s0 ++ [transpose st]))))
      (fun f => rprod (map (fun p => (fun p k => (if Nat.eq_dec k (hd 0%nat (ws p)) then 1 else 0) * path (Gof p) (S t) k (tl (ws p))) p (f p)) P))).
    + apply ex_ext. intros [q f] _. cbn [snd]. rewrite ex_bind. set (a := {| nshp := s0; nelt := f |}). rewrite rprod_mul.
      transitivity (rprod (map (fun p => if Nat.eq_dec (f p) (hd 0%nat (ws p)) then 1 else 0) P) * ex (loop_nd s0 s0 G (seq (S t) n) (transpose a)) (hits (fun p => tl (ws p)))).
      * rewrite <- ex_scal. apply ex_ext. intros [q' l] _. cbn [snd]. rewrite ex_ret. unfold hits. rewrite <- rprod_mul. f_equal. apply map_ext_in.
        intros p I. destruct (W p I) as [L _]. destruct (ws p) as [|x ws']; [discriminate|]. cbn [hd tl map]. change (nelt (transpose a) (rev p)) with (f (rev (rev p))). rewrite (rev_involutive p).
        destruct (list_eq_dec _ _ _) as [Q|Q]; destruct (Nat.eq_dec (f p) x) as [Q1|Q1]; destruct (list_eq_dec _ _ _) as [Q2|Q2]; try ring; exfalso; first [injection Q; congruence|apply Q; congruence].
      * f_equal. rewrite IH.
        -- f_equal. apply map_ext. intros p. unfold transpose. cbn [nelt a]. now rewrite rev_involutive.
        -- reflexivity.
        -- intros p I. destruct (W p I) as [L B]. destruct (ws p) as [|x ws']; [discriminate|]. cbn in *. split; [lia|]. intros y J. apply B. now right.
    + rewrite (draws_prod _ (fun p k => (if Nat.eq_dec k (hd 0%nat (ws p)) then 1 else 0) * path (Gof p) (S t) k (tl (ws p)))) by apply positions_nodup. f_equal. apply map_ext_in. intros p I. rewrite ex_cat.
      destruct (W p I) as [L B]. destruct (ws p) as [|x ws']; [discriminate|]. cbn [hd tl path].
      assert (Ip : inside s0 p) by (apply positions_in; exact I).
      rewrite pick_row; [|unfold transpose; cbn [nshp]; rewrite E; apply rev_involutive|exact Ip]. rewrite map_length, seq_length.
      rewrite <- (rsum_pick (fun k => Gof p t (nelt st (rev p)) k * path (Gof p) (S t) k ws') x M) by (apply B; now left). f_equal. apply map_ext_in.
      intros k K. apply in_seq in K. rewrite (nth_indep _ 0 (Gof p t (nelt (transpose st) p) 0%nat)) by (rewrite map_length, seq_length; lia).
      rewrite map_nth, seq_nth by lia. cbn [plus]. unfold transpose. cbn [nelt]. destruct (Nat.eq_dec k x); ring.
Qed.
Lemma loop_len ns : forall st pa, In pa (loop_nd s0 s0 G ns st) -> length (snd pa) = length ns.
Proof.
  induction ns as [|n ns IH]; intros st pa I; cbn [loop_nd] in I.
  - destruct I as [<-|[]]. reflexivity.
  - unfold dbind at 1 in I. apply in_flat_map in I as ([q a] & _ & I). apply in_map_iff in I as ([q' l] & <- & I). cbn [fst snd] in *.
    unfold dbind in I. apply in_flat_map in I as ([q2 l2] & I2 & I). apply in_map_iff in I as ([q3 l3] & Q & I3). destruct I3 as [I3|[]].
    injection I3 as <- <-. injection Q as <- <-. cbn. f_equal. exact (IH _ _ I2).
Qed.
End LOOP.
Lemma broadcast_ok {A} (a : nd A) s : broadcasts (nshp a) s -> broadcast_nd s a = Val {| nshp := s; nelt := fun i => nelt a (align (nshp a) i) |}.
Proof.
  intros B. unfold broadcast_nd. destruct (bcasts _ _ B) as (E & _ & _). rewrite E. cbn [bind]. destruct (list_eq_dec _ _ _); [reflexivity|easy].
Qed.
Lemma bc_prefix p s : broadcasts s (p ++ s).
Proof.
  split; [|split].
  - intros sh [<-|[<-|[]]]; rewrite ?app_length; lia.
  - right. exists (p ++ s)%list. split; [right; now left|reflexivity].
  - intros r L. split.
    + intros sh [<-|[<-|[]]]; [|now right]. unfold rnth. rewrite rev_app_distr. destruct (Nat.lt_ge_cases r (length s)).
      * right. rewrite app_nth1; [reflexivity|]. now rewrite rev_length.
      * left. apply nth_overflow. now rewrite rev_length.
    + right. exists (p ++ s)%list. split; [right; now left|reflexivity].
Qed.
Lemma path_ext_in M (G H : nat -> nat -> nat -> R) w : forall t s, (s < M)%nat -> (forall x, In x w -> (x < M)%nat) ->
  (forall j a b, (t <= j < t + length w)%nat -> (a < M)%nat -> (b < M)%nat -> G j a b = H j a b) -> path G t s w = path H t s w.
Proof.
  induction w as [|x w IH]; intros t s S W E; cbn; [reflexivity|].
  assert (X : (x < M)%nat) by (apply W; now left). rewrite E by (cbn; try lia; assumption). f_equal. apply IH; [exact X|intros y Y; apply W; now right|].
  intros j a b J. apply E. cbn. lia.
Qed.
Lemma snoc3 {A} (l : list A) x y z : (l ++ [x; y; z] = ((l ++ [x]) ++ [y]) ++ [z])%list.
Proof. now rewrite <- !app_assoc. Qed.
Lemma bc_trans a c s : broadcasts a c -> broadcasts c s -> broadcasts a s.
Proof.
  intros A C. pose proof (bc_len a c A). pose proof (bc_len c s C). split; [|split].
  - intros sh [<-|[<-|[]]]; lia.
  - right. exists s. split; [right; now left|reflexivity].
  - intros r L. split.
    + intros sh [<-|[<-|[]]]; [|now right]. destruct (bc_col _ _ a r A (or_introl eq_refl)) as [V|V]; [now left|].
      destruct (bc_col _ _ c r C (or_introl eq_refl)) as [U|U]; [left|right]; congruence.
    + right. exists s. split; [right; now left|reflexivity].
Qed.
Lemma rprod_ind {A} (P : A -> bool) l : rprod (map (fun x => if P x then 1 else 0) l) = if forallb P l then 1 else 0.
Proof. induction l as [|x l IH]; cbn; [reflexivity|]. change (fold_right Rmult 1) with rprod. rewrite IH. destruct (P x), (forallb P l); cbn; ring. Qed.
Lemma rprod_ind_dec {A} (P : A -> Prop) (D : forall x, {P x} + {~ P x}) l : rprod (map (fun x => if D x then 1 else 0) l) = if List.Forall_dec P D l then 1 else 0.
Proof.
  induction l as [|x l IH]; [cbn; destruct (List.Forall_dec P D []) as [|n]; [reflexivity|exfalso; apply n; constructor]|].
  cbn [map rprod fold_right]. change (fold_right Rmult 1) with rprod. rewrite IH.
  destruct (D x) as [d|d], (List.Forall_dec P D l) as [f|f], (List.Forall_dec P D (x :: l)) as [g|g]; try ring; exfalso.
  - apply g. now constructor.
  - inversion g; subst. contradiction.
  - inversion g; subst. contradiction.
  - inversion g; subst. contradiction.
Qed.
Lemma array_ex l d w : array_prob l d w = ex d (fun a => if forallb (fun i => (nelt a i =? w i)%nat) l then 1 else 0).
Proof. unfold array_prob, ex. f_equal. apply map_ext. intros [q a]. cbn [fst snd]. destruct (forallb _ _); ring. Qed.
Lemma hits_array s0 N l w ls : enumerates l (s0 ++ [N]) -> length ls = N ->
  (if forallb (fun i => (nelt (transpose (stacked (rev s0) ls)) i =? w i)%nat) l then 1 else 0) = hits s0 (series w N) ls.
Proof.
  intros [_ E] L. unfold hits.
  rewrite (rprod_ind_dec (fun p => map (fun a => nelt a (rev p)) ls = series w N p)).
  destruct (forallb _ _) eqn:B; destruct (List.Forall_dec _ _ _) as [F|F]; try reflexivity; exfalso.
  - apply F. apply List.Forall_forall. intros p I. apply positions_in in I. unfold series. apply (nth_ext _ _ 0%nat 0%nat); [now rewrite !map_length, seq_length|].
    intros t T. rewrite map_length in T. rewrite L in T. rewrite forallb_forall in B. specialize (B (p ++ [t])%list). cbv beta in B.
    assert (X : In (p ++ [t])%list l) by (apply E, inside_snoc; exists p, t; auto). apply B in X. apply Nat.eqb_eq in X.
    unfold transpose, stacked in X. cbn [nelt] in X. rewrite rev_app_distr in X. cbn [rev app] in X.
    rewrite (nth_indep _ 0%nat (nelt {| nshp := []; nelt := fun _ => 0%nat |} (rev p))) by (rewrite map_length; lia).
    rewrite (map_nth (fun a => nelt a (rev p))). rewrite X.
    rewrite (nth_indep _ 0%nat (w (p ++ [0%nat])%list)) by (rewrite map_length, seq_length; lia).
    rewrite (map_nth (fun t => w (p ++ [t])%list)), seq_nth by lia. reflexivity.
  - rewrite List.Forall_forall in F. assert (X : forallb (fun i => (nelt (transpose (stacked (rev s0) ls)) i =? w i)%nat) l = true); [|congruence].
    apply forallb_forall. intros i I. apply E, inside_snoc in I as (p & t & -> & I & T). apply positions_in in I. apply F in I. apply Nat.eqb_eq.
    unfold transpose, stacked. cbn [nelt]. rewrite rev_app_distr. cbn [rev app].
    assert (Q : nth t (map (fun a => nelt a (rev p)) ls) 0%nat = nth t (series w N p) 0%nat) by now rewrite I.
    rewrite (nth_indep _ 0%nat (nelt {| nshp := []; nelt := fun _ => 0%nat |} (rev p))) in Q by (rewrite map_length; lia).
    rewrite (map_nth (fun a => nelt a (rev p))) in Q. rewrite Q. unfold series.
    rewrite (nth_indep _ 0%nat (w (p ++ [0%nat])%list)) by (rewrite map_length, seq_length; lia).
    rewrite (map_nth (fun t => w (p ++ [t])%list)), seq_nth by lia. reflexivity.
Qed.
Lemma batch_chain M N gb hb b size Gammas gamma_0 (G : list nat -> nat -> nat -> nat -> R) (g : list nat -> nat -> R) w l lp :
  nshp Gammas = (gb ++ [N; M; M])%list -> nshp gamma_0 = (hb ++ [M])%list -> is_broadcast [gb; hb] b ->
  (forall p c t a k, inside (size ++ b) p -> aligned gb p c -> (t < N)%nat -> (a < M)%nat -> (k < M)%nat -> G p t a k = nelt Gammas (c ++ [t; a; k])) ->
  (forall p c h, inside (size ++ b) p -> aligned hb p c -> (h < M)%nat -> g p h = nelt gamma_0 (c ++ [h])) ->
  enumerates l ((size ++ b) ++ [N]) -> enumerates lp (size ++ b) -> (forall i, inside ((size ++ b) ++ [N]) i -> (w i < M)%nat) ->
  exists d, discrete_markov_chain_nd size Gammas gamma_0 = Val d /\ (forall pa, In pa d -> nshp (snd pa) = ((size ++ b) ++ [N])%list) /\
    array_prob l d w = rprod (map (fun p => chain_prob M (g p) (G p) (series w N p)) lp).
Proof.
  intros SG Sg B HG Hg El Ep W. unfold discrete_markov_chain_nd. rewrite SG, Sg, !rev_app_distr. cbn [rev app]. rewrite !rev_involutive.
  rewrite (proj2 (bcast_all_spec _ _) B). cbn [bind].
  assert (B1 : broadcasts gb b) by (apply (bc_in _ _ gb B); now left).
  assert (B2 : broadcasts hb b) by (apply (bc_in _ _ hb B); right; now left).
  assert (B3 : broadcasts b (size ++ b)) by apply bc_prefix.
  assert (S3 : forall a c x y z, broadcasts a c -> broadcasts (a ++ [x; y; z]) (c ++ [x; y; z])).
  { intros a c x y z Q. rewrite !snoc3. unfold broadcasts. repeat apply bc_snoc. exact Q. }
  assert (S1 : forall a c x, broadcasts a c -> broadcasts (a ++ [x]) (c ++ [x])) by (intros a c x Q; unfold broadcasts; now apply bc_snoc).
  rewrite broadcast_ok by (rewrite SG; apply S3, B1). cbn [bind].
  rewrite broadcast_ok by (rewrite Sg; apply S1, B2). cbn [bind].
  rewrite broadcast_ok by (cbn [nshp]; apply S1, B3). cbn [bind].
  rewrite broadcast_ok by (cbn [nshp]; apply S3, B3). cbn [bind nshp nelt].
  set (s0 := (size ++ b)%list) in *. rewrite SG, Sg.
  set (G2 := {| nshp := (s0 ++ [N; M; M])%list; nelt := fun i => nelt Gammas (align (gb ++ [N; M; M]) (align (b ++ [N; M; M]) i)) |}).
  set (g2 := {| nshp := (s0 ++ [M])%list; nelt := fun i => nelt gamma_0 (align (hb ++ [M]) (align (b ++ [M]) i)) |}).
  assert (EG : forall p t a k, inside s0 p -> (t < N)%nat -> (a < M)%nat -> (k < M)%nat -> Gof G2 p t a k = G p t a k).
  { intros p t a k I T A K. unfold Gof, G2. cbn [nelt]. pose proof (inside_length _ _ I) as L.
    assert (Lb : (length b <= length p)%nat) by (rewrite L; unfold s0; rewrite app_length; lia). pose proof (bc_len _ _ B1) as Lg.
    rewrite (align_align _ _ (s0 ++ [N; M; M]) _ (S3 _ _ _ _ _ B1) (S3 _ _ _ _ _ B3)) by (rewrite !app_length; cbn; lia).
    rewrite !snoc3, !align_snoc by (rewrite ?app_length; cbn; lia). rewrite <- snoc3. symmetry. apply HG; try assumption. apply aligned_iff; [lia|reflexivity]. }
  assert (Eg : forall p, inside s0 p -> row g2 p = map (g p) (seq 0 M)).
  { intros p I. rewrite (row_eq _ s0 M) by reflexivity. apply map_ext_in. intros h H. apply in_seq in H. pose proof (inside_length _ _ I) as L. unfold g2. cbn [nelt].
    assert (Lb : (length b <= length p)%nat) by (rewrite L; unfold s0; rewrite app_length; lia). pose proof (bc_len _ _ B2) as Lg.
    rewrite (align_align _ _ (s0 ++ [M]) _ (S1 _ _ _ B2) (S1 _ _ _ B3)) by (rewrite !app_length; cbn; lia).
    rewrite align_snoc by lia. symmetry. apply Hg; [assumption|apply aligned_iff; [lia|reflexivity]|lia]. }
  assert (OG : bcast_all (map nshp (ogrid s0) ++ [nshp (transpose {| nshp := rev s0; nelt := fun _ : list nat => 0%nat |})]) = Val s0).
  { apply bcast_all_spec. unfold transpose. cbn [nshp]. rewrite rev_involutive. apply ogrid_bc. }
  rewrite OG. cbn [bind]. eexists. split; [reflexivity|]. split.
  - intros [q a] I. cbn [snd]. unfold dbind at 1 in I. apply in_flat_map in I as ([q0 st] & _ & I). apply in_map_iff in I as ([q1 a1] & Q & I). cbn [fst snd] in *.
    injection Q as _ <-. unfold dbind in I. apply in_flat_map in I as ([q2 ls] & I2 & I). apply in_map_iff in I as ([q3 a3] & Q & [I3|[]]). injection I3 as _ <-. injection Q as _ <-.
    apply loop_len in I2. cbn [snd] in I2. rewrite seq_length in I2. unfold transpose, stacked. cbn [nshp rev]. rewrite rev_involutive, I2. reflexivity.
  - rewrite array_ex, ex_bind, (ex_draw _ s0 M) by reflexivity.
    assert (PP : Permutation (positions s0) lp).
    { destruct Ep as [ND IN]. apply NoDup_Permutation; [apply positions_nodup|exact ND|]. intros i. rewrite positions_in. symmetry. apply IN. }
    rewrite <- (rprod_perm _ _ (Permutation_map _ PP)).
    assert (WS : forall p, In p (positions s0) -> length (series w N p) = N /\ forall x, In x (series w N p) -> (x < M)%nat).
    { intros p I. apply positions_in in I. unfold series. split; [now rewrite map_length, seq_length|]. intros x X. apply in_map_iff in X as (t & <- & T). apply in_seq in T.
      apply W, inside_snoc. exists p, t. repeat split; auto; lia. }
    transitivity (ex (draws (positions s0) (row g2)) (fun f => rprod (map (fun p => (fun p h => path (Gof G2 p) 0 h (series w N p)) p (f p)) (positions s0)))).
    + apply ex_ext. intros [q f] _. cbn [snd]. rewrite ex_bind.
      transitivity (ex (loop_nd s0 s0 G2 (seq 0 N) (transpose {| nshp := s0; nelt := f |})) (hits s0 (series w N))).
      * apply ex_ext. intros [q' ls] I. cbn [snd]. rewrite ex_ret. apply hits_array; [exact El|]. apply loop_len in I. cbn [snd] in I. now rewrite seq_length in I.
      * rewrite (loop_prob s0 N M G2 eq_refl N 0 (transpose {| nshp := s0; nelt := f |}) (series w N) eq_refl WS). f_equal. apply map_ext. intros p. unfold transpose. cbn [nelt]. now rewrite rev_involutive.
    + rewrite (draws_prod _ (fun p h => path (Gof G2 p) 0 h (series w N p))) by apply positions_nodup. f_equal. apply map_ext_in. intros p I.
      destruct (WS p I) as [WL WB]. apply positions_in in I. rewrite ex_cat, Eg by assumption. rewrite map_length, seq_length. unfold chain_prob. f_equal. apply map_ext_in. intros h H. apply in_seq in H.
      rewrite (nth_indep _ 0 (g p 0%nat)) by (rewrite map_length, seq_length; lia). rewrite map_nth, seq_nth by lia. cbn [plus]. f_equal.
      apply (path_ext_in M); [lia|exact WB|]. intros j x y J X Y. apply EG; auto. lia.
Qed.

Lemma batch_raises size Gammas gamma_0 :
  (length (nshp Gammas) < 3)%nat \/ nshp gamma_0 = [] \/
  (exists gb hb t h, nshp Gammas = (gb ++ t)%list /\ length t = 3%nat /\ nshp gamma_0 = (hb ++ [h])%list /\ forall b, ~ is_broadcast [gb; hb] b) ->
  discrete_markov_chain_nd size Gammas gamma_0 = Raise.
Proof.
  intros [L|[E|(gb & hb & t & h & E & T & F & N)]]; unfold discrete_markov_chain_nd.
  - rewrite <- rev_length in L. destruct (rev (nshp Gammas)) as [|? [|? [|? ?]]]; cbn in L; try lia; destruct (rev (nshp gamma_0)); reflexivity.
  - rewrite E. destruct (rev (nshp Gammas)) as [|? [|? [|? ?]]]; reflexivity.
  - destruct t as [|x [|y [|z [|]]]]; try discriminate T. rewrite E, F, !rev_app_distr. cbn [rev app]. rewrite !rev_involutive.
    destruct (bcast_all [gb; hb]) as [b|] eqn:B; [|reflexivity]. apply bcast_all_spec in B. destruct (N b B).
Qed.
