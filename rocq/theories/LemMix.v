(** Lemmas about mixtures. *)
From Coq Require Import Reals List Arith ZArith Bool Lia.
From Verif Require Import XR ModelVec ModelIdx SpecIdx LemIdx LemIdx2 ModelMix SpecMix.
Import ListNotations.
Open Scope nat_scope.

Lemma nth_error_ext {A} (a b : list A) : (forall k, nth_error a k = nth_error b k) -> a = b.
Proof.
  revert b; induction a as [|x a IH]; intros [|y b] H; auto; try (specialize (H 0); discriminate).
  f_equal; [specialize (H 0); now injection H|]. apply IH. intros k. exact (H (S k)).
Qed.
(** ** Scalar index *)
Lemma mix_scalar_past lps m i v acc : (forall k, k < length lps -> i <> Z.of_nat (m + k)) ->
  mix_scalar lps m i v acc = bind acc (fun a => Val (fold_right (fun _ a => xadd a (Fin 0)) a lps)).
Proof.
  revert m acc; induction lps as [|lp lps IH]; intros m acc H; cbn [mix_scalar].
  - destruct acc; easy.
  - rewrite IH.
    + destruct (Z.eqb_spec i (Z.of_nat m)) as [E|E]; [exfalso; apply (H 0); [cbn; lia|lia]|].
      destruct acc as [a|]; cbn; auto. f_equal. clear. revert a; induction lps; intros a'; cbn; auto. now rewrite IHlps.
    + intros k Hk. replace (S m + k) with (m + S k) by lia. apply H. cbn; lia.
Qed.
Lemma xadd_0_r a : xadd a (Fin 0) = a. Proof. destruct a; cbn; auto. now rewrite Rplus_0_r. Qed.
Lemma xadd_0_l a : xadd (Fin 0) a = a. Proof. destruct a; cbn; auto. now rewrite Rplus_0_l. Qed.
Lemma fold_add0 {A} (l : list A) a : fold_right (fun _ a => xadd a (Fin 0)) a l = a.
Proof. induction l; cbn; auto. now rewrite IHl, xadd_0_r. Qed.
Lemma bind_Val {A} (r : res A) : bind r (fun a => Val a) = r. Proof. destruct r; easy. Qed.
Lemma mix_scalar_out lps m i v acc : (forall k, k < length lps -> i <> Z.of_nat (m + k)) -> mix_scalar lps m i v acc = acc.
Proof.
  intros H. rewrite mix_scalar_past by auto. destruct acc as [a|]; cbn; auto. now rewrite fold_add0.
Qed.
Lemma mix_scalar_at lps m k v acc lp : nth_error lps k = Some lp ->
  mix_scalar lps m (Z.of_nat (m + k)) v acc = bind acc (fun a => bind (lp v) (fun t => Val (xadd a t))).
Proof.
  revert m k acc; induction lps as [|l lps IH]; intros m k acc E; [destruct k; discriminate|].
  cbn [mix_scalar]. destruct k as [|k].
  - injection E as ->. rewrite Nat.add_0_r, Z.eqb_refl. rewrite mix_scalar_out; auto. intros k Hk. lia.
  - destruct (Z.eqb_spec (Z.of_nat (m + S k)) (Z.of_nat m)); [lia|]. replace (m + S k) with (S m + k) by lia.
    rewrite IH by auto. destruct acc as [a|]; cbn; auto. now rewrite xadd_0_r.
Qed.
Lemma mixture_scalar_in lps k v lp : nth_error lps k = Some lp -> mixture_scalar lps (Z.of_nat k) v = lp v.
Proof.
  intros H. unfold mixture_scalar. rewrite (mix_scalar_at lps 0 k v _ lp H). cbn [bind]. destruct (lp v); cbn [bind]; auto. now rewrite xadd_0_l.
Qed.
Lemma mixture_scalar_out lps i v : (i < 0 \/ Z.of_nat (length lps) <= i)%Z -> mixture_scalar lps i v = Val (Fin 0).
Proof. intros H. apply mix_scalar_out. intros k Hk. lia. Qed.

(** ** Array index *)
Lemma resolve_wraps n z x : resolve n z = Val x <-> wraps n z x.
Proof.
  unfold resolve, wraps. destruct (Z.ltb_spec z 0).
  - destruct (Z.leb_spec 0 (z + Z.of_nat n)); cbn; [destruct (Z.ltb_spec (z + Z.of_nat n) (Z.of_nat n)); [|lia]|].
    + split; [intros E; injection E as <-; lia|]. intros (L & [E|E]); f_equal; lia.
    + split; [discriminate|]. lia.
  - destruct (Z.leb_spec 0 z); cbn; [|lia]. destruct (Z.ltb_spec z (Z.of_nat n)).
    + split; [intros E; injection E as <-; lia|]. intros (L & [E|E]); f_equal; lia.
    + split; [discriminate|]. lia.
Qed.
Lemma resolve_all_spec sh (zs : list Z) src : length zs = length sh ->
  Forall2 (fun nz x => wraps (fst nz) (snd nz) x) (combine sh zs) src <-> resolve_all sh zs = Val src.
Proof.
  revert zs src; induction sh as [|n sh IH]; intros [|z zs] src L; try discriminate.
  - cbn. split; [inversion 1; easy|]. intros E; injection E as <-; constructor.
  - cbn [combine resolve_all]. specialize (fun s => IH zs s ltac:(cbn in L; lia)). split.
    + intros H; inversion H as [|? x ? s Hx Hs]; subst. cbn in Hx. apply resolve_wraps in Hx. rewrite Hx. cbn. apply IH in Hs. now rewrite Hs.
    + intros E. destruct (resolve n z) as [x|] eqn:Ex; [|discriminate]. cbn in E. destruct (resolve_all sh zs) as [s|] eqn:Es; [|discriminate].
      cbn in E. injection E as <-. constructor; [now apply resolve_wraps|]. now apply IH.
Qed.
Lemma mix_loop_past j bc comps m value o acc : (forall k a, k < length comps -> nth_error bc j = Some a -> get a o <> Z.of_nat (m + k)) ->
  mix_loop j bc comps m value o acc = acc.
Proof.
  revert m acc; induction comps as [|c comps IH]; intros m acc H; cbn [mix_loop]; auto.
  rewrite IH.
  - destruct (nth_error bc j) as [a|] eqn:E; auto. destruct (Z.eqb_spec (get a o) (Z.of_nat m)) as [F|F]; auto.
    exfalso. apply (H 0 a); auto; [cbn; lia|]. rewrite Nat.add_0_r; auto.
  - intros k a Hk E. replace (S m + k) with (m + S k) by lia. apply H; auto. cbn; lia.
Qed.
Lemma mix_loop_at j bc comps m value o acc k a c : nth_error bc j = Some a -> get a o = Z.of_nat (m + k) -> nth_error comps k = Some c ->
  mix_loop j bc comps m value o acc = Some (bind (take0 c) (fun c => elem_logprob c (remove_nth j (map (fun a => get a o) bc)) (value o))).
Proof.
  intros Ea Eg. revert m k acc Eg; induction comps as [|c' comps IH]; intros m k acc Eg E; [destruct k; discriminate|].
  cbn [mix_loop]. rewrite Ea. destruct k as [|k].
  - injection E as ->. rewrite Eg, Nat.add_0_r, Z.eqb_refl. apply mix_loop_past. intros k a' Hk E'. rewrite Ea in E'. injection E' as <-. lia.
  - destruct (Z.eqb_spec (get a o) (Z.of_nat m)); [lia|]. apply (IH (S m) k); auto. lia.
Qed.
(** *** the dimension of the first axis does not matter unless it is sliced *)
Lemma nloop_first p0 B Sn ix n n' sh q : first_axis_advanced ix -> nloop p0 B Sn ix (n :: sh) q = nloop p0 B Sn ix (n' :: sh) q.
Proof. revert q; induction ix as [|i ix IH]; intros q H; [easy|]. destruct i; cbn in *; auto. tauto. Qed.
Lemma expand_first ix n n' sh : first_axis_advanced ix -> expand_indices ix (n :: sh) = expand_indices ix (n' :: sh).
Proof.
  intros H. rewrite !expand_eq. assert (E : full_indices ix (n :: sh) = full_indices ix (n' :: sh)) by reflexivity. rewrite E.
  f_equal. apply nloop_first. clear E. unfold full_indices.
  induction ix as [|i ix IH]; [easy|]. destruct i; cbn in *; auto.
Qed.
(** *** sign of the first index *)
Lemma align_inside sh s sub : length sh <= length s -> (forall r, r < length s -> rnth 1 sh r = 1 \/ rnth 1 sh r = rnth 1 s r) ->
  inside s sub -> inside sh (align sh sub).
Proof.
  intros L H Hi.
  assert (Ls : length sub = length s) by (clear -Hi; unfold inside in Hi; induction Hi; cbn; auto).
  assert (Hnth : forall j, j < length sub -> nth j sub 0 < nth j s 1).
  { clear -Hi. unfold inside in Hi. induction Hi; cbn; [lia|]. intros [|j] H'; auto. apply IHHi; lia. }
  apply Forall2_nth_iff; [now rewrite align_length by lia|]. intros k Hk. rewrite align_length in Hk by lia.
  rewrite align_nth by lia. destruct (Nat.eqb_spec (nth k sh 1) 1) as [E|E]; [rewrite E; lia|].
  destruct (H (length sh - 1 - k) ltac:(lia)) as [F|F]; unfold rnth in F.
  - rewrite rev_nth in F by lia. replace (length sh - S (length sh - 1 - k)) with k in F by lia. congruence.
  - rewrite !rev_nth in F by lia. replace (length sh - S (length sh - 1 - k)) with k in F by lia. rewrite F.
    replace (length s - S (length sh - 1 - k)) with (length sub - length sh + k) by lia. apply Hnth. lia.
Qed.
Lemma first_axis_head p0 B Sn ix n sh q advs : nloop p0 B Sn ix (n :: sh) q = Val advs -> first_axis ix <> None ->
  exists adv advs', advs = adv :: advs' /\
    match first_axis ix with
    | Some (ISlice a b s) => exists k, adv = e_slice p0 B Sn k (slice_arr a b s n) /\ In (ISlice a b s) ix
    | Some i => adv = e_adv p0 B (as_tensor i)
    | None => True
    end.
Proof.
  revert q; induction ix as [|i ix IH]; intros q HN Hf; [easy|]. destruct i as [|a b s|z|a]; cbn [nloop first_axis] in *.
  - destruct (IH (S q) HN Hf) as (adv & advs' & -> & H). exists adv, advs'. split; auto.
    destruct (first_axis ix) as [[|a b s|z|a]|]; auto. destruct H as (k & H1 & H2). exists k. cbn; auto.
  - destruct (nloop p0 B Sn ix sh (S q)) as [r|]; [|discriminate]. cbn in HN. injection HN as <-. eexists _, _; split; [reflexivity|]. exists q. cbn; auto.
  - destruct (nloop p0 B Sn ix sh q) as [r|]; [|discriminate]. cbn in HN. injection HN as <-. eexists _, _; split; [reflexivity|]. easy.
  - destruct (nloop p0 B Sn ix sh q) as [r|]; [|discriminate]. cbn in HN. injection HN as <-. eexists _, _; split; [reflexivity|]. easy.
Qed.
Lemma inside_app s1 s2 c : inside (s1 ++ s2) c -> inside s1 (firstn (length s1) c) /\ inside s2 (skipn (length s1) c).
Proof.
  revert c; induction s1 as [|d s1 IH]; intros c H; cbn in *.
  - split; auto. constructor.
  - inversion H; subst. apply IH in H4 as (A & B). split; auto. constructor; auto.
Qed.
Lemma arange_nonneg a b s n k : (0 < py_step s)%Z -> (0 <= get (slice_arr a b s n) k)%Z.
Proof.
  intros Hs. rewrite slice_arr_eq by auto. pose proof (py_range a b (py_step s) (Z.of_nat n) Hs ltac:(lia)). cbn [get arange]. nia.
Qed.
Lemma first_index_nonneg ix n sh advs a0 o : positive_steps ix -> first_axis_nonneg ix -> expand_indices ix (n :: sh) = Val advs ->
  nth_error advs 0 = Some a0 -> inside (shp a0) o -> (0 <= get a0 o)%Z.
Proof.
  intros HP HF HE H0 Hin. rewrite expand_eq in HE. pose proof (full_pos ix (n :: sh) HP) as HPf.
  assert (HFf : first_axis_nonneg (full_indices ix (n :: sh)) /\ (length (filter (fun i => negb (is_newaxis i)) (full_indices ix (n :: sh))) > 0)).
  { unfold full_indices. split.
    - clear -HF. remember (n :: sh) as l eqn:El. clear El. revert l. induction ix as [|i ix IH]; intros l.
      + cbn. rewrite Nat.sub_0_r. destruct l; cbn; easy.
      + destruct i; cbn in *; auto. apply IH. exact HF.
    - rewrite filter_app, app_length.
      assert (E : forall k, filter (fun i => negb (is_newaxis i)) (repeat (ISlice None None None) k) = repeat (ISlice None None None) k).
      { induction k; cbn; auto. now rewrite IHk. }
      rewrite E, repeat_length. cbn [length]. lia. }
  set (full := full_indices ix (n :: sh)) in *. destruct HFf as (HFf & Hne).
  destruct (nloop (insertion full) (cnt full) (nsub full) full (n :: sh) 0) as [r|] eqn:EN; [|discriminate].
  cbn [bind] in HE. unfold broadcast_arrays in HE. destruct (bcast_all (map shp r)) as [s|] eqn:Eb; [|discriminate]. cbn [bind] in HE. injection HE as <-.
  assert (Hne' : first_axis full <> None).
  { clear -Hne. clearbody full. induction full as [|i f IH]; [cbn in Hne; lia|]. destruct i; try easy. cbn in *. auto. }
  destruct (first_axis_head _ _ _ _ _ _ _ _ EN Hne') as (adv & advs' & -> & Hh).
  cbn in H0. injection H0 as <-. cbn [shp broadcast_to get] in *.
  apply bcast_all_spec in Eb. destruct Eb as (B1 & _ & B3).
  assert (Hc : inside (shp adv) (align (shp adv) o)).
  { apply (align_inside _ s); auto; [apply B1; cbn; auto|]. intros k Hk. apply (proj1 (B3 k Hk)). cbn; auto. }
  unfold first_axis_nonneg in HFf.
  destruct (first_axis full) as [[|a b st|z|a]|] eqn:Ef; try tauto.
  - exfalso. clear -Ef. induction full as [|i f IH]; [easy|]. destruct i; cbn in Ef; try discriminate. auto.
  - destruct Hh as (k & -> & Hi). unfold e_slice. cbn [get pad_right pad_left]. apply arange_nonneg.
    unfold positive_steps in HPf. rewrite Forall_forall in HPf. apply (HPf _ Hi).
  - subst adv. unfold e_adv. cbn [get pad_right pad_left as_tensor]. exact HFf.
  - subst adv. unfold e_adv in *. cbn [get pad_right pad_left as_tensor shp] in *.
    apply HFf. apply inside_app in Hc as (Hc & _). apply inside_app in Hc as (_ & Hc). rewrite repeat_length in Hc. exact Hc.
Qed.
(** *** the array branch, components joined along axis 0 *)
Lemma take0_expand csh (lp : nat -> list nat -> xr -> res xr) m : take0 (expand_dims 0 {| cshp := csh; clp := lp m |}) =
  Val {| cshp := csh; clp := fun i => lp m i |} :> res comp.
Proof. reflexivity. Qed.
Lemma array_element (lp : nat -> list nat -> xr -> res xr) n csh ix o bc value i r : 1 <= n ->
  positive_steps ix -> first_axis_nonneg ix -> expand_indices ix (n :: csh) = Val bc -> np_shape ix (n :: csh) o -> inside o i ->
  mixture_spec lp n 0 csh ix i (value i) r ->
  mix_loop 0 bc (map (fun m => expand_dims 0 {| cshp := csh; clp := lp m |}) (seq 0 n)) 0 value i None = Some r.
Proof.
  intros Hn HP HF HE HS Hin (sh & src & m & c & Hst & Hel & Hse & ->).
  assert (sh = n :: csh) as ->.
  { destruct Hst as (E0 & L & E). destruct sh as [|d sh]; [discriminate|]. injection E0 as ->. f_equal.
    apply (nth_error_ext). intros k. rewrite E. easy. }
  destruct (proj1 (expand_indices_spec ix (n :: csh) ltac:(easy) HP) o HS) as (advs & E & L & F & H).
  rewrite HE in E. injection E as <-. apply H in Hel; auto.
  destruct bc as [|a0 bc]; [discriminate|]. cbn [combine] in Hel. inversion Hel as [|? x ? src' Hx Hr]; subst. cbn [fst snd] in Hx.
  destruct Hse as (E0 & Lc & Ec). cbn in E0. injection E0 as <-.
  assert (c = src') as ->.
  { apply nth_error_ext. intros k. rewrite Ec. easy. }
  assert (Hg : get a0 i = Z.of_nat x).
  { destruct Hx as (Hx & [Hx'|Hx']); auto. exfalso.
    pose proof (first_index_nonneg ix n csh (a0 :: bc) a0 i HP HF HE eq_refl) as P.
    apply Forall_inv in F. rewrite F in P. specialize (P Hin). lia. }
  assert (Hc : nth_error (map (fun m => expand_dims 0 {| cshp := csh; clp := lp m |}) (seq 0 n)) x = Some (expand_dims 0 {| cshp := csh; clp := lp x |})).
  { rewrite nth_error_map. destruct Hx as (Hx & _). rewrite (nth_error_nth' _ 0) by (rewrite seq_length; lia). rewrite seq_nth by lia. easy. }
  rewrite (mix_loop_at 0 (a0 :: bc) _ 0 value i None x a0 _ eq_refl Hg Hc).
  f_equal. rewrite take0_expand. cbn [bind]. unfold elem_logprob. cbn [cshp clp].
  change (remove_nth 0 (map (fun a => get a i) (a0 :: bc))) with (map (fun a => get a i) bc).
  assert (Er : resolve_all csh (map (fun a => get a i) bc) = Val src').
  { apply resolve_all_spec; [rewrite map_length; cbn in L; lia|].
    clear -Hr. revert bc src' Hr. induction csh as [|d csh IH]; intros [|b bc] src' Hr; cbn in *; inversion Hr; subst; constructor; auto. }
  now rewrite Er.
Qed.
Lemma mixture_join_ok (lp : nat -> list nat -> xr -> res xr) n csh ix o value i r : 1 <= n ->
  positive_steps ix -> first_axis_advanced ix -> first_axis_nonneg ix -> np_shape ix (n :: csh) o -> inside o i ->
  mixture_spec lp n 0 csh ix i (value i) r ->
  exists f, mixture_array (JJoin 0) ix (map (fun m => expand_dims 0 {| cshp := csh; clp := lp m |}) (seq 0 n)) value = Val (o, f) /\
            f i = Some r.
Proof.
  intros Hn HP HA HF HS Hin Hm.
  destruct (proj1 (expand_indices_spec ix (n :: csh) ltac:(easy) HP) o HS) as (advs & E & L & F & _).
  pose proof (array_element lp n csh ix o advs value i r Hn HP HF E HS Hin Hm) as HA'.
  unfold mixture_array. destruct n as [|n]; [lia|].
  assert (Eo : match map (fun m => expand_dims 0 {| cshp := csh; clp := lp m |}) (seq 0 (S n)) with c :: _ => cshp c | [] => [] end = 1 :: csh).
  { cbn. unfold insert. reflexivity. }
  rewrite Eo, (expand_first ix 1 (S n) csh HA), E. cbn [bind].
  destruct advs as [|a advs]; [discriminate|]. apply Forall_inv in F. rewrite F. eexists; split; [reflexivity|]. exact HA'.
Qed.
Lemma mixture_vector_ok (lp : nat -> list nat -> xr -> res xr) n ix o value i r : 1 <= n ->
  positive_steps ix -> first_axis_nonneg ix -> np_shape ix [n] o -> inside o i ->
  mixture_spec lp n 0 [] ix i (value i) r ->
  exists f, mixture_array JVector ix (map (fun m => {| cshp := []; clp := lp m |}) (seq 0 n)) value = Val (o, f) /\ f i = Some r.
Proof.
  intros Hn HP HF HS Hin Hm.
  destruct (proj1 (expand_indices_spec ix [n] ltac:(easy) HP) o HS) as (advs & E & L & F & _).
  pose proof (array_element lp n [] ix o advs value i r Hn HP HF E HS Hin Hm) as HA'.
  unfold mixture_array. rewrite map_length, seq_length, E, map_map. cbn [bind].
  destruct advs as [|a advs]; [discriminate|]. apply Forall_inv in F. rewrite F. eexists; split; [reflexivity|]. exact HA'.
Qed.

(** ** Node entries *)
(** the index expression of a node, constant and symbolic entries alike *)
Definition entries (es : list entry) : list index := map (fun e => match e with EConst i | EInput i => i end) es.
(** an advanced node, or a basic one all of whose entries are symbolic *)
Definition all_inputs (basic : bool) (es : list entry) : Prop :=
  basic = true -> List.Forall (fun e => exists i, e = EInput i) es.
Lemma mixing_entries b es : all_inputs b es -> mixing_indices b es = entries es.
Proof.
  intros H. unfold mixing_indices, entries. induction es as [|e es IH]; [reflexivity|]. cbn [flat_map map].
  rewrite IH by (intros B; exact (Forall_inv_tail (H B))).
  destruct e as [i|i]; [|reflexivity]. destruct b; [|reflexivity].
  destruct (Forall_inv (H eq_refl)) as [j J]. discriminate.
Qed.
Lemma node_join_ok (lp : nat -> list nat -> xr -> res xr) n csh b es o value i r : 1 <= n -> all_inputs b es ->
  positive_steps (entries es) -> first_axis_advanced (entries es) -> first_axis_nonneg (entries es) -> np_shape (entries es) (n :: csh) o -> inside o i ->
  mixture_spec lp n 0 csh (entries es) i (value i) r ->
  exists f, mixture_array (JJoin 0) (mixing_indices b es) (map (fun m => expand_dims 0 {| cshp := csh; clp := lp m |}) (seq 0 n)) value = Val (o, f) /\
            f i = Some r.
Proof. intros N A. rewrite (mixing_entries _ _ A). now apply mixture_join_ok. Qed.
Lemma node_vector_ok (lp : nat -> list nat -> xr -> res xr) n b es o value i r : 1 <= n -> all_inputs b es ->
  positive_steps (entries es) -> first_axis_nonneg (entries es) -> np_shape (entries es) [n] o -> inside o i ->
  mixture_spec lp n 0 [] (entries es) i (value i) r ->
  exists f, mixture_array JVector (mixing_indices b es) (map (fun m => {| cshp := []; clp := lp m |}) (seq 0 n)) value = Val (o, f) /\ f i = Some r.
Proof. intros N A. rewrite (mixing_entries _ _ A). now apply mixture_vector_ok. Qed.
