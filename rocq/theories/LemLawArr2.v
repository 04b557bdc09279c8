(** Models of array variables form probability laws. *)
From Coq Require Import Reals List Arith Bool Lia Lra Permutation Sorted.
From Coquelicot Require Import Coquelicot.
From Verif Require Import XR SpecDist SpecTrans LemInt LemSupp ModelVec ModelDist ModelTrans LemTrans LemTrans2 ModelIdx ModelTen ModelSub LemSub LemUtil ModelBatch ModelUniv SpecIdx SpecElem
  LemIdx2 ModelJoint SpecJoint LemJoint ModelGraph SpecGraph LemGraph2 LemGraph3 ModelLaw SpecLaw LemLaw ModelLawArr SpecLawArr LemLawArr.
Import ListNotations.
Open Scope nat_scope.

Lemma aligned_det s i c c' : aligned s i c -> aligned s i c' -> c = c'.
Proof.
  intros (L & A) (L' & A'). rewrite <- (rev_involutive c), <- (rev_involutive c'). f_equal.
  apply nth_ext with (d := 0) (d' := 0); [now rewrite !rev_length, L, L'|]. intros r Hr. rewrite rev_length, L in Hr. specialize (A r Hr). specialize (A' r Hr). unfold rnth in *. congruence.
Qed.
(** ** the joint log-probability of factors that are arrays *)
Lemma joint_flat {V L A} (F : A -> list xr) (inj : A -> L) g requested trs h fs vv (S : sem V L) rho (Y : nat -> A) :
  request g requested [] trs -> transformed_first g requested trs ->
  conditional_logprob toposort true g requested [] trs = Ok (h, fs, vv) -> point S g requested vv [] trs rho ->
  (forall i rv v, nth_error requested i = Some rv -> nth_error vv i = Some v -> model_factor S g rho rv (trans_of S true trs rv v) (inj (Y rv))) ->
  requested <> [] ->
  exists ys, List.Forall2 (fun p y => fvalue S h (snd p) (inj y)) fs ys /\ joint_reduce (map F ys) = Some (xsum (concat (map (fun v => F (Y v)) requested))).
Proof.
  intros RQ FI OK PT Y1 NE. destruct (m_sound toposort true g requested [] trs h fs vv RQ (or_intror (conj eq_refl FI)) OK) as ((K1 & K2) & LV & _ & _ & VAL).
  assert (ND : NoDup requested). { destruct RQ as (_ & N & _). cbn in N. now rewrite app_nil_r in N. }
  exists (map Y (map fst fs)). split.
  - assert (Q : forall p, In p fs -> fvalue S h (snd p) (inj (Y (fst p)))).
    { intros [rv f] I. destruct (VAL V L S rho PT rv f I) as (V1 & _). cbn.
      assert (J : In rv (map fst fs)) by (apply (in_map fst) in I; exact I). apply K2 in J as [J|[]].
      apply In_nth_error in J as [i E]. assert (Hi : i < List.length requested) by (apply nth_error_Some; congruence). rewrite <- LV in Hi.
      destruct (nth_error vv i) as [v|] eqn:Ev; [|apply nth_error_None in Ev; lia]. apply (V1 i v E Ev). eauto. }
    clear -Q. induction fs as [|p l IH]; cbn; constructor; [apply Q; cbn; auto|]. apply IH. intros. apply Q. cbn. auto.
  - assert (PM : Permutation (map fst fs) requested).
    { apply NoDup_Permutation; auto. intros x. rewrite K2. cbn. tauto. }
    rewrite map_map. destruct requested as [|r l] eqn:E; [easy|].
    rewrite (joint_order (map (fun v => F (Y v)) (map fst fs)) (map (fun v => F (Y v)) (r :: l))).
    + cbn [map]. rewrite joint_concat. easy.
    + apply (perm_concat_map _ (fun v => F (Y v))), PM.
    + intros H. apply map_eq_nil in H. rewrite H in PM. apply Permutation_nil in PM. discriminate.
    + discriminate.
Qed.

Section Main.
Variables (fam : nat -> univ) (inp : nat -> arr) (draw : nat -> nat -> list arr -> arr) (det : nat -> list arr -> arr).
Variables (g : heap) (requested : list nat) (trs : list (nat * nat)) (shape : nat -> list nat).
Let S0 := arr_sem fam inp draw det.
Hypothesis RQ : request g requested [] trs.
Hypothesis RV : forall rv, In rv requested -> exists rng dist ps, nth_error g rv = Some (mk (ORv rng dist) ps).
Hypothesis TR : forall rv tr, dget trs rv = Some tr -> exists rng ps, nth_error g rv = Some (mk (ORv rng tr) ps).
Let W : model_graph g. Proof. apply RQ. Qed.
Let args_lt v rng dist ps : nth_error g v = Some (mk (ORv rng dist) ps) -> forall p, In p ps -> p < v.
Proof. intros E p I. apply (W _ _ E), I. Qed.
Let ND : NoDup requested. Proof. destruct RQ as (_ & N & _). cbn in N. now rewrite app_nil_r in N. Qed.

Definition Sarr (vv : list nat) (zs : point_values) : sem arr arr := arr_sem fam (set_arrays shape requested vv zs inp) draw det.
Lemma point_natural_arr vv zs rho : List.length vv = List.length requested -> NoDup vv -> (forall v, In v vv -> List.length g <= v) ->
  point (Sarr vv zs) g requested vv [] trs rho <-> natural_arr S0 g requested trs shape zs rho.
Proof.
  intros LV NV GE.
  assert (IN : forall i rv v, nth_error requested i = Some rv -> nth_error vv i = Some v -> s_in (Sarr vv zs) v = value_array shape zs rv).
  { intros i rv v Er Ev. cbn. unfold set_arrays. rewrite (position_nth _ NV _ _ Ev). f_equal. now apply nth_error_nth. }
  assert (SW : forall l xs, (forall p, In p l -> p < List.length g) -> meanss (Sarr vv zs) g rho l xs <-> meanss S0 g rho l xs).
  { intros l xs B. split; apply (meanss_swap _ _ g rho rho (List.length g)); auto; intros v Lv; cbn; unfold set_arrays; (rewrite position_none; [reflexivity|]); intros I; apply GE in I; lia. }
  assert (LP : forall v rng dist ps, nth_error g v = Some (mk (ORv rng dist) ps) -> forall p, In p ps -> p < List.length g).
  { intros v rng dist ps E p I. apply args_lt with (p := p) in E as Lp; auto. assert (v < List.length g) by (apply nth_error_Some; congruence). lia. }
  split.
  - intros (P1 & _ & P3). split.
    + intros v Hv. destruct (In_nth_error _ _ Hv) as (i & Ei). destruct (nth_error vv i) as [w|] eqn:Ew; [|apply nth_error_None in Ew; assert (i < List.length requested) by (apply nth_error_Some; congruence); lia].
      specialize (P1 i v w Ei Ew). destruct (dget trs v) as [tr|].
      * destruct P1 as (rng & dist & ps & xs & E & M & Q). exists rng, dist, ps, xs. split; auto. rewrite (IN i v w Ei Ew) in Q. split; [apply SW; eauto|exact Q].
      * now rewrite (IN i v w Ei Ew) in P1.
    + intros v N. destruct (rho v) eqn:Q; auto. exfalso. destruct (P3 v); [congruence|auto|easy].
  - intros (N1 & N2). split; [|split].
    + intros i rv v Er Ev. specialize (N1 rv (nth_error_In _ _ Er)). destruct (dget trs rv) as [tr|].
      * destruct N1 as (rng & dist & ps & xs & E & M & Q). exists rng, dist, ps, xs. split; auto. rewrite (IN i rv v Er Ev). split; [apply SW; eauto|exact Q].
      * now rewrite (IN i rv v Er Ev).
    + easy.
    + intros rv Q. destruct (in_dec Nat.eq_dec rv requested); auto. now rewrite N2 in Q.
Qed.
Lemma natural_arr_ex zs : exists rho, natural_arr S0 g requested trs shape zs rho.
Proof.
  set (vv := seq (List.length g) (List.length requested)).
  destruct (point_exists (Sarr vv zs) g W requested [] trs vv RQ (seq_length _ _)) as (rho & P). exists rho.
  apply (point_natural_arr vv zs rho (seq_length _ _) (seq_NoDup _ _)); auto. intros v I. apply in_seq in I. lia.
Qed.
Lemma natural_arr_loc zs zs' rho rho' n : natural_arr S0 g requested trs shape zs rho -> natural_arr S0 g requested trs shape zs' rho' -> (forall u, u < n -> zs u = zs' u) ->
  forall u, u < n -> rho u = rho' u.
Proof.
  intros (N1 & N2) (N1' & N2') E. induction u as [u IH] using lt_wf_ind. intros Lu. destruct (in_dec Nat.eq_dec u requested) as [I|I].
  - specialize (N1 u I). specialize (N1' u I). unfold value_array in *. destruct (dget trs u) as [tr|].
    + destruct N1 as (rng & dist & ps & xs & Eg & M & ->). destruct N1' as (rng' & dist' & ps' & xs' & Eg' & M' & ->).
      rewrite Eg in Eg'. injection Eg' as <- <- <-.
      assert (xs = xs') as <-. { eapply meanss_det; [exact W| |exact M']. eapply (meanss_swap S0 S0 g rho rho' u); eauto. intros w Lw. apply IH; lia. }
      now rewrite E.
    + rewrite N1, N1', E; auto.
  - now rewrite N2, N2'.
Qed.
Let PA := params_at S0 g requested trs shape.
Let EL := entry_law S0 fam g requested trs shape.
Lemma params_ex zs v : In v requested -> exists dist xs, PA zs v dist xs.
Proof.
  intros I. destruct (natural_arr_ex zs) as (rho & N). destruct (RV v I) as (rng & dist & ps & E).
  destruct (meanss_total S0 g rho W ps) as (xs & M). { intros a Ha. apply (args_lt _ _ _ _ E) in Ha. assert (v < List.length g) by (apply nth_error_Some; congruence). lia. }
  exists dist, xs, rho, rng, ps. auto.
Qed.
Lemma params_loc zs zs' v dist xs dist' xs' : (forall u, u < v -> zs u = zs' u) -> PA zs v dist xs -> PA zs' v dist' xs' -> dist = dist' /\ xs = xs'.
Proof.
  intros Q (rho & rng & ps & N & E & M) (rho' & rng' & ps' & N' & E' & M'). rewrite E in E'. injection E' as <- <- <-. split; [reflexivity|].
  eapply meanss_det; [exact W| |exact M']. eapply (meanss_swap S0 S0 g rho rho' v); eauto. eapply natural_arr_loc; eauto.
Qed.
Lemma params_move zs zs' v dist xs : In v requested -> (forall u, u < v -> zs u = zs' u) -> PA zs v dist xs -> PA zs' v dist xs.
Proof. intros I Q P. destruct (params_ex zs' v I) as (dist' & xs' & P'). destruct (params_loc _ _ _ _ _ _ _ Q P P') as (-> & ->). exact P'. Qed.
Lemma ys_det (xs : list arr) i ys ys' : List.Forall2 (fun a y => exists n c, a = Val n /\ aligned (nshp n) i c /\ nelt n c = Fin y) xs ys ->
  List.Forall2 (fun a y => exists n c, a = Val n /\ aligned (nshp n) i c /\ nelt n c = Fin y) xs ys' -> ys = ys'.
Proof.
  intros F. revert ys'. induction F as [|a y xs ys (n & c & E & A & Y) F IH]; intros ys' F'; inversion F' as [|? y' ? ? (n' & c' & E' & A' & Y')]; subst; [reflexivity|].
  injection E' as <-. rewrite <- (aligned_det _ _ _ _ A A') in Y'. f_equal; [congruence|auto].
Qed.
Lemma entry_loc zs zs' v i L M : (forall u, u < v -> zs u = zs' u) -> EL zs v i L -> EL zs' v i M -> L = M.
Proof.
  intros Q (dist & xs & ys & P & F & H) (dist' & xs' & ys' & P' & F' & H'). destruct (params_loc _ _ _ _ _ _ _ Q P P') as (<- & <-).
  rewrite <- (ys_det _ _ _ _ F F') in H'. eapply law_fun; eauto.
Qed.
Lemma entry_move zs zs' v i L : In v requested -> (forall u, u < v -> zs u = zs' u) -> EL zs v i L -> EL zs' v i L.
Proof. intros I Q (dist & xs & ys & P & F & H). exists dist, xs, ys. split; [|auto]. eapply params_move; eauto. Qed.

(** density of the entry of a factor *)
Definition efd (zs : point_values) (e : nat * list nat) (d : R) : Prop := exists L, EL zs (fst e) (snd e) L /\
  match dget trs (fst e) with
  | None => denotes (law_logprob L (Fin (zs (fst e) (snd e)))) d
  | Some _ => exists f, L = LFam f /\ (exists b, backward (default_transform f) (Fin (zs (fst e) (snd e))) = Val (Fin b)) /\
      denotes (transformed_logprob true (family_logprob f) (default_transform f) (Fin (zs (fst e) (snd e)))) d
  end.
Lemma efd_move zs zs' e d : In (fst e) requested -> (forall u, u < fst e -> zs u = zs' u) -> zs (fst e) (snd e) = zs' (fst e) (snd e) -> efd zs e d -> efd zs' e d.
Proof. intros I Q Qe (L & A & H). exists L. split; [eapply entry_move; eauto|]. now rewrite <- Qe. Qed.
(** an entry whose value variable is not transformed has a possible value *)
Definition wi (zs : point_values) (e : nat * list nat) : Prop :=
  dget trs (fst e) = None -> forall L, EL zs (fst e) (snd e) L -> contains (law_support L) (zs (fst e) (snd e)).
Lemma wi_move zs zs' e : In (fst e) requested -> (forall u, u < fst e -> zs u = zs' u) -> zs (fst e) (snd e) = zs' (fst e) (snd e) -> wi zs e -> wi zs' e.
Proof.
  intros I Q Qe H T L A. rewrite <- Qe. apply H; [exact T|]. eapply entry_move; [exact I| |exact A]. intros u Lu. symmetry. now apply Q.
Qed.

Hypothesis POS : forall v, In v requested -> List.Forall (fun n => 0 < n) (shape v).
Hypothesis PR : proper_arrays S0 fam g requested trs shape.
Definition good (zs : point_values) (v : nat) : Prop := fits S0 g requested trs shape zs v /\
  forall i, SpecIdx.inside (shape v) i -> exists L, EL zs v i L /\ law_valid L /\ (dget trs v <> None -> transformable L).
(** what [good] gives: the arrays of the parameters, and the law of each entry *)
Lemma good_params zs v dist xs : good zs v -> PA zs v dist xs -> exists ns, xs = map Val ns /\ List.Forall (fun n => broadcasts (nshp n) (shape v)) ns /\
  forall i, SpecIdx.inside (shape v) i -> exists ys L, entries_of ns i ys /\ law_of (fam dist) ys L /\ EL zs v i L /\ law_valid L /\ (dget trs v <> None -> transformable L).
Proof.
  intros (F & G) P. destruct (all_vals (fun n => broadcasts (nshp n) (shape v)) xs (F dist xs P)) as (ns & -> & FN). exists ns. split; [reflexivity|]. split; [exact FN|].
  intros i I. destruct (G i I) as (L & E & V & T). pose proof E as (dist' & xs' & ys & P' & F2 & H). destruct (params_loc zs zs v _ _ _ _ (fun _ _ => eq_refl) P P') as (<- & <-).
  exists ys, L. split; [|auto]. unfold entries_of. clear -F2. remember (map Val ns) as xs eqn:Ex. revert ns Ex.
  induction F2 as [|a y xs ys (n & c & E & A & Y) F2 IH]; intros ns Ex; destruct ns as [|m ns]; try discriminate; [constructor|].
  injection Ex as -> ->. injection E as ->. constructor; [exists c; auto|auto].
Qed.
(** the array of a transformed variable on its own scale *)
Lemma back_arr zs v tr dist ns : good zs v -> In v requested -> dget trs v = Some tr -> PA zs v dist (map Val ns) -> exists a,
  s_back S0 tr (value_array shape zs v) (map Val ns) = Val a /\ nshp a = shape v /\
  forall i f, SpecIdx.inside (shape v) i -> EL zs v i (LFam f) -> backward (default_transform f) (Fin (zs v i)) = Val (nelt a i).
Proof.
  intros G Iv T P. destruct (good_params zs v dist _ G P) as (ns' & E & FN & H). assert (ns' = ns) as ->.
  { clear -E. revert ns' E. induction ns as [|n ns IH]; intros [|m ns'] E; try discriminate; [reflexivity|]. injection E as -> E. f_equal. auto. }
  assert (dist = tr) as ->. { destruct (TR v tr T) as (rng & ps & Eg). destruct P as (rho & rng' & ps' & _ & Eg' & _). congruence. }
  destruct (tr_arr (fam tr) ns (shape v) FN (POS v Iv) g_backward backward (zs v) (law_back (fam tr))) as (a & Ea & Sa & Aa).
  { intros i I. destruct (H i I) as (ys & L & En & HL & _ & V & TF). destruct (TF ltac:(congruence)) as (f & -> & Mp & _). exists ys, f. split; [exact En|]. split; [exact HL|].
    destruct (default_into f (zs v i) V Mp) as (b & -> & _). discriminate. }
  exists a. split; [exact Ea|]. split; [exact Sa|]. intros i f I El. destruct (H i I) as (ys & L & En & HL & El' & _). assert (L = LFam f) as -> by (eapply entry_loc; eauto). eapply Aa; eauto.
Qed.
Lemma natural_back zs rho v tr : natural_arr S0 g requested trs shape zs rho -> In v requested -> dget trs v = Some tr ->
  exists xs, PA zs v tr xs /\ rho v = Some (s_back S0 tr (value_array shape zs v) xs).
Proof.
  intros N I T. pose proof (proj1 N v I) as Nv. rewrite T in Nv. destruct Nv as (rng & dist & ps & xs & Eg & M & Q). exists xs. split; [|exact Q].
  destruct (TR v tr T) as (rng' & ps' & Eg'). rewrite Eg in Eg'. injection Eg' as <- -> <-. exists rho, rng, ps. auto.
Qed.
Lemma good_upto zs n : (forall u j, In u requested -> u < n -> SpecIdx.inside (shape u) j -> wi zs (u, j)) -> forall v, In v requested -> v <= n -> good zs v.
Proof.
  intros WI v. induction v as [v IH] using lt_wf_ind. intros Iv Lv. apply PR; [exact Iv|]. intros u j M x Iu Lu Ij A (rho & a & N & Q & E).
  destruct (dget trs u) as [tr|] eqn:T.
  - destruct (natural_back zs rho u tr N Iu T) as (xs & P & Q'). assert (Qa : Val a = s_back S0 tr (value_array shape zs u) xs) by congruence. clear Q'. rename Qa into Q'.
    pose proof (IH u Lu Iu ltac:(lia)) as G. destruct (good_params zs u tr xs G P) as (ns & -> & _ & H). destruct (H j Ij) as (ys & L & _ & _ & El & V & TF).
    destruct (back_arr zs u tr tr ns G Iu T P) as (b & Eb & _ & Hb). rewrite Eb in Q'. injection Q' as ->.
    assert (L = M) as -> by (eapply entry_loc; eauto). destruct (TF ltac:(congruence)) as (f & -> & Mp & NV). specialize (Hb j f Ij A).
    destruct (default_into f (zs u j) V Mp) as (y & Ey & Sy). rewrite Ey in Hb. injection Hb as Hb. rewrite E in Hb. injection Hb as ->.
    destruct f; cbn in *; unfold LemInt.inside; cbn; try lra; try tauto. exfalso. eapply NV. reflexivity.
  - pose proof (proj1 N u Iu) as Nu. rewrite T in Nu. rewrite Q in Nu. injection Nu as ->. cbn in E. injection E as <-. apply (WI u j Iu ltac:(lia) Ij T M A).
Qed.

(** the joint log-probability at a point *)
Variables (h : heap) (fs : list (nat * factor)) (vv : list nat).
Hypothesis FIRST : transformed_first g requested trs.
Hypothesis RUN : conditional_logprob toposort true g requested [] trs = Ok (h, fs, vv).
Hypothesis NE : requested <> [].
Variable es : list (nat * list nat).
Hypothesis AE : all_entries requested shape es.
Lemma varr_facts : List.length vv = List.length requested /\ NoDup vv /\ forall v, In v vv -> List.length g <= v.
Proof.
  destruct (m_sound toposort true g requested [] trs h fs vv RQ (or_intror (conj eq_refl FIRST)) RUN) as (_ & L & N & G & _).
  split; auto. split; auto. intros v I. destruct (In_nth_error _ _ I) as (i & Ei).
  destruct (nth_error requested i) as [rv|] eqn:Er; [|apply nth_error_None in Er; assert (i < List.length vv) by (apply nth_error_Some; congruence); lia].
  apply (G i rv v Er Ei).
Qed.
(** the factor of one variable *)
Lemma factor_arr zs rho v w i0 : natural_arr S0 g requested trs shape zs rho -> good zs v -> nth_error requested i0 = Some v -> nth_error vv i0 = Some w ->
  (forall i, SpecIdx.inside (shape v) i -> exists d, efd zs (v, i) d) ->
  exists a, model_factor (Sarr vv zs) g rho v (trans_of (Sarr vv zs) true trs v w) (Val a) /\ nshp a = shape v /\
    forall i d, SpecIdx.inside (shape v) i -> efd zs (v, i) d -> denotes (Val (nelt a i)) d.
Proof.
  intros N G Er Ew FD. destruct varr_facts as (LV & NV & GE). pose proof (nth_error_In _ _ Er) as Iv.
  destruct (params_ex zs v Iv) as (dist & xs & P). destruct (good_params zs v dist xs G P) as (ns & -> & FN & H).
  pose proof P as (rho' & rng & ps & N' & Eg & Mx).
  assert (Mx' : meanss S0 g rho ps (map Val ns)). { eapply (meanss_swap S0 S0 g rho' rho v); eauto. eapply natural_arr_loc; eauto. }
  assert (LG : v < List.length g) by (apply nth_error_Some; congruence).
  assert (Mv : meanss (Sarr vv zs) g rho ps (map Val ns)).
  { apply (meanss_swap S0 (Sarr vv zs) g rho rho (List.length g)); auto.
    - intros u Lu. cbn. unfold set_arrays. rewrite position_none; auto. intros J. apply GE in J. lia.
    - intros p J. apply (args_lt _ _ _ _ Eg) in J. lia. }
  assert (SI : s_in (Sarr vv zs) w = value_array shape zs v).
  { cbn. unfold set_arrays. rewrite (position_nth _ NV _ _ Ew). f_equal. now apply nth_error_nth. }
  assert (EL_here : forall i L M, EL zs v i L -> EL zs v i M -> L = M) by (intros; eapply entry_loc; eauto).
  unfold trans_of. destruct (dget trs v) as [tr|] eqn:T.
  - assert (dist = tr) as ->. { destruct (TR v tr T) as (rng' & ps' & Eg'). congruence. }
    destruct (natural_back zs rho v tr N Iv T) as (xs' & P' & Q). destruct (params_loc zs zs v _ _ _ _ (fun _ _ => eq_refl) P P') as (_ & <-).
    destruct (back_arr zs v tr tr ns G Iv T P) as (b & Eb & Sb & Hb).
    assert (FAM : forall i, SpecIdx.inside (shape v) i -> exists ys f y l j, entries_of ns i ys /\ law_of (fam tr) ys (LFam f) /\ EL zs v i (LFam f) /\
       backward (default_transform f) (Fin (zs v i)) = Val (Fin y) /\ nelt b i = Fin y /\ family_logprob f (Fin y) = Val l /\ log_jac_det (default_transform f) (Fin (zs v i)) = Val j).
    { intros i I. destruct (H i I) as (ys & L & En & HL & El & V & TF). destruct (FD i I) as (d & M & B & K). cbn [fst snd] in *. rewrite T in K.
      destruct K as (f & -> & (y & Ey) & K). assert (L = LFam f) as -> by eauto. pose proof (Hb i f I El) as E'. rewrite Ey in E'. injection E' as E'.
      unfold transformed_logprob in K. rewrite Ey in K. cbn [bind] in K.
      destruct (family_logprob f (Fin y)) as [l|] eqn:Ell; [|easy]. cbn [bind] in K. destruct (log_jac_det (default_transform f) (Fin (zs v i))) as [j|] eqn:Ej; [|easy].
      exists ys, f, y, l, j. auto 10. }
    destruct (ld_arr (fam tr) ns (shape v) FN (POS v Iv) b Sb) as (l & Ell & Sl & Hl).
    { intros i I. destruct (FAM i I) as (ys & f & y & l & j & En & HL & El & Ey & Eby & E1 & E2). exists ys, (LFam f), y. split; [exact En|]. split; [exact HL|]. split; [exact Eby|]. cbn [law_logprob]. rewrite E1. discriminate. }
    destruct (tr_arr (fam tr) ns (shape v) FN (POS v Iv) g_log_jac_det log_jac_det (zs v) (law_jac (fam tr))) as (j & Ej & Sj & Hj).
    { intros i I. destruct (FAM i I) as (ys & f & y & l' & j & En & HL & El & Ey & Eby & E1 & E2). exists ys, f. split; [exact En|]. split; [exact HL|]. rewrite E2. discriminate. }
    destruct (add_same l j (shape v) Sl Sj) as (a & Ea & Sa & Ha). exists a. split; [|split; [exact Sa|]].
    + rewrite SI. exists rng, tr, ps, (map Val ns), (Val b). split; [exact Eg|]. split; [exact Mv|]. split; [rewrite Q; f_equal; exact Eb|].
      cbn [s_add s_ld s_lj Sarr arr_sem]. rewrite Ell. unfold value_array. rewrite Ej. symmetry. exact Ea.
    + intros i d I (M & B & K). cbn [fst snd] in *. rewrite T in K. destruct K as (f & -> & _ & K). destruct (FAM i I) as (ys & f' & y & l' & j' & En & HL & El & Ey & Eby & E1 & E2).
      assert (LFam f' = LFam f) as Ef by eauto. injection Ef as ->. unfold transformed_logprob in K. rewrite Ey in K. cbn [bind] in K. rewrite E1, E2 in K. cbn [bind] in K.
      rewrite (Ha i I). pose proof (Hl i ys (LFam f) y I En HL Eby) as A1. cbn [law_logprob] in A1. rewrite E1 in A1. injection A1 as <-.
      pose proof (Hj i ys f I En HL) as A2. rewrite E2 in A2. injection A2 as <-. exact K.
  - pose proof (proj1 N v Iv) as Nv. rewrite T in Nv.
    destruct (ld_arr (fam dist) ns (shape v) FN (POS v Iv) {| nshp := shape v; nelt := fun i => Fin (zs v i) |} eq_refl) as (l & Ell & Sl & Hl).
    { intros i I. destruct (H i I) as (ys & L & En & HL & El & V & _). exists ys, L, (zs v i). split; [exact En|]. split; [exact HL|]. split; [reflexivity|].
      destruct (FD i I) as (d & M & B & K). cbn [fst snd] in *. rewrite T in K. assert (L = M) as -> by eauto. intros Z. rewrite Z in K. exact K. }
    exists l. split; [|split; [exact Sl|]].
    + exists rng, dist, ps, (map Val ns), (value_array shape zs v). split; [exact Eg|]. split; [exact Mv|]. split; [exact Nv|]. symmetry. exact Ell.
    + intros i d I (M & B & K). cbn [fst snd] in *. rewrite T in K. destruct (H i I) as (ys & L & En & HL & El & V & _). assert (L = M) as -> by eauto.
      rewrite <- (Hl i ys M (zs v i) I En HL eq_refl). exact K.
Qed.
Lemma entries_nodup l : NoDup l -> NoDup (flat_map (fun v => map (pair v) (positions (shape v))) l).
Proof.
  induction 1 as [|v l Nv _ IH]; [constructor|]. cbn [flat_map].
  assert (Q : forall i, In (v, i) (flat_map (fun v => map (pair v) (positions (shape v))) l) -> False).
  { intros i J. apply in_flat_map in J. destruct J as (u & Iu & J). apply in_map_iff in J. destruct J as (j & E & _). injection E as -> _. auto. }
  pose proof (positions_nodup (shape v)) as NP. induction NP as [|p l' Np _ IHp]; [exact IH|]. cbn [map app]. constructor; [|exact IHp].
  intros J. apply in_app_or in J. destruct J as [J|J]; [|eauto]. apply in_map_iff in J. destruct J as (j & E & J). injection E as ->. auto.
Qed.
Lemma joint_arr zs ds : List.Forall2 (efd zs) es ds -> (forall e, In e es -> wi zs e) -> exists y, joint_array (Sarr vv zs) h fs y /\ denotes (Val y) (prodl ds).
Proof.
  intros F WI. destruct varr_facts as (LV & NV & GE). destruct (natural_arr_ex zs) as (rho & N).
  pose proof (proj2 (point_natural_arr vv zs rho LV NV GE) N) as P. destruct AE as (NE' & IN & ORD).
  assert (G : forall v, In v requested -> good zs v). { intros v I. apply (good_upto zs v); auto. intros u j Iu _ Ij. apply WI, IN. auto. }
  assert (ALL : forall v i, In v requested -> SpecIdx.inside (shape v) i -> exists d, efd zs (v, i) d).
  { intros v i I Ii. assert (J : In (v, i) es) by (apply IN; auto). clear -F J. induction F; [easy|destruct J as [<-|J]; eauto]. }
  destruct (choose_on (fun v a => nshp a = shape v /\ (forall i d, SpecIdx.inside (shape v) i -> efd zs (v, i) d -> denotes (Val (nelt a i)) d) /\
     forall i w, nth_error requested i = Some v -> nth_error vv i = Some w -> model_factor (Sarr vv zs) g rho v (trans_of (Sarr vv zs) true trs v w) (Val a))
     {| nshp := []; nelt := fun _ => NaN |} requested) as (Y & HY).
  { intros v I. destruct (In_nth_error _ _ I) as (i & Ei). destruct (nth_error vv i) as [w|] eqn:Ew; [|apply nth_error_None in Ew; assert (i < List.length requested) by (apply nth_error_Some; congruence); lia].
    destruct (factor_arr zs rho v w i N (G v I) Ei Ew (fun j => ALL v j I)) as (a & M & Sa & Ha). exists a. split; [exact Sa|]. split; [exact Ha|].
    intros i' w' Ei' Ew'. assert (i' = i) as ->. { apply (proj1 (NoDup_nth_error requested) ND); [apply nth_error_Some; congruence|congruence]. } congruence. }
  destruct (joint_flat entries Val g requested trs h fs vv (Sarr vv zs) rho Y RQ FIRST RUN P) as (ys & HF & HJ).
  - intros i rv w Er Ew. destruct (HY rv (nth_error_In _ _ Er)) as (_ & _ & H). exact (H i w Er Ew).
  - exact NE.
  - eexists. split; [exists ys; split; [exact HF|exact HJ]|].
    set (E := flat_map (fun v => map (pair v) (positions (shape v))) requested).
    assert (IE : forall v i, In (v, i) E <-> In v requested /\ SpecIdx.inside (shape v) i).
    { intros v i. unfold E. rewrite in_flat_map. split.
      - intros (u & Iu & J). apply in_map_iff in J. destruct J as (j & Q & J). injection Q as -> ->. apply positions_in in J. auto.
      - intros (Iv & Ii). exists v. split; [exact Iv|]. apply in_map. now apply positions_in. }
    assert (PM : Permutation es E). { apply NoDup_Permutation; [exact NE'|now apply entries_nodup|]. intros (v & i). rewrite IN, IE. tauto. }
    destruct (Permutation_Forall2 PM F) as (ds' & PD & F'). rewrite (prodl_perm _ _ PD).
    assert (C : concat (map (fun v => entries (Y v)) requested) = map (fun e => nelt (Y (fst e)) (snd e)) E).
    { assert (K : forall v, In v requested -> nshp (Y v) = shape v) by (intros v I; apply (HY v I)). unfold E. clear -K. induction requested as [|v l IH]; [reflexivity|].
      cbn [map concat flat_map]. unfold entries at 1. rewrite map_app, map_map, K by now left. f_equal. apply IH. intros; apply K; now right. }
    rewrite C. apply xsum_den. assert (K : forall e, In e E -> forall d, efd zs e d -> denotes (Val (nelt (Y (fst e)) (snd e))) d).
    { intros (v & i) J d. apply IE in J. destruct J as (Iv & Ii). destruct (HY v Iv) as (_ & H & _). apply H. exact Ii. }
    clear -K F'. induction F' as [|e d E ds He F' IH]; [constructor|]. cbn [map]. constructor; [apply K; [now left|exact He]|apply IH; intros; apply K; [now right|auto]].
Qed.
Let J (zs : point_values) (y : xr) := joint_array (Sarr vv zs) h fs y.
Let dom := entry_domain S0 fam g requested trs shape.
Lemma upd_entry_same zs v i x : upd_entry zs (v, i) x v i = x.
Proof. unfold upd_entry. cbn. rewrite Nat.eqb_refl. destruct (list_eq_dec Nat.eq_dec i i); congruence. Qed.
Lemma upd_entry_var zs e x u : u <> fst e -> zs u = upd_entry zs e x u.
Proof. intros H. unfold upd_entry. apply Nat.eqb_neq in H. now rewrite H. Qed.
Lemma upd_entry_other zs e x e' : e' <> e -> zs (fst e') (snd e') = upd_entry zs e x (fst e') (snd e').
Proof.
  destruct e as (v & i), e' as (u & j). unfold upd_entry. cbn [fst snd]. intros H. destruct (Nat.eqb_spec u v) as [->|]; [|reflexivity].
  destruct (list_eq_dec Nat.eq_dec j i); [congruence|reflexivity].
Qed.
Lemma total_arr_from : forall todo done zs ds, done ++ todo = es -> List.Forall2 (efd zs) done ds -> (forall e, In e done -> wi zs e) -> total J dom todo zs (prodl ds).
Proof.
  induction todo as [|[v i] todo IH]; intros done zs ds E F Wd.
  - rewrite app_nil_r in E. subst done. destruct (joint_arr zs ds F Wd) as (y & Hy & Hd). eapply total_here; eauto.
  - destruct AE as (NE' & IN & ORD). assert (IVI : In v requested /\ SpecIdx.inside (shape v) i). { apply IN. rewrite <- E. apply in_or_app. right. now left. }
    destruct IVI as (Iv & Ii).
    assert (LE : forall e, In e done -> fst e <= v). { intros e Ie. apply in_split in Ie. destruct Ie as (d1 & d2 & ->). apply (ORD d1 e d2 (v, i) todo). now rewrite <- E, <- app_assoc. }
    assert (NQ : forall e, In e done -> e <> (v, i)). { intros e Ie ->. rewrite <- E in NE'. apply NoDup_remove_2 in NE'. apply NE', in_or_app. auto. }
    assert (Rq : forall e, In e done -> In (fst e) requested). { intros (u & j) Ie. apply (IN u j). rewrite <- E. apply in_or_app. now left. }
    assert (GEd : forall u j, In u requested -> u < v -> SpecIdx.inside (shape u) j -> In (u, j) done).
    { intros u j Iu Lu Ij. assert (Ie : In (u, j) es) by (apply IN; auto). rewrite <- E in Ie. apply in_app_or in Ie as [Ie|[Q|Ie]]; auto; [injection Q as -> _; lia|].
      exfalso. apply in_split in Ie. destruct Ie as (t1 & t2 & ->). specialize (ORD done (v, i) t1 (u, j) t2 (eq_sym E)). cbn in ORD. lia. }
    assert (G : good zs v). { apply (good_upto zs v); auto. }
    destruct (proj2 G i Ii) as (L & A & V & T).
    assert (UPL : forall x u, u < v -> zs u = upd_entry zs (v, i) x u). { intros x u Lu. apply upd_entry_var. cbn. lia. }
    assert (STEP : forall x d, efd (upd_entry zs (v, i) x) (v, i) d -> wi (upd_entry zs (v, i) x) (v, i) -> total J dom todo (upd_entry zs (v, i) x) (prodl ds * d)).
    { intros x d Hd Hw. replace (prodl ds * d)%R with (prodl (ds ++ [d])) by (rewrite prodl_app; cbn; ring).
      apply (IH (done ++ [(v, i)])); [rewrite <- app_assoc; exact E| |].
      - apply Forall2_app; [|constructor; auto]. eapply F2_in; [exact F|]. intros e d' Ie He. eapply efd_move; [now apply Rq| |apply upd_entry_other; auto|exact He].
        intros w Lw. apply UPL. specialize (LE e Ie). lia.
      - intros e Ie. apply in_app_or in Ie as [Ie|[<-|[]]]; auto. eapply wi_move; [now apply Rq| |apply upd_entry_other; auto|now apply Wd].
        intros w Lw. apply UPL. specialize (LE e Ie). lia. }
    assert (AU : forall x, EL (upd_entry zs (v, i) x) v i L). { intros x. eapply entry_move; [exact Iv| |exact A]. apply UPL. }
    assert (WU : forall x, dget trs v = None -> contains (law_support L) x -> wi (upd_entry zs (v, i) x) (v, i)).
    { intros x Tn C _ M B. cbn [fst snd] in *. rewrite upd_entry_same. assert (M = L) as -> by (eapply entry_loc; [reflexivity|exact B|apply AU]). exact C. }
    assert (CONT : forall lo hi lp, dom zs (v, i) (Interval lo hi) -> Rbar_lt lo hi -> integrates_to_one lp lo hi ->
       (forall x d, LemInt.inside lo hi x -> denotes (lp (Fin x)) d -> efd (upd_entry zs (v, i) x) (v, i) d /\ wi (upd_entry zs (v, i) x) (v, i)) -> total J dom ((v, i) :: todo) zs (prodl ds)).
    { intros lo hi lp Hd Hlt (f & H1 & _ & H3) K. apply (total_int J dom (v, i) todo zs lo hi (fun x => (prodl ds * f x)%R)); auto.
      - intros x Hx. destruct (K x (f x) Hx (H1 x Hx)). now apply STEP.
      - pose proof (is_RInt_gen_scal f (prodl ds) 1%R H3) as Q. change (scal (prodl ds) 1%R) with (prodl ds * 1)%R in Q. rewrite Rmult_1_r in Q. exact Q. }
    destruct (dget trs v) as [tr|] eqn:Etr.
    + destruct (T ltac:(discriminate)) as (f & -> & Mp & NVM). apply (CONT m_infty p_infty (transformed_logprob true (family_logprob f) (default_transform f))).
      * exists (LFam f). cbn [fst snd]. split; auto. now rewrite Etr.
      * exact I.
      * now apply default_normalised.
      * intros x d Hx Hd. split.
        -- exists (LFam f). cbn [fst snd]. split; auto. rewrite Etr. exists f. split; auto. rewrite upd_entry_same. split; auto. destruct (default_into f x V Mp) as (b & Hb & _). eauto.
        -- intros Z. cbn [fst] in Z. congruence.
    + assert (dom zs (v, i) (law_support L)) as DM by (exists L; cbn [fst snd]; split; auto; now rewrite Etr). destruct (law_support L) as [lo hi|pm] eqn:Es.
      * apply (CONT lo hi (law_logprob L)); auto; [now apply (law_order L)|now apply law_cont|]. intros x d Hx Hd. split.
        -- exists L. cbn [fst snd]. split; auto. now rewrite Etr, upd_entry_same.
        -- apply WU; auto.
      * destruct (law_disc L pm V Es) as (H1 & H2). apply (total_sum J dom (v, i) todo zs pm (fun k => (prodl ds * pm k)%R)); auto.
        -- intros k Hk. apply STEP; [exists L; cbn [fst snd]; split; auto; rewrite Etr, upd_entry_same; apply H1|]. apply WU; auto. exists k. auto.
        -- intros k ->. ring.
        -- pose proof (is_series_scal (prodl ds) pm 1%R H2) as Q. change (scal (prodl ds) 1%R) with (prodl ds * 1)%R in Q. rewrite Rmult_1_r in Q. exact Q.
Qed.
Lemma total_arr_one zs : total J dom es zs 1.
Proof. exact (total_arr_from es [] zs [] eq_refl ltac:(constructor) ltac:(easy)). Qed.
End Main.
(** ** The total is unique *)
Lemma total_unique (J : point_values -> xr -> Prop) (dom : point_values -> nat * list nat -> support -> Prop) : (forall zs y y', J zs y -> J zs y' -> y = y') -> (forall zs v s s', dom zs v s -> dom zs v s' -> s = s') ->
  forall vs zs m m', total J dom vs zs m -> total J dom vs zs m' -> m = m'.
Proof.
  intros JF DF vs zs m m' H. revert m'. induction H as [zs y d Hy Hd|v vs zs lo hi f m Hd Hlt Hf IH Hi|v vs zs pm f m Hd Hf IH Hz Hs]; intros m' K.
  - inversion K; subst. assert (y = y0) as <- by eauto. eapply den_uniq; eauto.
  - inversion K as [|v' vs' zs' lo' hi' f' m1 Hd' Hlt' Hf' Hi'|v' vs' zs' pm' f' m1 Hd' Hf' Hz' Hs']; subst; pose proof (DF _ _ _ _ Hd Hd') as Q; [|discriminate]. injection Q as <- <-.
    assert (X : is_RInt_gen f' (Fr lo) (Fl hi) m).
    { eapply (is_RInt_gen_ext f f'); [|exact Hi]. exists (LemInt.inside lo hi) (LemInt.inside lo hi); [now apply Fr_inside|now apply Fl_inside|].
      intros a b Ha Hb x Hx. cbn in Hx. assert (LemInt.inside lo hi x) as Ix by (eapply (inside_ge lo hi a b); eauto; lra). apply (IH x Ix). auto. }
    rewrite <- (is_RInt_gen_unique f' m X). apply (is_RInt_gen_unique f' m' Hi').
  - inversion K as [|v' vs' zs' lo' hi' f' m1 Hd' Hlt' Hf' Hi'|v' vs' zs' pm' f' m1 Hd' Hf' Hz' Hs']; subst; pose proof (DF _ _ _ _ Hd Hd') as Q; [discriminate|]. injection Q as <-.
    rewrite <- (is_series_unique f m Hs), <- (is_series_unique f' m' Hs'). apply Series_ext. intros k. destruct (Req_dec (pm k) 0) as [Z|Z]; [now rewrite Hz, Hz'|]. apply (IH k Z). auto.
Qed.
Lemma joint_array_det S h fs y y' : joint_array S h fs y -> joint_array S h fs y' -> y = y'.
Proof.
  intros (ys & F & J) (ys' & F' & J'). assert (ys = ys') as <-; [|congruence]. clear J J'. revert ys' F'. induction F as [|p z fs ys Hz F IH]; intros ys' F'; inversion F' as [|p' z' fs' ys1 Hz' F1]; subst; auto. f_equal; auto. pose proof (fvalue_det _ _ _ _ _ Hz Hz') as Q. congruence.
Qed.
Lemma total_arrays fam inp draw det g requested trs shape es :
  request g requested [] trs -> transformed_first g requested trs -> requested <> [] ->
  (forall rv, In rv requested -> exists rng dist ps, nth_error g rv = Some (mk (ORv rng dist) ps)) ->
  (forall rv tr, dget trs rv = Some tr -> exists rng ps, nth_error g rv = Some (mk (ORv rng tr) ps)) ->
  (forall v, In v requested -> List.Forall (fun n => 0 < n) (shape v)) -> all_entries requested shape es ->
  proper_arrays (arr_sem fam inp draw det) fam g requested trs shape ->
  exists h fs vv, conditional_logprob toposort true g requested [] trs = Ok (h, fs, vv) /\
  forall zs m, total (fun zs => joint_array (arr_sem fam (set_arrays shape requested vv zs inp) draw det) h fs)
                  (entry_domain (arr_sem fam inp draw det) fam g requested trs shape) es zs m <-> m = 1%R.
Proof.
  intros RQ FI NE RV TR POS AE PR. destruct (defined_trans true g requested [] trs RQ FI) as (h & fs & vv & E & _).
  - intros rv I. cbn in I. rewrite app_nil_r in I. auto.
  - exists h, fs, vv. split; auto. intros zs m.
    pose proof (total_arr_one fam inp draw det g requested trs shape RQ RV TR POS PR h fs vv FI E NE es AE zs) as T. split.
    + intros H. eapply total_unique; [| |exact H|exact T].
      * intros zs' y y'. apply joint_array_det.
      * intros zs' v s s' (L & A & ->) (M & B & ->). now rewrite (entry_loc fam inp draw det g requested trs shape RQ zs' zs' (fst v) (snd v) L M (fun _ _ => eq_refl) A B).
    + intros ->. exact T.
Qed.
(** a list of all entries *)
Lemma sorted_split es : StronglySorted le (map fst es) -> forall es1 (e : nat * list nat) es2 e' es3, es = es1 ++ e :: es2 ++ e' :: es3 -> fst e <= fst e'.
Proof.
  intros SO es1 e es2 e' es3 ->. induction es1 as [|x es1 IH]; cbn in SO; inversion SO as [|? ? S1 S2]; subst; [|auto].
  rewrite Forall_forall in S2. apply S2. rewrite map_app. apply in_or_app. right. now left.
Qed.
Lemma entries_listed shape requested vs : Permutation vs requested -> StronglySorted lt vs ->
  all_entries requested shape (flat_map (fun v => map (pair v) (positions (shape v))) vs).
Proof.
  intros PM SO. assert (IE : forall vs v i, In (v, i) (flat_map (fun v => map (pair v) (positions (shape v))) vs) <-> In v vs /\ SpecIdx.inside (shape v) i).
  { clear. intros vs v i. rewrite in_flat_map. split.
    - intros (u & Iu & J). apply in_map_iff in J. destruct J as (j & Q & J). injection Q as -> ->. apply positions_in in J. auto.
    - intros (Iv & Ii). exists v. split; [exact Iv|]. apply in_map. now apply positions_in. }
  split; [|split].
  - apply entries_nodup. clear -SO. induction SO as [|v vs SO IH F]; constructor; [|exact IH]. intros J. rewrite Forall_forall in F. apply F in J. lia.
  - intros v i. rewrite IE. split; intros (A & B); (split; [|exact B]); [eapply Permutation_in; eauto|eapply Permutation_in; [symmetry|]; eauto].
  - apply sorted_split. clear PM. induction SO as [|v vs SO IH F]; [constructor|]. cbn [flat_map]. rewrite map_app, map_map. cbn [fst].
    assert (Q : List.Forall (le v) (map fst (flat_map (fun v => map (pair v) (positions (shape v))) vs))).
    { apply Forall_forall. intros u J. apply in_map_iff in J. destruct J as ((u' & i) & <- & J). apply IE in J. destruct J as (J & _). rewrite Forall_forall in F. apply F in J. cbn. lia. }
    induction (positions (shape v)) as [|p ps IHp]; [exact IH|]. cbn [map app]. constructor; [exact IHp|]. apply Forall_app. split; [|exact Q].
    clear. induction ps; cbn [map]; constructor; auto.
Qed.
