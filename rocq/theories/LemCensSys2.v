(** Log-probabilities in models with clipped and rounded variables. *)
From Coq Require Import Reals Lra Lia ZArith List Arith Bool.
From Coquelicot Require Import Coquelicot.
From Verif Require Import XR XTac SpecDist ModelDist ModelVec SpecCens LemInt ModelCens LemCens ModelJoint LemJoint ModelTrans LemTrans LemTrans2 ModelNest SpecNest LemNest ModelGuard ModelCensSys SpecCensSys LemCensSys LemCdf.
Import ListNotations.
Open Scope R_scope.

Lemma rnd_val op x k : rnd_of op x k -> round_val op (Fin x) = Fin (IZR k).
Proof.
  intros H. assert (Q : rnd_of op x (match op with RHalfEven => Rround x | RFloor => Int_part x | RCeil => Rceil_part x end)).
  { clear H. destruct op; simpl.
    - unfold rounds_half_even, Rround. destruct (base_Int_part x) as [H1 H2].
      destruct (Rlt_dec _ _); [left; rewrite Rabs_pos_eq; lra|]. destruct (Rlt_dec _ _).
      + left. rewrite plus_IZR. rewrite Rabs_left1; lra.
      + destruct (Z.even (Int_part x)) eqn:E.
        * right. split; [rewrite Rabs_pos_eq; lra|]. now apply Z.even_spec.
        * right. split; [rewrite plus_IZR, Rabs_left1; lra|]. apply Z.even_spec. rewrite Z.even_add. now rewrite E.
    - unfold rounds_floor. destruct (base_Int_part x). lra.
    - unfold rounds_ceil. pose proof (Rceil_spec x). lra. }
  rewrite (rnd_fun op x _ _ H Q). destruct op; reflexivity.
Qed.
(** the value a bound stands for: [x] itself when it is missing *)
Definition stands (inf : Rbar) (x c : xr) (l : Rbar) : Prop := (c = x /\ l = inf) \/ rbar c = Some l.
Lemma xclip_fun x lo hi l u : stands m_infty (Fin x) lo l -> stands p_infty (Fin x) hi u -> Rbar_lt l u -> xclip (Fin x) lo hi = Fin (clip_fun l u x).
Proof.
  assert (A : forall c l, stands m_infty (Fin x) c l -> l <> p_infty -> (if xlt (Fin x) c then c else Fin x) = Fin (match l with Finite a => Rmax a x | _ => x end)).
  { intros c m [[-> ->]|E] NP; [cbn; unfold Rltb; destruct (Rlt_dec x x); reflexivity|]. destruct c as [a| | |]; cbn in E; try discriminate; injection E as <-; cbn; try easy.
    unfold Rltb, Rmax. destruct (Rlt_dec x a), (Rle_dec a x); f_equal; lra. }
  intros Sl Su Lt. assert (NP : l <> p_infty) by (intros ->; destruct u; easy). specialize (A lo l Sl NP). unfold xclip, xgt in *. unfold clip_fun.
  set (y := match l with Finite a => Rmax a x | _ => x end) in *.
  destruct (xlt (Fin x) lo) eqn:El.
  - rewrite A. f_equal. destruct u as [b| |]; auto. destruct l as [a| |]; cbn in Lt; try easy.
    + destruct Sl as [[_ E]|E]; [discriminate|]. rewrite A in E. injection E as E. rewrite Rmin_right; auto. lra.
    + destruct Sl as [[-> _]|E]; [cbn in El; unfold Rltb in El; destruct (Rlt_dec x x); [lra|discriminate]|]. rewrite A in E. discriminate.
  - injection A as A. destruct Su as [[-> ->]|E].
    + cbn. unfold Rltb. destruct (Rlt_dec x x); [lra|]. now rewrite A.
    + destruct hi as [b| | |]; cbn in E; try discriminate; injection E as <-; cbn.
      * rewrite <- A. unfold Rltb, Rmin. destruct (Rlt_dec b x), (Rle_dec b x); f_equal; lra.
      * now rewrite A.
      * destruct l; easy.
Qed.

(** integer bounds as extended reals *)
Definition low_of (l : option Z) : Rbar := match l with Some a => Finite (IZR a) | None => m_infty end.
Definition high_of (u : option Z) : Rbar := match u with Some a => Finite (IZR a) | None => p_infty end.

Section Cond.
Variable ddt : nat -> dtype.
Variable fs : nat -> list xr -> xr.
Variable dlp dlc : nat -> list xr -> xr -> res xr.
Variable h : list cnode.
Variable req : list nat.
Variable y : nat -> R.
Variable rho : nat -> xr.
Hypothesis AC : cacyclic h.
Notation env := (valued req y).
Notation yx := (fun w => Fin (y w)).
Notation unf := (c_unfold h req yx).
Notation gv dt e := (g_val (gannotate dt fs rho e)).

Lemma unf_in n p : (0 < n)%nat -> In p req -> unf n p = GIn (Fin (y p)).
Proof. intros L I. destruct n; [lia|]. cbn [c_unfold]. now rewrite (proj2 (mem_In p req) I). Qed.
Lemma unf_out n p : ~ In p req -> unf (S n) p = c_expand h (unf n) p.
Proof. intros I. cbn [c_unfold]. destruct (mem p req) eqn:M; auto. apply mem_In in M. easy. Qed.
Lemma unf_noself n p : unf n p <> GSelf.
Proof. destruct n; cbn; [discriminate|]. destruct (mem p req); [discriminate|]. unfold c_expand. destruct (nth_error h p) as [[]|]; discriminate. Qed.
Lemma bval_gv dt inf e : e <> GSelf -> bval (g_bound inf e (gannotate dt fs rho e)) = gv dt e.
Proof. destruct e; cbn [g_bound bval]; auto. easy. Qed.

Lemma bound_val dt n a inf b l (P : forall r, cvalue fs h env b r -> gv dt (unf n b) = Fin r) : (0 < n)%nat -> cbound fs h env a inf b l ->
  (b =? a = true /\ l = inf)%nat \/ ((b =? a)%nat = false /\ rbar (gv dt (unf n b)) = Some l).
Proof.
  intros L B. destruct B as [a inf|a inf b c l N E K Q|a inf b r N V].
  - left. split; auto. apply Nat.eqb_refl.
  - right. split; [apply Nat.eqb_neq; auto|]. destruct n; [lia|]. rewrite unf_out by (intros I; rewrite valued_in in E; auto; discriminate). unfold c_expand. rewrite K. exact Q.
  - right. split; [apply Nat.eqb_neq; auto|]. now rewrite (P r V).
Qed.
Lemma pick_self {A} e (u v : A) : e <> GSelf -> match e with GSelf => u | _ => v end = v.
Proof. now destruct e. Qed.

Lemma unfold_val dt n : forall p r, (p < n)%nat -> cvalue fs h env p r -> gv dt (unf n p) = Fin r.
Proof.
  induction n as [|n IH]; intros p r L V; [lia|]. destruct (in_dec Nat.eq_dec p req) as [I|I].
  - rewrite unf_in by (auto; lia). inversion V as [v s E| | | | | | | | | | | ]; subst; rewrite valued_in in *; auto; try congruence. cbn. congruence.
  - rewrite unf_out by auto. pose proof (valued_out req y p I) as E. destruct (cval_node fs h _ _ _ E V) as [m N]. unfold c_expand. rewrite N.
    pose proof (cval_inv fs h _ _ _ _ E N V) as M.
    assert (IH' : forall a x, In a (cinputs m) -> cvalue fs h env a x -> gv dt (unf n a) = Fin x) by (intros a x Ia; apply IH; specialize (AC p m a N Ia); lia).
    assert (IHl : forall l xs, incl l (cinputs m) -> List.Forall2 (cvalue fs h env) l xs -> map g_val (map (gannotate dt fs rho) (map (unf n) l)) = map Fin xs).
    { intros l xs Il F. induction F as [|a x l xs H F IHF]; [reflexivity|]. cbn [map]. rewrite (IH' a x) by (auto; apply Il; now left). f_equal. apply IHF. intros b Ib. apply Il. now right. }
    clear IH V. destruct m as [c|d ps|[]|[] l|a b|a b|d a lo hi|op a|k l]; cbn [cmeans cinputs] in *.
    + subst. reflexivity.
    + easy.
    + destruct M as (x & V & ->). cbn [gannotate g_unary g_val un_val]. now rewrite (IH' a x) by (cbn; auto).
    + destruct M as (x & V & P & ->). cbn [gannotate g_unary g_val un_val]. rewrite (IH' a x) by (cbn; auto). now apply xlog_pos.
    + destruct M as (x & V & P & ->). cbn [gannotate g_unary g_val un_val]. rewrite (IH' a x) by (cbn; auto). now apply xrecip_fin.
    + destruct M as (xs & V & ->). cbn [gannotate g_nary g_val]. rewrite (IHl l xs) by (auto; apply incl_refl). rewrite nary_fin. reflexivity.
    + destruct M as (xs & V & ->). cbn [gannotate g_nary g_val]. rewrite (IHl l xs) by (auto; apply incl_refl). rewrite nary_fin. reflexivity.
    + destruct M as (x & z & V & W & ->). cbn [gannotate g_sub g_nary g_val gcon map]. rewrite (IH' a x), (IH' b z) by (cbn; auto). cbn [nary_val xsum fold_left fold_right]. rewrite !xmul_fin, ?xadd_fin. cbn. f_equal. lra.
    + destruct M as (x & z & V & W & P & ->). cbn [gannotate g_div g_nary g_unary g_val gcon map un_val]. rewrite (IH' a x), (IH' b z) by (cbn; auto). rewrite xrecip_fin by auto. cbn [nary_val fold_left]. rewrite !xmul_fin. f_equal. unfold Rdiv. ring.
    + destruct M as (x & l & u & V & B1 & B2 & Lt & ->). cbn [gannotate g_clip g_val]. rewrite (IH' a x) by (cbn; auto).
      assert (0 < n)%nat as Ln by (specialize (AC p _ a N (or_introl eq_refl)); lia).
      apply (bound_val dt n a m_infty lo l) in B1; [|intros; apply IH'; cbn; auto|auto]. apply (bound_val dt n a p_infty hi u) in B2; [|intros; apply IH'; cbn; auto|auto].
      apply xclip_fun; auto.
      * destruct B1 as [[-> ->]|[-> B1]]; [now left|right]. rewrite pick_self; auto. apply unf_noself.
      * destruct B2 as [[-> ->]|[-> B2]]; [now left|right]. rewrite pick_self; auto. apply unf_noself.
    + destruct M as (x & k & V & P & ->). cbn [gannotate g_round g_val]. rewrite (IH' a x) by (cbn; auto). now apply rnd_val.
    + destruct M as (xs & V & P). cbn [gannotate g_val]. rewrite (IHl l xs) by (auto; apply incl_refl). exact P.
Qed.

Notation cdt := (c_dtype ddt h).
Notation crv := (c_rvs h req yx).
Notation cond := (c_conditional ddt fs dlp dlc h req yx rho).
Lemma len b n : nth_error h b = Some n -> (b < length h)%nat.
Proof. intros E. apply nth_error_Some. congruence. Qed.
Lemma params_val b d ps xs : nth_error h b = Some (CRv d ps) -> List.Forall2 (cvalue fs h env) ps xs -> fst (crv b) = d /\ params cdt fs rho crv b = map Fin xs.
Proof.
  intros N F. unfold params, c_rvs. rewrite N. split; [reflexivity|]. cbn [snd]. rewrite map_map.
  assert (Il : forall a, In a ps -> (a < length h)%nat) by (intros a Ia; specialize (AC b _ a N Ia); apply len in N; lia). clear N.
  induction F as [|a x l xs H F IH]; [reflexivity|]. cbn [map]. rewrite (unfold_val cdt (length h) a x) by (auto; apply Il; now left). f_equal. apply IH. intros q Iq. apply Il. now right.
Qed.
Lemma cond_rv v d ps xs : nth_error h v = Some (CRv d ps) -> List.Forall2 (cvalue fs h env) ps xs -> cond v = Some (dlp d (map Fin xs) (Fin (y v))).
Proof. intros N F. destruct (params_val v d ps xs N F) as [E1 E2]. unfold c_conditional, derived, c_top, c_expand. rewrite N. cbn [gannotate g_m glogprob]. now rewrite E1, E2. Qed.
Lemma top_rv b d ps : ~ In b req -> nth_error h b = Some (CRv d ps) -> unf (length h) b = GRv b.
Proof. intros I N. pose proof (len _ _ N). destruct (length h) eqn:E; [lia|]. rewrite unf_out by auto. unfold c_expand. now rewrite N. Qed.
Lemma bound_den inf xinf b q l : rbar xinf = Some inf -> (q < length h)%nat -> cbound fs h env b inf q l ->
  rbar (bval (g_bound xinf (if (q =? b)%nat then GSelf else unf (length h) q) (gannotate cdt fs rho (if (q =? b)%nat then GSelf else unf (length h) q)))) = Some l.
Proof.
  intros Ri Lq B. apply (bound_val cdt (length h) b inf q l) in B; [|intros; now apply unfold_val|lia]. destruct B as [[-> ->]|[-> B]]; [exact Ri|]. rewrite bval_gv by apply unf_noself. exact B.
Qed.
Lemma cond_clip v t b lo hi d ps xs l u f F : nth_error h v = Some (CClip t b lo hi) -> ~ In b req -> nth_error h b = Some (CRv d ps) -> ddt d = DFloat -> List.Forall2 (cvalue fs h env) ps xs ->
  cbound fs h env b m_infty lo l -> cbound fs h env b p_infty hi u -> Rbar_lt l u -> cont_law f F -> computes_law (dlp d (map Fin xs)) (dlc d (map Fin xs)) f F ->
  exists r, cond v = Some r /\ denotes r (clip_density f F l u (y v)).
Proof.
  intros N Ib Nb Dd Fp B1 B2 Lt Law Comp. destruct (params_val b d ps xs Nb Fp) as [E1 E2]. eexists. split.
  - unfold c_conditional, derived, c_top, c_expand. rewrite N. cbn [gannotate g_m g_clip]. rewrite (top_rv b d ps Ib Nb). cbn [gannotate g_m]. reflexivity.
  - cbn [glogprob gdt]. unfold c_dtype at 1. rewrite Nb, Dd. cbn [is_int glogcdf]. rewrite E1, E2.
    assert (lo < length h /\ hi < length h)%nat as [Ll Lh] by (pose proof (len _ _ N); split; [pose proof (AC v _ lo N ltac:(cbn; auto))|pose proof (AC v _ hi N ltac:(cbn; auto))]; lia).
    apply clip_ok; auto; (eapply bound_den; [reflexivity|assumption|assumption]).
Qed.
Lemma cond_count v t b lo hi d ps xs l u k p F : nth_error h v = Some (CClip t b lo hi) -> ~ In b req -> nth_error h b = Some (CRv d ps) -> ddt d = DInt -> List.Forall2 (cvalue fs h env) ps xs ->
  cbound fs h env b m_infty lo (low_of l) -> cbound fs h env b p_infty hi (high_of u) -> zbefore l u -> int_law p F ->
  (forall k, denotes (dlp d (map Fin xs) (Fin (IZR k))) (p k)) -> (forall k, denotes (dlc d (map Fin xs) (Fin (IZR k))) (F k)) -> y v = IZR k ->
  exists r, cond v = Some r /\ denotes r (int_clip_mass F l u k).
Proof.
  intros N Ib Nb Dd Fp B1 B2 Lt Law C1 C2 Ey. destruct (params_val b d ps xs Nb Fp) as [E1 E2]. eexists. split.
  - unfold c_conditional, derived, c_top, c_expand. rewrite N. cbn [gannotate g_m g_clip]. rewrite (top_rv b d ps Ib Nb). cbn [gannotate g_m]. reflexivity.
  - cbn [glogprob gdt]. unfold c_dtype at 1. rewrite Nb, Dd. cbn [is_int glogcdf]. rewrite E1, E2, Ey.
    assert (lo < length h /\ hi < length h)%nat as [Ll Lh] by (pose proof (len _ _ N); split; [pose proof (AC v _ lo N ltac:(cbn; auto))|pose proof (AC v _ hi N ltac:(cbn; auto))]; lia).
    apply (bound_den m_infty NInf) in B1; [|reflexivity|auto]. apply (bound_den p_infty PInf) in B2; [|reflexivity|auto].
    eapply int_clip_ok; eauto.
    + unfold lower_bound_is. revert B1. unfold low_of. generalize (bval (g_bound NInf (if (lo =? b)%nat then GSelf else unf (length h) lo) (gannotate cdt fs rho (if (lo =? b)%nat then GSelf else unf (length h) lo)))). intros [] B; destruct l; cbn in B; congruence.
    + unfold upper_bound_is. revert B2. unfold high_of. generalize (bval (g_bound PInf (if (hi =? b)%nat then GSelf else unf (length h) hi) (gannotate cdt fs rho (if (hi =? b)%nat then GSelf else unf (length h) hi)))). intros [] B; destruct u; cbn in B; congruence.
Qed.
Lemma cond_round v op b d ps xs k f F : nth_error h v = Some (CRound op b) -> ~ In b req -> nth_error h b = Some (CRv d ps) -> ddt d = DFloat -> List.Forall2 (cvalue fs h env) ps xs ->
  cont_law f F -> (forall x, denotes (dlc d (map Fin xs) (Fin x)) (F x)) -> (forall x, 0 < F x) -> y v = IZR k ->
  exists r, cond v = Some r /\ denotes r (F (hi_of op k) - F (lo_of op k)).
Proof.
  intros N Ib Nb Dd Fp Law Comp Pos Ey. destruct (params_val b d ps xs Nb Fp) as [E1 E2]. eexists. split.
  - unfold c_conditional, derived, c_top, c_expand. rewrite N. cbn [gannotate g_m g_round]. rewrite (top_rv b d ps Ib Nb). cbn [gannotate g_m gdt]. unfold c_dtype at 1. rewrite Nb, Dd. cbn [is_float]. reflexivity.
  - cbn [glogprob glogcdf]. rewrite E1, E2, Ey. eapply round_ok; eauto. apply preimage_of.
Qed.
End Cond.
