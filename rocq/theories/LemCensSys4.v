(** Expectations in models with clipped and rounded variables. *)
From Coq Require Import Reals Lra Lia ZArith List Arith Bool Classical Permutation Sorted.
From Coquelicot Require Import Coquelicot.
From Verif Require Import XR SpecDist ModelDist ModelVec SpecCens LemInt ModelCens LemCens ModelJoint ModelNest ModelGuard LemLaw ModelCensSys SpecCensSys LemCensSys LemCensSys2 LemCensSys3 LemNest3 LemSubst LemCensChain.
Import ListNotations.
Open Scope R_scope.

Section Main.
Variable ddt : nat -> dtype.
Variable fs : nat -> list xr -> xr.
Variable dlp dlc : nat -> list xr -> xr -> res xr.
Variable h : list cnode.
Variable req : list nat.
Variable rhoM : nat -> xr.
Variable cont : nat -> bool.
Variable pdf cdf : nat -> list R -> R -> R.
Variable proper : nat -> list R -> Prop.
Variable base : nat -> nat.
Variable vs : list nat.
Hypothesis AC : cacyclic h.
Hypothesis PV : Permutation vs req.
Hypothesis SS : StronglySorted lt vs.
Hypothesis OB : forall v, In v req -> observes h cont req v (base v).
Hypothesis INJ : forall v w, In v req -> In w req -> base v = base w -> v = w.
Hypothesis LF : lawful h cont pdf proper req ddt dlp dlc cdf.
Hypothesis WB : whole_bounds fs h cont req.
Hypothesis RG : safe_chains fs h cont pdf req.
Notation cvalue := (cvalue fs h).
Notation cbound := (cbound fs h).
Notation drawn := (drawn h).
Notation valued := (valued req).
Notation cknown := (cknown h req).
Notation expects := (expects fs h cont pdf proper req).
Notation runs := (runs fs h cont pdf proper req).
Notation mu_of d := (if cont d then Leb else Nats).
Notation cond y := (c_conditional ddt fs dlp dlc h req (fun w => Fin (y w)) rhoM).

Lemma expects_runs f bs rho m : expects f bs rho m -> runs bs rho.
Proof. intros H. induction H as [rho zs Hz|b bs rho d ps xs g m Nb Fp Pr Hg IH Hi]; [eapply run_end; eauto|eapply run_draw; eauto]. Qed.
Lemma some_point d xs : proper d xs -> exists x, charges (mu_of d) x /\ pdf d xs x <> 0.
Proof.
  intros Pr. apply NNPP. intros Q. pose proof (lf_unit _ _ _ _ _ _ _ _ _ LF d xs Pr) as U.
  assert (Z : integral (mu_of d) (fun x => 0 * pdf d xs x) 1).
  { apply (integral_ext _ (pdf d xs)); [destruct (cont d); exact I| |exact U]. intros x Cx. rewrite Rmult_0_l. apply NNPP. intros N. apply Q. eauto. }
  pose proof (integral_scal _ 0 _ _ U) as Z'. rewrite Rmult_0_l in Z'. pose proof (integral_unique _ _ _ _ Z Z'). lra.
Qed.
Lemma reach bs rho : runs bs rho -> exists rho' zs, (forall b, ~ In b bs -> rho' b = rho b) /\ List.Forall2 (cvalue (drawn rho')) req zs.
Proof.
  intros H. induction H as [rho zs Hz|b bs rho d ps xs Nb Fp Pr Hg IH]; [exists rho, zs; auto|].
  destruct (some_point d xs Pr) as (x & Cx & Px). destruct (IH x Cx Px) as (rho' & zs & E & F). exists rho', zs. split; auto.
  intros c Nc. rewrite E by (intros Ic; apply Nc; now right). unfold upd. destruct (Nat.eqb_spec c b) as [->|]; auto. exfalso. apply Nc. now left.
Qed.
Lemma f2_in {A B} (P : A -> B -> Prop) l m a : List.Forall2 P l m -> In a l -> exists b, P a b.
Proof. intros F. induction F as [|x z l m H F IH]; intros I; [easy|]. destruct I as [<-|I]; eauto. Qed.

(** ** the order of the requested variables *)
Lemma in_vs v : In v vs <-> In v req.
Proof. split; intros I; [eapply Permutation_in; eauto|]. eapply Permutation_in; [apply Permutation_sym; eauto|auto]. Qed.
Lemma sorted_split (done todo : list nat) v : done ++ v :: todo = vs -> (forall w, In w done -> (w < v)%nat) /\ (forall w, In w todo -> (v < w)%nat).
Proof.
  intros E. rewrite <- E in SS. clear - SS. induction done as [|a done IH]; cbn in SS.
  - apply StronglySorted_inv in SS as [_ F]. split; [easy|]. intros w. apply List.Forall_forall. exact F.
  - apply StronglySorted_inv in SS as [S F]. destruct (IH S) as [H1 H2]. split; auto. intros w [<-|I]; auto. rewrite List.Forall_forall in F. apply F. apply in_or_app. right. now left.
Qed.
Lemma before_done done todo v w : done ++ v :: todo = vs -> In w req -> (w < v)%nat -> In w done.
Proof.
  intros E I L. apply in_vs in I. rewrite <- E in I. apply in_app_or in I as [I|[<-|I]]; auto; [lia|]. pose proof (proj2 (sorted_split done todo v E) w I). lia.
Qed.
Lemma in_done done todo v : done ++ todo = vs -> In v done -> In v req.
Proof. intros E I. apply in_vs. rewrite <- E. apply in_or_app. now left. Qed.
Lemma in_todo done todo v : done ++ todo = vs -> In v todo -> In v req.
Proof. intros E I. apply in_vs. rewrite <- E. apply in_or_app. now right. Qed.
Lemma base_later done todo v : done ++ v :: todo = vs -> forall w, In w req -> (w <= v)%nat -> ~ In (base w) (map base todo).
Proof.
  intros E w Iw L Ib. apply in_map_iff in Ib as (u & Eu & Iu). assert (In u req) by (eapply (in_todo done (v :: todo)); eauto; now right).
  assert (u = w) as -> by (apply INJ; auto). pose proof (proj2 (sorted_split done todo v E) w Iu). lia.
Qed.
Lemma base_before done todo v w : done ++ v :: todo = vs -> In w req -> (w < v)%nat -> base w <> base v.
Proof. intros E Iw L Eb. assert (w = v) by (apply INJ; auto; eapply (in_todo done (v :: todo)); eauto; now left). lia. Qed.

(** ** the state after some draws *)
Definition known_at (done : list nat) (rho y : nat -> R) : Prop := forall w, In w done -> cvalue (drawn rho) w (y w).
Lemma known_upd done todo v rho y x : done ++ v :: todo = vs -> known_at done rho y -> known_at done (upd rho (base v) x) y.
Proof.
  intros E K w Iw. pose proof (proj1 (sorted_split _ _ _ E) w Iw) as Lw. assert (In w req) by (eapply in_done; eauto).
  apply (stable fs h cont req base AC OB rho); auto; [now apply ck_req|]. intros u Iu Lu. unfold upd. destruct (Nat.eqb_spec (base u) (base v)) as [Q|]; auto.
  exfalso. eapply base_before; [exact E|exact Iu| |exact Q]. lia.
Qed.
Lemma transfer_at done todo v rho y y' p r : done ++ v :: todo = vs -> known_at done rho y -> (forall u, (u < v)%nat -> y' u = y u) -> cknown p -> (p < v)%nat -> cvalue (drawn rho) p r -> cvalue (valued y') p r.
Proof.
  intros E K A Kp Lp V. apply (transfer fs h cont req base AC OB rho); auto. intros w Iw Lw. rewrite A by lia. apply K. eapply before_done; eauto. lia.
Qed.
Lemma untransfer rho y p : cknown p -> (forall w, In w req -> (w <= p)%nat -> cvalue (drawn rho) w (y w)) -> forall r, cvalue (valued y) p r -> cvalue (drawn rho) p r.
Proof.
  induction p as [p IH] using lt_wf_ind. intros K W r V. destruct (in_dec Nat.eq_dec p req) as [I|I].
  - rewrite (cval_fun fs h AC _ (valued_con h cont req base OB y) p r (y p) V); [apply W; auto|]. apply c_given. now apply valued_in.
  - pose proof (valued_out req y p I) as E. destruct (cval_node fs h _ _ _ E V) as [n N]. destruct (cknown_out h req p n I N K) as [D KI].
    eapply cval_mk; [now apply (drawn_other h rho p n)|exact N|]. apply (cval_inv fs h _ p n) in V; auto.
    eapply cmeans_mono; [apply drawn_con| |exact V]. intros a x Ia Va. assert (a < p)%nat by (eapply AC; eauto). apply IH; auto. intros w Iw Lw. apply W; auto. lia.
Qed.
Lemma transfer_bound_at done todo v rho y y' a inf b l : done ++ v :: todo = vs -> known_at done rho y -> (forall u, (u < v)%nat -> y' u = y u) -> b = a \/ cknown b -> (b < v)%nat ->
  cbound (drawn rho) a inf b l -> cbound (valued y') a inf b l.
Proof.
  intros E K A Kb Lb B. apply (transfer_bound fs h cont req base AC OB rho); auto. intros w Iw Lw. rewrite A by lia. apply K. eapply before_done; eauto. lia.
Qed.
Lemma untransfer_bound_at done todo v rho y a inf b l : done ++ v :: todo = vs -> known_at done rho y -> b = a \/ cknown b -> (b < v)%nat ->
  cbound (valued y) a inf b l -> cbound (drawn rho) a inf b l.
Proof.
  intros E K Kb Lb B. destruct Kb as [->|Kb]; [inversion B; subst; [apply b_self|easy|easy]|]. eapply bound_mono; [apply drawn_con| |exact B]. apply untransfer; auto.
  intros w Iw Lw. apply K. eapply before_done; eauto. lia.
Qed.

(** the value of [v] when its random variable is [x] *)
Definition obs (y : nat -> R) (v : nat) (x z : R) : Prop :=
  match nth_error h v with
  | Some (CRv _ _) => z = x
  | Some (CClip _ b lo hi) => exists l u, cbound (valued y) b m_infty lo l /\ cbound (valued y) b p_infty hi u /\ Rbar_lt l u /\ z = clip_fun l u x
  | Some (CRound op b) => exists k, rnd_of op x k /\ z = IZR k
  | _ => cvalue (assigned req y v (base v) x) v z
  end.
Lemma obs_elem y v x z n : nth_error h v = Some n -> elem n -> obs y v x z = cvalue (assigned req y v (base v) x) v z.
Proof. intros N El. unfold obs. rewrite N. now destruct n. Qed.
Lemma assigned_con y v d ps x : nth_error h (base v) = Some (CRv d ps) -> free_con h (assigned req y v (base v) x).
Proof. intros Nb w c Nw. unfold assigned. destruct (w =? v)%nat; auto. destruct (Nat.eqb_spec w (base v)) as [->|]; [congruence|]. now apply (valued_con h cont req base OB y w c). Qed.
(** known variables before [v] do not depend on [v] and its random variable *)
Lemma known_assigned y v d ps x : nth_error h (base v) = Some (CRv d ps) -> ~ In (base v) req -> forall p, cknown p -> (p < v)%nat -> forall r, cvalue (valued y) p r <-> cvalue (assigned req y v (base v) x) p r.
Proof.
  intros Nb Ib p. induction p as [p IH] using lt_wf_ind. intros K L r.
  assert (E : assigned req y v (base v) x p = valued y p).
  { unfold assigned. destruct (Nat.eqb_spec p v); [lia|]. destruct (Nat.eqb_spec p (base v)) as [->|]; auto. exfalso. eapply cknown_not; eauto. }
  destruct (in_dec Nat.eq_dec p req) as [I|I].
  - pose proof (valued_in req y p I) as Ev. split; intros V; inversion V; subst; try congruence; apply c_given; congruence.
  - pose proof (valued_out req y p I) as Ev. assert (Ea : assigned req y v (base v) x p = None) by congruence.
    split; intros V; [destruct (cval_node fs h _ _ _ Ev V) as [n N]|destruct (cval_node fs h _ _ _ Ea V) as [n N]]; destruct (cknown_out h req p n I N K) as [D KI].
    + apply (cval_mk fs h _ p n _ Ea N). apply (cval_inv fs h _ p n _ Ev N) in V. eapply cmeans_mono; [eapply assigned_con; eauto| |exact V]. intros a z Ia Va. assert (a < p)%nat by (eapply AC; eauto). apply IH; auto. lia.
    + apply (cval_mk fs h _ p n _ Ev N). apply (cval_inv fs h _ p n _ Ea N) in V. eapply cmeans_mono; [apply (valued_con h cont req base OB)| |exact V]. intros a z Ia Va. assert (a < p)%nat by (eapply AC; eauto). apply (IH a); auto. lia.
Qed.
Lemma obs_char done todo v rho y x z : done ++ v :: todo = vs -> known_at done rho y -> cvalue (drawn (upd rho (base v) x)) v z <-> obs y v x z.
Proof.
  intros E K. pose proof (known_upd done todo v rho y x E K) as K'. assert (Iv : In v req) by (eapply (in_todo done (v :: todo)); eauto; now left).
  pose proof (OB v Iv) as O. set (b := base v) in *. set (rho' := upd rho b x) in *. unfold obs.
  destruct (observes_inv h cont req v b O) as (d & ps & Nb & Kp & C).
  assert (Db : drawn rho' b = Some x) by (unfold SpecCensSys.drawn; rewrite Nb; unfold rho', upd; now rewrite Nat.eqb_refl).
  assert (Vb : forall w, cvalue (drawn rho') b w <-> w = x).
  { intros w. split; [|intros ->; now apply c_given]. intros V. apply (cval_fun fs h AC _ (drawn_con h rho') b); auto. now apply c_given. }
  destruct C as [Q|(Nr & [(t & lo & hi & N & Kl & Kh)|[(op & N & Cd)|(ws & Ch & Ne & Cd)]])].
  - rewrite Q, Nb. apply Vb.
  - rewrite N. assert (D : drawn rho' v = None) by (apply (drawn_other h rho' v _ N); discriminate).
    assert (Ll : (lo < v)%nat) by (apply (AC v _ lo N); cbn; auto). assert (Lh : (hi < v)%nat) by (apply (AC v _ hi N); cbn; auto). split.
    + intros V. apply (cval_inv fs h _ v _ _ D N) in V. destruct V as (w & l & u & Vw & B1 & B2 & Lt & ->). apply Vb in Vw as ->. exists l, u.
      split; [eapply transfer_bound_at; eauto|]. split; [eapply transfer_bound_at; eauto|auto].
    + intros (l & u & B1 & B2 & Lt & ->). apply (cval_mk fs h _ v _ _ D N). exists x, l, u. split; [now apply Vb|]. split; [eapply untransfer_bound_at; eauto|]. split; [eapply untransfer_bound_at; eauto|auto].
  - rewrite N. assert (D : drawn rho' v = None) by (apply (drawn_other h rho' v _ N); discriminate). split.
    + intros V. apply (cval_inv fs h _ v _ _ D N) in V. destruct V as (w & k & Vw & Rk & ->). apply Vb in Vw as ->. eauto.
    + intros (k & Rk & ->). apply (cval_mk fs h _ v _ _ D N). exists x, k. split; [now apply Vb|auto].
  - destruct (chain_inv h req b ws v Ch) as [(-> & _)|(ws1 & a1 & n1 & Ew & C1 & Na1 & N1 & El1 & I1 & Ki1)]; [easy|].
    fold (obs y v x z). rewrite (obs_elem y v x z n1 N1 El1). fold b.
    assert (Lb : (b < v)%nat). { pose proof (chain_le h req AC b ws1 a1 C1). pose proof (AC v n1 a1 N1 I1). lia. }
    assert (Ab : assigned req y v b x b = Some x) by (unfold assigned; destruct (Nat.eqb_spec b v); [lia|]; now rewrite Nat.eqb_refl).
    assert (KN : forall p r, cknown p -> (p < v)%nat -> cvalue (drawn rho') p r <-> cvalue (assigned req y v b x) p r).
    { intros p r Kp' Lp. pose proof (known_assigned y v d ps x Nb Nr p Kp' Lp r) as KA. fold b in KA. rewrite <- KA. split; [intros V; eapply transfer_at; eauto|]. apply untransfer; auto. intros w Iw Lw. apply K'. eapply before_done; eauto. lia. }
    assert (CH : forall ws a, chained h req b ws a -> (a <= v)%nat -> (a < v -> ~ In a req)%nat -> forall r, cvalue (drawn rho') a r <-> cvalue (assigned req y v b x) a r).
    { clear ws Ch Ne Ew C1. induction ws as [|w ws IHw]; intros a Ca La Ia r; destruct (chain_inv h req b _ a Ca) as [(E1 & Ea)|(ws' & a' & n & E1 & C' & Na & N & El & Ii & Ki)]; try discriminate.
      - rewrite Ea. split; intros V; [apply Vb in V as ->; now apply c_given|]. apply Vb. apply (cval_fun fs h AC _ (assigned_con y v d ps x Nb) b); auto. now apply c_given.
      - injection E1 as -> <-. pose proof (AC _ n a' N Ii) as La'. assert (Hd : drawn rho' a = None) by exact (drawn_other h rho' a n N (elem_det n El)).
        assert (Ha : assigned req y v b x a = None). { unfold assigned. destruct (Nat.eqb_spec a v); auto. destruct (Nat.eqb_spec a b) as [->|]; [exfalso; apply (elem_det n El d ps); congruence|]. apply valued_out, Ia. lia. }
        split; intros V.
        + apply (cval_mk fs h _ a n _ Ha N). apply (cval_inv fs h _ a n _ Hd N) in V. eapply cmeans_mono; [exact (assigned_con y v d ps x Nb)| |exact V]. intros q w Iq Vq. pose proof (AC _ n q N Iq). destruct (Ki q Iq) as [->|Kq]; [apply (IHw a'); auto; lia|apply KN; auto; lia].
        + apply (cval_mk fs h _ a n _ Hd N). apply (cval_inv fs h _ a n _ Ha N) in V. eapply cmeans_mono; [apply drawn_con| |exact V]. intros q w Iq Vq. pose proof (AC _ n q N Iq). destruct (Ki q Iq) as [->|Kq]; [apply (IHw a'); auto; lia|apply KN; auto; lia]. }
    apply (CH ws v Ch); lia.
Qed.
Lemma known_step done todo v rho y x z : done ++ v :: todo = vs -> known_at done rho y -> obs y v x z -> known_at (done ++ [v]) (upd rho (base v) x) (upd y v z).
Proof.
  intros E K O w Iw. apply in_app_or in Iw as [Iw|[<-|[]]].
  - pose proof (proj1 (sorted_split _ _ _ E) w Iw). unfold upd at 2. destruct (Nat.eqb_spec w v); [lia|]. eapply known_upd; eauto.
  - unfold upd at 2. rewrite Nat.eqb_refl. eapply obs_char; eauto.
Qed.
Lemma obs_ex done todo v rho y x : done ++ v :: todo = vs -> known_at done rho y -> runs (map base todo) (upd rho (base v) x) -> exists z, obs y v x z.
Proof.
  intros E K Rn. assert (Iv : In v req) by (eapply (in_todo done (v :: todo)); eauto; now left). destruct (reach _ _ Rn) as (rho' & zs & Er & F). destruct (f2_in _ _ _ v F Iv) as [z V]. exists z.
  apply (obs_char done todo v rho y x z E K). apply (stable fs h cont req base AC OB rho' (upd rho (base v) x) v); [now apply ck_req| |exact V].
  intros w Iw Lw. symmetry. apply Er. eapply base_later; eauto.
Qed.
Lemma split_next (done todo : list nat) v : done ++ v :: todo = vs -> (done ++ [v]) ++ todo = vs.
Proof. intros E. rewrite <- app_assoc. exact E. Qed.
Lemma params_at done todo v rho y y' d ps xs : done ++ v :: todo = vs -> known_at done rho y -> (forall u, (u < v)%nat -> y' u = y u) -> nth_error h (base v) = Some (CRv d ps) ->
  List.Forall2 (cvalue (drawn rho)) ps xs -> List.Forall2 (cvalue (valued y')) ps xs.
Proof.
  intros E K A N F. assert (Iv : In v req) by (eapply (in_todo done (v :: todo)); eauto; now left). pose proof (OB v Iv) as O. pose proof (base_le h cont req AC v _ O) as Lb.
  destruct (observes_inv h cont req v _ O) as (d' & ps' & N' & Kp & _). assert (ps' = ps) as -> by congruence.
  eapply f2_mono; [|exact F]. intros p r Ip V. pose proof (AC _ _ p N Ip). eapply transfer_at; eauto. lia.
Qed.

(** ** expectations depend on the values of the requested variables only *)
Lemma exp_det f : forall todo done rho1 rho2 y m1 m2, done ++ todo = vs -> known_at done rho1 y -> known_at done rho2 y ->
  expects f (map base todo) rho1 m1 -> expects f (map base todo) rho2 m2 -> m1 = m2.
Proof.
  induction todo as [|v todo IH]; intros done rho1 rho2 y m1 m2 E K1 K2 H1 H2.
  - rewrite app_nil_r in E. subst done. cbn [map] in H1, H2. inversion H1 as [r1 zs1 F1|]; inversion H2 as [r2 zs2 F2|]. f_equal.
    assert (A : forall rho zs, known_at vs rho y -> List.Forall2 (cvalue (drawn rho)) req zs -> zs = map y req).
    { intros rho zs K F. eapply f2_fun; [|exact F|]; [intros a b b' Ia Va Vb; eapply (cval_fun fs h AC _ (drawn_con h rho)); eauto|].
      assert (I : incl req vs) by (intros w Iw; now apply in_vs). clear - K I. induction req as [|a l IHl]; constructor; [apply K, I; now left|apply IHl; intros w Iw; apply I; now right]. }
    rewrite (A rho1 zs1), (A rho2 zs2); auto.
  - cbn [map] in H1, H2. inversion H1 as [|b1 bs1 r1 d1 ps1 xs1 g1 m1' N1 F1 P1 G1 I1]; inversion H2 as [|b2 bs2 r2 d2 ps2 xs2 g2 m2' N2 F2 P2 G2 I2]; subst b1 bs1 r1 m1' b2 bs2 r2 m2'.
    assert (d2 = d1 /\ ps2 = ps1) as [-> ->] by (split; congruence).
    assert (xs2 = xs1) as ->.
    { pose proof (params_at done todo v rho1 y y d1 ps1 xs1 E K1 ltac:(auto) N1 F1) as A1. pose proof (params_at done todo v rho2 y y d1 ps1 xs2 E K2 ltac:(auto) N1 F2) as A2.
      eapply f2_fun; [|exact A2|exact A1]. intros a b b' _. apply (cval_fun fs h AC _ (valued_con h cont req base OB y)). }
    apply (integral_unique _ (fun x => pdf d1 xs1 x * g1 x) m1 m2 I1). apply (integral_ext _ (fun x => pdf d1 xs1 x * g2 x)); [destruct (cont d1); exact I| |exact I2].
    intros x Cx. destruct (Req_dec (pdf d1 xs1 x) 0) as [Z|Z]; [rewrite Z; ring|]. f_equal. symmetry.
    destruct (obs_ex done todo v rho1 y x E K1 (expects_runs _ _ _ _ (G1 x Cx Z))) as [z Oz].
    apply (IH (done ++ [v]) (upd rho1 (base v) x) (upd rho2 (base v) x) (upd y v z)); auto; try (now apply split_next); eapply known_step; eauto.
Qed.

Lemma possible_upd rho b x d ps : possible h cont rho -> nth_error h b = Some (CRv d ps) -> charges (mu_of d) x -> possible h cont (upd rho b x).
Proof. intros P N C b' d' ps' N'. unfold upd. destruct (Nat.eqb_spec b' b) as [->|]; [|eapply P; eauto]. assert (d' = d) as -> by congruence. exact C. Qed.
(** ** draws at which densities are not 0 *)
Definition seen (done : list nat) (rho : nat -> R) : Prop := forall w d ps xs, In w done -> nth_error h (base w) = Some (CRv d ps) -> List.Forall2 (cvalue (drawn rho)) ps xs -> pdf d xs (rho (base w)) <> 0.
Lemma params_back done todo v rho x w d ps xs : done ++ v :: todo = vs -> In w req -> (w <= v)%nat -> nth_error h (base w) = Some (CRv d ps) -> List.Forall2 (cvalue (drawn (upd rho (base v) x))) ps xs -> List.Forall2 (cvalue (drawn rho)) ps xs.
Proof.
  intros E Iw Lw N F. pose proof (OB w Iw) as O. pose proof (base_le h cont req AC w _ O) as Lb. destruct (observes_inv h cont req w _ O) as (d' & ps' & N' & Kp & _). assert (ps' = ps) as -> by congruence.
  eapply f2_mono; [|exact F]. intros p r Ip V. pose proof (AC _ _ p N Ip). apply (stable fs h cont req base AC OB (upd rho (base v) x) rho p); auto. intros u Iu Lu. unfold upd. destruct (Nat.eqb_spec (base u) (base v)) as [Q|]; auto.
  exfalso. eapply base_before; [exact E|exact Iu| |exact Q]. lia.
Qed.
Lemma seen_step done todo v rho x d ps xs : done ++ v :: todo = vs -> seen done rho -> nth_error h (base v) = Some (CRv d ps) -> List.Forall2 (cvalue (drawn rho)) ps xs -> pdf d xs x <> 0 -> seen (done ++ [v]) (upd rho (base v) x).
Proof.
  intros E Sn Nb Fp Z w d' ps' xs' Iw Nw Fw. assert (Iv : In v req) by (eapply (in_todo done (v :: todo)); eauto; now left). apply in_app_or in Iw as [Iw|[<-|[]]].
  - pose proof (proj1 (sorted_split _ _ _ E) w Iw) as Lw. assert (Ir : In w req) by (eapply in_done; eauto). unfold upd. destruct (Nat.eqb_spec (base w) (base v)) as [Q|_]; [exfalso; eapply base_before; eauto|].
    apply (Sn w d' ps' xs' Iw Nw). eapply params_back; eauto. lia.
  - assert (d' = d /\ ps' = ps) as [-> ->] by (split; congruence). unfold upd. rewrite Nat.eqb_refl. assert (xs' = xs) as ->; auto.
    eapply f2_fun; [|eapply (params_back done todo v rho x v); eauto|exact Fp]. intros a z z' _. apply (cval_fun fs h AC _ (drawn_con h rho)).
Qed.
Lemma seen_likely done todo v rho : done ++ v :: todo = vs -> seen (done ++ [v]) rho -> likely fs h cont pdf req rho v.
Proof.
  intros E Sn w b d ps xs Iw Lw O Nb F. assert (b = base w) as -> by (eapply observes_fun; eauto). apply (Sn w d ps xs); auto. apply in_or_app. destruct (Nat.eq_dec w v) as [->|]; [right; now left|left]. eapply before_done; eauto. lia.
Qed.
(** ** the integral of the joint density *)
Notation weighs := (weighs fs h cont pdf req (fun y v => cond y v) (fun y => c_joint ddt fs dlp dlc h req (fun w => Fin (y w)) rhoM)).
Definition dens_at (y : nat -> R) (v : nat) (p : R) : Prop := forall y', (forall u, (u <= v)%nat -> y' u = y u) -> exists r, cond y' v = Some r /\ denotes r p.
Definition dens_done (done : list nat) (y pd : nat -> R) : Prop := forall w, In w done -> dens_at y w (pd w).
Lemma dens_upd done todo v y pd z p : done ++ v :: todo = vs -> dens_done done y pd -> dens_at (upd y v z) v p -> dens_done (done ++ [v]) (upd y v z) (upd pd v p).
Proof.
  intros E D Dv w Iw. apply in_app_or in Iw as [Iw|[<-|[]]].
  - pose proof (proj1 (sorted_split _ _ _ E) w Iw) as L. unfold upd at 2. destruct (Nat.eqb_spec w v); [lia|]. intros y' A. apply (D w Iw). intros u Lu. rewrite A by auto. unfold upd. destruct (Nat.eqb_spec u v); [lia|auto].
  - unfold upd at 2. now rewrite Nat.eqb_refl.
Qed.
Lemma map_upd_out (pd : nat -> R) v p l : ~ In v l -> map (upd pd v p) l = map pd l.
Proof. intros N. apply map_ext_in. intros a Ia. unfold upd. destruct (Nat.eqb_spec a v) as [->|]; auto. easy. Qed.
Lemma prod_upd done todo v pd p : done ++ v :: todo = vs -> prodl (map (upd pd v p) (done ++ [v])) = prodl (map pd done) * p.
Proof.
  intros E. rewrite map_app, prodl_app, map_upd_out by (intros I; pose proof (proj1 (sorted_split _ _ _ E) v I); lia). cbn. unfold upd. rewrite Nat.eqb_refl. ring.
Qed.
Lemma joint_end y pd : dens_done vs y pd -> exists r, c_joint ddt fs dlp dlc h req (fun w => Fin (y w)) rhoM = Some r /\ denotes r (prodl (map pd vs)).
Proof.
  intros D. rewrite (prodl_perm _ _ (Permutation_map pd PV)). unfold c_joint.
  assert (A : forall l, incl l vs -> exists rs, c_conditionals ddt fs dlp dlc h req (fun w => Fin (y w)) rhoM l = Some rs /\ List.Forall2 denotes rs (map pd l)).
  { induction l as [|v l IH]; intros Il; [exists []; split; [reflexivity|constructor]|]. destruct (D v (Il v (or_introl eq_refl)) y ltac:(auto)) as (r & Er & Dr). destruct (IH ltac:(intros w Iw; apply Il; now right)) as (rs & Es & Ds).
    exists (r :: rs). cbn [c_conditionals map]. rewrite Er, Es. split; auto. }
  destruct (A req ltac:(intros w Iw; now apply in_vs)) as (rs & -> & F). eexists. split; [reflexivity|].
  assert (B : exists xs, rseq rs = Val xs /\ List.Forall2 (fun x d => denotes (Val x) d) xs (map pd req)).
  { induction F as [|r d rs ds Hr F IHF]; [exists []; split; [reflexivity|constructor]|]. destruct IHF as (xs & Ex & Fx). destruct r as [x|]; [|easy]. exists (x :: xs). cbn [rseq bind]. rewrite Ex. split; [reflexivity|]. now constructor. }
  destruct B as (xs & -> & Fx). cbn [rmap]. now apply xsum_den.
Qed.
Lemma step f done todo v rho y pd x z p c :
  possible h cont (upd rho (base v) x) ->
  seen (done ++ [v]) (upd rho (base v) x) ->
  (forall done rho y pd m, possible h cont rho -> seen done rho -> done ++ todo = vs -> known_at done rho y -> dens_done done y pd -> expects f (map base todo) rho m -> weighs f todo y (prodl (map pd done) * m)) ->
  done ++ v :: todo = vs -> known_at done rho y -> dens_done done y pd -> dens_at (upd y v z) v p -> obs y v x z -> expects f (map base todo) (upd rho (base v) x) c ->
  weighs f todo (upd y v z) (prodl (map pd done) * p * c).
Proof.
  intros Ps Sn IH E K D Dv O H. rewrite <- (prod_upd done todo v pd p E). apply (IH (done ++ [v]) (upd rho (base v) x)); [exact Ps|exact Sn|now apply split_next|eapply known_step; eauto|eapply dens_upd; eauto|exact H].
Qed.
Lemma const_on (f g : R -> R) (S : R -> Prop) : (forall x x', S x -> S x' -> f x <> 0 -> f x' <> 0 -> g x = g x') -> exists c, forall x, S x -> f x <> 0 -> g x = c.
Proof.
  intros H. destruct (classic (exists x, S x /\ f x <> 0)) as [(x & Sx & Zx)|N]; [exists (g x); intros z Sz Zz; now apply H|]. exists 0. intros x Sx Zx. exfalso. eauto.
Qed.
Lemma clip_low l u (x : R) : Rbar_lt l u -> Rbar_le x l -> l = Finite (clip_fun l u x).
Proof. destruct l as [a| |], u as [b| |]; cbn; try tauto; intros H1 H2; f_equal; rewrite ?Rmax_left by lra; rewrite ?Rmin_right by lra; reflexivity. Qed.
Lemma clip_high l u (x : R) : Rbar_lt l u -> Rbar_le u x -> u = Finite (clip_fun l u x).
Proof. destruct l as [a| |], u as [b| |]; cbn; try tauto; intros H1 H2; f_equal; rewrite ?Rmax_right by lra; rewrite ?Rmin_left by lra; reflexivity. Qed.
Lemma clip_mid l u (x : R) : Rbar_lt l u -> Rbar_le l x -> Rbar_le x u -> clip_fun l u x = x.
Proof. destruct l as [a| |], u as [b| |]; cbn; try tauto; intros H1 H2 H3; rewrite ?Rmax_right by lra; rewrite ?Rmin_right by lra; reflexivity. Qed.

Lemma main f : forall todo done rho y pd m, possible h cont rho -> seen done rho -> done ++ todo = vs -> known_at done rho y -> dens_done done y pd -> expects f (map base todo) rho m -> weighs f todo y (prodl (map pd done) * m).
Proof.
  induction todo as [|v todo IH]; intros done rho y pd m Ps Sn E K D H.
  - rewrite app_nil_r in E. subst done. cbn [map] in H. inversion H as [r1 zs F|]. destruct (joint_end y pd D) as (r & Ej & Dr).
    assert (zs = map y req) as ->; [|eapply we_end; eauto].
    eapply f2_fun; [|exact F|]; [intros a b b' Ia Va Vb; eapply (cval_fun fs h AC _ (drawn_con h rho)); eauto|].
    assert (I : incl req vs) by (intros w Iw; now apply in_vs). clear - K I. induction req as [|a l IHl]; constructor; [apply K, I; now left|apply IHl; intros w Iw; apply I; now right].
  - cbn [map] in H. inversion H as [|b1 bs1 r1 d ps xs g m1' Nb Fp Pr Hg Hi]; subst b1 bs1 r1 m1'.
    assert (Iv : In v req) by (eapply (in_todo done (v :: todo)); eauto; now left).
    destruct (observes_inv h cont req v _ (OB v Iv)) as (d' & ps' & Nb' & Kp & C). assert (d' = d /\ ps' = ps) as [-> ->] by (split; congruence). clear Nb'.
    pose proof (lf_lp _ _ _ _ _ _ _ _ _ LF d xs) as LP. set (P := prodl (map pd done)).
    assert (ST : forall x z p c, charges (mu_of d) x -> pdf d xs x <> 0 -> dens_at (upd y v z) v p -> obs y v x z -> expects f (map base todo) (upd rho (base v) x) c -> weighs f todo (upd y v z) (P * p * c)) by (intros x z p c Cx Zx; intros; eapply (step f done todo v rho y pd x); eauto using possible_upd, seen_step).
    assert (PA : forall y' z, (forall u, (u <= v)%nat -> y' u = upd y v z u) -> List.Forall2 (cvalue (valued y')) ps xs /\ y' v = z).
    { intros y' z A. split; [|rewrite A by auto; unfold upd; now rewrite Nat.eqb_refl]. eapply (params_at done todo v rho y); eauto. intros u Lu. rewrite A by lia. unfold upd. destruct (Nat.eqb_spec u v); [lia|auto]. }
    assert (CG : forall x x' z, charges (mu_of d) x -> charges (mu_of d) x' -> pdf d xs x <> 0 -> pdf d xs x' <> 0 -> obs y v x z -> obs y v x' z -> g x = g x').
    { intros x x' z Cx Cx' Zx Zx' Ox Ox'. eapply (exp_det f todo (done ++ [v]) (upd rho (base v) x) (upd rho (base v) x') (upd y v z)); [now apply split_next| | |apply Hg; auto|apply Hg; auto]; eapply known_step; eauto. }
    destruct C as [Q|(Nr & [(t & lo & hi & N & Kl & Kh)|[(op & N & Cd)|(ws & Ch & Ne & Cd)]])].
    + (* a random variable *)
      rewrite <- Q in Nb. assert (Ob : forall x, obs y v x x) by (intros x; unfold obs; rewrite Nb; reflexivity).
      apply (we_value fs h cont pdf req _ _ f v todo y (mu_of d) (fun x => P * (pdf d xs x * g x))); [now apply (mo_rv fs h cont pdf req y v d ps)| |].
      * intros x Cx. assert (Dx : dens_at (upd y v x) v (pdf d xs x)).
        { intros y' A. destruct (PA y' x A) as [F Ev]. eexists. split; [eapply cond_rv; eauto|]. rewrite Ev. now apply LP. }
        destruct (Dx (upd y v x) ltac:(auto)) as (r & Er & Dr). exists r, (pdf d xs x). split; [exact Er|]. split; [exact Dr|]. split.
        -- intros Z. rewrite <- Rmult_assoc. eapply ST; eauto.
        -- intros Z. rewrite Z. ring.
      * now apply integral_scal.
    + (* a clipped variable *)
      assert (CL : clipped h req d) by (exists v, t, (base v), lo, hi, ps; auto).
      destruct (some_point d xs Pr) as (x0 & C0 & Z0).
      destruct (obs_ex done todo v rho y x0 E K (expects_runs _ _ _ _ (Hg x0 C0 Z0))) as [z0 O0]. unfold obs in O0. rewrite N in O0. destruct O0 as (l & u & B1 & B2 & Lt & _).
      assert (Ob : forall x, obs y v x (clip_fun l u x)) by (intros x; unfold obs; rewrite N; exists l, u; auto).
      assert (Ll : (lo < v)%nat) by (apply (AC v _ lo N); cbn; auto). assert (Lh : (hi < v)%nat) by (apply (AC v _ hi N); cbn; auto).
      assert (TB : forall y' x, (forall u, (u <= v)%nat -> y' u = upd y v x u) -> cbound (valued y') (base v) m_infty lo l /\ cbound (valued y') (base v) p_infty hi u).
      { intros y' x A. assert (A' : forall w, (w < v)%nat -> y' w = y w) by (intros w Lw; rewrite A by lia; unfold upd; destruct (Nat.eqb_spec w v); [lia|auto]). split.
        - destruct Kl as [->|Kl]; [inversion B1; subst; [apply b_self|easy|easy]|]. eapply transfer_bound_at; [exact E|exact K|exact A'|auto|auto|]. eapply untransfer_bound_at; eauto.
        - destruct Kh as [->|Kh]; [inversion B2; subst; [apply b_self|easy|easy]|]. eapply transfer_bound_at; [exact E|exact K|exact A'|auto|auto|]. eapply untransfer_bound_at; eauto. }
      destruct (cont d) eqn:Cd.
      {
      destruct (lf_cens _ _ _ _ _ _ _ _ _ LF d xs (or_introl CL) Cd Pr) as (Fl_d & Law & LC).
      set (F := cdf d xs) in *. set (q := pdf d xs) in *. cbn [charges] in *.
      destruct (const_on q g (fun x => Rbar_le x l)) as [ca Ca].
      { intros x x' Sx Sx' Zx Zx'. apply (CG x x' (clip_fun l u x)); auto. pose proof (clip_low l u x Lt Sx) as Q1. pose proof (clip_low l u x' Lt Sx') as Q2. assert (Q3 : clip_fun l u x = clip_fun l u x') by congruence. rewrite Q3. apply Ob. }
      destruct (const_on q g (fun x => Rbar_le u x)) as [cb Cb].
      { intros x x' Sx Sx' Zx Zx'. apply (CG x x' (clip_fun l u x)); auto. pose proof (clip_high l u x Lt Sx) as Q1. pose proof (clip_high l u x' Lt Sx') as Q2. assert (Q3 : clip_fun l u x = clip_fun l u x') by congruence. rewrite Q3. apply Ob. }
      set (G := fun t : R => if Rbar_eq_dec t l then P * (F t * ca) else if Rbar_eq_dec t u then P * ((1 - F t) * cb) else P * (q t * g t)).
      apply (we_value fs h cont pdf req _ _ f v todo y (Between l u) G); [pose proof (mo_clip fs h cont pdf req y v t (base v) lo hi d ps l u N Nb B1 B2 Lt) as Mo; now rewrite Cd in Mo| |].
      * intros x [Cl Cu]. assert (Dx : dens_at (upd y v x) v (clip_density q F l u x)).
        { intros y' A. destruct (PA y' x A) as [Fy Ev]. rewrite <- Ev.
          assert (A' : forall w, (w < v)%nat -> y' w = y w) by (intros w Lw; rewrite A by lia; unfold upd; destruct (Nat.eqb_spec w v); [lia|auto]).
          eapply cond_clip; eauto; [..|split; [intros; apply LP; auto; exact I|exact LC]].
          - destruct Kl as [->|Kl]; [inversion B1; subst; [apply b_self|easy|easy]|]. eapply transfer_bound_at; [exact E|exact K|exact A'|auto|auto|]. eapply untransfer_bound_at; eauto.
          - destruct Kh as [->|Kh]; [inversion B2; subst; [apply b_self|easy|easy]|]. eapply transfer_bound_at; [exact E|exact K|exact A'|auto|auto|]. eapply untransfer_bound_at; eauto. }
        destruct (Dx (upd y v x) ltac:(auto)) as (r & Er & Dr). exists r, (clip_density q F l u x). split; [exact Er|]. split; [exact Dr|].
        unfold clip_density in *. unfold G. destruct (Rbar_lt_dec x l) as [X|X]; [exfalso; apply (Rbar_le_not_lt _ _ Cl X)|]. destruct (Rbar_eq_dec x l) as [El|El].
        -- split; [|intros Z; rewrite Z; ring]. intros Z. destruct (mass_below q F Law x Z) as (x' & Lx & Zx').
           assert (Sx : Rbar_le x' l) by (rewrite <- El; cbn; lra). rewrite <- (Ca x' Sx Zx'), <- Rmult_assoc. apply (ST x'); auto. pose proof (clip_low l u x' Lt Sx) as Qc. assert (Q3 : Finite x = Finite (clip_fun l u x')) by congruence. injection Q3 as Q3. pose proof (Ob x') as Ox. rewrite <- Q3 in Ox. exact Ox.
        -- destruct (Rbar_eq_dec x u) as [Eu|Eu].
           ++ destruct (Rbar_lt_dec x u) as [X'|_]; [exfalso; rewrite Eu in X'; destruct u; cbn in X'; try lra; easy|]. split; [|intros Z; rewrite Z; ring]. intros Z. destruct (mass_above q F Law x Z) as (x' & Lx & Zx').
              assert (Sx : Rbar_le u x') by (rewrite <- Eu; cbn; lra). rewrite <- (Cb x' Sx Zx'), <- Rmult_assoc. apply (ST x'); auto. pose proof (clip_high l u x' Lt Sx) as Qc. assert (Q3 : Finite x = Finite (clip_fun l u x')) by congruence. injection Q3 as Q3. pose proof (Ob x') as Ox. rewrite <- Q3 in Ox. exact Ox.
           ++ destruct (Rbar_lt_dec x u) as [X'|X']; [|exfalso; destruct (Rbar_le_lt_or_eq_dec _ _ Cu); easy]. split; [|intros Z; rewrite Z; ring]. intros Z. rewrite <- Rmult_assoc. apply (ST x); auto.
              pose proof (Ob x) as Ox. now rewrite (clip_mid l u x Lt Cl Cu) in Ox.
      * cbn [integral] in Hi. destruct (clip_push q F Law g m Hi l u ca cb Lt) as (w & W & Em).
        { intros a Ea x Lx Zx. apply Ca; auto. rewrite Ea. cbn. lra. }
        { intros a Ea x Lx Zx. apply Cb; auto. rewrite Ea. cbn. lra. }
        exists (P * w). split.
        -- apply (rint_gen_ext (fun x => P * (q x * g x))); auto; [|exact (is_RInt_gen_scal (V := R_NormedModule) _ P w W)].
           intros x [I1 I2]. unfold G. destruct (Rbar_eq_dec x l) as [X|_]; [rewrite X in I1; destruct l; cbn in I1; try lra; easy|]. destruct (Rbar_eq_dec x u) as [X|_]; [rewrite X in I2; destruct u; cbn in I2; try lra; easy|]. reflexivity.
        -- rewrite Em. unfold at_end, G. destruct l as [a| |], u as [b| |]; cbn in Lt; try easy; repeat match goal with |- context [Rbar_eq_dec ?a ?b] => let X := fresh in destruct (Rbar_eq_dec a b) as [X|X]; try discriminate X; try (now destruct X); try (injection X; intros; exfalso; lra) end; ring.
      }
      (* discrete *)
      destruct (lf_count _ _ _ _ _ _ _ _ _ LF d xs CL Cd Pr) as (Fl_d & Law & LPC). set (q := pdf d xs) in *. set (F := fun k : Z => cdf d xs (IZR k)) in *. cbn [charges integral] in *.
      assert (WL : exists zl, l = low_of zl).
      { destruct l as [r| |]; [|destruct u; easy|now exists None]. destruct (WB v t (base v) lo hi d ps Iv N Nb Cd rho r Ps) as [k ->]; [left; eapply untransfer_bound_at; eauto|]. now exists (Some k). }
      assert (WU : exists zu, u = high_of zu).
      { destruct u as [r| |]; [|now exists None|destruct l; easy]. destruct (WB v t (base v) lo hi d ps Iv N Nb Cd rho r Ps) as [k ->]; [right; eapply untransfer_bound_at; eauto|]. now exists (Some k). }
      destruct WL as [zl El], WU as [zu Eu]. pose proof Lt as Zb. rewrite El, Eu in Zb. apply before_lt in Zb.
      destruct (const_on q g (fun x => Rbar_le x l /\ exists k, x = INR k)) as [ca Ca].
      { intros x x' [Sx Kx] [Sx' Kx'] Zx Zx'. apply (CG x x' (clip_fun l u x)); auto. pose proof (clip_low l u x Lt Sx) as Q1. pose proof (clip_low l u x' Lt Sx') as Q2. assert (Q3 : clip_fun l u x = clip_fun l u x') by congruence. rewrite Q3. apply Ob. }
      destruct (const_on q g (fun x => Rbar_le u x /\ exists k, x = INR k)) as [cb Cb].
      { intros x x' [Sx Kx] [Sx' Kx'] Zx Zx'. apply (CG x x' (clip_fun l u x)); auto. pose proof (clip_high l u x Lt Sx) as Q1. pose proof (clip_high l u x' Lt Sx') as Q2. assert (Q3 : clip_fun l u x = clip_fun l u x') by congruence. rewrite Q3. apply Ob. }
      assert (DX : forall k, dens_at (upd y v (IZR k)) v (int_clip_mass F zl zu k)).
      { intros k y' A. destruct (PA y' (IZR k) A) as [Fy Ev]. destruct (TB y' (IZR k) A) as [T1 T2]. rewrite El in T1. rewrite Eu in T2.
        eapply (cond_count ddt fs dlp dlc h req y' rhoM AC v t (base v) lo hi d ps xs zl zu k (zmass q) F); eauto; intros j; apply LPC. }
      set (G := fun t : R => if Rbar_eq_dec t l then P * (cdf d xs t * ca) else if Rbar_eq_dec t u then P * ((1 - cdf d xs (t - 1)) * cb) else P * (q t * g t)).
      apply (we_value fs h cont pdf req _ _ f v todo y (Steps l u) G); [pose proof (mo_clip fs h cont pdf req y v t (base v) lo hi d ps l u N Nb B1 B2 Lt) as Mo; now rewrite Cd in Mo| |].
      * intros x Cx. destruct (Rbar_eq_dec x l) as [Xl|Xl].
        { destruct zl as [a|]; [|rewrite El in Xl; discriminate]. assert (x = IZR a) as -> by (rewrite El in Xl; now injection Xl).
          destruct (DX a (upd y v (IZR a)) ltac:(auto)) as (r & Er & Dr). exists r, (int_clip_mass F (Some a) zu a). split; [exact Er|]. split; [exact Dr|].
          rewrite icm_low in * by auto. unfold G. destruct (Rbar_eq_dec (IZR a) l) as [_|]; [|easy]. change (cdf d xs (IZR a)) with (F a). split; [|intros Z; rewrite Z; ring].
          intros Z. destruct (count_below q F Law a Z) as (n & Ln & Zn). assert (Sx : Rbar_le (INR n) l) by (rewrite El; cbn; rewrite INR_IZR_INZ; now apply IZR_le).
          rewrite <- (Ca (INR n) (conj Sx (ex_intro _ n eq_refl)) Zn), <- Rmult_assoc. apply (ST (INR n)); eauto.
          - intros y' A. destruct (DX a y' A) as (r' & Er' & Dr'). rewrite icm_low in Dr' by auto. eauto.
          - pose proof (clip_low l u (INR n) Lt Sx) as Qc. assert (Q3 : Finite (IZR a) = Finite (clip_fun l u (INR n))) by congruence. injection Q3 as Q3. rewrite Q3. apply Ob. }
        destruct (Rbar_eq_dec x u) as [Xu|Xu].
        { destruct zu as [b|]; [|rewrite Eu in Xu; discriminate]. assert (x = IZR b) as -> by (rewrite Eu in Xu; now injection Xu).
          destruct (DX b (upd y v (IZR b)) ltac:(auto)) as (r & Er & Dr). exists r, (int_clip_mass F zl (Some b) b). split; [exact Er|]. split; [exact Dr|].
          rewrite icm_high in * by auto. unfold G. destruct (Rbar_eq_dec (IZR b) l) as [|_]; [easy|]. destruct (Rbar_eq_dec (IZR b) u) as [_|]; [|easy].
          replace (cdf d xs (IZR b - 1)) with (F (b - 1)%Z) by (unfold F; now rewrite minus_IZR). split; [|intros Z; rewrite Z; ring].
          intros Z. destruct (count_above q F Law b Z) as (n & Ln & Zn). assert (Sx : Rbar_le u (INR n)) by (rewrite Eu; cbn; rewrite INR_IZR_INZ; now apply IZR_le).
          rewrite <- (Cb (INR n) (conj Sx (ex_intro _ n eq_refl)) Zn), <- Rmult_assoc. apply (ST (INR n)); eauto.
          - intros y' A. destruct (DX b y' A) as (r' & Er' & Dr'). rewrite icm_high in Dr' by auto. eauto.
          - pose proof (clip_high l u (INR n) Lt Sx) as Qc. assert (Q3 : Finite (IZR b) = Finite (clip_fun l u (INR n))) by congruence. injection Q3 as Q3. rewrite Q3. apply Ob. }
        destruct Cx as [Cx|[Cx|[Bx [n ->]]]]; [easy|easy|]. unfold G. destruct (Rbar_eq_dec (INR n) l); [easy|]. destruct (Rbar_eq_dec (INR n) u); [easy|].
        assert (Str : strictly zl zu (Z.of_nat n) = true) by (apply between_strictly; rewrite <- El, <- Eu, <- INR_IZR_INZ; exact Bx).
        assert (Dn : dens_at (upd y v (INR n)) v (q (INR n))) by (rewrite <- (icm_mid q F Law zl zu n Zb Str), INR_IZR_INZ; apply DX).
        destruct (Dn (upd y v (INR n)) ltac:(auto)) as (r & Er & Dr). exists r, (q (INR n)). split; [exact Er|]. split; [exact Dr|]. split; [|intros Z; rewrite Z; ring].
        intros Z. rewrite <- Rmult_assoc. apply (ST (INR n)); eauto. pose proof (Ob (INR n)) as Ox. destruct Bx as [I1 I2]. rewrite (clip_mid l u (INR n) Lt (Rbar_lt_le _ _ I1) (Rbar_lt_le _ _ I2)) in Ox. exact Ox.
      * pose proof (count_push q F Law g m Hi zl zu ca cb Zb) as W.
        assert (W' : is_series (fun n => P * (if strictly zl zu (Z.of_nat n) then q (INR n) * g (INR n) else 0)) (P * (m - match zl with Some a => ca * F a | None => 0 end - match zu with Some b => cb * (1 - F (b - 1)%Z) | None => 0 end))).
        { apply (is_series_scal (V := R_NormedModule) P). apply W.
          - intros a Ea n Hn Zn. apply Ca; auto. split; [|eauto]. rewrite El, Ea. cbn. rewrite INR_IZR_INZ. now apply IZR_le.
          - intros b Ebb n Hn Zn. apply Cb; auto. split; [|eauto]. rewrite Eu, Ebb. cbn. rewrite INR_IZR_INZ. now apply IZR_le. }
        eexists. split; [eexists; split; [exact W'|]|].
        -- intros n. cbv beta. pose proof (between_strictly zl zu (Z.of_nat n)) as BS. rewrite <- El, <- Eu, <- INR_IZR_INZ in BS. split; intros B.
           ++ rewrite (proj1 BS B). unfold G. destruct B as [I1 I2]. destruct (Rbar_eq_dec (INR n) l) as [X|_]; [rewrite X in I1; destruct l; cbn in I1; try lra; easy|]. destruct (Rbar_eq_dec (INR n) u) as [X|_]; [rewrite X in I2; destruct u; cbn in I2; try lra; easy|]. reflexivity.
           ++ destruct (strictly zl zu (Z.of_nat n)); [exfalso; apply B; now apply BS|]. apply Rmult_0_r.
        -- unfold at_end, G. rewrite El, Eu in *. destruct zl as [a|], zu as [b|]; cbn [low_of high_of] in *; cbn in Lt; try easy; repeat match goal with |- context [Rbar_eq_dec ?a ?b] => let X := fresh in destruct (Rbar_eq_dec a b) as [X|X]; try discriminate X; try (now destruct X); try (injection X; intros; exfalso; lra) end;
             unfold F; rewrite ?minus_IZR; ring.
    + (* a rounded variable *)
      assert (CL : rounded h req d) by (exists v, op, (base v), ps; auto). destruct (lf_cens _ _ _ _ _ _ _ _ _ LF d xs (or_intror CL) Cd Pr) as (Fl_d & Law & LC).
      pose proof (fun x => lf_pos _ _ _ _ _ _ _ _ _ LF d xs x CL Pr) as Pos.
      set (F := cdf d xs) in *. set (q := pdf d xs) in *. rewrite Cd in *. cbn [charges integral] in *.
      assert (Ob : forall x k, rnd_of op x k -> obs y v x (IZR k)) by (intros x k Rk; unfold obs; rewrite N; eauto).
      set (A := anti (fun x => q x * g x)). set (G := fun t : R => P * (A (hi_of op (Int_part t)) - A (lo_of op (Int_part t)))).
      apply (we_value fs h cont pdf req _ _ f v todo y Ints G); [eapply mo_round; eauto| |].
      * intros x [k ->]. pose proof (preimage_of op k) as (Lk & Pk & _). unfold G. rewrite Int_part_IZR.
        assert (Dx : dens_at (upd y v (IZR k)) v (F (hi_of op k) - F (lo_of op k))).
        { intros y' A'. destruct (PA y' (IZR k) A') as [Fy Ev]. eapply cond_round; eauto. }
        destruct (Dx (upd y v (IZR k)) ltac:(auto)) as (r & Er & Dr). exists r, (F (hi_of op k) - F (lo_of op k)). split; [exact Er|]. split; [exact Dr|].
        destruct (const_on q g (fun x => lo_of op k < x < hi_of op k)) as [c Hc]. { intros x x' Sx Sx' Zx Zx'. apply (CG x x' (IZR k)); auto. }
        assert (EA : A (hi_of op k) - A (lo_of op k) = c * (F (hi_of op k) - F (lo_of op k))) by (apply (piece q F Law g m Hi); auto).
        rewrite EA. split; [|intros Z; rewrite Z; ring]. intros Z. destruct (some_mass q F Law _ _ Lk Z) as (x & Lx & Zx).
        replace (P * (c * (F (hi_of op k) - F (lo_of op k)))) with (P * (F (hi_of op k) - F (lo_of op k)) * c) by ring. rewrite <- (Hc x Lx Zx). apply (ST x); auto.
      * cbn [integral]. apply (zseries_ext (fun k => P * (A (hi_of op k) - A (lo_of op k)))); [intros k; unfold G; now rewrite Int_part_IZR|]. apply zseries_scal. now apply (round_push q g m Hi).
    + (* a computed variable *)
      assert (TR : transformed h req d) by (exists v, (base v), ws, ps; auto). destruct (lf_chain _ _ _ _ _ _ _ _ _ LF d xs TR Pr) as (Fl_d & s & t & Lst & In_ & Out).
      set (q := pdf d xs) in *. rewrite Cd in *. cbn [charges integral] in *. set (b := base v) in *.
      destruct (chain_inv h req b ws v Ch) as [(-> & _)|(ws1 & a1 & n1 & Ew & C1 & Na1 & N1 & El1 & I1 & Ki1)]; [easy|].
      assert (Vx : forall x, inside s t x -> exists z, cvalue (drawn (upd rho b x)) v z).
      { intros x X. destruct (obs_ex done todo v rho y x E K (expects_runs _ _ _ _ (Hg x I (In_ x X)))) as [z Oz]. exists z. now apply (obs_char done todo v rho y x z E K). }
      assert (Sx : forall x w, inside s t x -> In w ws -> safe fs h req (upd rho b x) w).
      { intros x w X Iw. apply (RG v b ws (upd rho b x) Iv Ch); auto; [eapply possible_upd; eauto; rewrite Cd; exact I|]. eapply seen_likely; eauto. eapply seen_step; eauto. }
      set (Ys := fun y' : nat -> R => forall u, (u < v)%nat -> y' u = y u).
      destruct (chain_cond ddt fs dlp dlc h req rhoM AC rho v b d ps xs q s t Ys Nb Fl_d Lst) with (ws := ws) as (Hh & k & k' & c & e & Mp & Vh & DC); auto.
      { intros y' p r x Yy X Kp' Lp V. apply (transfer_at done todo v (upd rho b x) y y' p r E); auto. now apply (known_upd done todo v rho y x E). }
      { intros p r x x' Kp' Lp V. apply (stable fs h cont req base AC OB (upd rho b x) (upd rho b x') p); auto. intros u Iu Lu. unfold upd. destruct (Nat.eqb_spec (base u) b) as [Q|]; auto.
        exfalso. eapply base_before; [exact E|exact Iu| |exact Q]. lia. }
      { intros y' Yy. eapply (params_at done todo v rho y); eauto. }
      pose proof Mp as (M1 & M2 & _). destruct (inside_ex s t Lst) as [x0 X0]. pose proof (inside_lt c e _ (proj1 (M1 x0 X0))) as Lce.
      assert (Ob : forall x, inside s t x -> obs y v x (Hh x)) by (intros x X; apply (obs_char done todo v rho y x _ E K); now apply Vh).
      set (G := fun w : R => P * (q (k w) * g (k w) * Rabs (k' w))).
      apply (we_value fs h cont pdf req _ _ f v todo y (Open c e) G).
      * apply (mo_chain fs h cont pdf req y v b ws d ps xs s t c e); auto; [eapply (params_at done todo v rho y); eauto|split; auto|].
        intros z. split.
        -- intros Z. destruct (M2 z Z) as (X & Ez & _). exists (k z). split; [exact X|]. pose proof (Ob _ X) as O. rewrite (obs_elem y v _ _ n1 N1 El1), Ez in O. exact O.
        -- intros (x & X & V). pose proof (Ob x X) as O. rewrite (obs_elem y v _ _ n1 N1 El1) in O. rewrite (cval_fun fs h AC _ (assigned_con y v d ps x Nb) v z _ V O). now apply M1.
      * intros w Iw. cbn [charges] in Iw. destruct (M2 w Iw) as (X & Ez & _).
        assert (Dx : dens_at (upd y v w) v (q (k w) * Rabs (k' w))).
        { intros y' A. destruct (PA y' w A) as [_ Ev]. apply (DC y' w); auto. intros u Lu. rewrite A by lia. unfold upd. destruct (Nat.eqb_spec u v); [lia|auto]. }
        destruct (Dx (upd y v w) ltac:(auto)) as (r & Er & Dr). exists r, (q (k w) * Rabs (k' w)). split; [exact Er|]. split; [exact Dr|]. unfold G. split.
        -- intros Z. replace (P * (q (k w) * g (k w) * Rabs (k' w))) with (P * (q (k w) * Rabs (k' w)) * g (k w)) by ring. pose proof (In_ _ X) as Zx. apply (ST (k w)); auto. pose proof (Ob _ X) as O. now rewrite Ez in O.
        -- intros Z. replace (P * (q (k w) * g (k w) * Rabs (k' w))) with (P * g (k w) * (q (k w) * Rabs (k' w))) by ring. rewrite Z. ring.
      * destruct (support_lims (fun x => q x * g x) m s t Hi Lst) as (ls & lt & Ls & Lt & ->); [intros x X; rewrite (Out x X); ring|].
        cbn [integral]. pose proof (maps_push Hh k k' s t c e _ _ ls lt Mp Lst (line_int _ _ Hi) Ls Lt) as W. exact (is_RInt_gen_scal (V := R_NormedModule) _ P _ W).
Qed.
End Main.
