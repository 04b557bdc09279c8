(** Values in models with clipped and rounded variables. *)
From Coq Require Import Reals Lra Lia ZArith List Arith Bool.
From Coquelicot Require Import Coquelicot.
From Verif Require Import XR XTac SpecDist ModelDist ModelVec SpecCens LemInt ModelCens LemCens ModelJoint LemJoint ModelTrans LemTrans LemTrans2 ModelNest SpecNest LemNest ModelGuard ModelCensSys SpecCensSys.
Import ListNotations.
Open Scope R_scope.

Section Val.
Variable fs : nat -> list xr -> xr.
Variable h : list cnode.
Notation cvalue := (cvalue fs h).
Notation cbound := (cbound fs h).
Notation drawn := (drawn h).

(** ** the value of a node from those of its inputs *)
Definition cmeans (env : nat -> option R) (n : cnode) (r : R) : Prop :=
  match n with
  | CCon c => c = Fin r
  | CRv _ _ => False
  | COne UExp a => exists x, cvalue env a x /\ r = exp x
  | COne ULog a => exists x, cvalue env a x /\ 0 < x /\ r = ln x
  | COne URecip a => exists x, cvalue env a x /\ x <> 0 /\ r = / x
  | CMany NAdd l => exists xs, List.Forall2 (cvalue env) l xs /\ r = fold_right Rplus 0 xs
  | CMany NMul l => exists xs, List.Forall2 (cvalue env) l xs /\ r = fold_right Rmult 1 xs
  | CSub a b => exists x z, cvalue env a x /\ cvalue env b z /\ r = x - z
  | CDiv a b => exists x z, cvalue env a x /\ cvalue env b z /\ z <> 0 /\ r = x / z
  | CClip _ a lo hi => exists x l u, cvalue env a x /\ cbound env a m_infty lo l /\ cbound env a p_infty hi u /\ Rbar_lt l u /\ r = clip_fun l u x
  | CRound op a => exists x k, cvalue env a x /\ rnd_of op x k /\ r = IZR k
  | COther k l => exists xs, List.Forall2 (cvalue env) l xs /\ fs k (map Fin xs) = Fin r
  end.
Lemma cval_inv env v n r : env v = None -> nth_error h v = Some n -> cvalue env v r -> cmeans env n r.
Proof.
  intros E N H. destruct H; try congruence; match goal with K : nth_error h ?v = Some ?m |- _ => assert (n = m) as -> by congruence end; cbn [cmeans]; eauto 12.
Qed.
Lemma cval_mk env v n r : env v = None -> nth_error h v = Some n -> cmeans env n r -> cvalue env v r.
Proof.
  intros E N H. destruct n as [c|d ps|[]|[] l|a b|a b|d a lo hi|op a|k l]; cbn [cmeans] in H.
  - subst. now apply c_con.
  - easy.
  - destruct H as (x & H & ->). eapply c_exp; eauto.
  - destruct H as (x & H & P & ->). eapply c_log; eauto.
  - destruct H as (x & H & P & ->). eapply c_recip; eauto.
  - destruct H as (x & H & ->). eapply c_add; eauto.
  - destruct H as (x & H & ->). eapply c_mul; eauto.
  - destruct H as (x & z & H & H' & ->). eapply c_sub; eauto.
  - destruct H as (x & z & H & H' & P & ->). eapply c_div; eauto.
  - destruct H as (x & l & u & H & H1 & H2 & P & ->). eapply c_clip; eauto.
  - destruct H as (x & k & H & P & ->). eapply c_round; eauto.
  - destruct H as (xs & H & P). eapply c_other; eauto.
Qed.
Definition free_con (env : nat -> option R) : Prop := forall v c, nth_error h v = Some (CCon c) -> env v = None.
Lemma drawn_con rho : free_con (drawn rho).
Proof. intros v c E. unfold SpecCensSys.drawn. now rewrite E. Qed.

Lemma f2_mono {A B} (P Q : A -> B -> Prop) l m : (forall a b, In a l -> P a b -> Q a b) -> List.Forall2 P l m -> List.Forall2 Q l m.
Proof. intros H F. induction F as [|a b l m H1 H2 IH]; constructor; [apply H; [now left|auto]|apply IH; intros; apply H; [now right|auto]]. Qed.
Lemma f2_fun {A B} (P : A -> B -> Prop) l m m' : (forall a b b', In a l -> P a b -> P a b' -> b = b') -> List.Forall2 P l m -> List.Forall2 P l m' -> m = m'.
Proof.
  intros H F. revert m'. induction F as [|a b l m H1 H2 IH]; intros m' G; inversion G; subst; [reflexivity|]. f_equal; [eapply H; eauto; now left|]. apply IH; auto. intros; eapply H; eauto. now right.
Qed.

Lemma bound_mono env env' a inf b l : free_con env' -> (forall r, cvalue env b r -> cvalue env' b r) -> cbound env a inf b l -> cbound env' a inf b l.
Proof. intros C H B. destruct B as [a inf|a inf b c l N E K R|a inf b r N V]; [apply b_self|eapply b_inf; eauto|apply b_val; auto]. Qed.
Lemma cmeans_mono env env' n r : free_con env' -> (forall a x, In a (cinputs n) -> cvalue env a x -> cvalue env' a x) -> cmeans env n r -> cmeans env' n r.
Proof.
  intros C H M. destruct n as [c|d ps|[]|[] l|a b|a b|d a lo hi|op a|k l]; cbn [cmeans cinputs] in *; auto.
  1-3: destruct M as (x & V & M); exists x; split; auto; apply H; auto; now left.
  1-2: destruct M as (xs & V & M); exists xs; split; auto; eapply f2_mono; eauto.
  1-2: destruct M as (x & z & V & W & M); exists x, z; (split; [apply H; auto; now left|]); split; auto; apply H; auto; right; now left.
  - destruct M as (x & l & u & V & B1 & B2 & M). exists x, l, u. split; [apply H; auto; now left|]. split; [|split; auto]; [apply (bound_mono env env' a m_infty lo l C); [intros; apply H; cbn; auto|exact B1]|apply (bound_mono env env' a p_infty hi u C); [intros; apply H; cbn; auto|exact B2]].
  - destruct M as (x & k & V & M). exists x, k. split; auto. apply H; auto; now left.
  - destruct M as (xs & V & M). exists xs. split; auto; eapply f2_mono; eauto.
Qed.

(** ** values are unique *)
Lemma bound_fun env a inf b l l' : free_con env -> (forall r r', cvalue env b r -> cvalue env b r' -> r = r') -> cbound env a inf b l -> cbound env a inf b l' -> l = l'.
Proof.
  intros C H B B'. destruct B as [a inf|a inf b c l N E K Q|a inf b r N V]; inversion B' as [? ? |? ? ? c' ? N' E' K' Q'|? ? ? r' N' V']; subst; try congruence.
  - apply (cval_inv env b (CCon c)) in V'; auto. cbn in V'. subst. cbn in Q. congruence.
  - apply (cval_inv env b (CCon c')) in V; auto. cbn in V. subst. cbn in Q'. congruence.
  - f_equal. auto.
Qed.
Lemma cval_fun : cacyclic h -> forall env, free_con env -> forall v r r', cvalue env v r -> cvalue env v r' -> r = r'.
Proof.
  intros A env C v. induction v as [v IH] using lt_wf_ind. intros r r' H H'.
  destruct (env v) as [e|] eqn:E; [inversion H; inversion H'; congruence|].
  assert (N : exists n, nth_error h v = Some n) by (destruct H; eauto; congruence). destruct N as [n N].
  assert (IH' : forall a, In a (cinputs n) -> forall r r', cvalue env a r -> cvalue env a r' -> r = r') by (intros a I; apply IH; eapply A; eauto). clear IH.
  apply (cval_inv env v n) in H; auto. apply (cval_inv env v n) in H'; auto.
  destruct n as [c|d ps|[]|[] l|a b|a b|d a lo hi|op a|k l]; cbn [cmeans cinputs] in *.
  - congruence.
  - easy.
  - destruct H as (x & H & ->), H' as (x' & H' & ->). f_equal. eapply IH'; eauto; now left.
  - destruct H as (x & H & _ & ->), H' as (x' & H' & _ & ->). f_equal. eapply IH'; eauto; now left.
  - destruct H as (x & H & _ & ->), H' as (x' & H' & _ & ->). f_equal. eapply IH'; eauto; now left.
  - destruct H as (x & H & ->), H' as (x' & H' & ->). f_equal. eapply f2_fun; [|exact H|exact H']; eauto.
  - destruct H as (x & H & ->), H' as (x' & H' & ->). f_equal. eapply f2_fun; [|exact H|exact H']; eauto.
  - destruct H as (x & z & H & K & ->), H' as (x' & z' & H' & K' & ->). f_equal; eapply IH'; eauto; cbn; auto.
  - destruct H as (x & z & H & K & _ & ->), H' as (x' & z' & H' & K' & _ & ->). f_equal; eapply IH'; eauto; cbn; auto.
  - destruct H as (x & l & u & H & B1 & B2 & _ & ->), H' as (x' & l' & u' & H' & B1' & B2' & _ & ->).
    assert (l = l') as -> by (eapply bound_fun; [eauto| |exact B1|exact B1']; eapply IH'; cbn; auto). assert (u = u') as -> by (eapply bound_fun; [eauto| |exact B2|exact B2']; eapply IH'; cbn; auto).
    f_equal. eapply IH'; eauto; cbn; auto.
  - destruct H as (x & k & H & K & ->), H' as (x' & k' & H' & K' & ->). assert (x = x') as <- by (eapply IH'; eauto; cbn; auto). f_equal. eapply rnd_fun; eauto.
  - destruct H as (x & H & E1), H' as (x' & H' & E2). assert (x = x') as <- by (eapply f2_fun; [|exact H|exact H']; eauto). congruence.
Qed.

(** ** requested variables *)
Variable cont : nat -> bool.
Variable req : list nat.
Variable base : nat -> nat.
Hypothesis AC : cacyclic h.
Hypothesis OB : forall v, In v req -> observes h cont req v (base v).
Notation valued := (valued req).
Notation cknown := (cknown h req).

Notation chained := (chained h req).
(** ** variables computed from others *)
Definition elem (n : cnode) : Prop := match n with COne _ _ | CMany _ _ | CSub _ _ | CDiv _ _ => True | _ => False end.
Lemma chain_inv b ws v : chained b ws v -> (ws = [] /\ v = b) \/ exists ws' a n, ws = v :: ws' /\ chained b ws' a /\ ~ In a req /\ nth_error h v = Some n /\ elem n /\ In a (cinputs n) /\ forall p, In p (cinputs n) -> p = a \/ cknown p.
Proof.
  intros C. destruct C as [|ws a v u C I N|ws a v n l r C I N Ne K|ws a v c C I N K|ws a v c C I N K|ws a v c C I N K|ws a v c C I N K]; [auto|right..]; do 3 eexists; (split; [reflexivity|]); (split; [exact C|]); (split; [exact I|]); (split; [exact N|]); (split; [exact Logic.I|]); cbn [cinputs].
  - split; [now left|]. intros p [->|[]]. auto.
  - split; [apply in_or_app; right; now left|]. intros p Ip. apply in_app_or in Ip as [Ip|[->|Ip]]; [right; apply K, in_or_app; auto|auto|right; apply K, in_or_app; auto].
  - split; [now left|]. intros p [->|[->|[]]]; auto.
  - split; [right; now left|]. intros p [->|[->|[]]]; auto.
  - split; [now left|]. intros p [->|[->|[]]]; auto.
  - split; [right; now left|]. intros p [->|[->|[]]]; auto.
Qed.
Lemma elem_det n : elem n -> forall d ps, n <> CRv d ps.
Proof. intros E d ps ->. exact E. Qed.
Lemma chain_le b ws v : chained b ws v -> (b <= v)%nat.
Proof.
  intros C. remember ws as k eqn:Ek. revert ws v C Ek. induction k as [|w k IH]; intros ws v C Ek; destruct (chain_inv b _ v C) as [(_ & ->)|(ws' & a & n & E & C' & _ & N & _ & Ia & _)]; auto; [discriminate|]. injection E as -> <-.
  pose proof (IH k a C' eq_refl). pose proof (AC v n a N Ia). lia.
Qed.
Lemma chain_free b ws v : chained b ws v -> ws <> [] -> ~ In b req.
Proof.
  revert v. induction ws as [|w ws IH]; intros v C Ne; [easy|]. destruct (chain_inv b _ v C) as [(E & _)|(ws' & a & n & E & C' & Na & _)]; [discriminate|]. injection E as -> <-.
  destruct ws as [|w' ws]; [|apply (IH a C'); discriminate]. destruct (chain_inv b _ a C') as [(_ & ->)|(ws' & a' & n' & E' & _)]; [auto|discriminate].
Qed.
Lemma cknown_not b d ps : nth_error h b = Some (CRv d ps) -> ~ In b req -> ~ cknown b.
Proof. intros N I K. destruct K as [v K|v n M D _]; [easy|]. apply (D d ps). congruence. Qed.
Lemma chain_unknown b d ps ws a : nth_error h b = Some (CRv d ps) -> chained b ws a -> ~ In a req -> ~ cknown a.
Proof.
  intros Nb. revert a. induction ws as [|w ws IH]; intros a C Ia; destruct (chain_inv b _ a C) as [(E & ->)|(ws' & a' & n & E & C' & Na & N & _ & In' & _)]; try discriminate; [eapply cknown_not; eauto|]. injection E as -> <-.
  intros K. apply (IH a' C' Na). destruct K as [v K|v m M D K]; [easy|]. apply K. congruence.
Qed.
Lemma chain_fun b b' d ps d' ps' ws : nth_error h b = Some (CRv d ps) -> nth_error h b' = Some (CRv d' ps') -> forall ws' v, chained b ws v -> chained b' ws' v -> b = b' /\ ws = ws'.
Proof.
  intros Nb Nb'. induction ws as [|w ws IH]; intros ws' v C C'; destruct (chain_inv b _ v C) as [(E & ->)|(ws1 & a & n & E & C1 & Na & N & El & Ia & Ki)]; try discriminate.
  - destruct (chain_inv b' _ b C') as [(-> & ->)|(ws2 & a2 & n2 & E2 & _ & _ & N2 & El2 & _)]; [auto|]. exfalso. apply (elem_det n2 El2 d ps). congruence.
  - injection E as -> <-. destruct (chain_inv b' _ v C') as [(-> & ->)|(ws2 & a2 & n2 & -> & C2 & Na2 & N2 & El2 & Ia2 & Ki2)]; [exfalso; apply (elem_det n El d' ps'); congruence|].
    assert (n2 = n) as -> by congruence. assert (a2 = a) as ->. { destruct (Ki2 a Ia) as [->|K]; auto. exfalso. exact (chain_unknown b d ps ws a Nb C1 Na K). }
    destruct (IH ws2 a C1 C2) as [-> ->]. auto.
Qed.
Lemma valued_in y v : In v req -> valued y v = Some (y v).
Proof. intros I. unfold SpecCensSys.valued. now destruct (in_dec _ _ _). Qed.
Lemma valued_out y v : ~ In v req -> valued y v = None.
Proof. intros I. unfold SpecCensSys.valued. now destruct (in_dec _ _ _). Qed.
Lemma valued_con y : free_con (valued y).
Proof.
  intros v c E. apply valued_out. intros I. destruct (OB v I) as [| | |v b ws d ps C]; try congruence.
  destruct (chain_inv b ws v C) as [(-> & _)|(ws' & a & n & _ & _ & _ & N & El & _)]; [easy|]. assert (n = CCon c) as -> by congruence. exact El.
Qed.
Lemma observes_inv v b : observes h cont req v b -> exists d ps, nth_error h b = Some (CRv d ps) /\ (forall p, In p ps -> cknown p) /\
  (v = b \/ (~ In b req /\ ((exists t lo hi, nth_error h v = Some (CClip t b lo hi) /\ (lo = b \/ cknown lo) /\ (hi = b \/ cknown hi)) \/ (exists op, nth_error h v = Some (CRound op b) /\ cont d = true) \/
     exists ws, chained b ws v /\ ws <> [] /\ cont d = true))).
Proof. intros O. destruct O as [v d ps N K|v t b lo hi d ps N I Nb K Kl Kh|v op b d ps N I Nb Cd K|v b ws d ps C Ne Nb Cd K]; do 2 eexists; (split; [eauto|]); (split; [eauto|]); [left; auto|right; eauto 12|right; eauto 12|right; split; [eapply chain_free; eauto|eauto 12]]. Qed.
Lemma base_le v b : observes h cont req v b -> (b <= v)%nat.
Proof. intros O. destruct O as [v d ps E|v t b lo hi d ps E _ _ _ _ _|v op b d ps E|v b ws d ps C]; [lia| | |eapply chain_le; eauto]; apply Nat.lt_le_incl; eapply AC; eauto; cbn; auto. Qed.
Lemma observes_fun v b b' : observes h cont req v b -> observes h cont req v b' -> b = b'.
Proof.
  assert (S : forall v b b' ws d ps, chained b ws v -> ws <> [] -> nth_error h b = Some (CRv d ps) -> observes h cont req v b' -> b = b').
  { clear. intros w c c' ws d ps C Ne Nc O. destruct (chain_inv c ws w C) as [(-> & _)|(ws' & a & n & _ & _ & _ & N & El & _)]; [easy|].
    destruct O as [w d' ps' N'|w t b0 lo hi d' ps' N'|w op b0 d' ps' N'|w b0 ws2 d' ps' C2 Ne2 Nb2 _ _]; [exfalso; apply (elem_det n El d' ps'); congruence| | |now destruct (chain_fun c b0 d ps d' ps' ws Nc Nb2 ws2 w C C2)];
      exfalso; [assert (n = CClip t b0 lo hi) by congruence|assert (n = CRound op b0) by congruence]; subst n; exact El. }
  intros O O'. pose proof O as Oc. destruct O as [v d ps N|v t b lo hi d ps N I Nb _ _ _|v op b d ps N I Nb|v b ws d ps C Ne Nb _ _]; [| | |eapply S; eauto];
    (destruct O' as [v d' ps' N'|v t' b' lo' hi' d' ps' N' I' Nb' _ _ _|v op' b' d' ps' N' I' Nb'|v b' ws' d' ps' C' Ne' Nb' Cd' K']; [congruence|congruence|congruence|symmetry; eapply S; eauto]).
Qed.
Lemma cknown_out v n : ~ In v req -> nth_error h v = Some n -> cknown v -> (forall d ps, n <> CRv d ps) /\ (forall a, In a (cinputs n) -> cknown a).
Proof. intros I N K. destruct K as [v K|v m M D K]; [easy|]. assert (m = n) as -> by congruence. auto. Qed.
Lemma drawn_other rho v n : nth_error h v = Some n -> (forall d ps, n <> CRv d ps) -> drawn rho v = None.
Proof. intros N D. unfold SpecCensSys.drawn. rewrite N. destruct n; auto. now destruct (D d ps). Qed.
Lemma cval_node env v r : env v = None -> cvalue env v r -> exists n, nth_error h v = Some n.
Proof. intros E H. destruct H; eauto; congruence. Qed.

(** known variables have values that depend on the requested ones only *)
Lemma transfer rho y p : cknown p -> (forall w, In w req -> (w <= p)%nat -> cvalue (drawn rho) w (y w)) -> forall r, cvalue (drawn rho) p r -> cvalue (valued y) p r.
Proof.
  induction p as [p IH] using lt_wf_ind. intros K W r V. destruct (in_dec Nat.eq_dec p req) as [I|I].
  - rewrite (cval_fun AC _ (drawn_con rho) p r (y p) V (W p I (le_n _))). apply c_given. now apply valued_in.
  - assert (N : exists n, nth_error h p = Some n) by (destruct K as [p K|p n K _ _]; [easy|eauto]). destruct N as [n N]. destruct (cknown_out p n I N K) as [D KI].
    eapply cval_mk; [now apply valued_out|exact N|]. apply (cval_inv (drawn rho) p n) in V; auto; [|now apply (drawn_other rho p n)].
    eapply cmeans_mono; [apply valued_con| |exact V]. intros a x Ia Va. assert (a < p)%nat by (eapply AC; eauto). apply IH; auto. intros w Iw Lw. apply W; auto. lia.
Qed.
Lemma transfer_bound rho y a inf b l : b = a \/ cknown b -> (forall w, In w req -> (w <= b)%nat -> cvalue (drawn rho) w (y w)) -> cbound (drawn rho) a inf b l -> cbound (valued y) a inf b l.
Proof. intros [->|K] W B; [inversion B; subst; [apply b_self|easy|easy]|]. eapply bound_mono; [apply valued_con| |exact B]. now apply transfer. Qed.

(** values depend only on the draws of the variables observed so far *)
Lemma stable rho rho' p : cknown p -> (forall w, In w req -> (w <= p)%nat -> rho' (base w) = rho (base w)) -> forall r, cvalue (drawn rho) p r -> cvalue (drawn rho') p r.
Proof.
  induction p as [p IH] using lt_wf_ind. intros K W r V.
  assert (IH' : forall a r, (a < p)%nat -> cknown a -> cvalue (drawn rho) a r -> cvalue (drawn rho') a r) by (intros a s L Ka Va; apply (IH a L Ka); auto; intros w Iw Lw; apply W; auto; lia). clear IH.
  destruct (in_dec Nat.eq_dec p req) as [I|I].
  - pose proof (W p I (le_n _)) as Eb. pose proof (OB p I) as O. remember (base p) as b eqn:Qb. 
    assert (Vb : forall d ps x, nth_error h b = Some (CRv d ps) -> cvalue (drawn rho) b x -> cvalue (drawn rho') b x).
    { intros d ps x N Vx. assert (D : drawn rho b = Some (rho b)) by (unfold SpecCensSys.drawn; now rewrite N). assert (D' : drawn rho' b = Some (rho b)) by (unfold SpecCensSys.drawn; now rewrite N, Eb).
      rewrite (cval_fun AC _ (drawn_con rho) b x (rho b) Vx (c_given fs h _ _ _ D)). now apply c_given. }
    apply observes_inv in O as (d & ps & Nb & Kp & [->|(Nr & [(t & lo & hi & N & Kl & Kh)|[(op & N & Cd)|(ws & C & Ne & Cd)]])]).
    + eapply Vb; eauto.
    + assert (D : forall d ps, CClip t b lo hi <> CRv d ps) by discriminate. eapply cval_mk; [now apply (drawn_other rho' p _ N D)|exact N|].
      pose proof (cval_inv _ _ _ _ (drawn_other rho p _ N D) N V) as V'.
      cbn [cmeans] in V'. destruct V' as (x & l & u & Vx & B1 & B2 & Lt & ->). exists x, l, u.
      assert (HB : forall q inf e, In q [lo; hi] -> (q = b \/ cknown q) -> cbound (drawn rho) b inf q e -> cbound (drawn rho') b inf q e).
      { intros q inf e Iq Kq Bq. assert (q < p)%nat by (eapply AC; eauto; cbn in *; tauto). eapply bound_mono; [apply drawn_con| |exact Bq]. intros s Vs. destruct Kq as [->|Kq]; [eapply Vb; eauto|now apply IH']. }
      split; [eapply Vb; eauto|]. split; [apply HB; cbn; auto|]. split; [apply HB; cbn; auto|]. auto.
    + assert (D : forall d ps, CRound op b <> CRv d ps) by discriminate. eapply cval_mk; [now apply (drawn_other rho' p _ N D)|exact N|].
      pose proof (cval_inv _ _ _ _ (drawn_other rho p _ N D) N V) as V'.
      destruct V' as (x & k & Vx & Rk & ->). exists x, k. split; [eapply Vb; eauto|auto].
    + assert (CH : forall ws a, chained b ws a -> (a <= p)%nat -> forall r, cvalue (drawn rho) a r -> cvalue (drawn rho') a r).
      { clear ws C Ne r V I. induction ws as [|w ws IHw]; intros a C La r V; destruct (chain_inv b _ a C) as [(E & ->)|(ws' & a' & n & E & C' & Na & N & El & Ia & Ki)]; try discriminate; [eapply Vb; eauto|]. injection E as -> <-.
        eapply cval_mk; [exact (drawn_other rho' a n N (elem_det n El))|exact N|]. apply (cval_inv (drawn rho) a n) in V; auto; [|exact (drawn_other rho a n N (elem_det n El))].
        eapply cmeans_mono; [apply drawn_con| |exact V]. intros q x Iq Vq. assert (q < a)%nat by (eapply AC; eauto). destruct (Ki q Iq) as [->|Kq]; [apply IHw; auto; lia|apply IH'; auto; lia]. }
      eapply CH; eauto.
  - assert (N : exists n, nth_error h p = Some n) by (destruct K as [p K|p n K _ _]; [easy|eauto]). destruct N as [n N]. destruct (cknown_out p n I N K) as [D KI].
    eapply cval_mk; [now apply (drawn_other rho' p n)|exact N|]. apply (cval_inv (drawn rho) p n) in V; auto; [|now apply (drawn_other rho p n)].
    eapply cmeans_mono; [apply drawn_con| |exact V]. intros a x Ia Va. assert (a < p)%nat by (eapply AC; eauto). now apply IH'; auto.
Qed.
End Val.
