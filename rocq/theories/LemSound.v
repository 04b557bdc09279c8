(** Measurable expressions at any point: a density comes out at the regular
    points only. *)
From Coq Require Import Reals Lra Lia ZArith List Bool Arith.
From Coquelicot Require Import Coquelicot.
From Verif Require Import XR Special XTac SpecDist ModelDist ModelVec SpecVec ModelTrans LemTrans LemTrans2 ModelJoint ModelNest SpecNest LemNest LemDisc LemNest2 LemNest3
  RMx ModelSys SpecSys LemSys LemSys2 LemSys3.
Import ListNotations.
Open Scope R_scope.

(** no log-density, and no log-density after more terms are added *)
Definition bad (x : xr) : Prop := x = PInf \/ x = NaN.
Lemma bad_l x y : bad x -> bad (xadd x y). Proof. unfold bad. intros [-> | ->]; destruct y; cbn; auto. Qed.
Lemma bad_r x y : bad y -> bad (xadd x y). Proof. unfold bad. intros [-> | ->]; destruct x; cbn; auto. Qed.
Lemma bad_den x d : bad x -> ~ denotes (Val x) d. Proof. intros [-> | ->] []. Qed.
Definition poisoned (r : res xr) : Prop := forall x, r = Val x -> bad x.
Lemma poisoned_den r d : poisoned r -> ~ denotes r d.
Proof. intros P D. destruct r as [x|]; [|destruct D]. exact (bad_den x d (P x eq_refl) D). Qed.
Lemma poison_keep t lp (y y' : R) : backward t (Fin y') = Val (Fin y) -> poisoned (lp (Fin y)) -> poisoned (elemwise_logprob t lp (Fin y')).
Proof.
  intros B P x. unfold elemwise_logprob. rewrite B. cbn [bind]. destruct (lp (Fin y)) as [l|] eqn:E; [|discriminate]. cbn [bind].
  destruct (log_jac_det t (Fin y')) as [j|]; [|discriminate]. cbn. intros H. injection H as <-. apply bad_l. exact (P l eq_refl).
Qed.
Lemma poison_new t lp (y : R) j : log_jac_det t (Fin y) = Val j -> bad j -> poisoned (elemwise_logprob t lp (Fin y)).
Proof.
  intros J B x. unfold elemwise_logprob. destruct (backward t (Fin y)) as [b|]; [|discriminate]. cbn [bind]. destruct (lp b) as [l|]; [|discriminate]. cbn [bind].
  rewrite J. cbn. intros H. injection H as <-. now apply bad_r.
Qed.
Lemma poison_scale lp (y y' c : R) : y' = y * c -> (c <> 0 -> poisoned (lp (Fin y))) -> poisoned (elemwise_logprob (TScale (Fin c)) lp (Fin y')).
Proof.
  intros -> P. destruct (Req_dec c 0) as [->|N].
  - apply (poison_new _ _ _ PInf); [|now left]. cbn [log_jac_det]. cbn [xabs]. rewrite Rabs_R0. now rewrite xlog_zero.
  - apply (poison_keep _ _ y); auto. cbn [backward]. rewrite xdiv_fin by auto. do 2 f_equal. now field.
Qed.
Lemma poison_loc lp (y y' c : R) : y' = y + c -> poisoned (lp (Fin y)) -> poisoned (elemwise_logprob (TLoc (Fin c)) lp (Fin y')).
Proof. intros -> P. apply (poison_keep _ _ y); auto. cbn. do 2 f_equal. ring. Qed.

Section Nest.
Variable dt : nat -> dtype.
Variable fs : nat -> list xr -> xr.
Notation annotate := (annotate dt fs).
Notation means := (means fs).
Notation regular := (regular fs).
Variables (rho : nat -> R) (i : nat) (lps : nat -> xr -> res xr).
Definition either (e : nexpr) (y : R) : Prop :=
  exists m, a_m (annotate e) = Some m /\ mbase m = i /\ (regular rho i e \/ poisoned (nested_logprob lps m (Fin y))).

Lemma recip_poison lp (r : R) : r <> 0 -> ~ 0 < r \/ poisoned (lp (Fin r)) -> poisoned (elemwise_logprob TRecip lp (Fin (/ r))).
Proof.
  intros N [L|P].
  - apply (poison_new _ _ _ NaN); [|now right]. cbn [log_jac_det]. assert (/ r < 0) by (apply Rinv_lt_0_compat; lra). rewrite xlog_neg by lra. reflexivity.
  - apply (poison_keep _ _ r); auto. cbn [backward]. rewrite xrecip_fin by (now apply Rinv_neq_0_compat). do 2 f_equal. now apply Rinv_involutive.
Qed.
Lemma one_poison u lp e r y : means rho e r -> means rho (NOne u e) y -> poisoned (lp (Fin r)) -> poisoned (elemwise_logprob (tr_unary u) lp (Fin y)).
Proof.
  intros Me M P. inversion M as [| |? r' M1|? r' M1 Q|? r' M1 Q| | | | |]; subst; assert (r' = r) as -> by (now apply (means_fun fs rho e)); cbn [tr_unary].
  - apply (poison_keep _ _ r); auto. now apply (backward_ok TExp r).
  - apply (poison_keep _ _ r); auto. now apply (backward_ok TLog r).
  - apply recip_poison; auto.
Qed.
Lemma one_means u e y : means rho (NOne u e) y -> exists r, means rho e r.
Proof. intros M. inversion M; subst; eauto. Qed.
Lemma chain_either e : dt i <> DInt -> chain i e -> forall y, means rho e y -> either e y.
Proof.
  intros D C. induction C as [|u e C IH|n l e r C IH Ol Or N|a b C IH O|a b C IH O|a b C IH O|a b C IH O]; intros y M0; unfold either;
    cbn [ModelNest.annotate rw_unary rw_nary rw_sub rw_div a_m].
  - exists (MBase i). repeat split. left. apply g_rv.
  - destruct (one_means u e y M0) as [r M]. destruct (IH r M) as (m & E & B & Q). rewrite (construct_1 dt _ m) by (auto; eapply starts_base; eauto).
    eexists; repeat split; [exact B|]. cbn [nested_logprob]. destruct Q as [G|P]; [|right; now apply (one_poison u _ e r)].
    destruct u; [left; now apply (g_one _ _ _ _ _ r)|left; now apply (g_one _ _ _ _ _ r)|].
    inversion M0 as [| | | |? r' M1 Q| | | | |]; subst. assert (r' = r) as -> by (now apply (means_fun fs rho e)).
    destruct (Rlt_dec 0 r) as [L|L]; [left; now apply (g_one _ _ _ _ _ r)|right]. apply recip_poison; auto.
  - assert (S : exists ls v rs, Forall2 (means rho) l ls /\ means rho e v /\ Forall2 (means rho) r rs /\ y = rfold n (ls ++ v :: rs)).
    { destruct n; inversion M0 as [| | | | |? vs F|? vs F| | |]; subst; apply Forall2_app_inv_l in F as (ls & vs' & Fl & Fr & ->); inversion Fr as [|? v ? rs Me Fr']; subst; exists ls, v, rs; auto. }
    destruct S as (ls & v & rs & Fl & Me & Fr & ->). destruct (IH v Me) as (m & E & B & Q). cbn in Ol, Or. rewrite map_app. cbn [map].
    rewrite (construct_mid dt _ _ _ m) by (auto; try (now apply plain_map); eapply starts_base; eauto).
    rewrite map_app, (vals_plain dt fs rho l ls), (vals_plain dt fs rho r rs), <- map_app by auto.
    unfold tr_nary. rewrite fold_others_fin.
    2: { intros Z. apply N. apply app_eq_nil in Z as [-> ->]. inversion Fl; inversion Fr; reflexivity. }
    eexists; repeat split; [exact B|]. destruct n; cbn [nested_logprob rfold].
    + destruct Q as [G|P]; [left; now apply g_add|right]. apply (poison_loc _ v); [apply rtotal_mid|exact P].
    + destruct (Req_dec (rprod ls * rprod rs) 0) as [Z|NZ].
      * right. apply (poison_scale _ v); [now rewrite rprod_mid, rprod_app|]. rewrite rprod_app. tauto.
      * destruct Q as [G|P]; [left; now apply (g_mul _ _ _ _ _ _ ls rs)|right]. apply (poison_scale _ v); [now rewrite rprod_mid, rprod_app|auto].
  - inversion M0 as [| | | | | | |? ? v w Ma Mb| |]; subst. destruct (IH v Ma) as (m & E & B & Q).
    rewrite (construct_l dt _ _ m); auto; [|now apply neg_plain|eapply starts_base; eauto].
    cbn [rw_nary a_val map con]. rewrite (means_plain dt fs rho b w O Mb). change [Fin (-1); Fin w] with (map Fin [-1; w]). rewrite nary_fin.
    unfold tr_nary. cbn [fold_others].
    eexists; repeat split; [exact B|]. cbn [nested_logprob]. destruct Q as [G|P]; [left; now apply g_sub_l|right]. apply (poison_loc _ v); [unfold rfold, rprod; cbn; ring|exact P].
  - inversion M0 as [| | | | | | |? ? v w Ma Mb| |]; subst. destruct (IH w Mb) as (m & E & B & Q).
    rewrite (construct_r dt _ _ (MElem (TScale (Fin (-1))) m)); auto; [|now apply ann_plain|].
    2: { cbn [rw_nary a_m]. rewrite (construct_r dt _ _ m); auto; [apply con_plain|eapply starts_base; eauto]. }
    rewrite (means_plain dt fs rho a v O Ma). unfold tr_nary. cbn [fold_others].
    eexists; repeat split; [exact B|]. cbn [nested_logprob]. destruct Q as [G|P]; [left; now apply g_sub_r|right].
    apply (poison_loc _ (w * -1)); [ring|]. apply (poison_scale _ w); auto.
  - inversion M0 as [| | | | | | | |? ? v w Ma Mb Nw|]; subst. destruct (IH v Ma) as (m & E & B & Q).
    rewrite (construct_l dt _ _ m); auto; [|now apply inv_plain|eapply starts_base; eauto].
    cbn [rw_unary a_val]. rewrite (means_plain dt fs rho b w O Mb). cbn [un_val]. rewrite xrecip_fin by auto. unfold tr_nary. cbn [fold_others].
    eexists; repeat split; [exact B|]. cbn [nested_logprob]. destruct Q as [G|P]; [left; now apply g_div_l|right]. apply (poison_scale _ v); auto.
  - inversion M0 as [| | | | | | | |? ? v w Ma Mb Nw|]; subst. destruct (IH w Mb) as (m & E & B & Q).
    rewrite (construct_r dt _ _ (MElem TRecip m)); auto; [|now apply ann_plain|].
    2: { cbn [rw_unary a_m]. rewrite (construct_1 dt _ m); auto. eapply starts_base; eauto. }
    rewrite (means_plain dt fs rho a v O Ma). unfold tr_nary. cbn [fold_others].
    eexists; repeat split; [exact B|]. cbn [nested_logprob].
    assert (F : ~ 0 < w \/ poisoned (nested_logprob lps m (Fin w)) -> poisoned (elemwise_logprob (TScale (Fin v)) (elemwise_logprob TRecip (nested_logprob lps m)) (Fin (v / w)))).
    { intros H. apply (poison_scale _ (/ w)); [field; auto|]. intros _. now apply recip_poison. }
    destruct Q as [G|P]; [|right; auto]. destruct (Rlt_dec 0 w) as [L|L]; [|right; auto].
    destruct (Req_dec v 0) as [->|Nv]; [|left; now apply (g_div_r _ _ _ _ _ v w)].
    right. apply (poison_scale _ (/ w)); [unfold Rdiv; ring|]. now intros [].
Qed.
End Nest.

Lemma nested_exact dt fs rho lps e m y : a_m (annotate dt fs e) = Some m -> means fs rho e y ->
  (forall d, denotes (nested_logprob lps m (Fin y)) d -> regular fs rho (mbase m) e).
Proof.
  intros E M d Den. destruct (accepted_chain dt fs e m E) as [C [Dt|Er]].
  - destruct (chain_either dt fs rho (mbase m) lps e Dt C y M) as (m' & E' & _ & Q). rewrite E in E'. injection E' as <-.
    destruct Q as [G|P]; [exact G|]. now apply poisoned_den with (d := d) in P.
  - rewrite Er. apply g_rv.
Qed.
Lemma den_fun r d d' : denotes r d -> denotes r d' -> d = d'.
Proof. destruct r as [[x| | |]|]; cbn; try easy; congruence. Qed.
Lemma nested_sound dt fs rho lps f e m y : a_m (annotate dt fs e) = Some m -> means fs rho e y ->
  denotes (lps (mbase m) (Fin (rho (mbase m)))) (f (rho (mbase m))) ->
  forall d, denotes (nested_logprob lps m (Fin y)) d -> density_of fs rho e (mbase m) f (rho (mbase m)) y d.
Proof.
  intros E M L d Den. destruct (accepted_chain dt fs e m E) as [C [Dt|Er]].
  - destruct (nested_density dt fs rho (mbase m) lps f e y Dt L (nested_exact dt fs rho lps e m y E M d Den) M) as (m' & d' & E' & Dn & Den').
    rewrite E in E'. injection E' as <-. now rewrite (den_fun _ _ _ Den Den').
  - rewrite Er in *. cbn in E. injection E as E. set (i := mbase m) in *. clearbody i. subst m. inversion M; subst. cbn in Den. rewrite (den_fun _ _ _ Den L).
    exists (fun t => t), 1. split; [|split; [reflexivity|split; [auto_derive; auto|split; [lra|rewrite Rabs_R1; field]]]].
    apply filter_forall. intros t. pose proof (m_rv fs (upd rho i t) i) as Q. unfold upd in Q at 2. now rewrite Nat.eqb_refl in Q.
Qed.

Section Graph.
Variable fs : nat -> list xr -> xr.
Variable h : list snode.
Variable req : list nat.
Variable y : nat -> R.
Hypothesis Ac : acyclic h.
Notation unf := (unfold h req (fun v => Fin (y v))).
Notation tp := (top h req (fun v => Fin (y v))).
Notation sval := (svalue fs h).
Notation occn := (known h req).
Lemma regular_smooth rho v b : leads h req v b -> forall x, (forall q, In q req -> (q < v)%nat -> sval rho q (y q)) -> sval rho v x -> regular fs rho b (tp v) -> smooth fs h req rho v b.
Proof.
  intros Ld. induction Ld as [v d ps E|v u a b E N H IH|v n l a r b E N H IH Kl Kr NE|v a c b E N H IH K|v a c b E K N H IH|v a c b E N H IH K|v a c b E K N H IH];
    intros x Q V; assert (QA : forall x, (x < v)%nat -> forall q, In q req -> (q < x)%nat -> sval rho q (y q)) by (intros x0 X q I L; apply Q; [exact I|lia]);
    unfold top, expand; rewrite E; intros G.
  - exact (s_rv _ _ _ _ v d ps E).
  - destruct (in_range h Ac v _ a E) as [L1 L2]; [cbn; auto|]. rewrite unfold_top in G by (auto; lia). inversion G as [|u' e' r Ge Me P| | | | | |]; subst.
    assert (S : exists s, sval rho a s). { inversion V as [? c E2|? d ps E2|? a2 s E2 A2|? a2 s E2 A2 P2|? a2 s E2 A2 P2|? l rs E2 F|? l rs E2 F|? a2 b2 s s' E2 A2 B2|? a2 b2 s s' E2 A2 B2 P2|? k l rs ? E2 F K]; subst; rewrite E in E2; try discriminate; injection E2; intros; subst; eauto. }
    destruct S as [s Vs]. assert (r = s) as ->. { apply (means_fun fs rho (tp a)); [exact Me|]. apply (top_means fs h req y Ac rho a); [apply QA; lia|exact Vs]. }
    apply (s_one fs h req rho v u a b s E N); auto. apply (IH s); auto. apply QA; lia.
  - destruct (in_range h Ac v _ a E) as [L1 L2]; [cbn; apply in_or_app; cbn; auto|]. rewrite map_app in G. cbn [map] in G. rewrite unfold_top in G by (auto; lia).
    assert (Il : incl l (node_inputs (SMany n (l ++ a :: r)))) by (intros z X; cbn; apply in_or_app; auto).
    assert (Ir : incl r (node_inputs (SMany n (l ++ a :: r)))) by (intros z X; cbn; apply in_or_app; cbn; auto).
    destruct (proj1 (leads_chain h req y Ac a b) H) as [C _].
    apply regular_many in G as [Ga Gm]; [|now apply (knowns_occs h req y Ac v _ l E)|exact C].
    assert (S : exists ls s rs, Forall2 (sval rho) l ls /\ sval rho a s /\ Forall2 (sval rho) r rs).
    { inversion V as [? c E2|? d ps E2|? a2 s E2 A2|? a2 s E2 A2 P2|? a2 s E2 A2 P2|? l2 rs E2 F|? l2 rs E2 F|? a2 b2 s s' E2 A2 B2|? a2 b2 s s' E2 A2 B2 P2|? k l2 rs ? E2 F K]; subst; rewrite E in E2; try discriminate; injection E2; intros; subst;
        apply Forall2_app_inv_l in F as (ls & vs' & Fl & Fr & ->); inversion Fr as [|? s ? rs' Me Fr']; subst; exists ls, s, rs'; auto. }
    destruct S as (ls & s & rs & Fl & Vs & Fr). assert (Sa : smooth fs h req rho a b) by (apply (IH s); auto; apply QA; lia).
    destruct n; [now apply (s_add fs h req rho v l a r b)|]. apply (s_mul fs h req rho v l a r b ls rs); auto.
    destruct (Gm eq_refl) as (ls' & rs' & Fl' & Fr' & NZ).
    assert (U : forall es xs ys, Forall2 (means fs rho) es xs -> Forall2 (means fs rho) es ys -> xs = ys).
    { clear. induction es as [|e es IH]; intros xs ys X Y; inversion X; inversion Y; subst; [reflexivity|]. f_equal; [eapply (means_fun fs rho e); eauto|now apply IH]. }
    rewrite (U _ _ _ (svals_means fs h req y Ac rho v _ l ls Q E Il Fl) Fl'), (U _ _ _ (svals_means fs h req y Ac rho v _ r rs Q E Ir Fr) Fr'). exact NZ.
  - destruct (in_range h Ac v _ a E) as [L1 L2]; [cbn; auto|]. destruct (in_range h Ac v _ c E) as [L3 _]; [cbn; auto|].
    rewrite (unfold_top h req y Ac a) in G by (auto; lia). apply (proj1 (known_occs h req y Ac (length h) c ltac:(lia) ltac:(lia))) in K as Oc.
    assert (S : exists s, sval rho a s). { inversion V as [? c2 E2|? d ps E2|? a2 s E2 A2|? a2 s E2 A2 P2|? a2 s E2 A2 P2|? l rs E2 F|? l rs E2 F|? a2 b2 s s' E2 A2 B2|? a2 b2 s s' E2 A2 B2 P2|? k l rs ? E2 F K2]; subst; rewrite E in E2; try discriminate; injection E2; intros; subst; eauto. }
    destruct S as [s Vs]. apply (s_sub_l fs h req rho v a c b E N); auto. apply (IH s); auto; [apply QA; lia|].
    inversion G; subst; auto. exfalso. eapply chain_not; eauto.
  - destruct (in_range h Ac v _ a E) as [L1 L2]; [cbn; auto|]. destruct (in_range h Ac v _ c E) as [L3 _]; [cbn; auto|].
    rewrite (unfold_top h req y Ac c) in G by (auto; lia). apply (proj1 (known_occs h req y Ac (length h) a ltac:(lia) ltac:(lia))) in K as Oc.
    assert (S : exists s, sval rho c s). { inversion V as [? c2 E2|? d ps E2|? a2 s E2 A2|? a2 s E2 A2 P2|? a2 s E2 A2 P2|? l rs E2 F|? l rs E2 F|? a2 b2 s s' E2 A2 B2|? a2 b2 s s' E2 A2 B2 P2|? k l rs ? E2 F K2]; subst; rewrite E in E2; try discriminate; injection E2; intros; subst; eauto. }
    destruct S as [s Vs]. apply (s_sub_r fs h req rho v a c b E K N). apply (IH s); auto; [apply QA; lia|].
    inversion G; subst; auto. exfalso. eapply chain_not; eauto.
  - destruct (in_range h Ac v _ a E) as [L1 L2]; [cbn; auto|]. destruct (in_range h Ac v _ c E) as [L3 _]; [cbn; auto|].
    rewrite (unfold_top h req y Ac a) in G by (auto; lia). apply (proj1 (known_occs h req y Ac (length h) c ltac:(lia) ltac:(lia))) in K as Oc.
    assert (S : exists s, sval rho a s). { inversion V as [? c2 E2|? d ps E2|? a2 s E2 A2|? a2 s E2 A2 P2|? a2 s E2 A2 P2|? l rs E2 F|? l rs E2 F|? a2 b2 s s' E2 A2 B2|? a2 b2 s s' E2 A2 B2 P2|? k l rs ? E2 F K2]; subst; rewrite E in E2; try discriminate; injection E2; intros; subst; eauto. }
    destruct S as [s Vs]. apply (s_div_l fs h req rho v a c b E N); auto. apply (IH s); auto; [apply QA; lia|].
    inversion G; subst; auto. exfalso. eapply chain_not; eauto.
  - destruct (in_range h Ac v _ a E) as [L1 L2]; [cbn; auto|]. destruct (in_range h Ac v _ c E) as [L3 _]; [cbn; auto|].
    rewrite (unfold_top h req y Ac c) in G by (auto; lia). apply (proj1 (known_occs h req y Ac (length h) a ltac:(lia) ltac:(lia))) in K as Oc.
    assert (S : exists r s, sval rho a r /\ sval rho c s). { inversion V as [? c2 E2|? d ps E2|? a2 s E2 A2|? a2 s E2 A2 P2|? a2 s E2 A2 P2|? l rs E2 F|? l rs E2 F|? a2 b2 s s' E2 A2 B2|? a2 b2 s s' E2 A2 B2 P2|? k l rs ? E2 F K2]; subst; rewrite E in E2; try discriminate; injection E2; intros; subst; eauto. }
    destruct S as (r & s & Vr & Vs). inversion G as [| | | | | |a0 b0 Gx Ox|a0 b0 r0 s0 Gc Oa Ma Nr Mc Ps]; subst; [exfalso; eapply chain_not; eauto|].
    assert (r0 = r) as ->. { apply (means_fun fs rho (unf (length h) a)); [exact Ma|]. apply (unfold_means fs h req y Ac rho v Q); auto; lia. }
    assert (s0 = s) as ->. { apply (means_fun fs rho (tp c)); [exact Mc|]. apply (top_means fs h req y Ac rho c); [apply QA; lia|exact Vs]. }
    apply (s_div_r fs h req rho v a c b r s E K N); auto. apply (IH s); auto. apply QA; lia.
Qed.

Lemma conds_inv ddt dlp l rs d : conditionals ddt fs dlp h req (fun v => Fin (y v)) l = Some rs -> denotes (rmap xsum (rseq rs)) d ->
  forall v, In v l -> exists r dv, conditional ddt fs dlp h req (fun v => Fin (y v)) v = Some r /\ denotes r dv.
Proof.
  revert rs d. induction l as [|a l IH]; intros rs d E Den v I; [destruct I|]. cbn [conditionals] in E.
  destruct (conditional _ _ _ _ _ _ a) as [r|] eqn:Ea; [|discriminate]. destruct (conditionals _ _ _ _ _ _ l) as [rs'|] eqn:El; [|discriminate]. injection E as <-.
  cbn [rseq] in Den. destruct r as [x|]; [|destruct Den]. cbn [bind] in Den. destruct (rseq rs') as [xs|] eqn:Es; [|destruct Den]. cbn [bind rmap xsum fold_right] in Den.
  fold (xsum xs) in Den.
  assert (X : exists dx, denotes (Val x) dx). { destruct x as [a0| | |]; [exists (exp a0); reflexivity| |exists 0; reflexivity|]; exfalso; refine (bad_den _ d _ Den); apply bad_l; [now left|now right]. }
  assert (Y : exists dy, denotes (rmap xsum (rseq rs')) dy).
  { rewrite Es. cbn [rmap bind]. change (exists dy, denotes (Val (xsum xs)) dy). destruct (xsum xs) as [a0| | |]; [exists (exp a0); reflexivity| |exists 0; reflexivity|]; exfalso; refine (bad_den _ d _ Den); apply bad_r; [now left|now right]. }
  destruct I as [<-|I]; [destruct X as [dx X]; eauto|]. destruct Y as [dy Y]. exact (IH rs' dy eq_refl Y v I).
Qed.
Lemma cond_smooth ddt dlp rho v b r d : (forall q, In q req -> sval rho q (y q)) -> In v req -> leads h req v b ->
  conditional ddt fs dlp h req (fun v => Fin (y v)) v = Some r -> denotes r d -> smooth fs h req rho v b.
Proof.
  intros Val V Ld E Den. unfold conditional in E. destruct (a_m (annotate (rv_dtype ddt h) fs (tp v))) as [m|] eqn:Em; [|discriminate]. injection E as <-.
  assert (M : means fs rho (tp v) (y v)) by (apply (top_means fs h req y Ac rho v); auto).
  pose proof (nested_exact _ _ rho _ _ m (y v) Em M d Den) as G.
  assert (B : mbase m = b). { destruct (accepted_chain _ _ _ _ Em) as [C _]. destruct (proj1 (leads_chain h req y Ac v b) Ld) as [C' _]. apply chain_occs in C, C'. congruence. }
  rewrite B in G. apply (regular_smooth rho v b Ld (y v)); auto.
Qed.
End Graph.

Lemma sys_sound ddt fs dlp pdf h req y base rho J ps r d : acyclic h -> NoDup req ->
  (forall v, In v req -> svalue fs h rho v (y v)) ->
  (forall v, In v req -> leads h req v (base v)) ->
  (forall v w, In v req -> In w req -> base v = base w -> v = w) ->
  (forall v d l, In v req -> nth_error h (base v) = Some (SRv d l) -> List.Forall (known h req) l) ->
  Forall2 (fun v p => draw_density fs h pdf rho (base v) p) req ps ->
  (forall v d l rs, In v req -> nth_error h (base v) = Some (SRv d l) -> Forall2 (svalue fs h rho) l rs ->
    denotes (dlp d (map Fin rs) (Fin (rho (base v)))) (pdf d rs (rho (base v)))) ->
  (forall i j, (i < length req)%nat -> (j < length req)%nat -> partial fs h rho (nth i req 0%nat) (base (nth j req 0%nat)) (J i j)) ->
  joint ddt fs dlp h req (fun v => Fin (y v)) = Some r -> denotes r d ->
  rdet (length req) J <> 0 /\ d = rprod ps / Rabs (rdet (length req) J).
Proof.
  intros Ac ND V Ld Inj Kn Den Dlp Pa Ej Dr.
  assert (Sm : forall v, In v req -> smooth fs h req rho v (base v) /\ (rv_dtype ddt h (base v) <> DInt \/ base v = v)).
  { intros v I. unfold joint in Ej. destruct (conditionals _ _ _ _ _ _ req) as [rs|] eqn:Ec; [|discriminate]. injection Ej as <-.
    destruct (conds_inv fs h req y ddt dlp req rs d Ec Dr v I) as (r & dv & E & D). split; [exact (cond_smooth fs h req y Ac ddt dlp rho v (base v) r dv V I (Ld v I) E D)|].
    destruct (proj1 (sys_accepted ddt fs dlp h req y v Ac)) as (b & Lb & Db); [rewrite E; discriminate|].
    assert (base v = b) as ->; [|exact Db]. destruct (proj1 (leads_chain h req y Ac v b) Lb) as [C _]. destruct (proj1 (leads_chain h req y Ac v (base v)) (Ld v I)) as [C' _].
    apply chain_occs in C, C'. congruence. }
  destruct (sys_joint ddt fs dlp pdf h req y base rho J ps Ac ND V Sm Inj Kn Den Dlp Pa) as (NZ & r' & E' & D'). rewrite Ej in E'. injection E' as <-.
  split; [exact NZ|exact (den_fun _ _ _ Dr D')].
Qed.
