(** The same for stacks and for draws that stay in the graph. *)
From Coq Require Import Reals Lra Lia List Arith Bool.
From Coquelicot Require Import Coquelicot.
From Verif Require Import XR XTac SpecDist ModelDist LemDist ModelVec SpecVec LemDisc ModelJoint ModelTrans ModelNest SpecNest LemNest LemNest2 RMx ModelSys SpecSys LemSys LemSys2 LemSys3 LemSound ModelStack SpecStack LemStack LemStack2 LemSysGiven.
Import ListNotations.
Open Scope nat_scope.

Lemma elems_apart qs : NoDup (q_vars qs) -> forall b, In b (q_elems qs) -> ~ In b (q_req qs).
Proof.
  intros ND b B R. unfold q_vars, q_elems, q_req in *. induction qs as [|q l IH]; [destruct B|]. cbn in ND, B, R.
  apply in_app_or in B, R. apply nodup_parts in ND as (N2 & N3).
  assert (P1 : forall z, In z (flat_map (fun q => match q with QVar _ => [] | QStack l _ => l end) l) -> In z (flat_map (fun q => match q with QVar v => [v] | QStack l _ => l end) l)).
  { intros z Z. apply in_flat_map in Z as (q' & Q' & Z). apply in_flat_map. exists q'. split; [exact Q'|]. destruct q'; [destruct Z|exact Z]. }
  assert (P2 : forall z, In z (flat_map (fun q => match q with QVar v => [v] | QStack _ _ => [] end) l) -> In z (flat_map (fun q => match q with QVar v => [v] | QStack l _ => l end) l)).
  { intros z Z. apply in_flat_map in Z as (q' & Q' & Z). apply in_flat_map. exists q'. split; [exact Q'|]. destruct q'; [exact Z|destruct Z]. }
  destruct q as [v|m xs], B as [B|B], R as [R|R]; try (now destruct B); try (now destruct R); try (now apply IH).
  + apply (N3 b); [exact R|now apply P1].
  + apply (N3 b); [exact B|now apply P2].
Qed.
Lemma leads_h0 bs rho h req v b : acyclic h -> In b bs -> leads h req v b -> leads (h0 bs rho h) req v b.
Proof.
  intros Ac B H. pose proof (known_h0 bs rho h Ac req) as K0. pose proof (knowns_h0 bs rho h Ac req) as Ks.
  induction H as [v d ps E|v u a b E N H IH|v n l a r b E N H IH Kl Kr NE|v a c b E N H IH K|v a c b E K N H IH|v a c b E N H IH K|v a c b E K N H IH].
  1: exact (d_rv (h0 bs rho h) req v d ps (h0_base bs rho h v d ps B E)).
  all: assert (E0 := h0_det bs rho h v _ E ltac:(discriminate)); specialize (IH B).
  - exact (d_one _ req v u a b E0 N IH).
  - exact (d_many _ req v n l a r b E0 N IH (Ks _ Kl) (Ks _ Kr) NE).
  - exact (d_sub_l _ req v a c b E0 N IH (K0 _ K)).
  - exact (d_sub_r _ req v a c b E0 (K0 _ K) N IH).
  - exact (d_div_l _ req v a c b E0 N IH (K0 _ K)).
  - exact (d_div_r _ req v a c b E0 (K0 _ K) N IH).
Qed.

Lemma stack_sound ddt fs dlp pdf h qs y base rho (rho0 : nat -> xr) J ps r d : acyclic h -> NoDup (q_vars qs) ->
  (forall l xs, In (QStack l xs) qs -> xs = map (fun v => Fin (y v)) l) ->
  (forall v b, In v (q_vars qs) -> In b (q_elems qs) -> ~ needs h (q_req qs) v b) ->
  (forall v, In v (q_vars qs) -> svalue fs h rho v (y v)) ->
  (forall v, In v (q_vars qs) -> leads h (q_vars qs) v (base v)) ->
  (forall v w, In v (q_vars qs) -> In w (q_vars qs) -> base v = base w -> v = w) ->
  (forall v d l, In v (q_vars qs) -> nth_error h (base v) = Some (SRv d l) -> List.Forall (known h (q_vars qs)) l) ->
  Forall2 (fun v p => draw_density fs h pdf rho (base v) p) (q_vars qs) ps ->
  (forall v d l rs, In v (q_vars qs) -> nth_error h (base v) = Some (SRv d l) -> Forall2 (svalue fs h rho) l rs ->
    denotes (dlp d (map Fin rs) (Fin (rho (base v)))) (pdf d rs (rho (base v)))) ->
  (forall i j, i < length (q_vars qs) -> j < length (q_vars qs) -> partial fs h rho (nth i (q_vars qs) 0) (base (nth j (q_vars qs) 0)) (J i j)) ->
  stack_joint ddt fs dlp h (fun v => Fin (y v)) rho0 qs = Some r -> denotes r d ->
  rdet (length (q_vars qs)) J <> 0%R /\ d = (rprod ps / Rabs (rdet (length (q_vars qs)) J))%R.
Proof.
  intros Ac ND Vs Sep Val Ld Inj Kn Den Dlp Pa Ej Dr.
  apply (sys_sound ddt fs dlp pdf h (q_vars qs) y base rho J ps r d Ac ND Val Ld Inj Kn Den Dlp Pa); [|exact Dr].
  rewrite <- Ej. symmetry. apply joint_same; auto.
  - intros b B R. exact (elems_apart qs ND b B R).
  - intros v b d0 l V L Eb. apply (Kn v d0 l V). rewrite <- Eb. f_equal. apply (leads_fun h (q_vars qs) y v _ _ Ac); auto.
Qed.

Lemma given_sound ddt fs dlp pdf h qs y base rho (rho0 : nat -> xr) J ps r d : acyclic h -> NoDup (q_vars qs) ->
  (forall l xs, In (QStack l xs) qs -> xs = map (fun v => Fin (y v)) l) ->
  (forall v b, In v (q_vars qs) -> In b (q_elems qs) -> ~ needs h (q_req qs) v b) ->
  (forall v, In v (q_vars qs) -> svalue fs h rho v (y v)) ->
  (forall v, In v (q_vars qs) -> leads h (q_vars qs) v (base v)) ->
  (forall v w, In v (q_vars qs) -> In w (q_vars qs) -> base v = base w -> v = w) ->
  (forall v w, In v (q_vars qs) -> In w (q_vars qs) -> needs h (q_vars qs) (base v) (base w) -> In (base w) (q_vars qs)) ->
  (forall i, ~ In i (map base (q_vars qs)) -> rho0 i = Fin (rho i)) ->
  Forall2 (fun v p => draw_density fs h pdf rho (base v) p) (q_vars qs) ps ->
  (forall v d l rs, In v (q_vars qs) -> nth_error h (base v) = Some (SRv d l) -> Forall2 (svalue fs h rho) l rs ->
    denotes (dlp d (map Fin rs) (Fin (rho (base v)))) (pdf d rs (rho (base v)))) ->
  (forall i j, i < length (q_vars qs) -> j < length (q_vars qs) -> partial fs h rho (nth i (q_vars qs) 0) (base (nth j (q_vars qs) 0)) (J i j)) ->
  stack_joint ddt fs dlp h (fun v => Fin (y v)) rho0 qs = Some r -> denotes r d ->
  rdet (length (q_vars qs)) J <> 0%R /\ d = (rprod ps / Rabs (rdet (length (q_vars qs)) J))%R.
Proof.
  intros Ac ND Vs Sep Val Lead Inj Own Ag Den Dlp Pa Ej Dr.
  set (bs := map base (q_vars qs)). assert (Bs : forall v, In v (q_vars qs) -> In (base v) bs) by (intros v V; now apply in_map).
  assert (Oall : forall v i, In v (q_vars qs) -> In i (occs (top h (q_req qs) (fun v => Fin (y v)) v)) -> In i bs).
  { intros v i V I. rewrite (top_same h qs (fun v => Fin (y v)) v) in I by (intros b B; now apply Sep).
    destruct (proj1 (leads_chain h (q_vars qs) y Ac v (base v)) (Lead v V)) as [C _]. rewrite (chain_occs _ _ C) in I. destruct I as [<-|[]]. auto. }
  rewrite <- (joint_h0 ddt fs dlp h (fun v => Fin (y v)) rho rho0 qs bs) in Ej; [|exact Ag| |].
  - apply (stack_sound ddt fs dlp pdf (h0 bs rho h) qs y base rho rho0 J ps r d); auto.
    + now apply h0_acyclic.
    + intros v b V B N. apply (Sep v b V B), (needs_h0 bs rho), N.
    + intros v V. apply sval_h0; auto. apply agrees_refl.
    + intros v V. apply leads_h0; auto.
    + intros v d0 l V E. apply h0_base_inv in E as [_ E]. rewrite List.Forall_forall. intros p P. destruct (in_range h Ac _ _ p E P) as [L1 L2].
      apply (known_occs (h0 bs rho h) (q_vars qs) y (h0_acyclic bs rho h Ac) (length h) p); [lia|rewrite h0_length; lia|]. rewrite unfold_subst.
      destruct (occs (subst bs rho (unfold h (q_vars qs) (fun v => Fin (y v)) (length h) p))) as [|i t] eqn:Eo; [reflexivity|exfalso].
      assert (I : In i (occs (subst bs rho (unfold h (q_vars qs) (fun v => Fin (y v)) (length h) p)))) by (rewrite Eo; now left).
      apply subst_occs in I as [I B]. unfold bs in B. apply in_map_iff in B as (w & <- & W).
      pose proof (unf_occs h (map QVar (q_vars qs)) (fun v => Fin (y v)) (length h) p (base w)) as U. rewrite q_req_vars in U. apply U in I as (Np & [Q|[N R]]).
      * apply Np. rewrite <- Q. apply (Own v w V W). rewrite Q. now apply (n_in h _ (base v) (SRv d0 l)).
      * apply R, (Own v w V W). now apply (n_step h _ (base v) (SRv d0 l) p).
    + clear - Den Bs Ac. assert (G : forall l ps, incl l (q_vars qs) -> Forall2 (fun v p => draw_density fs h pdf rho (base v) p) l ps -> Forall2 (fun v p => draw_density fs (h0 bs rho h) pdf rho (base v) p) l ps).
      { intros l ps' I F. induction F as [|v p l ps' D F IH]; constructor; [apply draw_h0; auto; apply Bs, I; now left|]. apply IH. intros x X. apply I. now right. }
      apply G; [apply incl_refl|exact Den].
    + intros v d0 l rs V E F. apply h0_base_inv in E as [_ E]. apply (Dlp v d0 l rs V E). revert F. apply Forall2_imp2. intros a s _. apply h0_sval; auto. apply agrees_refl.
    + intros i j Li Lj. apply partial_h0; auto. apply Bs, nth_In, Lj.
  - intros v i V. apply Oall, q_vars_in. now left.
  - intros a i A I. destruct (in_dec Nat.eq_dec a (q_req qs)) as [R|R].
    + unfold u_node in I. destruct (length h); cbn [unfold] in I; [destruct I|]. rewrite (proj2 (mem_In a _) R) in I. destruct I.
    + assert (V : In a (q_vars qs)) by (apply q_vars_in; auto). apply (Oall a i V). unfold u_node in I. rewrite (unfold_top h (q_req qs) y Ac a R) in I; [exact I|].
      apply (leads_chain h (q_vars qs) y Ac a (base a)), Lead, V.
Qed.
Lemma sound_vars ddt fs dlp pdf h req y base rho (rho0 : nat -> xr) J ps r d : acyclic h -> NoDup req ->
  (forall v, In v req -> svalue fs h rho v (y v)) ->
  (forall v, In v req -> leads h req v (base v)) ->
  (forall v w, In v req -> In w req -> base v = base w -> v = w) ->
  (forall v w, In v req -> In w req -> needs h req (base v) (base w) -> In (base w) req) ->
  (forall i, ~ In i (map base req) -> rho0 i = Fin (rho i)) ->
  Forall2 (fun v p => draw_density fs h pdf rho (base v) p) req ps ->
  (forall v d l rs, In v req -> nth_error h (base v) = Some (SRv d l) -> Forall2 (svalue fs h rho) l rs ->
    denotes (dlp d (map Fin rs) (Fin (rho (base v)))) (pdf d rs (rho (base v)))) ->
  (forall i j, i < length req -> j < length req -> partial fs h rho (nth i req 0) (base (nth j req 0)) (J i j)) ->
  stack_joint ddt fs dlp h (fun v => Fin (y v)) rho0 (map QVar req) = Some r -> denotes r d ->
  rdet (length req) J <> 0%R /\ d = (rprod ps / Rabs (rdet (length req) J))%R.
Proof.
  intros Ac ND Val Ld Inj Own Ag Den Dlp Pa Ej Dr.
  pose proof (given_sound ddt fs dlp pdf h (map QVar req) y base rho rho0 J ps r d) as G. rewrite !q_vars_vars, q_elems_vars in G. apply G; auto.
  intros l xs I. apply in_map_iff in I as (v & E & _). discriminate.
Qed.
