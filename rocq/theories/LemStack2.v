(** Requested stacks: acceptance, density, counterexamples. *)
From Coq Require Import Reals Lra Lia List Arith Bool.
From Coquelicot Require Import Coquelicot.
From Verif Require Import XR XTac SpecDist ModelDist LemDist ModelVec SpecVec LemDisc ModelJoint LemJoint ModelTrans ModelNest SpecNest LemNest LemNest2 RMx ModelSys SpecSys LemSys LemSys2 LemSys3 ModelStack SpecStack LemStack.
Import ListNotations.
Open Scope nat_scope.

Lemma elem_accepted ddt fs h y qs a : acyclic h ->
  (a_m (annotate (rv_dtype ddt h) fs (u_node h (fun v => Fin (y v)) qs a)) <> None <->
   ~ In a (q_req qs) /\ exists b, leads h (q_req qs) a b /\ (rv_dtype ddt h b <> DInt \/ b = a)).
Proof.
  intros Ac. destruct (in_dec Nat.eq_dec a (q_req qs)) as [R|R].
  - split; [|tauto]. unfold u_node. destruct (length h); cbn [unfold]; [intros H; now destruct H|]. rewrite (proj2 (mem_In a _) R). intros H. now destruct H.
  - rewrite <- (sys_accepted ddt fs (fun _ _ _ => Raise) h (q_req qs) y a Ac). unfold conditional.
    destruct (le_lt_dec (length h) a) as [L|L].
    + apply nth_error_None in L. assert (E : a_m (annotate (rv_dtype ddt h) fs (u_node h (fun v => Fin (y v)) qs a)) = None).
      { unfold u_node. destruct (length h); cbn [unfold]; [reflexivity|]. rewrite (proj2 (mem_not a _) R). unfold expand. now rewrite L. }
      rewrite E. unfold top, expand. rewrite L. cbn. tauto.
    + unfold u_node. rewrite (unfold_top h (q_req qs) y Ac a R L). destruct (a_m _); [|tauto]. split; [intros _; split; [exact R|discriminate]|discriminate].
Qed.
Lemma stack_accepted ddt fs dlp h y rho qs l xs : acyclic h ->
  (stack_logprob ddt fs dlp h (fun v => Fin (y v)) rho qs l xs <> None <->
   forall a, In a l -> ~ In a (q_req qs) /\ exists b, leads h (q_req qs) a b /\ (rv_dtype ddt h b <> DInt \/ b = a)).
Proof.
  intros Ac. revert xs. induction l as [|a l IH]; intros xs; cbn [stack_logprob]; [split; [intros _ a []|discriminate]|].
  pose proof (elem_accepted ddt fs h y qs a Ac) as Q. specialize (IH (tl xs)). destruct (a_m _) as [m|].
  - assert (A : Some m <> None) by discriminate. apply Q in A. destruct (stack_logprob _ _ _ _ _ _ _ l _) as [rs|].
    + split; [|discriminate]. intros _ b [<-|I]; [exact A|]. revert b I. apply IH. discriminate.
    + split; [tauto|]. intros H. exfalso. apply (proj2 IH); [|reflexivity]. intros b B. apply H. now right.
  - split; [tauto|]. intros H. exfalso. apply (proj2 Q); [|reflexivity]. apply H. now left.
Qed.

Lemma nodup_parts {A} (a b : list A) : NoDup (a ++ b) -> NoDup b /\ forall z, In z a -> ~ In z b.
Proof.
  induction a as [|x a IH]; cbn; intros N; [split; [exact N|intros z []]|]. inversion N as [|? ? I N']; subst. destruct (IH N') as [Nb D]. split; [exact Nb|].
  intros z [<-|Z] B; [apply I, in_or_app; auto|now apply (D z)].
Qed.
Lemma leads_fun h req (y : nat -> R) v b c : acyclic h -> leads h req v b -> leads h req v c -> b = c.
Proof.
  intros Ac B C. apply (leads_chain h req y Ac) in B as [B _]. apply (leads_chain h req y Ac) in C as [C _]. apply chain_occs in B, C. congruence.
Qed.
Lemma stack_density ddt fs dlp pdf h qs y base rho (rho0 : nat -> xr) J ps : acyclic h -> NoDup (q_vars qs) ->
  (forall l xs, In (QStack l xs) qs -> xs = map (fun v => Fin (y v)) l) ->
  (forall v b, In v (q_vars qs) -> In b (q_elems qs) -> ~ needs h (q_req qs) v b) ->
  (forall v, In v (q_vars qs) -> svalue fs h rho v (y v)) ->
  (forall v, In v (q_vars qs) -> smooth fs h (q_vars qs) rho v (base v) /\ (rv_dtype ddt h (base v) <> DInt \/ base v = v)) ->
  (forall v w, In v (q_vars qs) -> In w (q_vars qs) -> base v = base w -> v = w) ->
  (forall v d l, In v (q_vars qs) -> nth_error h (base v) = Some (SRv d l) -> List.Forall (known h (q_vars qs)) l) ->
  Forall2 (fun v p => draw_density fs h pdf rho (base v) p) (q_vars qs) ps ->
  (forall v d l rs, In v (q_vars qs) -> nth_error h (base v) = Some (SRv d l) -> Forall2 (svalue fs h rho) l rs ->
    denotes (dlp d (map Fin rs) (Fin (rho (base v)))) (pdf d rs (rho (base v)))) ->
  (forall i j, i < length (q_vars qs) -> j < length (q_vars qs) -> partial fs h rho (nth i (q_vars qs) 0) (base (nth j (q_vars qs) 0)) (J i j)) ->
  rdet (length (q_vars qs)) J <> 0%R /\
  exists r, stack_joint ddt fs dlp h (fun v => Fin (y v)) rho0 qs = Some r /\ denotes r (rprod ps / Rabs (rdet (length (q_vars qs)) J)).
Proof.
  intros Ac ND Vs Sep Val Sm Inj Kn Den Dlp Pa.
  destruct (sys_joint ddt fs dlp pdf h (q_vars qs) y base rho J ps Ac ND Val Sm Inj Kn Den Dlp Pa) as (NZ & r & E & D). split; [exact NZ|]. exists r. split; [|exact D].
  rewrite <- E. apply joint_same; auto.
  - intros b B R. clear - ND B R. unfold q_vars, q_elems, q_req in *. induction qs as [|q l IH]; [destruct B|]. cbn in ND, B, R.
    apply in_app_or in B, R. apply nodup_parts in ND as (N2 & N3).
    assert (P1 : forall z, In z (flat_map (fun q => match q with QVar _ => [] | QStack l _ => l end) l) -> In z (flat_map (fun q => match q with QVar v => [v] | QStack l _ => l end) l)).
    { intros z Z. apply in_flat_map in Z as (q' & Q' & Z). apply in_flat_map. exists q'. split; [exact Q'|]. destruct q'; [destruct Z|exact Z]. }
    assert (P2 : forall z, In z (flat_map (fun q => match q with QVar v => [v] | QStack _ _ => [] end) l) -> In z (flat_map (fun q => match q with QVar v => [v] | QStack l _ => l end) l)).
    { intros z Z. apply in_flat_map in Z as (q' & Q' & Z). apply in_flat_map. exists q'. split; [exact Q'|]. destruct q'; [exact Z|destruct Z]. }
    destruct q as [v|m xs], B as [B|B], R as [R|R]; try (now destruct B); try (now destruct R); try (now apply IH).
    + apply (N3 b); [exact R|now apply P1].
    + apply (N3 b); [exact B|now apply P2].
  - intros v b d l V L Eb. apply (Kn v d l V). rewrite <- Eb. f_equal. apply (leads_fun h (q_vars qs) y v _ _ Ac); [|exact L]. eapply smooth_leads, Sm, V.
Qed.

(** stack([X, X]) *)
Definition st_h : list snode := [SCon (Fin 0); SCon (Fin 1); SRv 0 [0; 1]; SRv 0 [2; 1]].
Lemma st_acyclic : acyclic st_h.
Proof. intros v nd a E I. do 4 (destruct v as [|v]; [injection E as <-; cbn in I; repeat (destruct I as [<-|I]; [lia|]); destruct I|]). now destruct v. Qed.
Lemma pdf_pos m x : (0 < normal_pdf m 1 x)%R.
Proof. unfold normal_pdf. pose proof PI_RGT_0. pose proof (sqrt_lt_R0 (2 * PI) ltac:(lra)). apply Rmult_lt_0_compat; [apply Rinv_0_lt_compat; lra|apply exp_pos]. Qed.
Lemma two_sum a b p q : denotes a p -> denotes b q -> denotes (rmap xsum (rseq [a; b])) (p * q).
Proof.
  intros A B. destruct a as [a|]; [|destruct A]. destruct b as [b|]; [|destruct B]. cbn [rseq bind rmap xsum fold_right].
  replace (p * q)%R with (p * (q * exp 0))%R by (rewrite exp_0; ring). apply den_add; [exact A|]. apply den_add; [exact B|apply den_fin].
Qed.
Lemma one_sum a p : denotes a p -> denotes (rmap xsum (rseq [a])) p.
Proof.
  intros A. destruct a as [a|]; [|destruct A]. cbn [rseq bind rmap xsum fold_right].
  replace p with (p * exp 0)%R by (rewrite exp_0; ring). apply den_add; [exact A|apply den_fin].
Qed.
Lemma stack_equal : exists h l xs rho r d, acyclic h /\
  stack_joint (fun _ => DFloat) nfs nlp h (fun _ => NaN) rho [QStack l (map Fin xs)] = Some r /\ denotes r d /\ (0 < d)%R /\
  forall rho', ~ Forall2 (svalue nfs h rho') l xs.
Proof.
  exists st_h, [2; 2], [0%R; 1%R], (fun _ => NaN). do 2 eexists. split; [exact st_acyclic|]. split; [reflexivity|]. split; [apply one_sum, two_sum; apply normal_ok; lra|].
  split; [apply Rmult_lt_0_compat; apply pdf_pos|]. intros rho' F. inversion F as [|? ? ? ? A F1]; subst. inversion F1 as [|? ? ? ? B F2]; subst.
  pose proof (svalue_fun nfs st_h st_acyclic rho' 2 _ _ A B). lra.
Qed.
Lemma stack_dependent : exists h l xs rho, acyclic h /\ NoDup l /\ Forall2 (svalue nfs h rho) l xs /\
  (forall p q, Forall2 (draw_density nfs h (fun _ ps x => match ps with [m; s] => normal_pdf m s x | _ => 0%R end) rho) l [p; q] ->
   exists rho' r d, stack_joint (fun _ => DFloat) nfs nlp h (fun _ => NaN) rho' [QStack l (map Fin xs)] = Some r /\ denotes r d /\ d <> (p * q)%R).
Proof.
  exists st_h, [2; 3], [0%R; 0%R], (fun _ => 0%R). split; [exact st_acyclic|]. split; [repeat constructor; cbn; intuition lia|].
  split; [constructor; [exact (v_rv nfs st_h (fun _ => 0%R) 2 0 [0; 1] eq_refl)|]; constructor; [exact (v_rv nfs st_h (fun _ => 0%R) 3 0 [2; 1] eq_refl)|constructor]|].
  intros p q F. inversion F as [|? ? ? ? A F1]; subst. inversion F1 as [|? ? ? ? B F2]; subst.
  assert (p = normal_pdf 0 1 0) as ->.
  { destruct A as (d & ps & rs & E & G & ->). injection E as <- <-. inversion G as [|? m ? ? Hm G1]; subst. inversion G1 as [|? s ? ? Hs G2]; subst. inversion G2; subst.
    f_equal; [apply (svalue_fun nfs st_h st_acyclic (fun _ => 0%R) 0); [exact Hm|now apply v_con]|apply (svalue_fun nfs st_h st_acyclic (fun _ => 0%R) 1); [exact Hs|now apply v_con]]. }
  assert (q = normal_pdf 0 1 0) as ->.
  { destruct B as (d & ps & rs & E & G & ->). injection E as <- <-. inversion G as [|? m ? ? Hm G1]; subst. inversion G1 as [|? s ? ? Hs G2]; subst. inversion G2; subst.
    f_equal; [apply (svalue_fun nfs st_h st_acyclic (fun _ => 0%R) 2); [exact Hm|exact (v_rv nfs st_h (fun _ => 0%R) 2 0 [0; 1] eq_refl)]|apply (svalue_fun nfs st_h st_acyclic (fun _ => 0%R) 1); [exact Hs|now apply v_con]]. }
  exists (fun _ => Fin 1). do 2 eexists. split; [reflexivity|]. split; [apply one_sum, two_sum; apply normal_ok; lra|].
  intros E. apply Rmult_eq_reg_l in E; [|apply Rgt_not_eq, pdf_pos]. unfold normal_pdf in E. apply Rmult_eq_reg_l in E.
  - apply exp_inv in E. field_simplify in E. lra.
  - pose proof PI_RGT_0. pose proof (sqrt_lt_R0 (2 * PI) ltac:(lra)). apply Rinv_neq_0_compat. lra.
Qed.
