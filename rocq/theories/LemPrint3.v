(** Lemmas on printed models, second part: whole print-outs, names, lines. *)
From Coq Require Import List Arith Bool String Ascii Lia DecimalString.
From Verif Require Import XR ModelVec ModelPrint ModelPrint2 SpecPrint LemPrint SpecPrint2 LemPrint2.
Import ListNotations.
Open Scope nat_scope.
Open Scope list_scope.

Section G.
  Variables (latex : bool) (tidy : string -> string) (name : nat -> option string) (variables : list nat) (g : nat -> pnode).
  Hypothesis A : acyclic g.
  Notation process := (process latex tidy name variables g).
  Notation naming := (naming name variables).
  Notation print_graph := (print_graph latex tidy name variables g).
  Definition start : pst := {| names := initial; shapes := []; defs := [] |}.
  Lemma start_inv : inv latex tidy g (fun _ => False) start.
  Proof.
    constructor; cbn [start defs shapes].
    - intros v (t & H). discriminate.
    - split; [constructor|intros ? []].
    - split; [constructor|intros ? []].
    - intros [|? ?] d b H; discriminate.
  Qed.
  Lemma graph_ok outs ts s : print_graph outs = Val (ts, s) ->
    inv latex tidy g (fun _ => False) s /\ (forall v, mem v s <-> shown g outs v) /\ ts = map (ftext s) outs.
  Proof.
    intros E. assert (H : forall v s0 t s', In v outs -> inv latex tidy g (fun _ => False) s0 -> process (S v) v s0 = Val (t, s') -> inv latex tidy g (fun _ => False) s' /\ ext (shown g outs) s0 s' /\ known v s' = Some t).
    { intros v s0 t s' Hv I0 E0. destruct (process_ok latex tidy name variables g A (S v) v s0 t s' (fun _ => False)) as (P1 & P2 & P3); auto.
      { intros x []. } split; [exact P1|]. split; [|exact P3]. eapply ext_weak; [|exact P2]. intros w O. exists v. auto. }
    destruct (in_order_ok (fun v => process (S v) v) (inv latex tidy g (fun _ => False)) (shown g outs) outs H start ts s start_inv E) as (I & X & M & T).
    split; [exact I|]. split; [|exact T]. intros v. split.
    - intros Mv. destruct (e_new _ _ _ X v Mv) as [(t & C)|O]; [discriminate|exact O].
    - intros (u & Hu & O). refine (proj1 (closed latex tidy g A (fun _ => False) s u v I O (M u Hu) _)). intros x [].
  Qed.
  Lemma defs_ok outs ts s : print_graph outs = Val (ts, s) -> NoDup (map fst (defs s)) /\ (forall v, In v (map fst (defs s)) <-> shown g outs v /\ is_rv (g v)) /\
    forall a d b, defs s = a ++ d :: b -> forall u w, In u (inputs_of (g (fst d))) -> occurs g u w -> is_rv (g w) -> In w (map fst a).
  Proof.
    intros E. destruct (graph_ok outs ts s E) as (I & M & _). split; [apply (i_defs _ _ _ _ _ I)|]. split; [|apply (i_order _ _ _ _ _ I)]. intros v. split.
    - intros H. apply (i_defs _ _ _ _ _ I) in H as [H1 H2]. split; [now apply M|exact H1].
    - intros [H R]. apply M in H. destruct (i_complete _ _ _ _ _ I v H) as [_ C]; [easy|]. destruct (g v); try contradiction. destruct C as (ln & C & _). apply in_map_iff. now exists (v, ln).
  Qed.
  Lemma shapes_ok outs ts s : print_graph outs = Val (ts, s) -> NoDup (map fst (shapes s)) /\ (forall v, In v (map fst (shapes s)) <-> shown g outs v /\ is_named (g v)).
  Proof.
    intros E. destruct (graph_ok outs ts s E) as (I & M & _). split; [apply (i_shapes _ _ _ _ _ I)|]. intros v. split.
    - intros H. apply (i_shapes _ _ _ _ _ I) in H as [H1 H2]. split; [now apply M|exact H1].
    - intros [H R]. apply M in H. destruct (i_complete _ _ _ _ _ I v H) as [_ C]; [easy|]. destruct (g v); try contradiction. apply in_map_iff. eexists. split; [|exact C]. reflexivity.
  Qed.
  (** ** Names *)
  Definition lett (v : nat) : bool := match g v with PNamed _ _ | PRv _ _ _ _ _ => anon name v | _ => false end.
  Definition kinded (v : nat) : Prop := is_rv (g v) \/ is_named (g v).
  Lemma lett_iff v : lett v = true <-> lettered g name v.
  Proof. unfold lett, lettered. rewrite <- anon_iff. destruct (g v); cbn; intuition discriminate. Qed.
  Definition handed (m : list (nat * string)) : list string := map snd (filter (fun p => lett (fst p)) (rev m)).
  Lemma handed_cons v n m : handed ((v, n) :: m) = if lett v then handed m ++ [n] else handed m.
  Proof. unfold handed. cbn [rev]. rewrite filter_app, map_app. cbn. destruct (lett v); cbn; [easy|apply app_nil_r]. Qed.
  Notation avail0 := (avail0 name variables).
  Notation curr := (curr name variables).
  Definition NInv (s : pstate) : Prop :=
    avail0 = handed (memo s) ++ curr s /\ NoDup (map fst (memo s)) /\ forall v n, In (v, n) (memo s) -> kinded v -> anon name v = false -> name v = Some n.
  Lemma naming_step v s n s' : kinded v -> (anon name v = false -> In v variables) -> known v s = None -> NInv (names s) -> naming v s = Val (n, s') -> NInv (names s').
  Proof.
    intros Kd G K (H1 & N & U) E. unfold ModelPrint2.naming in E. destruct (process_variable_name _ _ _ _) as [[k ps]|] eqn:P; [|discriminate]. cbn in E. injection E as <- <-. cbn [names].
    unfold process_variable_name in P. fold avail0 in P. change (match available (names s) with Some a => a | None => avail0 end) with (curr (names s)) in P. unfold known in K. rewrite K in P. cbv zeta in P.
    destruct (user_name name v) as [m|] eqn:Un.
    - injection P as <- <-. assert (Av : anon name v = false) by (unfold anon; now rewrite Un). assert (Lv : lett v = false) by (unfold lett; rewrite Av; now destruct (g v)).
      assert (T : ~ In m (curr (names s))).
      { intros I. assert (J : In m avail0) by (rewrite H1; apply in_or_app; now right). apply avail0_in in J as [_ J]. apply J. exists v. split; [now apply G|now apply named_iff]. }
      unfold NInv. cbn [memo]. unfold LemPrint.curr at 1. cbn [available]. rewrite pop_id by exact T. rewrite handed_cons, Lv. split; [exact H1|]. split; [cbn; constructor; [now apply lookup_none|exact N]|].
      intros u x [H|H] Ku Au; [injection H as <- <-; now apply named_iff|now apply U].
    - destruct (curr (names s)) as [|k0 rest] eqn:C; [discriminate|]. injection P as <- <-. assert (Av : anon name v = true) by (unfold anon; now rewrite Un).
      assert (Lv : lett v = true) by (unfold lett; destruct Kd as [Kd|Kd]; destruct (g v); easy).
      unfold NInv. cbn [memo]. unfold LemPrint.curr at 1. cbn [available]. rewrite handed_cons, Lv, <- app_assoc. split; [exact H1|]. split; [cbn; constructor; [now apply lookup_none|exact N]|].
      intros u x [H|H] Ku Au; [injection H as <- <-; congruence|now apply U].
  Qed.
  Lemma remember_step v t s : ~ kinded v -> known v s = None -> NInv (names s) -> NInv (names (remember v t s)).
  Proof.
    intros Kd K (H1 & N & U). unfold NInv. cbn [remember names memo]. assert (Lv : lett v = false) by (unfold lett, kinded in *; destruct (g v); cbn in Kd; tauto). rewrite handed_cons, Lv.
    split; [exact H1|]. split; [cbn; constructor; [now apply lookup_none|exact N]|]. intros u x [H|H] Ku Au; [injection H as <- <-; contradiction|now apply U].
  Qed.
  Lemma in_order_pres (f : nat -> pst -> res (string * pst)) (P : pst -> Prop) l :
    (forall v s t s', In v l -> P s -> f v s = Val (t, s') -> P s') -> forall s ts s', P s -> in_order f l s = Val (ts, s') -> P s'.
  Proof.
    induction l as [|v l IH]; intros H s ts s' Ps E; cbn [in_order] in E; [now injection E as <- <-|].
    destruct (f v s) as [[t s1]|] eqn:E1; [|discriminate]. cbn [bind] in E. destruct (in_order f l s1) as [[ts2 s2]|] eqn:E2; [|discriminate]. cbn [bind] in E. injection E as <- <-.
    eapply IH; [|eapply H; [left; reflexivity|exact Ps|exact E1]|exact E2]. intros; eapply H; eauto. now right.
  Qed.
  Lemma process_names : forall fuel v s t s', (forall w, occurs g v w -> kinded w -> anon name w = false -> In w variables) ->
    NInv (names s) -> process fuel v s = Val (t, s') -> NInv (names s').
  Proof.
    induction fuel as [|fuel IH]; intros v s t s' V I E; cbn [ModelPrint2.process] in E; destruct (known v s) as [t0|] eqn:K; try discriminate.
    1,2: now injection E as <- <-.
    assert (SUB : forall l s ts s', (forall u, In u l -> In u (inputs_of (g v))) -> NInv (names s) -> in_order (process fuel) l s = Val (ts, s') -> NInv (names s')).
    { intros l s0 ts s1 HL HI HE. refine (in_order_pres (process fuel) (fun s => NInv (names s)) l _ s0 ts s1 HI HE). intros u s2 t2 s3 Hu H2 H3. eapply IH; [|exact H2|exact H3].
      intros w O. apply V. eapply occurs_in; eauto. }
    assert (V0 := V v (occurs_self g v)). unfold kinded in V0. destruct (g v) as [c|k dims|f l|op pp k dims l] eqn:G; cbn [inputs_of is_rv is_named] in *.
    - injection E as <- <-. apply remember_step; auto. unfold kinded. rewrite G. cbn. tauto.
    - destruct (naming v s) as [[n s1]|] eqn:N; [|discriminate]. cbn [bind] in E. injection E as <- <-. cbn [names]. eapply naming_step; eauto. unfold kinded. rewrite G. now right.
    - destruct (in_order (process fuel) l s) as [[ts s1]|] eqn:N; [|discriminate]. cbn [bind] in E. cbv zeta in E. injection E as <- <-. apply remember_step; [unfold kinded; rewrite G; cbn; tauto| |eapply SUB; eauto].
      destruct (known v s1) as [t1|] eqn:K1; [|reflexivity]. exfalso.
      assert (Q : forall fuel l s ts s', (forall u, In u l -> u < v) -> known v s = None -> in_order (process fuel) l s = Val (ts, s') -> known v s' = None).
      { clear - A. induction fuel as [|fuel IH]; intros l s ts s' HL HK HE; refine (in_order_pres _ (fun s => known v s = None) l _ s ts s' HK HE); intros u s2 t2 s3 Hu H2 H3; cbn [ModelPrint2.process] in H3;
          destruct (known u s2) eqn:Ku; try discriminate; try (now injection H3 as <- <-).
        assert (Nu : u <> v) by (apply HL in Hu; lia). assert (RM : forall t s0, known v (remember u t s0) = known v s0) by (intros; unfold known; cbn [remember names memo]; rewrite lookup_cons; destruct (Nat.eqb_spec u v); [congruence|reflexivity]).
        assert (SUBv : forall l0, inputs_of (g u) = l0 -> forall i, In i l0 -> i < v) by (intros l0 <- i Hi; apply A in Hi; apply HL in Hu; lia).
        destruct (g u) as [c|k dims|f' l'|op pp k dims l'] eqn:Gu; cbn [inputs_of] in SUBv.
        - injection H3 as <- <-. now rewrite RM.
        - destruct (naming u s2) as [[n s4]|] eqn:N; [|discriminate]. cbn [bind] in H3. injection H3 as <- <-. destruct (naming_ok _ _ u s2 n s4 Ku N) as (_ & Ko & _). change (known v s4 = None). now rewrite Ko by congruence.
        - destruct (in_order (process fuel) l' s2) as [[ts5 s5]|] eqn:N; [|discriminate]. cbn [bind] in H3. cbv zeta in H3. injection H3 as <- <-. rewrite RM. eapply IH; [|exact H2|exact N]. now apply SUBv.
        - destruct (naming u s2) as [[n s4]|] eqn:N; [|discriminate]. cbn [bind] in H3. destruct (naming_ok _ _ u s2 n s4 Ku N) as (_ & Ko & _).
          destruct (in_order (process fuel) l' s4) as [[ts5 s5]|] eqn:N5; [|discriminate]. cbn [bind] in H3. destruct (in_order (process fuel) l' s5) as [[ts6 s6]|] eqn:N6; [|discriminate]. cbn [bind] in H3.
          destruct (dist_line _ _ _ _ _ _) as [ln|]; [|discriminate]. cbn [bind] in H3. injection H3 as <- <-. change (known v s6 = None). eapply IH; [now apply SUBv| |exact N6]. eapply IH; [now apply SUBv| |exact N5]. now rewrite Ko by congruence. }
      rewrite (Q fuel l s ts s1) in K1; [discriminate| |exact K|exact N]. intros u Hu. apply A. rewrite G. exact Hu.
    - destruct (naming v s) as [[n s1]|] eqn:N; [|discriminate]. cbn [bind] in E. assert (I1 : NInv (names s1)) by (eapply naming_step; eauto; unfold kinded; rewrite G; now left).
      destruct (in_order (process fuel) l s1) as [[ts1 s2]|] eqn:N1; [|discriminate]. cbn [bind] in E. destruct (in_order (process fuel) l s2) as [[ts s3]|] eqn:N2; [|discriminate]. cbn [bind] in E.
      destruct (dist_line latex n op _ k dims) as [line|] eqn:DL; [|discriminate]. cbn [bind] in E. injection E as <- <-. cbn [names]. eapply SUB; [|eapply SUB; [|exact I1|exact N1]|exact N2]; auto.
  Qed.
  Lemma start_names : NInv (names start).
  Proof. split; [reflexivity|]. split; [constructor|intros ? ? []]. Qed.
  Lemma graph_names outs ts s : (forall v, shown g outs v -> kinded v -> anon name v = false -> In v variables) -> print_graph outs = Val (ts, s) -> NInv (names s).
  Proof.
    intros V E. refine (in_order_pres (fun v => process (S v) v) (fun s => NInv (names s)) outs _ start ts s start_names E). intros v s2 t2 s3 Hv H2 H3. eapply process_names; [|exact H2|exact H3].
    intros w O. apply V. now exists v.
  Qed.
  Lemma nodup_snd (l : list (nat * string)) v w t : NoDup (map snd l) -> In (v, t) l -> In (w, t) l -> v = w.
  Proof.
    induction l as [|[u x] l IH]; intros N H1 H2; [destruct H1|]. cbn in N. inversion N as [|? ? Nx Nl]; subst. destruct H1 as [H1|H1], H2 as [H2|H2].
    - congruence.
    - injection H1 as -> ->. exfalso. apply Nx. apply in_map_iff. now exists (w, t).
    - injection H2 as -> ->. exfalso. apply Nx. apply in_map_iff. now exists (v, t).
    - auto.
  Qed.
  Lemma names_spec s v t : NInv (names s) -> known v s = Some t -> kinded v ->
    (~ unnamed name v -> name v = Some t) /\ (unnamed name v -> free_letter name variables t) /\ (unnamed name v -> forall w, known w s = Some t -> lettered g name w -> v = w).
  Proof.
    intros (H1 & N & U) K Kd. unfold known in K. pose proof (lookup_in _ _ _ K) as Iv. assert (ND : NoDup (handed (memo (names s)))) by (apply (nodup_app_l _ (curr (names s))); rewrite <- H1; apply avail0_nodup).
    assert (IN : forall u x, In (u, x) (memo (names s)) -> lett u = true -> In (u, x) (filter (fun p => lett (fst p)) (rev (memo (names s))))) by (intros u x Hu Lu; apply filter_In; split; [now rewrite <- in_rev|exact Lu]).
    split; [|split].
    - intros Nu. apply (U v t Iv Kd). destruct (anon name v) eqn:E; [exfalso; apply Nu, anon_iff, E|reflexivity].
    - intros Un. assert (Lv : lett v = true) by (apply lett_iff; now split). apply (avail0_in name variables). rewrite H1. apply in_or_app. left. unfold handed. apply in_map_iff. exists (v, t). split; [reflexivity|now apply IN].
    - intros Un w Kw Lw. apply lett_iff in Lw. assert (Lv : lett v = true) by (apply lett_iff; now split). refine (nodup_snd _ v w t ND _ _); apply IN; auto. now apply lookup_in.
  Qed.
  Lemma texts_ok outs ts s : print_graph outs = Val (ts, s) -> exists text, ts = map text outs /\ (forall v, shown g outs v -> reads g text v) /\
    (forall v, shown g outs v -> match g v with
       | PNamed k dims => In (v, shape_info latex (text v) k dims) (shapes s)
       | PRv op pp k dims l => exists line, In (v, line) (defs s) /\ dist_line latex (text v) op (map tidy (mapi pp 0 (map text l))) k dims = Val line
       | _ => True end) /\
    ((forall v, shown g outs v -> is_rv (g v) \/ is_named (g v) -> ~ unnamed name v -> In v variables) -> forall v, shown g outs v -> is_rv (g v) \/ is_named (g v) ->
       (~ unnamed name v -> name v = Some (text v)) /\ (unnamed name v -> free_letter name variables (text v)) /\
       (unnamed name v -> forall w, shown g outs w -> is_rv (g w) \/ is_named (g w) -> text v = text w -> v = w)).
  Proof.
    intros E. destruct (graph_ok outs ts s E) as (I & M & T). exists (ftext s). split; [exact T|].
    assert (KT : forall v, shown g outs v -> known v s = Some (ftext s v)) by (intros v Hv; apply M in Hv; destruct Hv as (t & Hv); unfold ftext; now rewrite Hv).
    assert (CC : forall v, shown g outs v -> complete latex tidy g s v) by (intros v Hv; apply (i_complete _ _ _ _ _ I); [now apply M|easy]). split; [|split].
    - intros v Hv. unfold reads. destruct (CC v Hv) as [_ C]. specialize (KT v Hv). destruct (g v); auto; rewrite KT in C; now injection C.
    - intros v Hv. destruct (CC v Hv) as [_ C]. destruct (g v); auto.
    - intros V v Hv Kv. assert (NI : NInv (names s)).
      { apply (graph_names outs ts); [|exact E]. intros u Hu Ku Au. apply V; auto. intros C. apply anon_iff in C. congruence. }
      destruct (names_spec s v (ftext s v) NI (KT v Hv) Kv) as (S1 & S2 & S3). split; [exact S1|]. split; [exact S2|]. intros Un w Hw Kw Q.
      destruct (anon name w) eqn:Aw; [apply anon_iff in Aw; apply S3; [exact Un|rewrite Q; now apply KT|now split]|].
      exfalso. assert (Nw : ~ unnamed name w) by (intros C; apply anon_iff in C; congruence). destruct (names_spec s w (ftext s w) NI (KT w Hw) Kw) as (W1 & _ & _).
      destruct (S2 Un) as [_ F]. apply F. exists w. split; [now apply V|]. rewrite Q. now apply W1.
  Qed.
  (** ** Printing succeeds *)
  Lemma process_within (R : nat -> Prop) : (forall v u, R v -> In u (inputs_of (g v)) -> R u) -> forall fuel v s t s', R v -> (forall u, mem u s -> R u) -> process fuel v s = Val (t, s') -> forall u, mem u s' -> R u.
  Proof.
    intros Cl. induction fuel as [|fuel IH]; intros v s t s' Rv Rs E; cbn [ModelPrint2.process] in E; destruct (known v s) as [t0|] eqn:K; try discriminate.
    1,2: now injection E as <- <-.
    assert (SUB : forall l s ts s', (forall u, In u l -> R u) -> (forall u, mem u s -> R u) -> in_order (process fuel) l s = Val (ts, s') -> forall u, mem u s' -> R u).
    { intros l s0 ts s1 HL HI HE. refine (in_order_pres (process fuel) (fun s => forall u, mem u s -> R u) l _ s0 ts s1 HI HE). intros u s2 t2 s3 Hu H2 H3. exact (IH u s2 t2 s3 (HL u Hu) H2 H3). }
    assert (RM : forall t s0, (forall u, mem u s0 -> R u) -> forall u, mem u (remember v t s0) -> R u).
    { intros t1 s0 H0 u (x & Hu). unfold known in Hu. cbn [remember names memo] in Hu. rewrite lookup_cons in Hu. destruct (Nat.eqb_spec v u) as [<-|]; [exact Rv|]. apply H0. now exists x. }
    assert (NM : forall n s1, naming v s = Val (n, s1) -> forall u, mem u s1 -> R u).
    { intros n s1 N u (x & Hu). destruct (naming_ok _ _ v s n s1 K N) as (_ & Ko & _). destruct (Nat.eq_dec u v) as [->|Nu]; [exact Rv|]. apply Rs. exists x. now rewrite <- Ko. }
    pose proof (fun u => Cl v u Rv) as Ci. destruct (g v) as [c|k dims|f l|op pp k dims l]; cbn [inputs_of] in Ci.
    - injection E as <- <-. now apply RM.
    - destruct (naming v s) as [[n s1]|] eqn:N; [|discriminate]. cbn [bind] in E. injection E as <- <-. intros u. exact (NM n s1 eq_refl u).
    - destruct (in_order (process fuel) l s) as [[ts s1]|] eqn:N; [|discriminate]. cbn [bind] in E. cbv zeta in E. injection E as <- <-. apply RM. eapply SUB; eauto.
    - destruct (naming v s) as [[n s1]|] eqn:N; [|discriminate]. cbn [bind] in E.
      destruct (in_order (process fuel) l s1) as [[ts1 s2]|] eqn:N1; [|discriminate]. cbn [bind] in E. destruct (in_order (process fuel) l s2) as [[ts s3]|] eqn:N2; [|discriminate]. cbn [bind] in E.
      destruct (dist_line latex n op _ k dims) as [line|]; [|discriminate]. cbn [bind] in E. injection E as <- <-. eapply (SUB l s2 ts s3); auto. eapply (SUB l s1 ts1 s2); eauto.
  Qed.
  Lemma naming_total (R : nat -> Prop) v s : kinded v -> R v -> (anon name v = false -> In v variables) -> (forall l, NoDup l -> (forall u, In u l -> R u /\ lettered g name u) -> List.length l <= List.length avail0) ->
    (forall u, mem u s -> R u) -> NInv (names s) -> known v s = None -> exists r, naming v s = Val r.
  Proof.
    intros Kd Rv V Bd Rs (H1 & N & U) K. unfold ModelPrint2.naming, process_variable_name. fold avail0. change (match available (names s) with Some a => a | None => avail0 end) with (curr (names s)).
    pose proof K as K'. unfold known in K'. rewrite K'. cbv zeta. destruct (user_name name v) as [m|] eqn:Un; [eexists; reflexivity|]. destruct (curr (names s)) as [|k rest] eqn:C; [|eexists; reflexivity]. exfalso.
    assert (Lv : lett v = true) by (unfold lett, anon; rewrite Un; destruct Kd as [Kd|Kd]; destruct (g v); easy).
    set (l := map fst (filter (fun p => lett (fst p)) (rev (memo (names s))))). assert (L : List.length l = List.length avail0) by (rewrite H1, app_nil_r; unfold l, handed; now rewrite !map_length).
    assert (Nl : NoDup l).
    { unfold l. apply NoDup_rev in N. rewrite <- map_rev in N. revert N. generalize (rev (memo (names s))). intros m N. induction m as [|[u x] m IH]; [constructor|]. cbn in N. inversion N as [|? ? Nx Nm]; subst. cbn. destruct (lett u); [|auto]. cbn. constructor; [|auto].
      intros I. apply Nx. apply in_map_iff in I as (p & <- & I). apply filter_In in I as [I _]. now apply in_map. }
    assert (Il : forall u, In u l -> (R u /\ lettered g name u) /\ mem u s).
    { intros u I. unfold l in I. apply in_map_iff in I as ([u' x] & Q & I). cbn in Q. subst u'. apply filter_In in I as [I Lu]. cbn in Lu. apply in_rev in I.
      assert (Mu : mem u s). { unfold mem, known. destruct (lookup u (memo (names s))) eqn:Q; [eauto|]. exfalso. apply lookup_none in Q. apply Q. apply in_map_iff. now exists (u, x). }
      split; [split; [now apply Rs|now apply lett_iff]|exact Mu]. }
    specialize (Bd (v :: l)). cbn [List.length] in Bd. rewrite L in Bd. enough (S (List.length avail0) <= List.length avail0) by lia. apply Bd.
    - constructor; [|exact Nl]. intros I. destruct (Il v I) as (_ & t & Q). congruence.
    - intros u [<-|I]; [split; [exact Rv|now apply lett_iff]|now apply Il].
  Qed.
  Lemma in_order_total (f : nat -> pst -> res (string * pst)) (P : pst -> Prop) l :
    (forall v s, In v l -> P s -> exists t s', f v s = Val (t, s') /\ P s') -> forall s, P s -> exists ts s', in_order f l s = Val (ts, s') /\ P s'.
  Proof.
    induction l as [|v l IH]; intros H s Ps; cbn [in_order]; [eauto|]. destruct (H v s (or_introl eq_refl) Ps) as (t & s1 & -> & P1). cbn [bind].
    destruct (IH (fun v s I => H v s (or_intror I)) s1 P1) as (ts & s2 & -> & P2). cbn [bind]. eauto.
  Qed.
  Hypothesis line_total : forall n op ps k dims, mem_char "%" n = false -> exists line, dist_line latex n op ps k dims = Val line.
  Lemma letters_plain n : In n letters -> mem_char "%" n = false.
  Proof.
    assert (F : forallb (fun n => negb (mem_char "%" n)) letters = true) by (vm_compute; reflexivity). intros I. rewrite forallb_forall in F. apply F in I. now apply negb_true_iff in I.
  Qed.
  Lemma process_total (R : nat -> Prop) : (forall v u, R v -> In u (inputs_of (g v)) -> R u) -> (forall v, R v -> kinded v -> anon name v = false -> In v variables) ->
    (forall v n, R v -> is_rv (g v) -> name v = Some n -> mem_char "%" n = false) ->
    (forall l, NoDup l -> (forall u, In u l -> R u /\ lettered g name u) -> List.length l <= List.length avail0) ->
    forall fuel v s, v < fuel -> R v -> (forall u, mem u s -> R u) -> NInv (names s) -> exists t s', process fuel v s = Val (t, s').
  Proof.
    intros Cl V Pc Bd. induction fuel as [|fuel IH]; intros v s Hf Rv Rs NI; [lia|]. cbn [ModelPrint2.process]. destruct (known v s) as [t0|] eqn:K; [eauto|].
    assert (OV : forall v, R v -> forall w, occurs g v w -> R w) by (clear - Cl; intros v Rv w O; induction O; eauto).
    assert (SUB : forall l s, (forall u, In u l -> In u (inputs_of (g v))) -> (forall u, mem u s -> R u) -> NInv (names s) -> exists ts s', in_order (process fuel) l s = Val (ts, s') /\ (forall u, mem u s' -> R u) /\ NInv (names s')).
    { intros l s0 HL HR HN. apply (in_order_total (process fuel) (fun s => (forall u, mem u s -> R u) /\ NInv (names s)) l); [|auto]. intros u s1 Hu [R1 N1]. assert (Ru : R u) by (eapply Cl; eauto).
      destruct (IH u s1) as (t & s2 & E2); auto; [pose proof (A v u (HL u Hu)); lia|]. exists t, s2. split; [exact E2|]. split; [eapply (process_within R Cl); eauto|].
      eapply process_names; [|exact N1|exact E2]. intros w O. apply V. now apply (OV u). }
    assert (Vv := V v Rv). assert (NT := naming_total R v s). unfold kinded in NT, Vv.
    assert (NS : forall n s1, naming v s = Val (n, s1) -> kinded v -> (forall u, mem u s1 -> R u) /\ NInv (names s1)).
    { intros n s1 N Kd. split; [|eapply naming_step; eauto]. intros u (x & Hu). destruct (naming_ok _ _ v s n s1 K N) as (_ & Ko & _). destruct (Nat.eq_dec u v) as [->|Nu]; [exact Rv|]. apply Rs. exists x. now rewrite <- Ko. }
    unfold kinded in NS. destruct (g v) as [c|k dims|f l|op pp k dims l] eqn:G; cbn [is_rv is_named inputs_of] in *.
    - eauto.
    - destruct NT as [[n s1] N]; auto. rewrite N. cbn [bind]. eauto.
    - destruct (SUB l s) as (ts & s1 & -> & _); auto. cbn [bind]. eauto.
    - destruct NT as [[n s1] N]; auto. destruct (NS n s1 N) as [R1 N1]; auto. rewrite N. cbn [bind].
      destruct (SUB l s1) as (ts1 & s2 & -> & R2 & N2); auto. cbn [bind]. destruct (SUB l s2) as (ts & s3 & -> & R3 & N3); auto. cbn [bind].
      destruct (line_total n op (map tidy (mapi pp 0 ts)) k dims) as (line & ->); [|cbn [bind]; eauto].
      destruct (naming_ok _ _ v s n s1 K N) as (Kv & _). destruct (names_spec s1 v n N1 Kv) as (S1 & S2 & _); [left; now rewrite G|].
      destruct (anon name v) eqn:Av; [apply anon_iff in Av; destruct (S2 Av) as [L _]; now apply letters_plain|]. apply (Pc v n Rv); [now rewrite G|]. apply S1. intros C. apply anon_iff in C. congruence.
  Qed.
  Lemma graph_total outs : (forall v, shown g outs v -> is_rv (g v) \/ is_named (g v) -> ~ unnamed name v -> In v variables) ->
    (forall v n, shown g outs v -> is_rv (g v) -> name v = Some n -> mem_char "%" n = false) ->
    (forall l, NoDup l -> (forall u, In u l -> shown g outs u /\ lettered g name u) -> List.length l <= List.length avail0) -> exists r, print_graph outs = Val r.
  Proof.
    intros V Pc Bd. assert (Cl : forall v u, shown g outs v -> In u (inputs_of (g v)) -> shown g outs u).
    { intros v u (o & Ho & O) Hu. exists o. split; [exact Ho|]. eapply occurs_trans; [exact O|]. eapply occurs_in; [exact Hu|constructor]. }
    assert (V' : forall v, shown g outs v -> kinded v -> anon name v = false -> In v variables) by (intros v Hv Kv Av; apply V; auto; intros C; apply anon_iff in C; congruence).
    destruct (in_order_total (fun v => process (S v) v) (fun s => (forall u, mem u s -> shown g outs u) /\ NInv (names s)) outs) with (s := start) as (ts & s & E & _).
    - intros v s Hv [R N]. assert (Rv : shown g outs v) by (exists v; split; [exact Hv|constructor]). destruct (process_total (shown g outs) Cl V' Pc Bd (S v) v s (Nat.lt_succ_diag_r v) Rv R N) as (t & s1 & E).
      exists t, s1. split; [exact E|]. split; [exact (process_within (shown g outs) Cl (S v) v s t s1 Rv R E)|]. eapply process_names; [|exact N|exact E]. intros w O. apply V'. exists v. auto.
    - split; [intros u (t & H); discriminate|exact start_names].
    - exists (ts, s). exact E.
  Qed.
End G.
