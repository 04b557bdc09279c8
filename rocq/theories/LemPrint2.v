(** Lemmas on printed models. *)
From Coq Require Import List Arith Bool String Ascii Lia.
From Verif Require Import XR ModelVec ModelPrint ModelPrint2 SpecPrint LemPrint SpecPrint2.
Import ListNotations.
Open Scope nat_scope.
Open Scope list_scope.

Lemma occurs_trans g u v w : occurs g u v -> occurs g v w -> occurs g u w.
Proof. induction 1; intros; auto. eapply occurs_in; eauto. Qed.
Lemma occurs_le g u w : acyclic g -> occurs g u w -> w <= u.
Proof. intros A. induction 1 as [u|u i w H _ IH]; [lia|]. apply A in H. lia. Qed.
Lemma lookup_cons v u t m : lookup v ((u, t) :: m) = if u =? v then Some t else lookup v m.
Proof. unfold lookup. cbn [find fst]. destruct (u =? v); reflexivity. Qed.

Section L.
  Variables (latex : bool) (tidy : string -> string) (name : nat -> option string) (variables : list nat) (g : nat -> pnode).
  Hypothesis A : acyclic g.
  Notation process := (process latex tidy name variables g).
  Notation naming := (naming name variables).

  Definition mem (v : nat) (s : pst) : Prop := exists t, known v s = Some t.
  Definition ids {X} (l : list (nat * X)) : list nat := map fst l.
  Definition ftext (s : pst) (v : nat) : string := match known v s with Some t => t | None => EmptyString end.
  Definition complete (s : pst) (v : nat) : Prop :=
    (forall u, In u (inputs_of (g v)) -> mem u s) /\
    match g v with
    | PConst c => known v s = Some c
    | PNamed k dims => In (v, shape_info latex (ftext s v) k dims) (shapes s)
    | PExpr f l => known v s = Some (f (map (ftext s) l))
    | PRv op pp k dims l => exists line, In (v, line) (defs s) /\ dist_line latex (ftext s v) op (map tidy (mapi pp 0 (map (ftext s) l))) k dims = Val line
    end.
  Record inv (X : nat -> Prop) (s : pst) : Prop := {
    i_complete : forall v, mem v s -> ~ X v -> complete s v;
    i_defs : NoDup (ids (defs s)) /\ forall v, In v (ids (defs s)) -> is_rv (g v) /\ mem v s;
    i_shapes : NoDup (ids (shapes s)) /\ forall v, In v (ids (shapes s)) -> is_named (g v) /\ mem v s;
    i_order : forall a d b, defs s = a ++ d :: b -> forall u w, In u (inputs_of (g (fst d))) -> occurs g u w -> is_rv (g w) -> In w (ids a) }.
  Record ext (N : nat -> Prop) (s s' : pst) : Prop := {
    e_known : forall v t, known v s = Some t -> known v s' = Some t;
    e_new : forall v, mem v s' -> mem v s \/ N v;
    e_defs : exists D, defs s' = defs s ++ D /\ forall v, In v (ids D) -> N v;
    e_shapes : exists D, shapes s' = shapes s ++ D /\ forall v, In v (ids D) -> N v }.
  Lemma ext_refl N s : ext N s s.
  Proof. constructor; auto; exists []; rewrite app_nil_r; split; auto; intros v []. Qed.
  Lemma ext_trans N s1 s2 s3 : ext N s1 s2 -> ext N s2 s3 -> ext N s1 s3.
  Proof.
    intros [K1 W1 (D1 & E1 & F1) (H1 & G1 & J1)] [K2 W2 (D2 & E2 & F2) (H2 & G2 & J2)]. constructor; auto.
    - intros v M. destruct (W2 v M) as [M2|]; auto.
    - exists (D1 ++ D2). rewrite E2, E1, app_assoc. split; [reflexivity|]. intros v. unfold ids. rewrite map_app, in_app_iff. intros [?|?]; auto.
    - exists (H1 ++ H2). rewrite G2, G1, app_assoc. split; [reflexivity|]. intros v. unfold ids. rewrite map_app, in_app_iff. intros [?|?]; auto.
  Qed.
  Lemma ext_weak (N N' : nat -> Prop) s s' : (forall v, N v -> N' v) -> ext N s s' -> ext N' s s'.
  Proof.
    intros I [K W (D & E & F) (H & G & J)]. constructor; auto.
    - intros v M. destruct (W v M); auto.
    - exists D. auto.
    - exists H. auto.
  Qed.
  Lemma ext_mem N s s' v : ext N s s' -> mem v s -> mem v s'.
  Proof. intros E (t & K). exists t. now apply (e_known _ _ _ E). Qed.
  Lemma ext_ftext N s s' v : ext N s s' -> mem v s -> ftext s' v = ftext s v.
  Proof. intros E (t & K). unfold ftext. now rewrite K, (e_known _ _ _ E _ _ K). Qed.
  Lemma complete_ext N s s' v : ext N s s' -> mem v s -> complete s v -> complete s' v.
  Proof.
    intros E M [I C]. split; [intros u H; eapply ext_mem; eauto|]. pose proof (ext_ftext _ _ _ v E M) as Tv.
    assert (T : forall l, (forall u, In u l -> mem u s) -> map (ftext s') l = map (ftext s) l).
    { intros l Hl. apply map_ext_in. intros u Hu. eapply ext_ftext; eauto. }
    destruct (e_defs _ _ _ E) as (D & ED & _). destruct (e_shapes _ _ _ E) as (Sh & ES & _).
    destruct (g v) eqn:G; cbn [inputs_of] in I.
    - now apply (e_known _ _ _ E).
    - rewrite Tv, ES. apply in_or_app. now left.
    - rewrite T by exact I. now apply (e_known _ _ _ E).
    - destruct C as (line & H1 & H2). exists line. rewrite Tv, T by exact I. split; [rewrite ED; apply in_or_app; now left|exact H2].
  Qed.
  Lemma closed X s u w : inv X s -> occurs g u w -> mem u s -> (forall x, X x -> u < x) -> mem w s /\ complete s w.
  Proof.
    intros I. induction 1 as [u|u i w H O IH]; intros M B.
    - split; [exact M|]. apply (i_complete _ _ I); [exact M|]. intros C. apply B in C. lia.
    - assert (C : complete s u) by (apply (i_complete _ _ I); [exact M|]; intros C; apply B in C; lia).
      apply IH; [now apply C|]. intros x Hx. apply B in Hx. apply A in H. lia.
  Qed.
  (** ** naming *)
  Lemma naming_ok v s t s' : known v s = None -> naming v s = Val (t, s') ->
    known v s' = Some t /\ (forall u, u <> v -> known u s' = known u s) /\ shapes s' = shapes s /\ defs s' = defs s.
  Proof.
    intros K H. unfold ModelPrint2.naming in H. destruct (process_variable_name _ _ _ _) as [[n ps]|] eqn:E; [|discriminate]. cbn in H. injection H as <- <-.
    unfold process_variable_name in E. unfold known in K. rewrite K in E.
    assert (Z : memo ps = (v, n) :: memo (names s)).
    { cbv zeta in E. destruct (user_name name v) as [m|]; [injection E as <- <-; reflexivity|].
      match type of E with match ?l with _ => _ end = _ => destruct l end; [discriminate|]. injection E as <- <-. reflexivity. }
    unfold known. cbn [names]. rewrite Z. repeat split.
    - now rewrite lookup_cons, Nat.eqb_refl.
    - intros u N. rewrite lookup_cons. destruct (Nat.eqb_spec v u); [congruence|reflexivity].
  Qed.
  (** ** in order *)
  Lemma in_order_ok (f : nat -> pst -> res (string * pst)) (P : pst -> Prop) (N : nat -> Prop) l :
    (forall v s t s', In v l -> P s -> f v s = Val (t, s') -> P s' /\ ext N s s' /\ known v s' = Some t) ->
    forall s ts s', P s -> in_order f l s = Val (ts, s') -> P s' /\ ext N s s' /\ (forall v, In v l -> mem v s') /\ ts = map (ftext s') l.
  Proof.
    induction l as [|v l IH]; intros H s ts s' Ps E; cbn [in_order] in E.
    - injection E as <- <-. split; [exact Ps|]. split; [apply ext_refl|]. split; [intros v []|reflexivity].
    - destruct (f v s) as [[t s1]|] eqn:E1; [|discriminate]. cbn [bind] in E. destruct (H v s t s1 (or_introl eq_refl) Ps E1) as (P1 & X1 & K1).
      destruct (in_order f l s1) as [[ts2 s2]|] eqn:E2; [|discriminate]. cbn [bind] in E. injection E as <- <-.
      destruct (IH (fun v s t s' I => H v s t s' (or_intror I)) s1 ts2 s2 P1 E2) as (P2 & X2 & M2 & ->).
      split; [exact P2|]. split; [eapply ext_trans; eauto|]. split.
      + intros u [<-|Hu]; [|auto]. eapply ext_mem; [exact X2|]. now exists t.
      + cbn [map]. f_equal. unfold ftext. now rewrite (e_known _ _ _ X2 _ _ K1).
  Qed.
  (** ** one variable *)
  Lemma nodup_snoc {T} (l : list T) x : NoDup l -> ~ In x l -> NoDup (l ++ [x]).
  Proof. intros N H. apply NoDup_rev in N. rewrite <- (rev_involutive (l ++ [x])). apply NoDup_rev. rewrite rev_app_distr. cbn. constructor; [now rewrite <- in_rev|exact N]. Qed.
  Lemma process_ok : forall fuel v s t s' (X : nat -> Prop), (forall x, X x -> v < x) -> inv X s -> process fuel v s = Val (t, s') ->
    inv X s' /\ ext (occurs g v) s s' /\ known v s' = Some t.
  Proof.
    induction fuel as [|fuel IH]; intros v s t s' X B I E; cbn [ModelPrint2.process] in E; destruct (known v s) as [t0|] eqn:K.
    1,3: injection E as <- <-; split; [exact I|split; [apply ext_refl|exact K]].
    - discriminate.
    - assert (NM : ~ mem v s) by (intros (t1 & K1); congruence). assert (NX : ~ X v) by (intros C; apply B in C; lia).
      assert (SUB : forall (X' : nat -> Prop) l s ts s', (forall x, X' x -> X x \/ x = v) -> (forall u, In u l -> In u (inputs_of (g v))) -> inv X' s -> in_order (process fuel) l s = Val (ts, s') ->
        inv X' s' /\ ext (fun w => exists i, In i (inputs_of (g v)) /\ occurs g i w) s s' /\ (forall u, In u l -> mem u s') /\ ts = map (ftext s') l).
      { intros X' l s0 ts s1 HX HL HI HE. refine (in_order_ok (process fuel) (inv X') _ l _ s0 ts s1 HI HE).
        intros u s2 t2 s3 Hu H2 H3. destruct (IH u s2 t2 s3 X') as (P1 & P2 & P3); auto.
        { intros x Hx. pose proof (A v u (HL u Hu)). destruct (HX x Hx) as [Hx2| ->]; [apply B in Hx2; lia|assumption]. }
        split; [exact P1|]. split; [|exact P3]. eapply ext_weak; [|exact P2]. intros w O. exists u. auto. }
      assert (LT : forall w, (exists i, In i (inputs_of (g v)) /\ occurs g i w) -> w < v).
      { intros w (i & Hi & O). apply A in Hi. apply (occurs_le g) in O; [lia|exact A]. }
      assert (UP : forall w, (exists i, In i (inputs_of (g v)) /\ occurs g i w) -> occurs g v w) by (intros w (i & Hi & O); eapply occurs_in; eauto).
      destruct (g v) as [c|k dims|f l|op pp k dims l] eqn:G.
      + (* constants *) injection E as <- <-. assert (Kn : forall u, known u (remember v c s) = if v =? u then Some c else known u s) by (intros u; apply lookup_cons).
        assert (EX : ext (occurs g v) s (remember v c s)).
        { constructor.
          - intros u t1 Hu. rewrite Kn. destruct (Nat.eqb_spec v u) as [->|]; [congruence|exact Hu].
          - intros u (t1 & Hu). rewrite Kn in Hu. destruct (Nat.eqb_spec v u) as [->|]; [right; constructor|left; now exists t1].
          - exists []. rewrite app_nil_r. split; [reflexivity|intros ? []].
          - exists []. rewrite app_nil_r. split; [reflexivity|intros ? []]. }
        assert (Kv : known v (remember v c s) = Some c) by (rewrite Kn, Nat.eqb_refl; reflexivity).
        split; [|split; [exact EX|exact Kv]]. destruct I as [I1 [I2 I2'] [I3 I3'] I4]. constructor.
        * intros u Mu Xu. destruct (Nat.eq_dec u v) as [->|Nu].
          -- split; [rewrite G; intros ? []|]. now rewrite G.
          -- destruct (e_new _ _ _ EX u Mu) as [Mu'|O]; [eapply complete_ext; eauto|]. exfalso. apply Nu. inversion O as [|? i ? Hi]; subst; [reflexivity|]. rewrite G in Hi. destruct Hi.
        * split; [exact I2|]. intros u Hu. destruct (I2' u Hu). split; [assumption|eapply ext_mem; eauto].
        * split; [exact I3|]. intros u Hu. destruct (I3' u Hu). split; [assumption|eapply ext_mem; eauto].
        * exact I4.
      + (* named *) destruct (naming v s) as [[n s1]|] eqn:N; [|discriminate]. cbn [bind] in E. injection E as <- <-.
        destruct (naming_ok v s n s1 K N) as (Kv & Ko & Es & Ed). set (s' := {| names := names s1; shapes := _; defs := _ |}).
        assert (Kn : forall u, known u s' = known u s1) by reflexivity.
        assert (EX : ext (occurs g v) s s').
        { constructor.
          - intros u t1 Hu. rewrite Kn. destruct (Nat.eq_dec u v) as [->|Nu]; [congruence|now rewrite Ko].
          - intros u (t1 & Hu). rewrite Kn in Hu. destruct (Nat.eq_dec u v) as [->|Nu]; [right; constructor|left; exists t1; now rewrite <- Ko].
          - exists []. rewrite app_nil_r. split; [exact Ed|intros ? []].
          - eexists. split; [cbn [shapes s']; rewrite Es; reflexivity|]. intros u [<-|[]]. constructor. }
        split; [|split; [exact EX|exact Kv]]. destruct I as [I1 [I2 I2'] [I3 I3'] I4]. constructor.
        * intros u Mu Xu. destruct (Nat.eq_dec u v) as [->|Nu].
          -- split; [rewrite G; intros ? []|]. rewrite G. unfold ftext. rewrite Kn, Kv. cbn [shapes s']. apply in_or_app. right. now left.
          -- destruct (e_new _ _ _ EX u Mu) as [Mu'|O]; [eapply complete_ext; eauto|]. exfalso. apply Nu. inversion O as [|? i ? Hi]; subst; [reflexivity|]. rewrite G in Hi. destruct Hi.
        * cbn [defs s']. rewrite Ed. split; [exact I2|]. intros u Hu. destruct (I2' u Hu). split; [assumption|eapply ext_mem; eauto].
        * cbn [shapes s']. rewrite Es. unfold ids. rewrite map_app. cbn [map fst]. split.
          -- apply nodup_snoc; [exact I3|]. intros C. apply NM. now apply I3'.
          -- intros u Hu. apply in_app_or in Hu. destruct Hu as [Hu|[<-|[]]]; [destruct (I3' u Hu); split; [assumption|eapply ext_mem; eauto]|]. split; [now rewrite G|]. now exists n.
        * cbn [defs s']. rewrite Ed. exact I4.
      + (* expressions *) destruct (in_order (process fuel) l s) as [[ts s1]|] eqn:N; [|discriminate]. cbn [bind] in E. cbv zeta in E. injection E as <- <-.
        destruct (SUB X l s ts s1 (fun x h => or_introl h) (fun u h => h) I N) as (I1 & E1 & M1 & Ets). clear SUB. set (s' := remember v (f ts) s1).
        assert (NM1 : ~ mem v s1) by (intros C; destruct (e_new _ _ _ E1 v C) as [|C2]; [contradiction|apply LT in C2; lia]).
        assert (Kn : forall u, known u s' = if v =? u then Some (f ts) else known u s1) by (intros u; apply lookup_cons).
        assert (Kv : known v s' = Some (f ts)) by (rewrite Kn, Nat.eqb_refl; reflexivity).
        assert (E2 : ext (occurs g v) s1 s').
        { constructor.
          - intros u t1 Hu. rewrite Kn. destruct (Nat.eqb_spec v u) as [->|]; [exfalso; apply NM1; now exists t1|exact Hu].
          - intros u (t1 & Hu). rewrite Kn in Hu. destruct (Nat.eqb_spec v u) as [->|]; [right; constructor|left; now exists t1].
          - exists []. rewrite app_nil_r. split; [reflexivity|intros ? []].
          - exists []. rewrite app_nil_r. split; [reflexivity|intros ? []]. }
        split; [|split; [eapply ext_trans; [eapply ext_weak; [|exact E1]; exact UP|exact E2]|exact Kv]].
        destruct I1 as [J1 [J2 J2'] [J3 J3'] J4]. constructor.
        * intros u Mu Xu. destruct (Nat.eq_dec u v) as [->|Nu].
          -- split; rewrite G; [intros u Hu; eapply ext_mem; [exact E2|now apply M1]|]. rewrite Kv. do 2 f_equal. rewrite Ets. apply map_ext_in. intros u Hu. symmetry. eapply ext_ftext; [exact E2|now apply M1].
          -- assert (Mu1 : mem u s1) by (destruct Mu as (t1 & Hu); rewrite Kn in Hu; destruct (Nat.eqb_spec v u); [congruence|now exists t1]). eapply complete_ext; eauto.
        * split; [exact J2|]. intros u Hu. destruct (J2' u Hu). split; [assumption|eapply ext_mem; eauto].
        * split; [exact J3|]. intros u Hu. destruct (J3' u Hu). split; [assumption|eapply ext_mem; eauto].
        * exact J4.
      + (* random variables *) destruct (naming v s) as [[n s1]|] eqn:N; [|discriminate]. cbn [bind] in E. destruct (naming_ok v s n s1 K N) as (Kv & Ko & Es & Ed).
        set (X' := fun x => X x \/ x = v).
        assert (EX : ext (occurs g v) s s1).
        { constructor.
          - intros u t1 Hu. destruct (Nat.eq_dec u v) as [->|Nu]; [congruence|now rewrite Ko].
          - intros u (t1 & Hu). destruct (Nat.eq_dec u v) as [->|Nu]; [right; constructor|left; exists t1; now rewrite <- Ko].
          - exists []. rewrite app_nil_r. split; [exact Ed|intros ? []].
          - exists []. rewrite app_nil_r. split; [exact Es|intros ? []]. }
        assert (I1 : inv X' s1).
        { destruct I as [I1 [I2 I2'] [I3 I3'] I4]. constructor.
          - intros u (t1 & Hu) Xu. assert (Nu : u <> v) by (intros ->; apply Xu; now right). eapply complete_ext; [exact EX| |].
            + exists t1. now rewrite <- Ko.
            + apply I1; [exists t1; now rewrite <- Ko|]. intros C. apply Xu. now left.
          - rewrite Ed. split; [exact I2|]. intros u Hu. destruct (I2' u Hu). split; [assumption|eapply ext_mem; eauto].
          - rewrite Es. split; [exact I3|]. intros u Hu. destruct (I3' u Hu). split; [assumption|eapply ext_mem; eauto].
          - rewrite Ed. exact I4. }
        destruct (in_order (process fuel) l s1) as [[ts1 s2]|] eqn:N1; [|discriminate]. cbn [bind] in E.
        destruct (SUB X' l s1 ts1 s2 (fun x h => h) (fun u h => h) I1 N1) as (I2 & E2 & _ & _).
        destruct (in_order (process fuel) l s2) as [[ts s3]|] eqn:N2; [|discriminate]. cbn [bind] in E.
        destruct (SUB X' l s2 ts s3 (fun x h => h) (fun u h => h) I2 N2) as (I3 & E3 & M3 & Ets). clear SUB N1 N2.
        destruct (dist_line latex n op _ k dims) as [line|] eqn:DL; [|discriminate]. cbn [bind] in E. injection E as <- <-. set (s' := {| names := names s3; shapes := _; defs := _ |}).
        pose proof (ext_trans _ _ _ _ E2 E3) as E23. assert (Kv3 : known v s3 = Some n) by (apply (e_known _ _ _ E23); exact Kv).
        assert (Kn : forall u, known u s' = known u s3) by reflexivity.
        assert (ND : ~ In v (ids (defs s3))).
        { destruct (e_defs _ _ _ E23) as (D & -> & HD). unfold ids. rewrite map_app, in_app_iff. intros [C|C]; [|apply HD, LT in C; lia]. rewrite Ed in C. apply NM. now apply (i_defs _ _ I). }
        assert (E4 : ext (occurs g v) s3 s').
        { constructor; auto.
          - eexists. split; [reflexivity|]. intros u [<-|[]]. constructor.
          - exists []. rewrite app_nil_r. split; [reflexivity|intros ? []]. }
        split; [|split; [|exact Kv3]].
        2:{ eapply ext_trans; [exact EX|]. eapply ext_trans; [|exact E4]. eapply ext_weak; [exact UP|exact E23]. }
        assert (T3 : forall u, ftext s' u = ftext s3 u) by reflexivity.
        pose proof I3 as [J1 [J2 J2'] [J3 J3'] J4]. constructor.
        * intros u Mu Xu. destruct (Nat.eq_dec u v) as [->|Nu].
          -- split; rewrite G; [exact M3|]. exists line. split; [cbn [defs s']; apply in_or_app; right; now left|]. unfold ftext at 1. rewrite Kn, Kv3. rewrite (map_ext _ _ T3), <- Ets. exact DL.
          -- eapply complete_ext; [exact E4|exact Mu|]. apply J1; [exact Mu|]. intros [C|C]; [now apply Xu|now apply Nu].
        * cbn [defs s']. unfold ids. rewrite map_app. cbn [map fst]. split; [now apply nodup_snoc|]. intros u Hu. apply in_app_or in Hu. destruct Hu as [Hu|[<-|[]]]; [exact (J2' u Hu)|]. split; [now rewrite G|]. now exists n.
        * exact (conj J3 J3').
        * cbn [defs s']. intros a d b Q u w Hu O Rw. destruct b as [|d' b'] using rev_ind.
          -- apply app_inj_tail in Q. destruct Q as [<- <-]. cbn [fst] in Hu. rewrite G in Hu. cbn [inputs_of] in Hu.
             destruct (closed X' s3 u w I3 O (M3 u Hu)) as [_ [_ C]].
             { intros x [Hx| ->]; [apply B in Hx|]; pose proof (A v u) as Q; rewrite G in Q; specialize (Q Hu); lia. }
             destruct (g w); try contradiction. destruct C as (ln & C & _). apply in_map_iff. now exists (w, ln).
          -- rewrite app_comm_cons, app_assoc in Q. apply app_inj_tail in Q. destruct Q as [Q _]. eapply J4; eauto.
  Qed.
End L.
