(** C61: stacks of scalar variables among the requested variables. *)
From Coq Require Import Reals Lra Lia List Arith Bool.
From Coquelicot Require Import Coquelicot.
From Verif Require Import XR XTac SpecDist ModelDist LemDist ModelVec SpecVec ModelJoint ModelNest SpecNest RMx ModelSys SpecSys LemSys LemSys3 ModelStack SpecStack LemStack LemStack2.
Import ListNotations.
Open Scope nat_scope.

(** A stack gets a log-probability exactly when every element is an unrequested
    variable computed by invertible operations from one unrequested draw. *)
Theorem C61_accepted : forall ddt fs dlp h y rho qs l xs, acyclic h ->
  (stack_logprob ddt fs dlp h (fun v => Fin (y v)) rho qs l xs <> None <->
   forall a, In a l -> ~ In a (q_req qs) /\ exists b, leads h (q_req qs) a b /\ (rv_dtype ddt h b <> DInt \/ b = a)).
Proof. exact stack_accepted. Qed.
Print Assumptions C61_accepted.

(** When nothing requested (and no element) is computed from an element of a
    stack, the joint log-probability of the requested variables and stacks
    denotes the joint density of the requested variables and all elements, for
    all draws [rho0] of the other variables.  Missing: elements on which others
    depend and equal elements (refuted below), variables computed from the stack
    (C88_joint_partial), arrays, and what is missing in C58. *)
Theorem C61_joint_partial : forall ddt fs dlp pdf h qs y base rho (rho0 : nat -> xr) J ps, acyclic h -> NoDup (q_vars qs) ->
  (forall l xs, In (QStack l xs) qs -> xs = map (fun v => Fin (y v)) l) ->
  (forall v b, In v (q_vars qs) -> In b (q_elems qs) -> ~ needs h (q_req qs) v b) ->
  (forall v, In v (q_vars qs) -> svalue fs h rho v (y v)) ->
  (forall v, In v (q_vars qs) -> smooth fs h (q_vars qs) rho v (base v) /\ (rv_dtype ddt h (base v) <> DInt \/ base v = v)) ->
  (forall v w, In v (q_vars qs) -> In w (q_vars qs) -> base v = base w -> v = w) ->
  (forall v d l, In v (q_vars qs) -> nth_error h (base v) = Some (SRv d l) -> List.Forall (known h (q_vars qs)) l) ->
  Forall2 (fun v p => draw_density fs h pdf rho (base v) p) (q_vars qs) ps ->
  (forall v d l rs, In v (q_vars qs) -> nth_error h (base v) = Some (SRv d l) -> Forall2 (svalue fs h rho) l rs ->
    denotes (dlp d (map Fin rs) (Fin (rho (base v)))) (pdf d rs (rho (base v)))) ->
  (forall i j, i < length (q_vars qs) -> j < length (q_vars qs) -> partial fs h rho (nth i (q_vars qs) 0) (base (nth j (q_vars qs) 0)) (J i j)) ->
  rdet (length (q_vars qs)) J <> 0%R /\
  exists r, stack_joint ddt fs dlp h (fun v => Fin (y v)) rho0 qs = Some r /\ denotes r (rprod ps / Rabs (rdet (length (q_vars qs)) J)).
Proof. exact stack_density. Qed.
Print Assumptions C61_joint_partial.

(** X ~ N(0, 1), Z = exp X, Y ~ N(Z, 1), W = Y + Z, U ~ N(0, 1); stack([W, U]) and Z are requested *)
Definition ex_sys : list snode := [SCon (Fin 0); SCon (Fin 1); SRv 0 [0; 1]; SOne UExp 2; SRv 0 [3; 1]; SMany NAdd [4; 3]; SRv 0 [0; 1]].
Definition ex_base (v : nat) : nat := if v =? 5 then 4 else if v =? 6 then 6 else 2.
Definition ex_rho (x w u : R) (i : nat) : R := if i =? 2 then x else if i =? 6 then u else w.
Definition ex_y (x w u : R) (v : nat) : R := if v =? 5 then (w + (exp x + 0))%R else if v =? 6 then u else exp x.
Definition ex_qs (x w u : R) : list request := [QStack [5; 6] [Fin (w + (exp x + 0)); Fin u]; QVar 3].
Definition ex_pdf (_ : nat) (ps : list R) (x : R) : R := match ps with [m; s] => normal_pdf m s x | _ => 0%R end.
Lemma ex_acyclic : acyclic ex_sys.
Proof. intros v nd a E I. do 7 (destruct v as [|v]; [injection E as <-; cbn in I; repeat (destruct I as [<-|I]; [lia|]); destruct I|]). now destruct v. Qed.
Lemma ex_x rho : svalue nfs ex_sys rho 2 (rho 2). Proof. exact (v_rv nfs ex_sys rho 2 0 [0; 1] eq_refl). Qed.
Lemma ex_z rho : svalue nfs ex_sys rho 3 (exp (rho 2)). Proof. exact (v_exp nfs ex_sys rho 3 2 _ eq_refl (ex_x rho)). Qed.
Lemma ex_yv rho : svalue nfs ex_sys rho 4 (rho 4). Proof. exact (v_rv nfs ex_sys rho 4 0 [3; 1] eq_refl). Qed.
Lemma ex_u rho : svalue nfs ex_sys rho 6 (rho 6). Proof. exact (v_rv nfs ex_sys rho 6 0 [0; 1] eq_refl). Qed.
Lemma ex_w rho : svalue nfs ex_sys rho 5 (rho 4%nat + (exp (rho 2%nat) + 0))%R.
Proof. exact (v_add nfs ex_sys rho 5 [4; 3] [rho 4; exp (rho 2)] eq_refl (Forall2_cons _ _ (ex_yv rho) (Forall2_cons _ _ (ex_z rho) (Forall2_nil _)))). Qed.
Definition ex_J (x : R) (i j : nat) : R :=
  match i, j with 0, 0 => 1 | 0, 2 => exp x | 1, 1 => 1 | 2, 2 => exp x | _, _ => 0 end%R.
Lemma ex_needs v b : needs ex_sys [3] v b -> b < v.
Proof. induction 1 as [v nd b E I|v nd a b E I R N IH]; [exact (ex_acyclic v nd b E I)|]. pose proof (ex_acyclic v nd a E I). lia. Qed.
Lemma ex_needs6 b : needs ex_sys [3] 6 b -> b < 2.
Proof. intros N. inversion N as [v nd ? E I|v nd a ? E I R N']; subst; injection E as <-; [cbn in I; lia|]. apply ex_needs in N'. cbn in I. lia. Qed.
Example C61_joint_ex : forall x w u rho0, exists r, stack_joint (fun _ => DFloat) nfs nlp ex_sys (fun v => Fin (ex_y x w u v)) rho0 (ex_qs x w u) = Some r /\
  denotes r (rprod [normal_pdf (exp x) 1 w; normal_pdf 0 1 u; normal_pdf 0 1 x] / Rabs (rdet 3 (ex_J x))).
Proof.
  intros x w u rho0. set (r := ex_rho x w u).
  refine (proj2 (C61_joint_partial (fun _ => DFloat) nfs nlp ex_pdf ex_sys (ex_qs x w u) (ex_y x w u) ex_base r rho0 (ex_J x) _ ex_acyclic _ _ _ _ _ _ _ _ _ _)); cbn [q_vars q_elems q_req ex_qs flat_map app].
  - repeat constructor; cbn; intuition lia.
  - intros l xs [E|[E|[]]]; [injection E as <- <-; reflexivity|discriminate].
  - intros v b [<-|[<-|[<-|[]]]] [<-|[<-|[]]] N; try (apply ex_needs in N; lia). apply ex_needs6 in N. lia.
  - intros v [<-|[<-|[<-|[]]]]; [exact (ex_w r)|exact (ex_u r)|exact (ex_z r)].
  - intros v [<-|[<-|[<-|[]]]]; (split; [|left; discriminate]).
    + refine (s_add nfs ex_sys [5; 6; 3] _ 5 [] 4 [3] 4 eq_refl _ (s_rv nfs ex_sys [5; 6; 3] _ 4 0 [3; 1] eq_refl) _ _ _); [cbn; intuition lia|constructor| |discriminate].
      constructor; [apply k_req; cbn; auto|constructor].
    + exact (s_rv nfs ex_sys [5; 6; 3] _ 6 0 [0; 1] eq_refl).
    + refine (s_one nfs ex_sys [5; 6; 3] _ 3 UExp 2 2 _ eq_refl _ (s_rv nfs ex_sys [5; 6; 3] _ 2 0 [0; 1] eq_refl) (ex_x _) _); [cbn; intuition lia|discriminate].
  - intros v v' [<-|[<-|[<-|[]]]] [<-|[<-|[<-|[]]]]; intros E; try reflexivity; discriminate E.
  - assert (K : forall c, c < 2 -> known ex_sys [5; 6; 3] c).
    { intros c L. destruct c as [|[|c]]; [| |lia]; (eapply k_det; [reflexivity|discriminate|constructor]). }
    intros v d l [<-|[<-|[<-|[]]]] E; injection E as <- <-; (constructor; [|constructor; [|constructor]]); try (apply K; lia). apply k_req. cbn. auto.
  - constructor; [|constructor; [|constructor; [|constructor]]].
    + exists 0, [3; 1], [exp x; 1%R]. split; [reflexivity|]. split; [|reflexivity]. constructor; [exact (ex_z r)|]. constructor; [now apply v_con|constructor].
    + exists 0, [0; 1], [0%R; 1%R]. split; [reflexivity|]. split; [|reflexivity]. constructor; [now apply v_con|]. constructor; [now apply v_con|constructor].
    + exists 0, [0; 1], [0%R; 1%R]. split; [reflexivity|]. split; [|reflexivity]. constructor; [now apply v_con|]. constructor; [now apply v_con|constructor].
  - intros v d l rs [<-|[<-|[<-|[]]]] E F; injection E as <- <-; inversion F as [|? m ? q A F1]; subst; inversion F1 as [|? s ? q' B F2]; subst; inversion F2; subst;
      assert (s = 1%R) as -> by (apply (svalue_fun nfs ex_sys ex_acyclic r 1); [exact B|now apply v_con]); apply normal_ok; lra.
  - assert (P : forall v b g D, (forall t, svalue nfs ex_sys (upd r b t) v (g t)) -> is_derive g (r b) D -> partial nfs ex_sys r v b D).
    { intros v b g D V Dg. exists g. split; [apply filter_forall; exact V|exact Dg]. }
    intros i j Li Lj. destruct i as [|[|[|i]]]; [| | |cbn in Li; lia]; (destruct j as [|[|[|j]]]; [| | |cbn in Lj; lia]); cbn [nth ex_base Nat.eqb ex_J].
    + apply (P 5 4 (fun t => t + (exp x + 0))%R); [intros t; exact (ex_w (upd r 4 t))|cbn; auto_derive; [auto|ring]].
    + apply (P 5 6 (fun _ => w + (exp x + 0))%R); [intros t; exact (ex_w (upd r 6 t))|cbn; auto_derive; [auto|ring]].
    + apply (P 5 2 (fun t => w + (exp t + 0))%R); [intros t; exact (ex_w (upd r 2 t))|cbn; auto_derive; [auto|ring]].
    + apply (P 6 4 (fun _ => u)%R); [intros t; exact (ex_u (upd r 4 t))|cbn; auto_derive; [auto|ring]].
    + apply (P 6 6 (fun t => t)%R); [intros t; exact (ex_u (upd r 6 t))|cbn; auto_derive; [auto|ring]].
    + apply (P 6 2 (fun _ => u)%R); [intros t; exact (ex_u (upd r 2 t))|cbn; auto_derive; [auto|ring]].
    + apply (P 3 4 (fun _ => exp x)%R); [intros t; exact (ex_z (upd r 4 t))|cbn; auto_derive; [auto|ring]].
    + apply (P 3 6 (fun _ => exp x)%R); [intros t; exact (ex_z (upd r 6 t))|cbn; auto_derive; [auto|ring]].
    + apply (P 3 2 (fun t => exp t)%R); [intros t; exact (ex_z (upd r 2 t))|cbn; auto_derive; [auto|ring]].
Qed.
(** stack([Y, Z]) is refused when Z is requested as well *)
Example C61_refused_ex : stack_logprob (fun _ => DFloat) nfs nlp ex_sys (fun _ => Fin 1) (fun _ => NaN) [QStack [4; 3] [Fin 0; Fin 1]; QVar 3] [4; 3] [Fin 0; Fin 1] = None.
Proof. reflexivity. Qed.

(** stack([X, X]) with two different values gets positive density although no draw attains it (tensor.py:31-33, 105-107). *)
Theorem C61_equal_refuted : exists h l xs rho r d, acyclic h /\
  stack_joint (fun _ => DFloat) nfs nlp h (fun _ => NaN) rho [QStack l (map Fin xs)] = Some r /\ denotes r d /\ (0 < d)%R /\
  forall rho', ~ Forall2 (svalue nfs h rho') l xs.
Proof. exact stack_equal. Qed.
Print Assumptions C61_equal_refuted.
(** stack([X, Y]) with Y ~ N(X, 1): the value of X is not put into the
    parameters of Y, which are evaluated at another draw of X; the result is
    not the joint density (tensor.py:31-33, rewriting.py:266-271). *)
Theorem C61_dependent_refuted : exists h l xs rho, acyclic h /\ NoDup l /\ Forall2 (svalue nfs h rho) l xs /\
  (forall p q, Forall2 (draw_density nfs h (fun _ ps x => match ps with [m; s] => normal_pdf m s x | _ => 0%R end) rho) l [p; q] ->
   exists rho' r d, stack_joint (fun _ => DFloat) nfs nlp h (fun _ => NaN) rho' [QStack l (map Fin xs)] = Some r /\ denotes r d /\ d <> (p * q)%R).
Proof. exact stack_dependent. Qed.
Print Assumptions C61_dependent_refuted.
