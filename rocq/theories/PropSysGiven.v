(** C58, C61: models whose parameters depend on draws that are not requested. *)
From Coq Require Import Reals Lra Lia List Arith Bool.
From Coquelicot Require Import Coquelicot.
From Verif Require Import XR XTac SpecDist ModelDist LemDist ModelVec SpecVec ModelJoint ModelNest SpecNest RMx ModelSys SpecSys LemSys LemSys3 ModelStack SpecStack LemSysGiven.
Import ListNotations.
Open Scope nat_scope.

(** The parameters of the draws may depend on draws that are not requested:
    the joint log-probability then denotes the density of the requested
    variables given those draws, the values [rho0] of the drawn variables in
    the returned graph.  The draws that belong to requested variables may only
    be used in the parameters of others when they are requested themselves
    (refuted otherwise below).  Missing: draws shared by two requested
    variables (C58_shared_refuted), the points excluded by [smooth]
    (C58_given_sound_partial), arrays. *)
Theorem C58_given_partial : forall ddt fs dlp pdf h req y base rho (rho0 : nat -> xr) J ps, acyclic h -> NoDup req ->
  (forall v, In v req -> svalue fs h rho v (y v)) ->
  (forall v, In v req -> smooth fs h req rho v (base v) /\ (rv_dtype ddt h (base v) <> DInt \/ base v = v)) ->
  (forall v w, In v req -> In w req -> base v = base w -> v = w) ->
  (forall v w, In v req -> In w req -> needs h req (base v) (base w) -> In (base w) req) ->
  (forall i, ~ In i (map base req) -> rho0 i = Fin (rho i)) ->
  Forall2 (fun v p => draw_density fs h pdf rho (base v) p) req ps ->
  (forall v d l rs, In v req -> nth_error h (base v) = Some (SRv d l) -> Forall2 (svalue fs h rho) l rs ->
    denotes (dlp d (map Fin rs) (Fin (rho (base v)))) (pdf d rs (rho (base v)))) ->
  (forall i j, i < length req -> j < length req -> partial fs h rho (nth i req 0) (base (nth j req 0)) (J i j)) ->
  rdet (length req) J <> 0%R /\
  exists r, stack_joint ddt fs dlp h (fun v => Fin (y v)) rho0 (map QVar req) = Some r /\ denotes r (rprod ps / Rabs (rdet (length req) J)).
Proof. exact given_vars. Qed.
Print Assumptions C58_given_partial.

(** The same with stacks among the requested variables.  Missing: see C61_joint_partial. *)
Theorem C61_given_partial : forall ddt fs dlp pdf h qs y base rho (rho0 : nat -> xr) J ps, acyclic h -> NoDup (q_vars qs) ->
  (forall l xs, In (QStack l xs) qs -> xs = map (fun v => Fin (y v)) l) ->
  (forall v b, In v (q_vars qs) -> In b (q_elems qs) -> ~ needs h (q_req qs) v b) ->
  (forall v, In v (q_vars qs) -> svalue fs h rho v (y v)) ->
  (forall v, In v (q_vars qs) -> smooth fs h (q_vars qs) rho v (base v) /\ (rv_dtype ddt h (base v) <> DInt \/ base v = v)) ->
  (forall v w, In v (q_vars qs) -> In w (q_vars qs) -> base v = base w -> v = w) ->
  (forall v w, In v (q_vars qs) -> In w (q_vars qs) -> needs h (q_vars qs) (base v) (base w) -> In (base w) (q_vars qs)) ->
  (forall i, ~ In i (map base (q_vars qs)) -> rho0 i = Fin (rho i)) ->
  Forall2 (fun v p => draw_density fs h pdf rho (base v) p) (q_vars qs) ps ->
  (forall v d l rs, In v (q_vars qs) -> nth_error h (base v) = Some (SRv d l) -> Forall2 (svalue fs h rho) l rs ->
    denotes (dlp d (map Fin rs) (Fin (rho (base v)))) (pdf d rs (rho (base v)))) ->
  (forall i j, i < length (q_vars qs) -> j < length (q_vars qs) -> partial fs h rho (nth i (q_vars qs) 0) (base (nth j (q_vars qs) 0)) (J i j)) ->
  rdet (length (q_vars qs)) J <> 0%R /\
  exists r, stack_joint ddt fs dlp h (fun v => Fin (y v)) rho0 qs = Some r /\ denotes r (rprod ps / Rabs (rdet (length (q_vars qs)) J)).
Proof. exact given_density. Qed.
Print Assumptions C61_given_partial.

(** U ~ N(0, 1), X ~ N(U, 1), Z = exp X, Y ~ N(Z, 1); only Z and Y are
    requested, in the second case as a stack together with V ~ N(U, 1) *)
Definition gv_sys : list snode := [SCon (Fin 0); SCon (Fin 1); SRv 0 [0; 1]; SRv 0 [2; 1]; SOne UExp 3; SRv 0 [4; 1]; SRv 0 [2; 1]].
Definition gv_base (v : nat) : nat := if v =? 4 then 3 else v.
Definition gv_rho (u x y w : R) (i : nat) : R := if i =? 2 then u else if i =? 3 then x else if i =? 5 then y else w.
Definition gv_y (x y w : R) (v : nat) : R := if v =? 4 then exp x else if v =? 5 then y else w.
Definition gv_pdf (_ : nat) (ps : list R) (x : R) : R := match ps with [m; s] => normal_pdf m s x | _ => 0%R end.
Lemma gv_acyclic : acyclic gv_sys.
Proof. intros v nd a E I. do 7 (destruct v as [|v]; [injection E as <-; cbn in I; repeat (destruct I as [<-|I]; [lia|]); destruct I|]). now destruct v. Qed.
Lemma gv_u rho : svalue nfs gv_sys rho 2 (rho 2). Proof. exact (v_rv nfs gv_sys rho 2 0 [0; 1] eq_refl). Qed.
Lemma gv_x rho : svalue nfs gv_sys rho 3 (rho 3). Proof. exact (v_rv nfs gv_sys rho 3 0 [2; 1] eq_refl). Qed.
Lemma gv_z rho : svalue nfs gv_sys rho 4 (exp (rho 3)). Proof. exact (v_exp nfs gv_sys rho 4 3 _ eq_refl (gv_x rho)). Qed.
Lemma gv_yv rho : svalue nfs gv_sys rho 5 (rho 5). Proof. exact (v_rv nfs gv_sys rho 5 0 [4; 1] eq_refl). Qed.
Lemma gv_w rho : svalue nfs gv_sys rho 6 (rho 6). Proof. exact (v_rv nfs gv_sys rho 6 0 [2; 1] eq_refl). Qed.
Lemma gv_needs req v b : needs gv_sys req v b -> b < v.
Proof. induction 1 as [v nd b E I|v nd a b E I R N IH]; [exact (gv_acyclic v nd b E I)|]. pose proof (gv_acyclic v nd a E I). lia. Qed.
Lemma gv_needs5 req b : In 4 req -> needs gv_sys req 5 b -> b < 2 \/ b = 4.
Proof.
  intros I4 N. inversion N as [v nd ? E I|v nd a ? E I R N']; subst; injection E as <-; cbn in I.
  - lia.
  - destruct I as [<-|[<-|[]]]; [tauto|]. apply gv_needs in N'. lia.
Qed.
Lemma gv_needs6 req b : needs gv_sys req 6 b -> b < 3.
Proof.
  intros N. inversion N as [v nd ? E I|v nd a ? E I R N']; subst; injection E as <-; cbn in I.
  - lia.
  - apply gv_needs in N'. lia.
Qed.
Lemma gv_partial r v b g D : (forall t, svalue nfs gv_sys (upd r b t) v (g t)) -> is_derive g (r b) D -> partial nfs gv_sys r v b D.
Proof. intros V Dg. exists g. split; [apply filter_forall; exact V|exact Dg]. Qed.
Lemma gv_smooth req r v : In 4 req -> ~ In 3 req -> v = 4 \/ v = 5 \/ v = 6 -> smooth nfs gv_sys req r v (gv_base v).
Proof.
  intros I4 N3 [->|[->| ->]].
  - refine (s_one nfs gv_sys req r 4 UExp 3 3 _ eq_refl N3 (s_rv nfs gv_sys req r 3 0 [2; 1] eq_refl) (gv_x r) _). discriminate.
  - exact (s_rv nfs gv_sys req r 5 0 [4; 1] eq_refl).
  - exact (s_rv nfs gv_sys req r 6 0 [2; 1] eq_refl).
Qed.
Lemma gv_dlp r v d l rs : v = 4 \/ v = 5 \/ v = 6 -> nth_error gv_sys (gv_base v) = Some (SRv d l) -> Forall2 (svalue nfs gv_sys r) l rs ->
  denotes (nlp d (map Fin rs) (Fin (r (gv_base v)))) (gv_pdf d rs (r (gv_base v))).
Proof.
  intros [->|[->| ->]] E F; injection E as <- <-; inversion F as [|? m ? q A F1]; subst; inversion F1 as [|? s ? q' B F2]; subst; inversion F2; subst;
    assert (s = 1%R) as -> by (apply (svalue_fun nfs gv_sys gv_acyclic r 1); [exact B|now apply v_con]); apply normal_ok; lra.
Qed.
Lemma gv_inj v w : (v = 4 \/ v = 5 \/ v = 6) -> (w = 4 \/ w = 5 \/ w = 6) -> gv_base v = gv_base w -> v = w.
Proof. intros [->|[->| ->]] [->|[->| ->]] E; congruence || discriminate E. Qed.
Lemma gv_own req v w : In 4 req -> (v = 4 \/ v = 5 \/ v = 6) -> (w = 4 \/ w = 5 \/ w = 6) -> needs gv_sys req (gv_base v) (gv_base w) -> In (gv_base w) req.
Proof.
  intros I4 [->|[->| ->]] Lw N; cbn [gv_base Nat.eqb] in N; destruct Lw as [->|[->| ->]]; cbn [gv_base Nat.eqb] in *;
    try (apply gv_needs in N; lia); try (apply gv_needs5 in N; [lia|exact I4]); apply gv_needs6 in N; lia.
Qed.
Lemma gv_draw u x y w : Forall2 (fun v p => draw_density nfs gv_sys gv_pdf (gv_rho u x y w) (gv_base v) p) [5; 6; 4] [normal_pdf (exp x) 1 y; normal_pdf u 1 w; normal_pdf u 1 x].
Proof.
  set (r := gv_rho u x y w). constructor; [|constructor; [|constructor; [|constructor]]].
  - exists 0, [4; 1], [exp x; 1%R]. split; [reflexivity|]. split; [|reflexivity]. constructor; [exact (gv_z r)|]. constructor; [now apply v_con|constructor].
  - exists 0, [2; 1], [u; 1%R]. split; [reflexivity|]. split; [|reflexivity]. constructor; [exact (gv_u r)|]. constructor; [now apply v_con|constructor].
  - exists 0, [2; 1], [u; 1%R]. split; [reflexivity|]. split; [|reflexivity]. constructor; [exact (gv_u r)|]. constructor; [now apply v_con|constructor].
Qed.
(** the determinant is that of diag(1, exp x): Y does not depend on the draw of X once Z is given *)
Definition gv_J (x : R) (i j : nat) : R := if i =? j then if i =? 0 then 1%R else exp x else 0%R.
Example C58_given_ex : forall u x y w rho0, (forall i, i <> 3 -> i <> 5 -> rho0 i = Fin (gv_rho u x y w i)) ->
  exists r, stack_joint (fun _ => DFloat) nfs nlp gv_sys (fun v => Fin (gv_y x y w v)) rho0 [QVar 5; QVar 4] = Some r /\
  denotes r (rprod [normal_pdf (exp x) 1 y; normal_pdf u 1 x] / Rabs (rdet 2 (gv_J x))).
Proof.
  intros u x y w rho0 Ag. set (r := gv_rho u x y w).
  assert (V : forall v, In v [5; 4] -> v = 4 \/ v = 5 \/ v = 6) by (cbn; intuition).
  refine (proj2 (C58_given_partial (fun _ => DFloat) nfs nlp gv_pdf gv_sys [5; 4] (gv_y x y w) gv_base r rho0 (gv_J x) _ gv_acyclic _ _ _ _ _ _ _ _ _)).
  - repeat constructor; cbn; intuition lia.
  - intros v [<-|[<-|[]]]; [exact (gv_yv r)|exact (gv_z r)].
  - intros v I. split; [|left; now destruct I as [<-|[<-|[]]]]. apply gv_smooth; [cbn; auto|cbn; lia|auto].
  - intros v v' I I'. apply gv_inj; auto.
  - intros v v' I I'. apply gv_own; cbn; auto.
  - intros i N. apply Ag; intros ->; apply N; cbn; auto.
  - pose proof (gv_draw u x y w) as G. inversion G as [|? ? ? ? A G1]; subst. inversion G1 as [|? ? ? ? B G2]; subst. constructor; assumption.
  - intros v d l rs I. apply gv_dlp; auto.
  - intros i j Li Lj. destruct i as [|[|i]]; [| |cbn in Li; lia]; (destruct j as [|[|j]]; [| |cbn in Lj; lia]); cbn [nth gv_base Nat.eqb gv_J].
    + apply (gv_partial r 5 5 (fun t => t)); [intros t; exact (gv_yv (upd r 5 t))|auto_derive; [auto|ring]].
    + apply (gv_partial r 5 3 (fun _ => y)); [intros t; exact (gv_yv (upd r 3 t))|auto_derive; [auto|ring]].
    + apply (gv_partial r 4 5 (fun _ => exp x)); [intros t; exact (gv_z (upd r 5 t))|auto_derive; [auto|ring]].
    + apply (gv_partial r 4 3 (fun t => exp t)); [intros t; exact (gv_z (upd r 3 t))|cbn; auto_derive; [auto|ring]].
Qed.
Definition gv_K (x : R) (i j : nat) : R := if i =? j then if i =? 2 then exp x else 1%R else 0%R.
Example C61_given_ex : forall u x y w rho0, (forall i, i <> 3 -> i <> 5 -> i <> 6 -> rho0 i = Fin (gv_rho u x y w i)) ->
  exists r, stack_joint (fun _ => DFloat) nfs nlp gv_sys (fun v => Fin (gv_y x y w v)) rho0 [QStack [5; 6] [Fin y; Fin w]; QVar 4] = Some r /\
  denotes r (rprod [normal_pdf (exp x) 1 y; normal_pdf u 1 w; normal_pdf u 1 x] / Rabs (rdet 3 (gv_K x))).
Proof.
  intros u x y w rho0 Ag. set (r := gv_rho u x y w).
  assert (V : forall v, In v [5; 6; 4] -> v = 4 \/ v = 5 \/ v = 6) by (cbn; intuition).
  refine (proj2 (C61_given_partial (fun _ => DFloat) nfs nlp gv_pdf gv_sys [QStack [5; 6] [Fin y; Fin w]; QVar 4] (gv_y x y w) gv_base r rho0 (gv_K x) _ gv_acyclic _ _ _ _ _ _ _ _ _ _ _));
    cbn [q_vars q_elems q_req flat_map app].
  - repeat constructor; cbn; intuition lia.
  - intros l xs [E|[E|[]]]; [injection E as <- <-; reflexivity|discriminate].
  - intros v b [<-|[<-|[<-|[]]]] [<-|[<-|[]]] N; try (apply gv_needs in N; lia). apply gv_needs6 in N. lia.
  - intros v [<-|[<-|[<-|[]]]]; [exact (gv_yv r)|exact (gv_w r)|exact (gv_z r)].
  - intros v I. split; [|left; now destruct I as [<-|[<-|[<-|[]]]]]. apply gv_smooth; [cbn; auto|cbn; lia|auto].
  - intros v v' I I'. apply gv_inj; auto.
  - intros v v' I I'. apply gv_own; cbn; auto.
  - intros i N. apply Ag; intros ->; apply N; cbn; auto.
  - apply gv_draw.
  - intros v d l rs I. apply gv_dlp; auto.
  - intros i j Li Lj. destruct i as [|[|[|i]]]; [| | |cbn in Li; lia]; (destruct j as [|[|[|j]]]; [| | |cbn in Lj; lia]); cbn [nth gv_base Nat.eqb gv_K].
    + apply (gv_partial r 5 5 (fun t => t)); [intros t; exact (gv_yv (upd r 5 t))|auto_derive; [auto|ring]].
    + apply (gv_partial r 5 6 (fun _ => y)); [intros t; exact (gv_yv (upd r 6 t))|auto_derive; [auto|ring]].
    + apply (gv_partial r 5 3 (fun _ => y)); [intros t; exact (gv_yv (upd r 3 t))|auto_derive; [auto|ring]].
    + apply (gv_partial r 6 5 (fun _ => w)); [intros t; exact (gv_w (upd r 5 t))|auto_derive; [auto|ring]].
    + apply (gv_partial r 6 6 (fun t => t)); [intros t; exact (gv_w (upd r 6 t))|auto_derive; [auto|ring]].
    + apply (gv_partial r 6 3 (fun _ => w)); [intros t; exact (gv_w (upd r 3 t))|auto_derive; [auto|ring]].
    + apply (gv_partial r 4 5 (fun _ => exp x)); [intros t; exact (gv_z (upd r 5 t))|auto_derive; [auto|ring]].
    + apply (gv_partial r 4 6 (fun _ => exp x)); [intros t; exact (gv_z (upd r 6 t))|auto_derive; [auto|ring]].
    + apply (gv_partial r 4 3 (fun t => exp t)); [intros t; exact (gv_z (upd r 3 t))|cbn; auto_derive; [auto|ring]].
Qed.

(** Z = exp X and Y ~ N(X, 1), requested without X: the values determine both
    draws, so there is a joint density, but Y is scored at a fresh draw of X:
    the result changes with it (rewriting.py:246-254, 269-274: only requested
    variables are replaced by their values). *)
Theorem C58_fresh_refuted : exists h req y, acyclic h /\ NoDup req /\
  (exists rho, (forall v, In v req -> svalue nfs h rho v (y v)) /\
    forall rho', (forall v, In v req -> svalue nfs h rho' v (y v)) -> forall i d ps, nth_error h i = Some (SRv d ps) -> rho' i = rho i) /\
  exists rho1 rho2 r1 r2 d1 d2, stack_joint (fun _ => DFloat) nfs nlp h (fun v => Fin (y v)) rho1 (map QVar req) = Some r1 /\ denotes r1 d1 /\
    stack_joint (fun _ => DFloat) nfs nlp h (fun v => Fin (y v)) rho2 (map QVar req) = Some r2 /\ denotes r2 d2 /\ d1 <> d2.
Proof. exact fresh_draw. Qed.
Print Assumptions C58_fresh_refuted.
