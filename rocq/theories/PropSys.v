(** C58: joint log-probabilities of models with measurable expressions. *)
From Coq Require Import Reals Lra Lia List Arith Bool.
From Coquelicot Require Import Coquelicot.
From Verif Require Import XR XTac SpecDist ModelDist LemDist ModelVec SpecVec ModelJoint ModelNest SpecNest LemNest LemNest2 RMx ModelSys SpecSys LemSys LemSys2 LemSys3.
Import ListNotations.
Open Scope nat_scope.

(** A requested variable gets a log-probability exactly when it is a chain of
    invertible operations over one unrequested draw, all other operands being
    functions of requested variables (and the draw is not of an integer type,
    or is the requested variable itself). *)
Theorem C58_accepted : forall ddt fs dlp h req y v, acyclic h ->
  (conditional ddt fs dlp h req (fun v => Fin (y v)) v <> None <->
   exists b, leads h req v b /\ (rv_dtype ddt h b <> DInt \/ b = v)).
Proof. exact sys_accepted. Qed.
Print Assumptions C58_accepted.

(** For every graph in which each requested variable is led to by a draw of
    its own, the joint log-probability denotes the density of the requested
    variables: the product of the densities of the draws over the absolute
    value of the determinant of the full Jacobian.  The requested variables may
    be listed in any order and may depend on each other.  Missing: draws shared
    by two requested variables (refuted below), the points excluded by
    [smooth] (C58_sound_partial), arrays (C91_density_partial); for parameters that depend on unrequested draws see
    C58_given_partial. *)
Theorem C58_joint_partial : forall ddt fs dlp pdf h req y base rho J ps, acyclic h -> NoDup req ->
  (forall v, In v req -> svalue fs h rho v (y v)) ->
  (forall v, In v req -> smooth fs h req rho v (base v) /\ (rv_dtype ddt h (base v) <> DInt \/ base v = v)) ->
  (forall v w, In v req -> In w req -> base v = base w -> v = w) ->
  (forall v d l, In v req -> nth_error h (base v) = Some (SRv d l) -> List.Forall (known h req) l) ->
  Forall2 (fun v p => draw_density fs h pdf rho (base v) p) req ps ->
  (forall v d l rs, In v req -> nth_error h (base v) = Some (SRv d l) -> Forall2 (svalue fs h rho) l rs ->
    denotes (dlp d (map Fin rs) (Fin (rho (base v)))) (pdf d rs (rho (base v)))) ->
  (forall i j, i < length req -> j < length req -> partial fs h rho (nth i req 0) (base (nth j req 0)) (J i j)) ->
  rdet (length req) J <> 0%R /\
  exists r, joint ddt fs dlp h req (fun v => Fin (y v)) = Some r /\ denotes r (rprod ps / Rabs (rdet (length req) J)).
Proof. exact sys_joint. Qed.
Print Assumptions C58_joint_partial.

(** X ~ N(0, 1), Z = exp X, Y ~ N(Z, 1), W = Y + Z; W and Z are requested, in this order *)
(** [nlp]: every distribution is a normal one; [nfs]: no other operations *)
Definition ex_sys : list snode := [SCon (Fin 0); SCon (Fin 1); SRv 0 [0; 1]; SOne UExp 2; SRv 0 [3; 1]; SMany NAdd [4; 3]].
Definition ex_req : list nat := [5; 3].
Definition ex_base (v : nat) : nat := if v =? 5 then 4 else 2.
Definition npdf (_ : nat) (ps : list R) (x : R) : R := match ps with [m; s] => normal_pdf m s x | _ => 0%R end.
Definition ex_rho (x w : R) (i : nat) : R := if i =? 2 then x else w.
Definition ex_y (x w : R) (v : nat) : R := if v =? 5 then (w + (exp x + 0))%R else exp x.
Lemma ex_sys_acyclic : acyclic ex_sys.
Proof. intros v nd a E I. do 6 (destruct v as [|v]; [injection E as <-; cbn in I; repeat (destruct I as [<-|I]; [lia|]); destruct I|]). now destruct v. Qed.
Lemma ex_sval_x rho : svalue nfs ex_sys rho 2 (rho 2). Proof. exact (v_rv nfs ex_sys rho 2 0 [0; 1] eq_refl). Qed.
Lemma ex_sval_z rho : svalue nfs ex_sys rho 3 (exp (rho 2)). Proof. exact (v_exp nfs ex_sys rho 3 2 _ eq_refl (ex_sval_x rho)). Qed.
Lemma ex_sval_y rho : svalue nfs ex_sys rho 4 (rho 4). Proof. exact (v_rv nfs ex_sys rho 4 0 [3; 1] eq_refl). Qed.
Lemma ex_sval_w rho : svalue nfs ex_sys rho 5 (rho 4%nat + (exp (rho 2%nat) + 0))%R.
Proof. exact (v_add nfs ex_sys rho 5 [4; 3] [rho 4; exp (rho 2)] eq_refl (Forall2_cons _ _ (ex_sval_y rho) (Forall2_cons _ _ (ex_sval_z rho) (Forall2_nil _)))). Qed.
Definition ex_J (x : R) (i j : nat) : R := if j =? 0 then (if i =? 0 then 1 else 0)%R else exp x.
Example C58_joint_ex : forall x w, exists r, joint (fun _ => DFloat) nfs nlp ex_sys ex_req (fun v => Fin (ex_y x w v)) = Some r /\
  denotes r (rprod [normal_pdf (exp x) 1 w; normal_pdf 0 1 x] / Rabs (rdet 2 (ex_J x))).
Proof.
  intros x w.
  refine (proj2 (C58_joint_partial (fun _ => DFloat) nfs nlp npdf ex_sys ex_req (ex_y x w) ex_base (ex_rho x w) (ex_J x) _ ex_sys_acyclic _ _ _ _ _ _ _ _)).
  - repeat constructor; cbn; intuition lia.
  - intros v [<-|[<-|[]]]; [exact (ex_sval_w (ex_rho x w))|exact (ex_sval_z (ex_rho x w))].
  - intros v [<-|[<-|[]]]; (split; [|left; discriminate]).
    + refine (s_add nfs ex_sys ex_req _ 5 [] 4 [3] 4 eq_refl _ (s_rv nfs ex_sys ex_req _ 4 0 [3; 1] eq_refl) _ _ _); [cbn; intuition lia|constructor| |discriminate].
      constructor; [apply k_req; cbn; auto|constructor].
    + refine (s_one nfs ex_sys ex_req _ 3 UExp 2 2 _ eq_refl _ (s_rv nfs ex_sys ex_req _ 2 0 [0; 1] eq_refl) (ex_sval_x _) _); [cbn; intuition lia|discriminate].
  - intros v v' [<-|[<-|[]]] [<-|[<-|[]]]; intros E; try reflexivity; discriminate E.
  - assert (K : forall c, c < 2 -> known ex_sys ex_req c).
    { intros c L. destruct c as [|[|c]]; [| |lia]; (eapply k_det; [reflexivity|discriminate|constructor]). }
    intros v d l [<-|[<-|[]]] E; injection E as <- <-; (constructor; [|constructor; [|constructor]]); try (apply K; lia). apply k_req. cbn. auto.
  - constructor; [|constructor; [|constructor]].
    + exists 0, [3; 1], [exp x; 1%R]. split; [reflexivity|]. split; [|reflexivity]. constructor; [exact (ex_sval_z (ex_rho x w))|]. constructor; [now apply v_con|constructor].
    + exists 0, [0; 1], [0%R; 1%R]. split; [reflexivity|]. split; [|reflexivity]. constructor; [now apply v_con|]. constructor; [now apply v_con|constructor].
  - intros v d l rs [<-|[<-|[]]] E F; injection E as <- <-; inversion F as [|? m ? q A F1]; subst; inversion F1 as [|? s ? q' B F2]; subst; inversion F2; subst;
      assert (s = 1%R) as -> by (apply (svalue_fun nfs ex_sys ex_sys_acyclic (ex_rho x w) 1); [exact B|now apply v_con]); apply normal_ok; lra.
  - intros i j Li Lj. destruct i as [|[|i]]; [| |cbn in Li; lia]; (destruct j as [|[|j]]; [| |cbn in Lj; lia]); cbn [nth ex_req ex_base Nat.eqb].
    + exists (fun t => t + (exp x + 0))%R. split; [|cbn; auto_derive; [auto|ring]]. apply filter_forall. intros t. exact (ex_sval_w (upd (ex_rho x w) 4 t)).
    + exists (fun t => w + (exp t + 0))%R. split; [|cbn; auto_derive; [auto|ring]]. apply filter_forall. intros t. exact (ex_sval_w (upd (ex_rho x w) 2 t)).
    + exists (fun t => exp x). split; [|cbn; auto_derive; [auto|ring]]. apply filter_forall. intros t. exact (ex_sval_z (upd (ex_rho x w) 4 t)).
    + exists (fun t => exp t). split; [|cbn; auto_derive; [auto|ring]]. apply filter_forall. intros t. exact (ex_sval_z (upd (ex_rho x w) 2 t)).
Qed.
(** with Z not requested, W = Y + Z is refused *)
Example C58_refused_ex : forall y, conditional (fun _ => DFloat) nfs nlp ex_sys [5] (fun v => Fin (y v)) 5 = None.
Proof. reflexivity. Qed.

(** X + 1 and exp X, both requested with X itself not requested, are scored as
    if they came from two independent draws: X + 1 = 1 and exp X = 3 is given
    positive density although no draw of X attains it. *)
Theorem C58_shared_refuted : exists h req y r d, acyclic h /\ NoDup req /\
  joint (fun _ => DFloat) nfs nlp h req (fun v => Fin (y v)) = Some r /\ denotes r d /\ (0 < d)%R /\
  forall rho, ~ (forall v, In v req -> svalue nfs h rho v (y v)).
Proof. exact sys_shared. Qed.
Print Assumptions C58_shared_refuted.
