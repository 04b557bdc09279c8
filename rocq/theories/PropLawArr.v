(** C82: the joint log-probability of a model of array variables is that of a
    probability law. *)
From Coq Require Import Reals List Arith Bool Lia Lra Permutation Sorted.
From Coquelicot Require Import Coquelicot.
From Verif Require Import XR SpecDist SpecTrans ModelVec ModelDist ModelTrans ModelIdx ModelTen ModelSub ModelBatch ModelUniv SpecIdx SpecElem LemIdx LemIdx2
  ModelJoint SpecJoint ModelGraph SpecGraph ModelLaw SpecLaw ModelLawArr SpecLawArr LemBatch LemLawArr LemLawArr2.
Import ListNotations.
Open Scope nat_scope.

(** For every model graph over aeppl's univariate distributions, with array
    variables of any shapes whose parameters broadcast to them, every set of
    requested variables and every choice of default transforms,
    conditional_logprob succeeds, and its joint log-probability as a function of
    all entries of all value variables has total mass one, whatever the inputs
    and the draws of the other variables are. *)
Theorem C82_total : forall fam inp draw det g requested trs shape es,
  request g requested [] trs -> transformed_first g requested trs -> requested <> [] ->
  (forall rv, In rv requested -> exists rng dist ps, nth_error g rv = Some (mk (ORv rng dist) ps)) ->
  (forall rv tr, dget trs rv = Some tr -> exists rng ps, nth_error g rv = Some (mk (ORv rng tr) ps)) ->
  (forall v, In v requested -> List.Forall (fun n => 0 < n) (shape v)) -> all_entries requested shape es ->
  proper_arrays (arr_sem fam inp draw det) fam g requested trs shape ->
  exists h fs vv, conditional_logprob toposort true g requested [] trs = Ok (h, fs, vv) /\
  forall zs m, total (fun zs => joint_array (arr_sem fam (set_arrays shape requested vv zs inp) draw det) h fs)
                  (entry_domain (arr_sem fam inp draw det) fam g requested trs shape) es zs m <-> m = 1%R.
Proof. exact total_arrays. Qed.
Print Assumptions C82_total.

(** s ~ Exponential(1) of shape (2,) on the log scale, x ~ N(1, s) of shape
    (3, 2), k ~ Poisson(exp(x)) of shape (3, 2), in the order s, k, x *)
Definition exa_graph : heap :=
  [mk OIn []; mk (ORv 0 5) [0]; mk (ORv 1 6) [0; 1]; mk (ODet 9) [2]; mk (ORv 2 7) [3]].
Definition exa_fam (d : nat) : univ := match d with 5 => UExponential | 6 => UNormal | _ => UPoisson end.
Definition c1 : nd xr := {| nshp := []; nelt := fun _ => Fin 1 |}.
Definition exa_inp (v : nat) : arr := Val c1.
Definition exa_draw (rng dist : nat) (ps : list arr) : arr := Raise.
Definition exa_det (f : nat) (xs : list arr) : arr :=
  match xs with [Val a] => Val {| nshp := nshp a; nelt := fun i => xexp (nelt a i) |} | _ => Raise end.
Definition exa_trs := [(1, 5)].
Definition exa_shape (v : nat) : list nat := match v with 1 => [2] | _ => [3; 2] end.
Definition exa_rq := [1; 4; 2].
Lemma exa_request : request exa_graph exa_rq [] exa_trs.
Proof.
  split; [intros [|[|[|[|[|v]]]]] nd H; cbn in H; try discriminate; [..|destruct v; discriminate]; injection H as <-; cbn; intuition (subst; auto; lia)|].
  split; [repeat constructor; cbn; intuition discriminate|]. split; [cbn; intuition (subst; cbn; lia)|].
  split; [easy|]. intros rv H. cbn in H. destruct (rv =? 1) eqn:E; [|easy]. apply Nat.eqb_eq in E as ->. split; [cbn; auto|]. cbn. eauto.
Qed.
Lemma exa_first : transformed_first exa_graph exa_rq exa_trs.
Proof.
  intros [|[|[|i]]] [|[|[|j]]] x y H1 H2 T Ne Dp; cbn in H1, H2; try (destruct i; discriminate); try (destruct j; discriminate); try discriminate; injection H1 as <-; injection H2 as <-; try easy; try lia.
Qed.
Lemma exa_rv rv : In rv exa_rq -> exists rng dist ps, nth_error exa_graph rv = Some (mk (ORv rng dist) ps).
Proof. intros [<-|[<-|[<-|[]]]]; cbn; eauto. Qed.
Definition exa_S := arr_sem exa_fam exa_inp exa_draw exa_det.
Definition exa_NA := natural_arr exa_S exa_graph exa_rq exa_trs exa_shape.
Definition exa_PA := params_at exa_S exa_graph exa_rq exa_trs exa_shape.
Lemma exa_m0 zs rho x : exa_NA zs rho -> means exa_S exa_graph rho 0 x -> x = Val c1.
Proof.
  intros (_ & N2) M. inversion M as [w y Rr|w ps Rr E|w r0 d0 ps ys Rr E K|w f0 ps ys Rr E K]; subst; try (cbn in E; discriminate); [|reflexivity].
  rewrite N2 in Rr; [discriminate|]. cbn. intuition discriminate.
Qed.
Lemma exa_p1 zs dist xs : exa_PA zs 1 dist xs -> dist = 5 /\ xs = [Val c1].
Proof.
  intros (rho & rng & ps & N & E & M). cbn in E. injection E as <- <- <-. split; [reflexivity|]. inversion M as [|p l x m M1 M2]; subst. inversion M2; subst.
  now rewrite (exa_m0 zs rho x N M1).
Qed.
Lemma exa_r1 zs rho : exa_NA zs rho -> exists a, rho 1 = Some (Val a) /\ nshp a = [2] /\ forall i, SpecIdx.inside [2] i -> nelt a i = Fin (exp (zs 1 i)).
Proof.
  intros N. pose proof (proj1 N 1 (or_introl eq_refl)) as Q. cbn [dget exa_trs Nat.eqb] in Q. destruct Q as (rng & dist & ps & xs & E & M & Q).
  assert (P : exa_PA zs 1 dist xs) by (exists rho, rng, ps; auto). apply exa_p1 in P. destruct P as (-> & ->). rewrite Q. eexists. split; [reflexivity|]. split; [reflexivity|].
  intros i H. reflexivity.
Qed.
Lemma exa_p2 zs dist xs : exa_PA zs 2 dist xs -> dist = 6 /\ exists a, xs = [Val c1; Val a] /\ nshp a = [2] /\ forall i, SpecIdx.inside [2] i -> nelt a i = Fin (exp (zs 1 i)).
Proof.
  intros (rho & rng & ps & N & E & M). cbn in E. injection E as <- <- <-. split; [reflexivity|]. inversion M as [|p l x m M1 M2]; subst. inversion M2 as [|p l y m' M3 M4]; subst. inversion M4; subst.
  destruct (exa_r1 zs rho N) as (a & Q & Sa & Ha). exists a. rewrite (exa_m0 zs rho x N M1).
  inversion M3 as [w z Rr|w ps Rr E|w r0 d0 ps ys Rr E K|w f0 ps ys Rr E K]; subst; try congruence. rewrite Q in Rr. injection Rr as <-. auto.
Qed.
Lemma exa_p4 zs dist xs : exa_PA zs 4 dist xs -> dist = 7 /\ xs = [Val {| nshp := [3; 2]; nelt := fun i => Fin (exp (zs 2 i)) |}].
Proof.
  intros (rho & rng & ps & N & E & M). cbn in E. injection E as <- <- <-. split; [reflexivity|]. inversion M as [|p l x m M1 M2]; subst. inversion M2; subst.
  inversion M1 as [w z Rr|w ps Rr E|w r0 d0 ps ys Rr E K|w f0 ps ys Rr E K]; subst; try (cbn in E; discriminate).
  - destruct N as (_ & N2). rewrite N2 in Rr; [discriminate|]. cbn. intuition discriminate.
  - cbn in E. injection E as <- <-. inversion K as [|p l z m M1' M2']; subst. inversion M2'; subst. pose proof (proj1 N 2 ltac:(cbn; auto)) as Q. cbn [dget exa_trs Nat.eqb] in Q.
    inversion M1' as [w z' Rr'|w ps Rr' E|w r0 d0 ps ys Rr' E K'|w f0' ps ys Rr' E K']; subst; try congruence. rewrite Q in Rr'. injection Rr' as <-. reflexivity.
Qed.
Ltac bc := apply bcast_all_spec; reflexivity.
Lemma exa_proper : proper_arrays exa_S exa_fam exa_graph exa_rq exa_trs exa_shape.
Proof.
  intros zs v I _. destruct (params_ex exa_fam exa_inp exa_draw exa_det exa_graph exa_rq exa_trs exa_shape exa_request exa_rv zs v I) as (dist & xs & P).
  destruct I as [<-|[<-|[<-|[]]]].
  - split.
    + intros d l Q. destruct (exa_p1 zs d l Q) as (_ & ->). constructor; [|constructor]. exists c1. split; [reflexivity|]. bc.
    + intros i Ii. destruct (exa_p1 zs dist xs P) as (-> & ->). exists (LFam (FExponential 1)). split; [|split; [cbn; lra|]].
      * exists 5, [Val c1], [1%R]. split; [exact P|]. split; [|reflexivity]. constructor; [|constructor]. exists c1, []. split; [reflexivity|]. split; [|reflexivity]. split; [reflexivity|]. cbn. lia.
      * intros _. exists (FExponential 1). split; auto. split; [easy|discriminate].
  - split.
    + intros d l Q. destruct (exa_p4 zs d l Q) as (_ & ->). constructor; [|constructor]. eexists. split; [reflexivity|]. bc.
    + intros i Ii. destruct (exa_p4 zs dist xs P) as (-> & ->). exists (LPoisson (exp (zs 2 i))). split; [|split; [cbn; left; apply exp_pos|easy]].
      exists 7, [Val {| nshp := [3; 2]; nelt := fun i => Fin (exp (zs 2 i)) |}], [exp (zs 2 i)]. split; [exact P|]. split; [|reflexivity]. constructor; [|constructor].
      eexists; exists i. split; [reflexivity|]. split; [|reflexivity]. apply aligned_iff; [cbn [nshp]; now rewrite (LemElem.inside_length _ _ Ii)|]. cbn [nshp]. symmetry. now apply LemElem.align_self.
  - split.
    + intros d l Q. destruct (exa_p2 zs d l Q) as (_ & a & -> & Sa & _). constructor; [|constructor; [|constructor]].
      * exists c1. split; [reflexivity|]. bc.
      * exists a. split; [reflexivity|]. rewrite Sa. bc.
    + intros i Ii. destruct (exa_p2 zs dist xs P) as (-> & a & -> & Sa & Ha). inversion Ii as [|i1 d1 l1 m1 L1 T1]; subst. inversion T1 as [|i2 d2 l2 m2 L2 T2]; subst. inversion T2; subst.
      exists (LNormal 1 (exp (zs 1 [i2]))). split; [|split; [cbn; apply exp_pos|easy]].
      exists 6, [Val c1; Val a], [1%R; exp (zs 1 [i2])]. split; [exact P|]. split; [|reflexivity]. constructor; [|constructor; [|constructor]].
      * exists c1, []. split; [reflexivity|]. split; [|reflexivity]. split; [reflexivity|]. cbn. lia.
      * exists a, [i2]. split; [reflexivity|]. split; [|apply Ha; constructor; [exact L2|constructor]]. rewrite Sa. apply aligned_iff; [cbn; lia|reflexivity].
Qed.
Definition exa_es : list (nat * list nat) :=
  [(1, [0]); (1, [1]); (2, [0; 0]); (2, [0; 1]); (2, [1; 0]); (2, [1; 1]); (2, [2; 0]); (2, [2; 1]);
   (4, [0; 0]); (4, [0; 1]); (4, [1; 0]); (4, [1; 1]); (4, [2; 0]); (4, [2; 1])].
Example C82_case : exists h fs vv, conditional_logprob toposort true exa_graph exa_rq [] exa_trs = Ok (h, fs, vv) /\
  forall zs m, total (fun zs => joint_array (arr_sem exa_fam (set_arrays exa_shape exa_rq vv zs exa_inp) exa_draw exa_det) h fs)
                  (entry_domain (arr_sem exa_fam exa_inp exa_draw exa_det) exa_fam exa_graph exa_rq exa_trs exa_shape) exa_es zs m <-> m = 1%R.
Proof.
  apply C82_total; [exact exa_request|exact exa_first|discriminate|exact exa_rv| | | |exact exa_proper].
  - intros rv tr H. cbn in H. destruct (rv =? 1) eqn:E; [|discriminate]. apply Nat.eqb_eq in E as ->. injection H as <-. cbn. eauto.
  - intros v [<-|[<-|[<-|[]]]]; repeat constructor.
  - apply (entries_listed exa_shape exa_rq [1; 2; 4]); [apply perm_skip, perm_swap|repeat constructor; lia].
Qed.
