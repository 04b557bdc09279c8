(** The same for models of arrays. *)
From Coq Require Import Reals Lra Lia List Arith Bool.
From Coquelicot Require Import Coquelicot.
From Verif Require Import XR XTac SpecDist ModelDist LemDist ModelVec SpecVec ModelIdx SpecIdx LemIdx LemIdx2 ModelTen ModelSub LemSub ModelElem ModelJoint ModelNest SpecNest RMx
  ModelSys SpecSys LemSys LemSys3 ModelEls SpecEls LemEls LemEls2 LemEls3 LemSound SpecSound LemSound4 LemUtil.
Import ListNotations.
Open Scope nat_scope.

Lemma els_nodup afs fs h sh g ix req : spelled_out afs fs h sh g ix -> NoDup req -> (forall v, In v req -> v < length h) -> NoDup (flat_map (elements_of sh ix) req).
Proof.
  intros SO ND R.
  induction ND as [|v l NI ND IH]; [constructor|]. cbn [flat_map].
  assert (Rl : forall w, In w l -> w < length h) by (intros; apply R; now right). specialize (IH Rl). assert (Lv : v < length h) by (apply R; now left).
  assert (D : forall m, NoDup m -> (forall i, In i m -> inside (sh v) i) -> NoDup (map (ix v) m ++ flat_map (elements_of sh ix) l)).
  { induction 1 as [|i m X M IHm]; intros S; [exact IH|]. cbn. constructor; [|apply IHm; intros; apply S; now right]. assert (Si : inside (sh v) i) by (apply S; now left).
    intros Q. apply in_app_or in Q as [Q|Q].
    - apply in_map_iff in Q as (j & Ej & Q). destruct (so_inj _ _ _ _ _ _ SO v v j i Lv Lv (S j (or_intror Q)) Si Ej) as [_ ->]. easy.
    - apply in_flat_map in Q as (w & W & Q). apply in_map_iff in Q as (j & Ej & Q). apply positions_in in Q.
      destruct (so_inj _ _ _ _ _ _ SO w v j i (Rl w W) Lv Q Si Ej) as [-> _]. easy. }
  apply D; [apply positions_nodup|]. intros i. apply positions_in.
Qed.
Section Els.
Variables (ddt : nat -> dtype) (afs : nat -> list (nd xr) -> nd xr) (fs : nat -> list xr -> xr) (dlp : nat -> list xr -> xr -> res xr).
Variables (h : list gnode) (sh : nat -> list nat) (g : list snode) (ix : nat -> list nat -> nat) (req : list nat) (y : nat -> nd xr) (z : nat -> R) (base : nat -> nat) (r : res xr) (d : R).
Hypothesis GA : gacyclic h.
Hypothesis AC : acyclic g.
Hypothesis WS : well_shaped afs h sh.
Hypothesis NE : nonempty h sh.
Hypothesis SO : spelled_out afs fs h sh g ix.
Hypothesis RQ : forall v, In v req -> v < length h /\ nshp (y v) = sh v /\ forall i, inside (sh v) i -> nelt (y v) i = Fin (z (ix v i)).
Notation els := (flat_map (elements_of sh ix) req).
Hypothesis ND : NoDup req.
Hypothesis Ld : forall v, In v els -> leads g els v (base v).
Hypothesis Inj : forall v w, In v els -> In w els -> base v = base w -> v = w.
Hypothesis Ej : g_joint ddt afs dlp h req y = Some r.
Hypothesis Dr : denotes r d.
Lemma els_there : joint ddt fs dlp g els (fun n => Fin (z n)) = Some r.
Proof.
  rewrite <- Ej. symmetry. apply (els_joint ddt afs fs dlp h sh g ix req y (fun n => Fin (z n)) GA AC WS NE SO).
  intros v I. destruct (RQ v I) as (L & S & E). split; [exact L|]. split; [exact S|]. intros i Ii. now rewrite E.
Qed.
Lemma els_sound pdf rho J ps :
  (forall v, In v els -> svalue fs g rho v (z v)) ->
  (forall v d l, In v els -> nth_error g (base v) = Some (SRv d l) -> List.Forall (known g els) l) ->
  Forall2 (fun v p => draw_density fs g pdf rho (base v) p) els ps ->
  (forall v d l rs, In v els -> nth_error g (base v) = Some (SRv d l) -> Forall2 (svalue fs g rho) l rs ->
    denotes (dlp d (map Fin rs) (Fin (rho (base v)))) (pdf d rs (rho (base v)))) ->
  (forall i j, i < length els -> j < length els -> partial fs g rho (nth i els 0) (base (nth j els 0)) (J i j)) ->
  rdet (length els) J <> 0%R /\ d = (rprod ps / Rabs (rdet (length els) J))%R.
Proof.
  intros Val Kn Den Dlp Pa. apply (sys_sound ddt fs dlp pdf g els z base rho J ps r d AC); auto using els_there.
  apply (els_nodup afs fs h sh g ix req); auto. intros v I. exact (proj1 (RQ v I)).
Qed.
Lemma els_attained : (forall v, In v els -> sensible fs g els z v) ->
  exists rho, (forall v, In v els -> svalue fs g rho v (z v)) /\ (forall v, In v els -> smooth fs g els rho v (base v)) /\
    forall rho', (forall w, In w els -> svalue fs g rho' w (z w)) -> forall v, In v els -> rho' (base v) = rho (base v).
Proof.
  intros Se. destruct (sys_attained ddt fs dlp g els z base r d AC Ld Inj Se els_there Dr) as [rho Val].
  pose proof (sys_points ddt fs dlp g els z base rho r d AC Ld Val els_there Dr) as P. exists rho. split; [exact Val|]. split; [intros v V; now apply P|]. intros rho' Val' v V. now apply P.
Qed.
End Els.
