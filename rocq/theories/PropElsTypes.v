(** C95, two further claims: integer arrays and known cumulative sums. *)
From Coq Require Import Reals List Arith Bool Lia Lra.
From Verif Require Import XR ModelVec ModelJoint ModelTen ModelElem ModelNest ModelEls ModelElsV SpecTen SpecElsV PropEls LemTen2 SpecElsTypes LemElsTypes.
Import ListNotations.
Open Scope nat_scope.

(** An elementwise operation on integers that are random and have no values,
    however they were indexed, transposed, stacked or summed up, gets no density:
    the model is refused (transforms.py:548). *)
Theorem C95_discrete : forall ddt afs h req y, vacyclic h -> forall dlp v nd a,
  nth_error h v = Some nd -> elementwise nd -> In a (vinputs nd) -> counts ddt h req a -> In v req -> v_joint ddt afs dlp h req y = None.
Proof. exact discrete_joint. Qed.
Print Assumptions C95_discrete.
(** The cumulative sum of an array with a value is that of the value: each
    entry is the total up to and including it. *)
Theorem C95_cumsum_value : forall ddt afs h req y, vacyclic h -> forall v axis a ax f,
  nth_error h v = Some (VCum axis a) -> In a req -> axis_is (length (nshp (y a))) axis ax -> (forall p, nelt (y a) p = Fin (f p)) ->
  exists r, v_val (v_top ddt afs h req y v) = Val r /\ nshp r = nshp (y a) /\
    forall q n, length (q n) = length (nshp (y a)) -> along ax q n -> nelt r (q n) = Fin (sum_f_R0 (fun i => f (q i)) n).
Proof. exact cumsum_value. Qed.
Print Assumptions C95_cumsum_value.

(** exp(P[1:]) for Poisson draws P of shape [3] *)
Definition dc_h : list vnode := [VCon (ex_num (Fin 1)); VRv 1 [3] [0]; VTake [] {| nshp := [2]; nelt := fun p => [S (nth 0 p 0)] |} 1; VOne UExp 2].
Example C95_discrete_ex : forall dlp y, v_joint (fun d => if d =? 1 then DInt else DFloat) ex_afs dlp dc_h [3] y = None.
Proof.
  intros dlp y. apply (C95_discrete (fun d => if d =? 1 then DInt else DFloat) ex_afs dc_h [3] y) with (v := 3) (nd := VOne UExp 2) (a := 2); [|reflexivity|exact I|now left| |now left].
  - intros v nd a E Ia. do 4 (destruct v as [|v]; [injection E as <-; cbn in Ia; repeat (destruct Ia as [<-|Ia]; [lia|]); destruct Ia|]). now destruct v.
  - apply (ct_take _ _ _ 2 [] {| nshp := [2]; nelt := fun p => [S (nth 0 p 0)] |} 1); [reflexivity| |cbn; lia]. apply (ct_rv _ _ _ 1 1 [3] [0]); [reflexivity|reflexivity|cbn; lia].
Qed.
(** cumsum(X) along the second axis of a known matrix with rows 1, 2, 3 and 10, 20, 30 *)
Definition cs_h : list vnode := [VCon (ex_num (Fin 1)); VRv 0 [2; 3] [0; 0]; VCum (-1) 1].
Definition cs_f (p : list nat) : R := ((if nth 0 p 0%nat =? 0 then 1 else 10) * INR (S (nth 1 p 0%nat)))%R.
Definition cs_y (_ : nat) : nd xr := {| nshp := [2; 3]; nelt := fun p => Fin (cs_f p) |}.
Example C95_cumsum_value_ex : exists r, v_val (v_top (fun _ => DFloat) ex_afs cs_h [1] cs_y 2) = Val r /\ nelt r [1; 2] = Fin 60.
Proof.
  destruct (C95_cumsum_value (fun _ => DFloat) ex_afs cs_h [1] cs_y) with (v := 2) (axis := (-1)%Z) (a := 1) (ax := 1) (f := cs_f) as (r & Er & _ & H); try reflexivity.
  - intros v nd a E Ia. do 3 (destruct v as [|v]; [injection E as <-; cbn in Ia; repeat (destruct Ia as [<-|Ia]; [lia|]); destruct Ia|]). now destruct v.
  - now left.
  - apply norm_axis_spec. reflexivity.
  - exists r. split; [exact Er|]. rewrite (H (fun i => [1; i]) 2 eq_refl).
    + f_equal. unfold cs_f. cbn. lra.
    + intros i L. split; [|reflexivity]. split; [reflexivity|]. intros k D. destruct k as [|[|k]]; [reflexivity|easy|]. cbn. reflexivity.
Qed.
