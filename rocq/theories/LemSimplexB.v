(** Lemmas on the simplex transform of arrays. *)
From Coq Require Import Reals Lra Lia List Arith ZArith Bool.
From Verif Require Import XR Special SpecDist XTac ModelDist LemDist ModelVec SpecVec LemVec ModelIdx SpecIdx LemIdx LemIdx2 ModelTen ModelSub LemSub
  ModelElem SpecElem LemElem ModelBatch SpecBatch LemBatch RMx ModelSimplex SpecSimplex LemSimplex LemSimplex3 ModelSimplexB.
Import ListNotations.
Open Scope nat_scope.

Lemma snoc_nil {A} (b : list A) x : b ++ [x] <> [].
Proof. now destruct b. Qed.
Lemma keepdims_ok {A B} (f : list A -> B) a b K : nshp a = b ++ [K] -> exists r, keepdims f a = Val r /\ nshp r = b ++ [1] /\
  forall i k, nelt r (i ++ [k]) = f (row a i).
Proof.
  intros E. unfold keepdims. destruct (nshp a) as [|d s] eqn:Q; [symmetry in E; now apply snoc_nil in E|]. rewrite E, removelast_last.
  eexists. split; [reflexivity|]. split; [reflexivity|]. intros i k. cbn [nelt]. now rewrite removelast_last.
Qed.
Lemma set_nth_last b K x : set_nth (length b) x (b ++ [K]) = b ++ [x].
Proof.
  unfold set_nth. rewrite firstn_app, firstn_all, Nat.sub_diag. cbn [firstn]. rewrite app_nil_r. f_equal.
  rewrite skipn_all2; [reflexivity|]. rewrite app_length. cbn. lia.
Qed.
Lemma nth_last {A} (b : list A) x d : nth (length b) (b ++ [x]) d = x.
Proof. rewrite app_nth2 by lia. now rewrite Nat.sub_diag. Qed.
(** concatenation along the last axis appends the rows *)
Lemma concat_last {A} (a c : nd A) b K L d : nshp a = b ++ [K] -> nshp c = b ++ [L] -> exists r, concatenate (-1) [a; c] d = Val r /\
  nshp r = b ++ [K + L] /\ forall i, length i = length b -> row r i = row a i ++ row c i.
Proof.
  intros Ea Ec. unfold concatenate. rewrite Ea. unfold norm_axis. rewrite app_length. cbn [length].
  replace (-1 <? 0)%Z with true by reflexivity.
  replace ((0 <=? -1 + Z.of_nat (length b + 1)) && (-1 + Z.of_nat (length b + 1) <? Z.of_nat (length b + 1)))%Z with true
    by (symmetry; apply andb_true_iff; rewrite Z.leb_le, Z.ltb_lt; lia).
  replace (Z.to_nat (-1 + Z.of_nat (length b + 1))) with (length b) by lia. cbn [forallb fold_right]. rewrite Ea, Ec, !set_nth_last, !nth_last.
  destruct (list_eq_dec Nat.eq_dec (b ++ [0]) (b ++ [0])) as [_|]; [|easy]. cbn [andb]. eexists. split; [reflexivity|]. cbn [nshp]. rewrite Nat.add_0_r.
  split; [reflexivity|]. intros i Li. rewrite (row_eq a b K i Ea), (row_eq c b L i Ec), (row_eq _ b (K + L) i) by reflexivity.
  rewrite seq_app, map_app. cbn [nelt cat_elt]. rewrite Ea, Ec, !nth_last. f_equal.
  - apply map_ext_in. intros k I. apply in_seq in I. rewrite <- Li at 1. rewrite nth_last. now rewrite (proj2 (Nat.ltb_lt k K)) by lia.
  - cbn [Nat.add]. assert (S : forall l, seq (K + 0) l = map (fun k => K + k) (seq 0 l)).
    { intros l. rewrite Nat.add_0_r. clear. revert K. induction l as [|l IH]; intros K; [reflexivity|]. cbn [seq map]. rewrite Nat.add_0_r. f_equal.
      rewrite IH, <- (seq_shift l 0), map_map. apply map_ext. intros; lia. }
    rewrite Nat.add_0_r in S. rewrite S, map_map. apply map_ext_in. intros k I. apply in_seq in I. rewrite <- Li, !nth_last.
    rewrite (proj2 (Nat.ltb_ge (K + k) K)) by lia. rewrite set_nth_last, nth_last. replace (K + k - K) with k by lia.
    now rewrite (proj2 (Nat.ltb_lt k L)) by lia.
Qed.
Lemma align_keep b i k : inside b i -> align (b ++ [1]) (i ++ [k]) = i ++ [0].
Proof. intros H. rewrite align_app by (rewrite ?(inside_length b i H); auto). now rewrite (align_self b i H). Qed.
(** an operation with an array that has one entry for each row *)
Lemma elem2_keep {A B C} (f : A -> B -> C) a s b K : nshp a = b ++ [K] -> nshp s = b ++ [1] -> exists r, elem2 f a s = Val r /\ nshp r = b ++ [K] /\
  forall i, inside b i -> row r i = map (fun x => f x (nelt s (i ++ [0]))) (row a i).
Proof.
  intros Ea Es. destruct (elem2_ok f a s (b ++ [K])) as (r & E & Sr & Er); [rewrite Ea, Es; apply bc_keep|].
  exists r. split; [exact E|]. split; [exact Sr|]. intros i Hi. rewrite (row_eq r b K i Sr), (row_eq a b K i Ea), map_map.
  apply map_ext_in. intros k I. apply in_seq in I. rewrite Er, Es, Ea, (align_keep b i k Hi), align_snoc by (rewrite ?(inside_length b i Hi); lia).
  now rewrite (align_self b i Hi).
Qed.
Lemma row1 {A} (a : nd A) b i : nshp a = b ++ [1] -> row a i = [nelt a (i ++ [0])].
Proof. intros E. now rewrite (row_eq a b 1 i E). Qed.
Lemma row_elem1 {A B} (f : A -> B) a i : row (elem1 f a) i = map f (row a i).
Proof. unfold row, elem1. cbn [nshp nelt]. now rewrite map_map. Qed.

Lemma backward_rows value b n : nshp value = b ++ [n] -> exists r, simplex_backward_nd value = Val r /\ nshp r = b ++ [S n] /\
  forall i, inside b i -> row r i = simplex_backward (row value i).
Proof.
  intros E. unfold simplex_backward_nd. destruct (keepdims_ok xsum value b n E) as (s & -> & Ss & Es). cbn [bind].
  destruct (concat_last value (elem1 xneg s) b n 1 NaN E Ss) as (v & -> & Sv & Ev). cbn [bind].
  destruct (keepdims_ok at_max v b (n + 1) Sv) as (m & -> & Sm & Em). cbn [bind].
  destruct (elem2_keep (fun v m => xexp (xsub v m)) v m b (n + 1) Sv Sm) as (e & -> & Se & Ee). cbn [bind].
  destruct (keepdims_ok xsum e b (n + 1) Se) as (t & -> & St & Et). cbn [bind].
  destruct (elem2_keep xdiv e t b (n + 1) Se St) as (r & -> & Sr & Er). exists r. split; [reflexivity|].
  split; [rewrite Sr; do 2 f_equal; lia|]. intros i Hi. pose proof (inside_length b i Hi) as Li. rewrite (Er i Hi), (Ee i Hi), Et, (Ee i Hi), Em, (Ev i Li).
  rewrite row_elem1, (row1 s b i Ss), Es. reflexivity.
Qed.
Lemma jac_rows value b n : nshp value = b ++ [n] -> exists r, simplex_log_jac_det_nd value = Val r /\ nshp r = b /\
  forall i, inside b i -> nelt r i = xsum [simplex_log_jac_det (row value i)].
Proof.
  intros E. unfold simplex_log_jac_det_nd. destruct (keepdims_ok xsum value b n E) as (s & -> & Ss & Es). cbn [bind].
  destruct (elem2_keep xadd value s b n E Ss) as (v & -> & Sv & Ev). cbn [bind].
  destruct (concat_last v {| nshp := nshp s; nelt := fun _ => Fin 0 |} b n 1 NaN Sv Ss) as (w & -> & Sw & Ew). cbn [bind].
  destruct (keepdims_ok (fun l => xlog (xsum (map xexp l))) w b (n + 1) Sw) as (l & -> & Sl & El). cbn [bind].
  match goal with |- context [elem2 xadd ?x ?y] => destruct (elem2_keep xadd x y b 1 Ss Sl) as (r & -> & Sr & Er) end. cbn [bind].
  exists (reduce xsum r). split; [reflexivity|]. split; [now apply (reduce_shape xsum r b 1)|]. intros i Hi. cbn [reduce nelt].
  rewrite (Er i Hi), row_elem1, (row1 s b i Ss). cbn [elem1 nelt map]. rewrite El, (Ew i (inside_length b i Hi)), (Ev i Hi), Es.
  rewrite (row1 {| nshp := nshp s; nelt := fun _ => Fin 0 |} b i) by exact Ss. cbn [nelt]. rewrite E, last_last. unfold simplex_log_jac_det. cbv zeta.
  rewrite (row_len value b n i E). reflexivity.
Qed.
Lemma forward_rows value b n : nshp value = b ++ [n] -> exists r, simplex_forward_nd value = Val r /\ nshp r = b ++ [n - 1] /\
  forall i, inside b i -> row r i = simplex_forward (row value i).
Proof.
  intros E. unfold simplex_forward_nd. destruct (keepdims_ok xsum (elem1 xlog value) b n E) as (s & -> & Ss & Es). cbn [bind].
  assert (Sa : nshp (all_but_last (elem1 xlog value)) = b ++ [n - 1]) by (cbn [all_but_last nshp elem1]; now rewrite E, removelast_last, last_last).
  match goal with |- context [elem2 xsub _ ?y] => destruct (elem2_keep xsub (all_but_last (elem1 xlog value)) y b (n - 1) Sa Ss) as (r & -> & Sr & Er) end.
  exists r. split; [reflexivity|]. split; [exact Sr|]. intros i Hi. rewrite (Er i Hi). cbn [elem1 nelt]. rewrite Es. change {| nshp := _; nelt := fun i0 => xlog (nelt value i0) |} with (elem1 xlog value).
  rewrite row_elem1, E, last_last. unfold simplex_forward. cbv zeta. rewrite (row_len value b n i E).
  f_equal. rewrite (row_eq _ b (n - 1) i Sa), (row_eq value b n i E), map_map. cbn [all_but_last nelt elem1].
  destruct n as [|n]; [reflexivity|]. rewrite seq_S, map_app. cbn [map]. rewrite removelast_last. now replace (S n - 1) with n by lia.
Qed.
(** arrays given by their rows *)
Lemma batch_of_rows r b K (v : list nat -> list R) : nshp r = b ++ [K] -> (forall i, inside b i -> row r i = map Fin (v i)) -> batch Fin r b K v.
Proof.
  intros E H. split; [exact E|]. intros c Hc. specialize (H c Hc). rewrite (row_eq r b K c E) in H. split.
  - apply (f_equal (@length _)) in H. rewrite !map_length, seq_length in H. now symmetry.
  - intros k Hk. rewrite <- H. erewrite map_nth_error; [reflexivity|]. rewrite (nth_error_nth' _ 0) by (now rewrite seq_length). now rewrite seq_nth.
Qed.
Lemma batch_backward value b n v : batch Fin value b n v -> exists r, simplex_backward_nd value = Val r /\ batch Fin r b (S n) (fun c => soft (v c)).
Proof.
  intros B. destruct (backward_rows value b n (proj1 B)) as (r & E & S & H). exists r. split; [exact E|]. apply batch_of_rows; [exact S|].
  intros i Hi. rewrite (H i Hi), (batch_row Fin value b n v i B Hi). apply backward_soft.
Qed.
Definition ldet (v : list R) : R := ln (Rabs (rdet (length v) (Js v))).
Lemma batch_jac value b n v : batch Fin value b n v -> exists r, simplex_log_jac_det_nd value = Val r /\ array_of Fin r b (fun c => ldet (v c)).
Proof.
  intros B. destruct (jac_rows value b n (proj1 B)) as (r & E & S & H). exists r. split; [exact E|]. split; [exact S|].
  intros i Hi. rewrite (H i Hi), (batch_row Fin value b n v i B Hi). destruct (simplex_det (v i)) as (_ & ->). cbn [xsum fold_right xadd]. unfold ldet. f_equal. ring.
Qed.
Lemma batch_forward value b n x : batch Fin value b (S n) x -> (forall c, inside b c -> in_simplex n (x c)) ->
  exists w r, simplex_forward_nd value = Val r /\ batch Fin r b n w /\ forall c, inside b c -> simplex_forward (map Fin (x c)) = map Fin (w c).
Proof.
  intros B X. destruct (forward_rows value b (S n) (proj1 B)) as (r & E & Sr & H).
  set (w := fun c => match simplex_forward (map Fin (x c)) with l => map (fun a => match a with Fin r => r | _ => 0%R end) l end).
  assert (W : forall c, inside b c -> simplex_forward (map Fin (x c)) = map Fin (w c)).
  { intros c Hc. destruct (X c Hc) as (L & P & _). unfold w. rewrite forward_fin by (auto; intros Q; rewrite Q in L; discriminate).
    rewrite !map_map. reflexivity. }
  exists w, r. split; [exact E|]. split; [|exact W]. apply batch_of_rows; [rewrite Sr; do 2 f_equal; lia|]. intros i Hi.
  rewrite (H i Hi), (batch_row Fin value b (S n) x i B Hi). now apply W.
Qed.
Lemma rtotal_in l a : List.Forall (fun x => 0 < x)%R l -> In a l -> (a <= rtotal l)%R.
Proof.
  induction 1 as [|x l Hx H IH]; [easy|]. change (rtotal (x :: l)) with (x + rtotal l)%R.
  assert (0 <= rtotal l)%R by (apply rtotal_nneg; eapply Forall_impl; [|exact H]; cbn; intros; lra). intros [<-|I]; [lra|]. specialize (IH I). lra.
Qed.
Lemma dirichlet_simplex j alpha value ba bv n o (al v : list nat -> list R) : batch Fin alpha ba (S n) al -> batch Fin value bv n v -> is_broadcast [ba; bv] o ->
  (forall c, inside ba c -> List.Forall (fun a => 0 < a)%R (al c)) ->
  exists r, dirichlet_transformed_nd j alpha value = Val r /\ nshp r = o /\
    forall i ka kv, inside o i -> aligned ba i ka -> aligned bv i kv ->
      denotes (Val (nelt r i)) (dirichlet_pdf (al ka) (soft (v kv)) * if j then Rabs (rdet n (Js (v kv))) else 1)%R.
Proof.
  intros Ba Bv B Pa. destruct (batch_backward value bv n v Bv) as (x & Ex & Bx). destruct (batch_jac value bv n v Bv) as (l & El & Sl & Hl).
  unfold dirichlet_transformed_nd. rewrite Ex. cbn [bind].
  destruct (dirichlet_batch alpha x ba bv (S n) o al (fun c => soft (v c)) Ba Bx B ltac:(lia) Pa) as (d & Ed & Sd & Hd).
  { intros c Hc. destruct (soft_simplex (v c)) as (_ & P & T). apply List.Forall_forall. intros y Iy. split; [rewrite List.Forall_forall in P; auto|].
    rewrite <- T. now apply rtotal_in. }
  rewrite Ed. cbn [bind]. destruct j.
  - rewrite El. cbn [bind]. destruct (elem2_ok xadd d l o) as (r & Er & Sr & Hr).
    { rewrite Sd, Sl. apply bc_sym. exact (bc_in [ba; bv] o bv B (or_intror (or_introl eq_refl))). }
    exists r. split; [exact Er|]. split; [exact Sr|]. intros i ka kv Hi Aa Av. specialize (Hd i ka kv Hi Aa Av). rewrite Hr, Sd, Sl, (align_self o i Hi).
    assert (Lv : length bv <= length i) by (rewrite (inside_length o i Hi); destruct B as (BL & _); apply BL; cbn; auto).
    pose proof (proj1 (aligned_iff _ _ _ Lv) Av) as ->. assert (Iv : inside bv (align bv i)) by (apply (align_inside bv o i); [apply (bc_in [ba; bv] o); [exact B|right; now left]|exact Hi]).
    rewrite (Hl _ Iv). unfold ldet. destruct (simplex_det (v (align bv i))) as (Nz & _). destruct (proj2 Bv _ Iv) as (Ln & _). rewrite Ln in *.
    assert (0 < Rabs (rdet n (Js (v (align bv i)))))%R as Pj by now apply Rabs_pos_lt.
    revert Hd. destruct (nelt d i) as [y| | |]; cbn [denotes xadd]; intros Hd; try contradiction; rewrite ?exp_plus, ?exp_ln; auto; rewrite Hd; ring.
  - exists d. split; [reflexivity|]. split; [exact Sd|]. intros i ka kv Hi Aa Av. rewrite Rmult_1_r. auto.
Qed.
