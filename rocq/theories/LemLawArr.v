(** Arrays of log-probabilities and transforms, entry by entry. *)
From Coq Require Import Reals List Arith Bool Lia Lra.
From Verif Require Import XR Special SpecDist ModelVec ModelDist ModelTrans ModelIdx ModelTen ModelSub ModelBatch ModelUniv ModelGraph SpecGraph SpecIdx SpecElem
  LemIdx2 LemElem LemBatch SpecUniv LemUniv ModelLaw SpecLaw ModelLawArr SpecLawArr.
Import ListNotations.
Open Scope nat_scope.

Lemma F2_len {A B} (P : A -> B -> Prop) l m : List.Forall2 P l m -> length l = length m.
Proof. induction 1; cbn; congruence. Qed.
Lemma arity_params u : arity u = params u.
Proof. destruct u; reflexivity. Qed.
Lemma collect_vals l : collect (map Val l) = Val l.
Proof. induction l as [|a l IH]; [reflexivity|]. cbn. now rewrite IH. Qed.
Lemma all_vals (P : nd xr -> Prop) xs : List.Forall (fun a => exists n, a = Val n /\ P n) xs -> exists ns, xs = map Val ns /\ List.Forall P ns.
Proof.
  induction 1 as [|a xs (n & -> & H) _ IH]; [exists []; split; constructor|]. destruct IH as (ns & -> & F). exists (n :: ns). split; [reflexivity|now constructor].
Qed.
Lemma bc_all l s : (forall sh, In sh l -> broadcasts sh s) -> In s l -> is_broadcast l s.
Proof.
  intros H I. split; [|split].
  - intros sh J. apply (proj1 (H sh J)). now left.
  - right. exists s. auto.
  - intros r L. split.
    + intros sh J. apply (proj2 (proj2 (H sh J)) r L). now left.
    + right. exists s. auto.
Qed.
Lemma map_env l : map (fun k => nshp (env_of l k)) (seq 0 (length l)) = map nshp l.
Proof.
  apply nth_ext with (d := []) (d' := []).
  - now rewrite !map_length, seq_length.
  - intros k K. rewrite map_length, seq_length in K. rewrite (nth_indep _ [] (nshp (env_of l 0))) by now rewrite map_length, seq_length.
    rewrite (map_nth (fun k => nshp (env_of l k))), seq_nth by exact K. cbn. unfold env_of.
    rewrite (nth_indep (map nshp l) [] (nshp {| nshp := []; nelt := fun _ => NaN |})) by now rewrite map_length. now rewrite map_nth.
Qed.

Section Arrays.
Variables (u : univ) (ns : list (nd xr)) (s : list nat) (w : nd xr).
Hypothesis LN : length ns = params u.
Hypothesis FB : List.Forall (fun n => broadcasts (nshp n) s) ns.
Hypothesis PS : List.Forall (fun n => 0 < n) s.
Hypothesis SW : nshp w = s.
Let env := env_of (ns ++ [w]).
Lemma env_common : common u env s.
Proof.
  unfold common, env. replace (S (params u)) with (length (ns ++ [w])) by (rewrite app_length, LN; cbn; lia). rewrite map_env. apply bc_all.
  - intros sh J. rewrite map_app in J. apply in_app_or in J. destruct J as [J|[<-|[]]].
    + apply in_map_iff in J. destruct J as (n & <- & J). exact (proj1 (Forall_forall _ _) FB n J).
    + rewrite SW. split; [|split].
      * intros sh [<-|[<-|[]]]; auto.
      * right. exists s. split; [now left|reflexivity].
      * intros r L. split; [intros sh [<-|[<-|[]]]; auto|]. right. exists s. split; [now left|reflexivity].
  - rewrite map_app, <- SW. apply in_or_app. right. now left.
Qed.
Definition entries_of (i : list nat) (ys : list R) : Prop := List.Forall2 (fun n y => exists c, aligned (nshp n) i c /\ nelt n c = Fin y) ns ys.
Lemma at_env i ys z : inside s i -> entries_of i ys -> nelt w i = Fin z -> forall k, k <= params u -> at_ env i k = Fin (nth k (ys ++ [z]) 0%R).
Proof.
  intros I F Z k K. unfold at_, env, env_of. pose proof (F2_len _ _ _ F) as LY. destruct (Nat.eq_dec k (params u)) as [->|NK].
  - rewrite <- LN at 1 2. rewrite app_nth2, Nat.sub_diag by lia. cbn [nth]. rewrite SW, align_self by exact I. rewrite Z.
    rewrite app_nth2 by lia. rewrite <- LY, LN, Nat.sub_diag. reflexivity.
  - rewrite !app_nth1 by lia. assert (K' : k < length ns) by lia. clear K NK.
    assert (LI : forall n, In n ns -> length (nshp n) <= length i).
    { intros n J. rewrite (inside_length _ _ I). apply (proj1 (proj1 (Forall_forall _ _) FB n J)). now left. }
    clear -F K' LI. revert k K'. induction F as [|n y ns ys (c & A & E) F IH]; intros k K'; [cbn in K'; lia|].
    destruct k as [|k]; cbn [nth].
    + rewrite <- E. f_equal. symmetry. apply aligned_iff; [apply LI; now left|exact A].
    + apply IH; [intros m J; apply LI; now right|cbn in K'; lia].
Qed.
(** an element-wise graph that reads the value *)
Lemma eval_arr (e : gx xr) : incl (allvars e) (seq 0 (S (params u))) -> In (params u) (gvars e) ->
  (forall i, inside s i -> eval1 (at_ env i) e <> Raise) ->
  exists a, eval_nd env e = Val a /\ nshp a = s /\ forall i, inside s i -> eval1 (at_ env i) e = Val (nelt a i).
Proof.
  intros V G N. pose proof env_common as C. destruct (eval_complete env _ s C e PS V N) as (a & E). exists a. split; [exact E|].
  destruct (eval_sound env _ s C e V a E) as (B & F).
  assert (SA : nshp a = s).
  { eapply bc_unique; [exact B|]. apply bc_all.
    - intros sh J. unfold LemUniv.sh in J. apply in_map_iff in J. destruct J as (k & <- & J). apply gvars_all, V, in_seq in J.
      unfold env, env_of. destruct (Nat.eq_dec k (params u)) as [->|NK].
      + rewrite <- LN, app_nth2, Nat.sub_diag by lia. cbn [nth]. rewrite SW. split; [|split].
        * intros sh [<-|[<-|[]]]; auto.
        * right. exists s. split; [now left|reflexivity].
        * intros r L. split; [intros sh [<-|[<-|[]]]; auto|]. right. exists s. split; [now left|reflexivity].
      + rewrite app_nth1 by lia. apply (proj1 (Forall_forall _ _) FB). apply nth_In. lia.
    - unfold LemUniv.sh. apply in_map_iff. exists (params u). split; [|exact G]. unfold env, env_of. rewrite <- LN, app_nth2, Nat.sub_diag by lia. exact SW. }
  split; [exact SA|]. intros i I. rewrite (F i I), SA, align_self by exact I. reflexivity.
Qed.
Lemma inputs_ok f : with_inputs (arity u) (map Val ns) (Val w) f = f env.
Proof.
  unfold with_inputs. rewrite map_length, LN, (proj2 (Nat.eqb_eq _ _) (eq_sym (arity_params u))). change [Val w] with (map (@Val (nd xr)) [w]). rewrite <- map_app, collect_vals. reflexivity.
Qed.
End Arrays.

(** the laws are those of the scalar functions *)
Ltac ysplit := repeat match goal with H : match ?l with [] => _ | _ :: _ => _ end |- _ => destruct l; try contradiction end.
Lemma law_scalar u ys L z : law_of u ys L -> length ys = params u /\ scalar u (fun k => Fin (nth k (ys ++ [z]) 0%R)) = law_logprob L (Fin z).
Proof.
  intros H. destruct u; cbn [law_of] in H; ysplit; try contradiction; try (subst L; split; reflexivity).
  - destruct H as (n & -> & ->). split; reflexivity.
  - destruct H as (n & -> & ->). split; reflexivity.
  - destruct H as (a & b & n & -> & -> & -> & ->). split; reflexivity.
Qed.
Lemma law_fun u ys L M : law_of u ys L -> law_of u ys M -> L = M.
Proof.
  intros H K. destruct u; cbn [law_of] in H, K; ysplit; try contradiction; try congruence.
  - destruct H as (n & E & ->), K as (m & E' & ->). rewrite E in E'. apply INR_eq in E'. congruence.
  - destruct H as (n & E & ->), K as (m & E' & ->). rewrite E in E'. apply INR_eq in E'. congruence.
  - destruct H as (a & b & n & E1 & E2 & E3 & ->), K as (a' & b' & n' & E1' & E2' & E3' & ->).
    rewrite E1 in E1'. rewrite E2 in E2'. rewrite E3 in E3'. apply INR_eq in E1', E2', E3'. congruence.
Qed.
Lemma law_back u ys f : law_of u ys (LFam f) -> exists e, g_backward u = Some e /\ incl (allvars e) (seq 0 (S (params u))) /\ In (params u) (gvars e) /\
  forall z, eval1 (fun k => Fin (nth k (ys ++ [z]) 0%R)) e = backward (default_transform f) (Fin z).
Proof.
  intros H. destruct u; cbn [law_of] in H; ysplit; try contradiction; try discriminate H;
    try (destruct H as (? & _ & H); discriminate H); try (destruct H as (? & ? & ? & _ & _ & _ & H); discriminate H);
    injection H as ->; cbn [g_backward]; eexists; (split; [reflexivity|split; [|split; [|intros; reflexivity]]]);
    try (intros k J; apply in_seq; lazy in J; cbn [params]; intuition lia); lazy; tauto.
Qed.
Lemma law_jac u ys f : law_of u ys (LFam f) -> exists e, g_log_jac_det u = Some e /\ incl (allvars e) (seq 0 (S (params u))) /\ In (params u) (gvars e) /\
  forall z, eval1 (fun k => Fin (nth k (ys ++ [z]) 0%R)) e = log_jac_det (default_transform f) (Fin z).
Proof.
  intros H. destruct u; cbn [law_of] in H; ysplit; try contradiction; try discriminate H;
    try (destruct H as (? & _ & H); discriminate H); try (destruct H as (? & ? & ? & _ & _ & _ & H); discriminate H);
    injection H as ->; cbn [g_log_jac_det]; eexists; (split; [reflexivity|split; [|split; [|intros; reflexivity]]]);
    try (intros k J; apply in_seq; lazy in J; cbn [params]; intuition lia); lazy; tauto.
Qed.

Section Factors.
Variables (u : univ) (ns : list (nd xr)) (s : list nat).
Hypothesis FB : List.Forall (fun n => broadcasts (nshp n) s) ns.
Hypothesis PS : List.Forall (fun n => 0 < n) s.
Lemma entries_len i ys L : entries_of ns i ys -> law_of u ys L -> length ns = params u.
Proof. intros F H. destruct (law_scalar u ys L 0%R H) as (E & _). now rewrite (F2_len _ _ _ F). Qed.
Lemma some_inside : exists i, inside s i.
Proof. clear FB. induction PS as [|n s' P Ps IH]; [exists []; constructor|]. destruct (IH Ps) as (i & I). exists (0 :: i). now constructor. Qed.
(** the array of log-probabilities *)
Lemma ld_arr w : nshp w = s ->
  (forall i, inside s i -> exists ys L z, entries_of ns i ys /\ law_of u ys L /\ nelt w i = Fin z /\ law_logprob L (Fin z) <> Raise) ->
  exists a, with_inputs (arity u) (map Val ns) (Val w) (univ_nd u) = Val a /\ nshp a = s /\
    forall i ys L z, inside s i -> entries_of ns i ys -> law_of u ys L -> nelt w i = Fin z -> law_logprob L (Fin z) = Val (nelt a i).
Proof.
  intros SW H. destruct some_inside as (i0 & I0). destruct (H i0 I0) as (ys0 & L0 & z0 & F0 & H0 & _). pose proof (entries_len _ _ _ F0 H0) as LN.
  rewrite (inputs_ok u ns w LN). pose proof (graph_vars u) as V.
  assert (EQ : forall i ys L z, inside s i -> entries_of ns i ys -> law_of u ys L -> nelt w i = Fin z -> eval1 (at_ (env_of (ns ++ [w])) i) (graph u) = law_logprob L (Fin z)).
  { intros i ys L z I F K Z. destruct (law_scalar u ys L z K) as (_ & E). rewrite <- E, <- eval1_graph. apply eval1_ext. intros k J.
    apply (at_env u ns s w LN FB SW i ys z I F Z). apply V, in_seq in J. lia. }
  destruct (eval_arr u ns s w LN FB PS SW (graph u) V (graph_covers u (params u) (le_n _))) as (a & E & SA & A).
  { intros i I. destruct (H i I) as (ys & L & z & F & K & Z & N). now rewrite (EQ i ys L z I F K Z). }
  exists a. split; [exact E|]. split; [exact SA|]. intros i ys L z I F K Z. now rewrite <- (EQ i ys L z I F K Z), A.
Qed.
(** the back-transformed array and the array of log-Jacobians *)
Lemma tr_arr (G : univ -> option (gx xr)) (T : tr -> xr -> res xr) z :
  (forall ys f, law_of u ys (LFam f) -> exists e, G u = Some e /\ incl (allvars e) (seq 0 (S (params u))) /\ In (params u) (gvars e) /\
     forall z, eval1 (fun k => Fin (nth k (ys ++ [z]) 0%R)) e = T (default_transform f) (Fin z)) ->
  (forall i, inside s i -> exists ys f, entries_of ns i ys /\ law_of u ys (LFam f) /\ T (default_transform f) (Fin (z i)) <> Raise) ->
  exists a, with_inputs (arity u) (map Val ns) (Val {| nshp := s; nelt := fun i => Fin (z i) |}) (graph_or_raise (G u)) = Val a /\ nshp a = s /\
    forall i ys f, inside s i -> entries_of ns i ys -> law_of u ys (LFam f) -> T (default_transform f) (Fin (z i)) = Val (nelt a i).
Proof.
  intros Q H. destruct some_inside as (i0 & I0). destruct (H i0 I0) as (ys0 & f0 & F0 & H0 & _). pose proof (entries_len _ _ _ F0 H0) as LN.
  set (w := {| nshp := s; nelt := fun i => Fin (z i) |}). rewrite (inputs_ok u ns w LN). destruct (Q ys0 f0 H0) as (e & Ge & V & G0 & _). rewrite Ge. cbn [graph_or_raise].
  assert (EQ : forall i ys f, inside s i -> entries_of ns i ys -> law_of u ys (LFam f) -> eval1 (at_ (env_of (ns ++ [w])) i) e = T (default_transform f) (Fin (z i))).
  { intros i ys f I F K. destruct (Q ys f K) as (e' & Ge' & _ & _ & E). rewrite Ge in Ge'. injection Ge' as <-. rewrite <- E. apply eval1_ext. intros k J.
    apply (at_env u ns s w LN FB eq_refl i ys (z i) I F eq_refl). apply V, in_seq in J. lia. }
  destruct (eval_arr u ns s w LN FB PS eq_refl e V G0) as (a & E & SA & A).
  { intros i I. destruct (H i I) as (ys & f & F & K & N). now rewrite (EQ i ys f I F K). }
  exists a. split; [exact E|]. split; [exact SA|]. intros i ys f I F K. now rewrite <- (EQ i ys f I F K), A.
Qed.
End Factors.
(** the sum of two arrays of the same shape *)
Lemma add_same a b s : nshp a = s -> nshp b = s -> exists c, add_arr (Val a) (Val b) = Val c /\ nshp c = s /\ forall i, inside s i -> nelt c i = xadd (nelt a i) (nelt b i).
Proof.
  intros A B. assert (BC : is_broadcast [nshp a; nshp b] s).
  { rewrite A, B. split; [|split].
    - intros sh [<-|[<-|[]]]; auto.
    - right. exists s. split; [now left|reflexivity].
    - intros r L. split; [intros sh [<-|[<-|[]]]; auto|]. right. exists s. split; [now left|reflexivity]. }
  cbn [add_arr bind]. destruct (elem2_ok xadd a b s BC) as (c & E & SC & EC). exists c. split; [exact E|]. split; [exact SC|].
  intros i I. now rewrite EC, A, B, align_self.
Qed.
