(** Lemmas for C85. *)
From Coq Require Import List String Bool Lia.
From Verif Require Import ModelNames.
Import ListNotations.
Open Scope string_scope.

Lemma append_length (a c : string) : String.length (a ++ c) = String.length a + String.length c.
Proof. induction a as [|x a IH]; cbn; [reflexivity|now rewrite IH]. Qed.
Lemma append_inj (a b c : string) : a ++ c = b ++ c -> a = b.
Proof.
  revert b. induction a as [|x a IH]; intros [|y b] E; cbn in E; auto.
  - exfalso. apply (f_equal String.length) in E. cbn in E. rewrite append_length in E. lia.
  - exfalso. apply (f_equal String.length) in E. cbn in E. rewrite append_length in E. lia.
  - injection E as -> E. f_equal. auto.
Qed.
Lemma truthy_some s : s <> "" -> truthy (Some s) = true.
Proof. intros H. cbn. now destruct (String.eqb_spec s ""). Qed.
Lemma nodup_map {A B} (f : A -> B) l : (forall x y, In x l -> In y l -> f x = f y -> x = y) -> NoDup l -> NoDup (map f l).
Proof.
  intros I ND. induction ND as [|x l N ND IH]; cbn; constructor.
  - intros J. apply in_map_iff in J as (y & E & J). apply N. rewrite (I x y); cbn; auto.
  - apply IH. intros a b Ia Ib. apply I; cbn; auto.
Qed.
Lemma factors_named requested realized : (forall r, In r requested -> exists s, r_name r = Some s /\ s <> "") -> (forall n, In n realized -> exists s, n = Some s /\ s <> "") ->
  fst (result_names requested realized) = map (fun n => Some (show n ++ "_logprob")) (map r_name requested ++ realized)%list.
Proof.
  intros H K. unfold result_names. cbn [fst]. rewrite map_app, map_map. f_equal; apply map_ext_in.
  - intros r I. destruct (H r I) as (s & E & Ns). unfold factor_name. now rewrite E, truthy_some.
  - intros n I. destruct (K n I) as (s & -> & Ns). unfold factor_name. now rewrite truthy_some.
Qed.
Lemma factors_distinct requested realized : (forall r, In r requested -> exists s, r_name r = Some s /\ s <> "") -> (forall n, In n realized -> exists s, n = Some s /\ s <> "") ->
  NoDup (map r_name requested ++ realized)%list ->
  NoDup (fst (result_names requested realized)) /\
  forall k s, nth_error (map r_name requested ++ realized)%list k = Some (Some s) -> nth_error (fst (result_names requested realized)) k = Some (Some (s ++ "_logprob")).
Proof.
  intros H K ND. rewrite factors_named by assumption. split.
  - apply nodup_map; [|exact ND]. intros x y Ix Iy E. assert (Q : forall n, In n (map r_name requested ++ realized)%list -> exists s, n = Some s).
    { intros n I. apply in_app_iff in I as [I|I]; [apply in_map_iff in I as (r & <- & I); destruct (H r I) as (s & E' & _)|destruct (K n I) as (s & E' & _)]; eauto. }
    destruct (Q x Ix) as (a & ->), (Q y Iy) as (b & ->). cbn in E. injection E as E. f_equal. eapply append_inj, E.
  - intros k s E. now apply (map_nth_error (fun n => Some (show n ++ "_logprob"))) in E.
Qed.
Lemma values_distinct requested realized : (forall r, In r requested -> exists s, r_name r = Some s /\ s <> "") ->
  (forall r, In r requested -> r_trans r = false) -> NoDup (map r_name requested) ->
  NoDup (snd (result_names requested realized)) /\
  forall k r s, nth_error requested k = Some r -> r_name r = Some s -> nth_error (snd (result_names requested realized)) k = Some (Some (s ++ "_vv")).
Proof.
  intros H T ND. assert (E : snd (result_names requested realized) = map (fun n => Some (show n ++ "_vv")) (map r_name requested)).
  { cbn [result_names snd]. rewrite map_map. apply map_ext_in. intros r I. destruct (H r I) as (s & E & Ns). unfold returned_name, value_name. rewrite (T r I), E. now rewrite truthy_some. }
  rewrite E. split.
  - apply nodup_map; [|exact ND]. intros x y Ix Iy Q. apply in_map_iff in Ix as (r & <- & Ir), Iy as (r' & <- & Ir'). destruct (H r Ir) as (a & Ea & _), (H r' Ir') as (b & Eb & _).
    rewrite Ea, Eb in *. cbn in Q. injection Q as Q. f_equal. eapply append_inj, Q.
  - intros k r s Er Es. assert (Q := map_nth_error (fun n => Some (show n ++ "_vv")) _ _ (map_nth_error r_name _ _ Er)). rewrite Es in Q. exact Q.
Qed.
Lemma values_transformed requested realized k r : nth_error requested k = Some r -> r_trans r = true -> nth_error (snd (result_names requested realized)) k = Some (Some "val_clone-trans").
Proof. intros E T. cbn [result_names snd]. apply (map_nth_error (fun r => returned_name (r_name r) (r_trans r))) in E. rewrite E. unfold returned_name. now rewrite T. Qed.
Lemma logprob_last : forall values acc a s b, values = (a ++ Some s :: b)%list -> s <> "" -> (forall n, In n b -> n = None \/ n = Some "") -> logprob_name values acc = Some (s ++ "_logprob").
Proof.
  intros values acc a s b -> Ns Hb. revert acc. induction a as [|n a IH]; intros acc; cbn [app logprob_name]; [|apply IH]. rewrite truthy_some by exact Ns. cbn [show].
  revert Hb. generalize (Some (s ++ "_logprob")). induction b as [|n b IH]; intros acc' Hb; [reflexivity|]. cbn [logprob_name].
  destruct (Hb n (or_introl eq_refl)) as [->| ->]; apply IH; intros m I; apply Hb; now right.
Qed.
Lemma trans_collide : exists requested, NoDup (map r_name requested) /\ (forall r, In r requested -> exists s, r_name r = Some s /\ s <> "") /\ ~ NoDup (snd (result_names requested [])) /\
  exists k s, nth_error (map r_name requested) k = Some (Some s) /\ nth_error (snd (result_names requested [])) k <> Some (Some (s ++ "_vv-trans")).
Proof.
  exists [{| r_name := Some "A"; r_trans := true |}; {| r_name := Some "B"; r_trans := true |}]. split; [|split; [|split]].
  - constructor; [cbn; intros [E|[]]; discriminate|]. constructor; [easy|constructor].
  - intros r [<-|[<-|[]]]; eexists; (split; [reflexivity|discriminate]).
  - intros ND. inversion ND as [|x l N _]; subst. apply N. now left.
  - exists 0, "A". split; [reflexivity|]. discriminate.
Qed.
Lemma app_assoc_s a b c : (a ++ b) ++ c = a ++ (b ++ c).
Proof. induction a as [|x a IH]; cbn; congruence. Qed.
Lemma length_app_s a b : String.length (a ++ b) = String.length a + String.length b.
Proof. induction a as [|x a IH]; cbn; congruence. Qed.
Lemma suffix_same a b s t : a ++ s = b ++ t -> String.length s = String.length t -> s = t.
Proof.
  revert b. induction a as [|x a IH]; intros [|y b] E L; cbn in E; try assumption.
  - exfalso. apply (f_equal String.length) in E. cbn in E. rewrite length_app_s in E. lia.
  - exfalso. apply (f_equal String.length) in E. cbn in E. rewrite length_app_s in E. lia.
  - injection E as _ E. eapply IH; eauto.
Qed.
Definition value_suffix_of (k : kind) : string := match k with KValue => "_vv" | KLogprob => "_logprob" | KLogcdf => "_logcdf" | KIcdf => "_icdf" end.
Lemma kinds_distinct k1 k2 (s1 s2 : string) acc : s1 <> "" -> s2 <> "" -> kind_name k1 (Some s1) acc = kind_name k2 (Some s2) acc -> k1 = k2 /\ s1 = s2.
Proof.
  intros N1 N2 E.
  assert (K : forall k s, s <> "" -> kind_name k (Some s) acc = Some (s ++ value_suffix_of k)) by (intros k s Ns; destruct k; cbn [kind_name value_suffix_of]; unfold value_name, factor_name, logcdf_name, icdf_name; now rewrite truthy_some).
  rewrite !K in E by assumption. injection E as E.
  assert (k1 = k2) as ->.
  { destruct k1, k2; try reflexivity; exfalso; cbn [value_suffix_of] in E.
    all: repeat match type of E with
      | _ ++ "_logprob" = _ => change "_logprob" with ("_logpr" ++ "ob") in E
      | _ = _ ++ "_logprob" => change "_logprob" with ("_logpr" ++ "ob") in E
      end.
    all: repeat match type of E with context ["_vv"] => change "_vv" with ("_" ++ "vv") in E end.
    all: try (match type of E with context ["_icdf"] => match type of E with context ["_logcdf"] => change "_icdf" with ("_" ++ "icdf") in E; change "_logcdf" with ("_lo" ++ "gcdf") in E end end).
    all: repeat match type of E with context ["_logcdf"] => change "_logcdf" with ("_logc" ++ "df") in E end.
    all: repeat match type of E with context ["_icdf"] => change "_icdf" with ("_ic" ++ "df") in E end.
    all: rewrite <- !app_assoc_s in E; apply suffix_same in E; [discriminate|reflexivity]. }
  split; [reflexivity|]. eapply append_inj, E.
Qed.
Lemma logprob_defined sequence values acc : logprob_call sequence values acc <> None <-> (sequence = true -> forall s, In (Some s) values -> s = "").
Proof.
  unfold logprob_call. destruct sequence; [|split; [intros _ E; discriminate E|discriminate]]. destruct (existsb truthy values) eqn:B; split.
  - intros N. now destruct N.
  - intros H _. apply existsb_exists in B as ([s|] & I & T); [|discriminate T]. rewrite (H eq_refl s I) in T. discriminate T.
  - intros _ _ s I. destruct (String.eqb_spec s "") as [E|N]; [exact E|]. assert (X : existsb truthy values = true); [|congruence].
    apply existsb_exists. exists (Some s). split; [exact I|]. unfold truthy. apply negb_true_iff. now apply String.eqb_neq.
  - discriminate.
Qed.
