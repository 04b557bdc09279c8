(** C71: transformed operations and their registries. *)
From Coq Require Import Reals List Arith Bool String Lia Lra.
From Verif Require Import XR ModelVec ModelTop SpecTop LemTop.
Import ListNotations.
Open Scope nat_scope.

(** The log-probability of a transformed op is the density of the op it was made
    from at the back-transformed value plus the Jacobian term of the given
    transform at the transformed one; without the Jacobian it is the density
    alone, and a value that was not back-transformed is refused. *)
Theorem C71_logprob : forall dlp jac s o t n d s' o', reachable s -> create s o t n d = Some (s', o') -> forall b x,
  op_logprob dlp jac s' true o' (TPair b x) = plus (op_logprob dlp jac s true o b) (jac t x) /\
  op_logprob dlp jac s' false o' (TPair b x) = op_logprob dlp jac s true o b /\
  forall uj, op_logprob dlp jac s' uj o' (TPlain x) = Raise.
Proof. intros dlp jac s o t n d s' o' R C b x. exact (op_new_any dlp jac s o t n d s' o' R C b x). Qed.
Print Assumptions C71_logprob.

(** Making a transformed op changes nothing for the ops that exist already: not
    their log-probability, nor their name or transform. *)
Theorem C71_frozen : forall dlp jac s o t n d s' o', reachable s -> create s o t n d = Some (s', o') -> forall o1, exists_class s (o_cls o1) ->
  (forall uj v, op_logprob dlp jac s' uj o1 v = op_logprob dlp jac s uj o1 v) /\
  name_attr s' (o_cls o1) = name_attr s (o_cls o1) /\ transform_attr s' (o_cls o1) = transform_attr s (o_cls o1).
Proof. intros dlp jac s o t n d s' o' R C o1 E. exact (conj (fun uj v => op_old dlp jac s o t n d s' o' R C uj o1 v E) (attrs_old s o t n d s' o' R C (o_cls o1) E)). Qed.
Print Assumptions C71_frozen.

(** The new op is an instance of a new subclass of the op's class, with the same
    attributes and the given transform. *)
Theorem C71_new : forall s o t n d s' o', reachable s -> create s o t n d = Some (s', o') ->
  transform_attr s' (o_cls o') = Some t /\ o_attrs o' = o_attrs o /\ ancestor s' (o_cls o') (o_cls o) /\ ~ exists_class s (o_cls o').
Proof. exact attrs_new. Qed.
Print Assumptions C71_new.

(** With [default=False] the defaults of the existing classes stay; with
    [default=True] the default becomes the new class for exactly the classes whose
    nearest registration is now the op's class.  The default of a transformed op
    is its own class. *)
Theorem C71_default : forall s o t n d s' o', reachable s -> create s o t n d = Some (s', o') ->
  default_transformed s' o' = Some {| o_cls := o_cls o'; o_attrs := 0 |} /\
  forall o1, exists_class s (o_cls o1) ->
  (d = false -> default_transformed s' o1 = default_transformed s o1) /\
  (~ ancestor s (o_cls o1) (o_cls o) -> default_transformed s' o1 = default_transformed s o1) /\
  (d = true -> forall a, nearest s (fun c => c = o_cls o \/ exists m, In (c, m) (dt_reg s)) (o_cls o1) a ->
     (a = o_cls o -> default_transformed s' o1 = Some {| o_cls := o_cls o'; o_attrs := 0 |}) /\
     (a <> o_cls o -> default_transformed s' o1 = default_transformed s o1)).
Proof. exact default_all. Qed.
Print Assumptions C71_default.

(** Full claim: the default transform of an op gives the op's own density plus
    the Jacobian term.  Missing: the density is the one of the op [rv] for which
    the default was registered, a base class of the op's class. *)
Theorem C71_factor_partial : forall dlp jac s o o'', reachable s -> default_transformed s o = Some o'' -> exists rv t,
  (forall b x, op_logprob dlp jac s true o'' (TPair b x) = plus (op_logprob dlp jac s true rv b) (jac t x)) /\
  transform_attr s (o_cls o'') = Some t /\ ancestor s (o_cls o) (o_cls rv).
Proof. exact default_origin. Qed.
Print Assumptions C71_factor_partial.

(** For the op whose default was just set, it is the op's own density. *)
Theorem C71_factor : forall dlp jac s o t n s' o', reachable s -> create s o t n true = Some (s', o') -> exists o'',
  default_transformed s' o = Some o'' /\ transform_attr s' (o_cls o'') = Some t /\
  forall b x, op_logprob dlp jac s' true o'' (TPair b x) = plus (op_logprob dlp jac s' true o b) (jac t x).
Proof. exact default_factor. Qed.
Print Assumptions C71_factor.

(** a gamma op with a density of its own for a subclass *)
Definition ex_start : tstate :=
  {| classes := [{| c_base := None; c_type := "RandomVariable"; c_name := Some "" ; c_transform := None |};
                 {| c_base := Some 0; c_type := "GammaRV"; c_name := Some "gamma"; c_transform := None |};
                 {| c_base := Some 1; c_type := "ScaledGammaRV"; c_name := None; c_transform := None |}]%string;
     lp_reg := [(2, IBase 8); (1, IBase 7)]; dt_reg := [] |}.
Definition ex_gamma := {| o_cls := 1; o_attrs := 0 |}.
Definition ex_scaled := {| o_cls := 2; o_attrs := 0 |}.
Definition ex_dlp (k a : nat) (v : xr) : res xr := Val (match v with Fin r => Fin (INR k * r)%R | v => v end).
Definition ex_jac (t : nat) (v : xr) : res xr := Val v.
Lemma ex_reach : reachable ex_start.
Proof.
  apply r_start. split; [|split]; [| |reflexivity].
  - intros c k H. destruct c as [|[|[|c]]]; cbn in H; [| | |destruct c; discriminate]; injection H as <-; (split; [reflexivity|]); cbn; intros b Q; try discriminate; injection Q as <-; lia.
  - cbn. intros c i [Q|[Q|[]]]; injection Q as <- <-; split; eauto; lia.
Qed.
Definition ex_s1 : tstate := match create ex_start ex_gamma 5 (Some "log"%string) true with Some (s, _) => s | None => ex_start end.
Definition ex_o1 : opi := match create ex_start ex_gamma 5 (Some "log"%string) true with Some (_, o) => o | None => ex_gamma end.
Lemma ex_c1 : create ex_start ex_gamma 5 (Some "log"%string) true = Some (ex_s1, ex_o1).
Proof. reflexivity. Qed.
Definition ex_s2 : tstate := match create ex_s1 ex_o1 6 None false with Some (s, _) => s | None => ex_start end.
Definition ex_o2 : opi := match create ex_s1 ex_o1 6 None false with Some (_, o) => o | None => ex_gamma end.
Lemma ex_c2 : create ex_s1 ex_o1 6 None false = Some (ex_s2, ex_o2).
Proof. reflexivity. Qed.
(** gamma at 2, log-value 3: 7*2 + 3 *)
Example ex_logprob : op_logprob ex_dlp ex_jac ex_s1 true ex_o1 (TPair (TPlain (Fin 2)) (Fin 3)) = Val (Fin 17).
Proof. cbn. f_equal. f_equal. lra. Qed.
(** a second transform on the transformed op: both Jacobian terms, and without
    the outer one the inner one is still there *)
Example ex_twice : op_logprob ex_dlp ex_jac ex_s2 true ex_o2 (TPair (TPair (TPlain (Fin 2)) (Fin 3)) (Fin 4)) = Val (Fin 21) /\
  op_logprob ex_dlp ex_jac ex_s2 false ex_o2 (TPair (TPair (TPlain (Fin 2)) (Fin 3)) (Fin 4)) = Val (Fin 17) /\
  op_logprob ex_dlp ex_jac ex_s2 true ex_o2 (TPair (TPlain (Fin 2)) (Fin 4)) = Raise.
Proof. split; [|split]; cbn; [f_equal; f_equal; lra|f_equal; f_equal; lra|reflexivity]. Qed.
Example ex_names : name_attr ex_s1 3 = Some "gamma_log"%string /\ name_attr ex_s2 4 = Some "gamma_log_transformed"%string /\ transform_attr ex_s2 4 = Some 6 /\ transform_attr ex_s2 3 = Some 5.
Proof. repeat split. Qed.
Example ex_defaults : default_transformed ex_s2 ex_gamma = Some ex_o1 /\ default_transformed ex_s2 ex_scaled = Some ex_o1 /\ default_transformed ex_s2 ex_o2 = Some ex_o2 /\ default_transformed ex_start ex_gamma = None.
Proof. repeat split. Qed.
Example ex_nearest : nearest ex_start (fun c => c = o_cls ex_gamma \/ exists m, In (c, m) (dt_reg ex_start)) (o_cls ex_scaled) 1.
Proof. eapply ne_base; [reflexivity| |reflexivity|]. - intros [Q|(m & [])]. discriminate. - eapply ne_self; [reflexivity|]. now left. Qed.

(** A subclass with a density of its own: its default transform uses the density
    of the base class (here 7*2+3 instead of 8*2+3), for a subclass of any op with
    a default transform. *)
Theorem C71_subclass_refuted : exists dlp jac s o o'' t b x, reachable s /\ default_transformed s o = Some o'' /\ transform_attr s (o_cls o'') = Some t /\
  op_logprob dlp jac s true o'' (TPair b x) <> plus (op_logprob dlp jac s true o b) (jac t x).
Proof.
  exists ex_dlp, ex_jac, ex_s1, ex_scaled, ex_o1, 5, (TPlain (Fin 2)), (Fin 3). split; [eapply r_create; [exact ex_reach|exact ex_c1]|]. split; [reflexivity|]. split; [reflexivity|].
  cbn. intros Q. injection Q as Q. lra.
Qed.
Print Assumptions C71_subclass_refuted.

(** The name is the op's name followed by the transform's, if the op's class
    defines a non-empty name itself. *)
Theorem C71_name : forall s o t n d s' o' k, reachable s -> create s o t n d = Some (s', o') -> nth_error (classes s) (o_cls o) = Some k ->
  (forall m, c_name k = Some m -> m <> ""%string -> name_attr s' (o_cls o') = Some (m ++ "_" ++ match n with Some n => n | None => "transformed" end)%string) /\
  (c_name k = None -> name_attr s' (o_cls o') = name_attr s (o_cls o)).
Proof. exact name_new. Qed.
Print Assumptions C71_name.

(** An op whose class inherits its name: the transformed op has the same name as
    the op it was made from, without the transform's name. *)
Theorem C71_name_refuted : exists s o t n d s' o' m, reachable s /\ create s o t (Some n) d = Some (s', o') /\ name_attr s (o_cls o) = Some m /\ m <> ""%string /\
  name_attr s' (o_cls o') = Some m.
Proof.
  exists ex_start, ex_scaled, 5, "log"%string, false. do 3 eexists. split; [exact ex_reach|]. split; [reflexivity|]. split; [reflexivity|]. split; [discriminate|reflexivity].
Qed.
Print Assumptions C71_name_refuted.
