(** Properties C14, C35, C36: factorisation along the model graph, transformed
    values, and random draws. *)
From Coq Require Import List Arith Lia.
From Verif Require Import XR ModelVec ModelJoint SpecJoint ModelGraph SpecGraph LemGraph2 LemGraph3.
Import ListNotations.
Open Scope nat_scope.

(** ** C35 *)
(** the factors of a request without transforms *)
Theorem C35_factors : forall trav uj g requested realized h fs vv, request g requested realized [] ->
  conditional_logprob trav uj g requested realized [] = Ok (h, fs, vv) -> factorises uj g requested realized [] h fs vv.
Proof. intros trav uj g requested realized h fs vv R. exact (m_sound trav uj g requested realized [] h fs vv R (or_introl eq_refl)). Qed.
Print Assumptions C35_factors.
(** the joint log-probability is the sum of the model's factors *)
Theorem C35_joint : forall trav uj g requested realized h fs vv V (S : sem V (list xr)) rho Y,
  request g requested realized [] ->
  conditional_logprob trav uj g requested realized [] = Ok (h, fs, vv) -> point S g requested vv realized [] rho ->
  (forall rv, In rv (requested ++ map fst realized) -> model_factor S g rho rv None (Y rv)) ->
  requested ++ map fst realized <> [] ->
  exists ys, Forall2 (fun p y => fvalue S h (snd p) y) fs ys /\ joint_reduce ys = Some (xsum (concat (map Y (requested ++ map fst realized)))).
Proof. exact joint_plain. Qed.
Print Assumptions C35_joint.
(** every request for RandomVariables gets an answer, and every assignment of
    values to the value variables is a point *)
Theorem C35_defined : forall trav uj g requested realized, request g requested realized [] ->
  (forall rv, In rv (requested ++ map fst realized) -> exists rng dist ps, nth_error g rv = Some (mk (ORv rng dist) ps)) ->
  exists h fs vv, conditional_logprob trav uj g requested realized [] = Ok (h, fs, vv) /\
    forall V L (S : sem V L), exists rho, point S g requested vv realized [] rho.
Proof. exact defined_plain. Qed.
Print Assumptions C35_defined.

(** w, an un-valued u, x of w and a function of u, y of x; x and y requested, w realized *)
Definition chain : heap :=
  [mk OIn []; mk (ORv 0 5) [0]; mk (ORv 1 5) [0]; mk (ODet 9) [1; 2]; mk (ORv 2 6) [3]; mk (ODet 8) [4]; mk (ORv 3 7) [5; 4]].
Example C35_case : request chain [6; 4] [(1, 0)] [] /\
  (exists h, conditional_logprob toposort true chain [6; 4] [(1, 0)] [] =
     Ok (h, [(6, {| f_dist := 7; f_params := [5 + 18; 8]; f_value := 7; f_trans := None |});
             (4, {| f_dist := 6; f_params := [3 + 18]; f_value := 8; f_trans := None |});
             (1, {| f_dist := 5; f_params := [0]; f_value := 0; f_trans := None |})], [7; 8]) /\
     nth_error h 21 = Some (mk (ODet 9) [0; 20]) /\ nth_error h 23 = Some (mk (ODet 8) [8]) /\ nth_error h 20 = Some (mk (ORv 1 5) [0])).
Proof.
  split.
  - split; [intros [|[|[|[|[|[|[|v]]]]]]] nd H; cbn in H; try discriminate; [..|destruct v; discriminate]; injection H as <-; cbn; intuition (subst; auto; lia)|].
    split; [repeat constructor; cbn; intuition discriminate|]. split; [cbn; intuition (subst; cbn; lia)|].
    split; [intros rv val [E|[]]; injection E as <- <-; cbn; lia|]. intros rv D. cbn in D. easy.
  - eexists. split; [vm_compute; reflexivity|]. repeat split.
Qed.

(** ** C14 *)
(** the factors of a request with transforms, when every transformed variable
    is requested before the requested variables that depend on it *)
Theorem C14_factors_partial : forall uj g requested realized trs h fs vv, request g requested realized trs ->
  transformed_first g requested trs ->
  conditional_logprob toposort uj g requested realized trs = Ok (h, fs, vv) -> factorises uj g requested realized trs h fs vv.
Proof. intros uj g requested realized trs h fs vv R F. exact (m_sound toposort uj g requested realized trs h fs vv R (or_intror (conj eq_refl F))). Qed.
Print Assumptions C14_factors_partial.
Theorem C14_joint_partial : forall uj g requested realized trs h fs vv V (S : sem V (list xr)) rho Y,
  request g requested realized trs -> transformed_first g requested trs ->
  conditional_logprob toposort uj g requested realized trs = Ok (h, fs, vv) -> point S g requested vv realized trs rho ->
  (forall i rv v, nth_error requested i = Some rv -> nth_error vv i = Some v -> model_factor S g rho rv (trans_of S uj trs rv v) (Y rv)) ->
  (forall rv, In rv (map fst realized) -> model_factor S g rho rv None (Y rv)) ->
  requested ++ map fst realized <> [] ->
  exists ys, Forall2 (fun p y => fvalue S h (snd p) y) fs ys /\ joint_reduce ys = Some (xsum (concat (map Y (requested ++ map fst realized)))).
Proof. exact joint_trans. Qed.
Print Assumptions C14_joint_partial.
Theorem C14_defined_partial : forall uj g requested realized trs, request g requested realized trs -> transformed_first g requested trs ->
  (forall rv, In rv (requested ++ map fst realized) -> exists rng dist ps, nth_error g rv = Some (mk (ORv rng dist) ps)) ->
  exists h fs vv, conditional_logprob toposort uj g requested realized trs = Ok (h, fs, vv) /\
    forall V L (S : sem V L), exists rho, point S g requested vv realized trs rho.
Proof. exact defined_trans. Qed.
Print Assumptions C14_defined_partial.

(** w -> x -> y, with x transformed: the order w, x, y is covered *)
Example C14_case : request wxy [1; 2; 3] [] [(2, 9)] /\ transformed_first wxy [1; 2; 3] [(2, 9)] /\
  exists h b, conditional_logprob toposort true wxy [1; 2; 3] [] [(2, 9)] =
     Ok (h, [(1, {| f_dist := 5; f_params := [0]; f_value := 4; f_trans := None |});
             (2, {| f_dist := 6; f_params := [4]; f_value := b + 2; f_trans := Some (9, b) |});
             (3, {| f_dist := 7; f_params := [b + 2]; f_value := 6; f_trans := None |})], [4; b; 6]) /\
     nth_error h (b + 2) = Some (mk (OBack 9) [b; 4]).
Proof.
  split; [apply wxy_request; [intros x [<-|[<-|[<-|[]]]]; lia|repeat constructor; cbn; intuition discriminate|cbn; auto]|]. split.
  - intros [|[|[|[|i]]]] [|[|[|[|j]]]] x y H1 H2 D Ne Dp; cbn in H1, H2; try discriminate; injection H1 as <-; injection H2 as <-; cbn in D; try easy; try lia.
    exfalso. inversion Dp as [|u nd a v E I D']; subst. cbn in E. injection E as <-. destruct I as [<-|[]].
    inversion D' as [|u nd a v E I D'']; subst. cbn in E. injection E as <-. easy.
  - eexists _, 32. split; [vm_compute; reflexivity|reflexivity].
Qed.
(** requested in the order y, x, w, the Jacobian term of x is lost: its factor
    is 0 and not 1 when densities are 0 and Jacobian terms 1 *)
Theorem C14_request_order_refuted : exists requested h fs vv f (S : sem unit nat) rho,
  request wxy requested [] [(2, 9)] /\ conditional_logprob toposort true wxy requested [] [(2, 9)] = Ok (h, fs, vv) /\
  point S wxy requested vv [] [(2, 9)] rho /\ In (2, f) fs /\ fvalue S h f 0 /\
  forall i v, nth_error requested i = Some 2 -> nth_error vv i = Some v ->
    model_factor S wxy rho 2 (trans_of S true [(2, 9)] 2 v) 1 /\ ~ model_factor S wxy rho 2 (trans_of S true [(2, 9)] 2 v) 0.
Proof. exact order_refuted. Qed.
Print Assumptions C14_request_order_refuted.
(** a transform for a realized variable: its value is ignored, and the factor
    depends on a free variable that is not returned *)
Theorem C14_realized_refuted : exists g requested realized trs h fs vv f v,
  model_graph g /\ conditional_logprob toposort true g requested realized trs = Ok (h, fs, vv) /\
  In (2, f) fs /\ In (2, 0) realized /\ dget trs 2 <> None /\
  fdepends h f v /\ nth_error h v = Some (mk OIn []) /\ length g <= v /\ ~ In v vv /\ ~ fdepends h f 0.
Proof. exact realized_refuted. Qed.
Print Assumptions C14_realized_refuted.

(** ** C36 *)
(** every draw in the result is from the generator of a variable of the model
    that was neither requested nor realized *)
Theorem C36_draws : forall trav uj g requested realized h fs vv, request g requested realized [] ->
  (forall rv val, In (rv, val) realized -> forall a, depends g val a -> ~ In a (requested ++ map fst realized)) ->
  conditional_logprob trav uj g requested realized [] = Ok (h, fs, vv) ->
  forall rv f w nd rng dist, In (rv, f) fs -> fdepends h f w -> nth_error h w = Some nd -> draws nd rng dist ->
  exists a ps, ~ In a requested /\ ~ In a (map fst realized) /\ nth_error g a = Some (mk (ORv rng dist) ps).
Proof. exact draws_plain. Qed.
Print Assumptions C36_draws.
Theorem C36_draws_transformed_partial : forall uj g requested realized trs h fs vv, request g requested realized trs ->
  transformed_first g requested trs ->
  (forall rv val, In (rv, val) realized -> forall a, depends g val a -> ~ In a (requested ++ map fst realized)) ->
  conditional_logprob toposort uj g requested realized trs = Ok (h, fs, vv) ->
  forall rv f w nd rng dist, In (rv, f) fs -> fdepends h f w -> nth_error h w = Some nd -> draws nd rng dist ->
  exists a ps, ~ In a requested /\ ~ In a (map fst realized) /\ nth_error g a = Some (mk (ORv rng dist) ps).
Proof. exact draws_trans. Qed.
Print Assumptions C36_draws_transformed_partial.
(** in the case above the draw of the un-valued variable 2 remains *)
Example C36_case : exists h fs vv f, conditional_logprob toposort true chain [6; 4] [(1, 0)] [] = Ok (h, fs, vv) /\
  In (4, f) fs /\ fdepends h f 20 /\ nth_error h 20 = Some (mk (ORv 1 5) [0]) /\ nth_error chain 2 = Some (mk (ORv 1 5) [0]).
Proof.
  eexists _, _, _, _. split; [vm_compute; reflexivity|]. split; [cbn; right; left; reflexivity|]. split; [|split; reflexivity].
  exists 21. split; [left; cbn; auto|]. eapply dep_step; [reflexivity|cbn; auto|]. constructor.
Qed.
(** a realized value that is an expression of a requested variable brings back its draw *)
Theorem C36_realized_expression_refuted : exists g requested realized h fs vv rv f w nd,
  request g requested realized [] /\ conditional_logprob toposort true g requested realized [] = Ok (h, fs, vv) /\
  In (rv, f) fs /\ fdepends h f w /\ nth_error h w = Some nd /\ draws nd 0 5 /\
  forall a ps dist, nth_error g a = Some (mk (ORv 0 dist) ps) -> In a requested.
Proof. exact expression_refuted. Qed.
Print Assumptions C36_realized_expression_refuted.
(** with transforms in the wrong order, the draw of a requested variable is in the result *)
Theorem C36_request_order_refuted : exists requested h fs vv rv f w nd,
  request wxy requested [] [(2, 9)] /\ conditional_logprob toposort true wxy requested [] [(2, 9)] = Ok (h, fs, vv) /\
  In (rv, f) fs /\ fdepends h f w /\ nth_error h w = Some nd /\ draws nd 0 5 /\
  forall a ps dist, nth_error wxy a = Some (mk (ORv 0 dist) ps) -> In a requested.
Proof. exact order_draw. Qed.
Print Assumptions C36_request_order_refuted.
