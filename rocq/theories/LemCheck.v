(** Lemmas for C03. *)
From Coq Require Import Reals Lra Lia ZArith List Bool.
From Coquelicot Require Import Coquelicot.
From Verif Require Import XR Special SpecDist SpecCheck ModelDist ModelArr XTac.
Import ListNotations.
Open Scope R_scope.

Lemma xpos_b s : xgt s (Fin 0) = true <-> xpos s.
Proof. destruct s; simpl; try (split; intros; auto; discriminate || tauto). apply Rltb_true. Qed.
Lemma xpos_b' s : xlt (Fin 0) s = true <-> xpos s.
Proof. exact (xpos_b s). Qed.
Lemma xnonneg_b s : xle (Fin 0) s = true <-> xnonneg s.
Proof.
  destruct s; unfold xnonneg; try (simpl; split; intros; auto; discriminate || tauto).
  rewrite xle_fin. apply Rleb_true.
Qed.
Lemma xprob_b p : xle (Fin 0) p && xle p (Fin 1) = true <-> xprob p.
Proof.
  rewrite andb_true_iff. destruct p; unfold xprob; try (unfold xle; simpl; split; intros; try tauto; destruct H; discriminate).
  rewrite !xle_fin, !Rleb_true. tauto.
Qed.
Lemma xordered_b a b : xle a b = true <-> xordered a b.
Proof.
  destruct a, b; unfold xordered; try (unfold xle; simpl; split; intros; try tauto; discriminate).
  rewrite xle_fin. apply Rleb_true.
Qed.
Lemma check_val (v : xr) l : raises (check (Val v) l) <-> forallb (fun b => b) l = false.
Proof. unfold raises, check. destruct (forallb _ l); split; intros; auto; discriminate. Qed.
Lemma not_true b P : (b = true <-> P) -> (b = false <-> ~ P).
Proof. intros H. destruct b; split; intros; auto; try discriminate; try tauto. intros C; apply H in C; discriminate. Qed.

Lemma chk1 (v : xr) b P : (b = true <-> P) -> (raises (check (Val v) [b]) <-> ~ P).
Proof. intros H. rewrite check_val. apply not_true. simpl. rewrite andb_true_r. auto. Qed.
Lemma chk2 (v : xr) b c P Q : (b = true <-> P) -> (c = true <-> Q) ->
  (raises (check (Val v) [b; c]) <-> ~ (P /\ Q)).
Proof. intros H1 H2. rewrite check_val. apply not_true. simpl. rewrite andb_true_r, andb_true_iff. rewrite H1, H2. tauto. Qed.
Lemma chkp (v : xr) p : raises (check (Val v) [xle (Fin 0) p; xle p (Fin 1)]) <-> ~ xprob p.
Proof. rewrite check_val. apply not_true. simpl. rewrite andb_true_r. apply xprob_b. Qed.

Lemma normal_chk mu s v : raises (normal_logprob mu s v) <-> ~ xpos s.
Proof. apply chk1, xpos_b. Qed.
Lemma normal_cdf_chk mu s v : raises (normal_logcdf mu s v) <-> ~ xpos s.
Proof. apply chk1, xpos_b. Qed.
Lemma halfnormal_chk mu s v : raises (halfnormal_logprob mu s v) <-> ~ xpos s.
Proof. apply chk1, xpos_b. Qed.
Lemma beta_chk a b v : raises (beta_logprob a b v) <-> ~ (xpos a /\ xpos b).
Proof. apply chk2; apply xpos_b. Qed.
Lemma exponential_chk mu v : raises (exponential_logprob mu v) <-> ~ xpos mu.
Proof. apply chk1, xpos_b. Qed.
Lemma laplace_chk mu b v : raises (laplace_logprob mu b v) <-> ~ xpos b.
Proof. apply chk1, xpos_b. Qed.
Lemma lognormal_chk mu s v : raises (lognormal_logprob mu s v) <-> ~ xpos s.
Proof. apply chk1, xpos_b. Qed.
Lemma pareto_chk a m v : raises (pareto_logprob a m v) <-> ~ (xpos a /\ xpos m).
Proof. apply chk2; apply xpos_b. Qed.
Lemma cauchy_chk a b v : raises (cauchy_logprob a b v) <-> ~ xpos b.
Proof. apply chk1, xpos_b. Qed.
Lemma halfcauchy_chk a b v : raises (halfcauchy_logprob a b v) <-> ~ xpos b.
Proof.
  rewrite <- (cauchy_chk a b v). unfold halfcauchy_logprob, raises. destruct (cauchy_logprob a b v); simpl; split; auto; discriminate.
Qed.
Lemma gamma_chk a (s : R) v : raises (gamma_logprob a (Fin s) v) <-> ~ (xpos a /\ 0 <= s).
Proof.
  apply (chk2 _ _ _ (xpos a) (0 <= s)); [apply xpos_b|]. rewrite xpos_b. simpl.
  destruct (Req_EM_T s 0) as [->|].
  - unfold sgn_inf. destruct (Rlt_dec 0 1); [|lra]. simpl. split; auto; lra.
  - simpl. split; intros H.
    + destruct (Rle_dec 0 s); auto. exfalso. assert (/ s < 0) by (apply Rinv_lt_0_compat; lra). unfold Rdiv in H. lra.
    + apply Rdiv_lt_0_compat; lra.
Qed.
Lemma invgamma_chk a b v : raises (invgamma_logprob a b v) <-> ~ (xpos a /\ xpos b).
Proof. apply chk2; apply xpos_b. Qed.
Lemma chisquare_chk (k : R) v : raises (chisquare_logprob (Fin k) v) <-> ~ 0 < k.
Proof.
  unfold chisquare_logprob. rewrite xdiv_fin by lra. rewrite gamma_chk. simpl.
  split; intros H C; apply H; [split|]; lra.
Qed.
Lemma wald_chk a b v : raises (wald_logprob a b v) <-> ~ (xpos a /\ xpos b).
Proof. apply chk2; apply xpos_b. Qed.
Lemma weibull_chk c v : raises (weibull_logprob c v) <-> ~ xpos c.
Proof. apply chk1, xpos_b. Qed.
Lemma vonmises_chk mu k v : raises (vonmises_logprob mu k v) <-> ~ xpos k.
Proof. apply chk1, xpos_b. Qed.
Lemma triangular_chk a c b v : raises (triangular_logprob a c b v) <-> ~ (xordered a c /\ xordered c b).
Proof. apply chk2; apply xordered_b. Qed.
Lemma gumbel_chk mu b v : raises (gumbel_logprob mu b v) <-> ~ xpos b.
Proof. apply chk1, xpos_b'. Qed.
Lemma logistic_chk mu s v : raises (logistic_logprob mu s v) <-> ~ xpos s.
Proof. apply chk1, xpos_b'. Qed.
Lemma studentt_chk df loc s v : raises (studentt_logprob df loc s v) <-> ~ xnonneg s.
Proof. apply chk1, xnonneg_b. Qed.
Lemma uniform_cdf_chk a b v : raises (uniform_logcdf a b v) <-> ~ xordered a b.
Proof. apply chk1, xordered_b. Qed.
Lemma binomial_chk n p v : raises (binomial_logprob n p v) <-> ~ xprob p.
Proof. apply chkp. Qed.
Lemma betabinomial_chk n a b v : raises (betabinomial_logprob n a b v) <-> ~ (xpos a /\ xpos b).
Proof. apply chk2; apply xpos_b'. Qed.
Lemma bernoulli_chk p v : raises (bernoulli_logprob p v) <-> ~ xprob p.
Proof. apply chkp. Qed.
Lemma poisson_chk mu v : raises (poisson_logprob mu v) <-> ~ xnonneg mu.
Proof.
  rewrite <- (chk1 NaN _ _ (xnonneg_b mu)). unfold poisson_logprob, raises, rswitch, check.
  destruct (forallb _ _); split; auto; discriminate.
Qed.
Lemma poisson_cdf_chk mu v : raises (poisson_logcdf mu v) <-> ~ xnonneg mu.
Proof. apply chk1, xnonneg_b. Qed.
Lemma geometric_chk p v : raises (geometric_logprob p v) <-> ~ xprob p.
Proof. apply chkp. Qed.
Lemma geometric_cdf_chk p v : raises (geometric_logcdf p v) <-> ~ xprob p.
Proof. apply chkp. Qed.
(** the check of [nbinom_logprob] on real n, p: the implied mean is positive *)
Lemma nbinom_chk (n p : R) v : n <= 0 \/ p < 0 \/ 1 < p -> raises (nbinom_logprob (Fin n) (Fin p) v).
Proof.
  intros H. unfold nbinom_logprob, raises, rswitch. rewrite xsub_fin, xmul_fin.
  destruct (poisson_logprob _ v); auto.
  assert (E : raises (check (Val (if xle (Fin 0) v
     then xadd (xadd (binomln (xsub (xadd v (Fin n)) (Fin 1)) v)
        (xlogy0 v (xdiv (xdiv (Fin (n * (1 - p))) (Fin p)) (xadd (xdiv (Fin (n * (1 - p))) (Fin p)) (Fin n)))))
        (xlogy0 (Fin n) (xdiv (Fin n) (xadd (xdiv (Fin (n * (1 - p))) (Fin p)) (Fin n)))) else NInf))
     [xlt (Fin 0) (xdiv (Fin (n * (1 - p))) (Fin p)); xlt (Fin 0) (Fin n)])).
  { apply (chk2 _ _ _ _ _ (xpos_b' _) (xpos_b' _)). intros [H1 H2]. simpl in H2.
    destruct H as [H|H]; [lra|].
    simpl in H1. destruct (Req_EM_T p 0) as [->|]; [lra|]. simpl in H1.
    destruct H as [H|H].
    - assert (/ p < 0) by (apply Rinv_lt_0_compat; lra). unfold Rdiv in H1. assert (0 < n * (1 - p)) by nra. nra.
    - assert (0 < / p) by (apply Rinv_0_lt_compat; lra). unfold Rdiv in H1. assert (n * (1 - p) < 0) by nra. nra. }
  rewrite E. reflexivity.
Qed.

(** lifting to arrays *)
Lemma arr_raise {A} (f : A -> res xr) es : raises (arr_eval f es) <-> exists e, In e es /\ raises (f e).
Proof.
  unfold raises. induction es as [|e es IH]; simpl.
  - split; [discriminate|intros [e [[] _]]].
  - destruct (f e) eqn:E.
    + destruct (arr_eval f es) eqn:E2.
      * split; [discriminate|]. intros [x [[->|Hx] Hr]]; [congruence|]. assert (@Val (list xr) a0 = Raise) by (apply IH; eauto). discriminate.
      * split; auto. intros _. destruct (proj1 IH eq_refl) as [x [Hx Hr]]. eauto.
    + split; auto. intros _. exists e; auto.
Qed.
Lemma arr_val {A} (f : A -> res xr) es vs : arr_eval f es = Val vs ->
  length vs = length es /\ forall i e, nth_error es i = Some e -> exists v, nth_error vs i = Some v /\ f e = Val v.
Proof.
  revert vs. induction es as [|e es IH]; simpl; intros vs H.
  - injection H as <-. split; auto. intros [|i] e; discriminate.
  - destruct (f e) eqn:E; [|discriminate]. destruct (arr_eval f es) eqn:E2; [|discriminate].
    injection H as <-. destruct (IH _ eq_refl) as [L N]. split; [simpl; auto|].
    intros [|i] x Hx; simpl in *; [injection Hx as <-; eauto|eauto].
Qed.
