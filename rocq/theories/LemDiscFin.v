(** Discrete families at all reals of their ranges. *)
From Coq Require Import Reals Lra Lia.
From Coquelicot Require Import Coquelicot.
From Verif Require Import XR XTac Special SpecDist ModelDist LemDist LemInt LemNorm LemDisc LemSupp.
Open Scope R_scope.

Lemma poisson_fin mu x : 0 < mu -> 0 <= x -> exists l, poisson_logprob (Fin mu) (Fin x) = Val (Fin l).
Proof. intros M X. unfold poisson_logprob, xlogy0. xrun. eexists; reflexivity. Qed.
Lemma geometric_fin p x : 0 < p < 1 -> 1 <= x -> exists l, geometric_logprob (Fin p) (Fin x) = Val (Fin l).
Proof. intros M X. unfold geometric_logprob, xlogy0. xrun. eexists; reflexivity. Qed.
Lemma bernoulli_fin p x : 0 < p < 1 -> 0 <= x <= 1 -> exists l, bernoulli_logprob (Fin p) (Fin x) = Val (Fin l).
Proof. intros M X. unfold bernoulli_logprob, xtrue. destruct (Req_EM_T x 0); xrun; eexists; reflexivity. Qed.
Lemma binomial_fin (n : nat) p x : 0 < p < 1 -> 0 <= x <= INR n -> exists l, binomial_logprob (Fin (INR n)) (Fin p) (Fin x) = Val (Fin l).
Proof. intros M X. unfold binomial_logprob, xlogy0, binomln. pose proof (pos_INR n). xrun. eexists; reflexivity. Qed.
Lemma betabinomial_fin (n : nat) a b x : 0 < a -> 0 < b -> 0 <= x <= INR n -> exists l, betabinomial_logprob (Fin (INR n)) (Fin a) (Fin b) (Fin x) = Val (Fin l).
Proof. intros A B X. unfold betabinomial_logprob, betaln, binomln. pose proof (pos_INR n). xrun. eexists; reflexivity. Qed.
Lemma nbinom_fin n p x : 0 < n -> 0 < p < 1 -> 0 <= x -> exists l, nbinom_logprob (Fin n) (Fin p) (Fin x) = Val (Fin l).
Proof.
  intros N P X. assert (M : 0 < n * (1 - p) / p) by (apply Rdiv_lt_0_compat; [nra|lra]).
  assert (Q : xdiv (xmul (Fin n) (xsub (Fin 1) (Fin p))) (Fin p) = Fin (n * (1 - p) / p)) by (rewrite xsub_fin, xmul_fin; xrun; reflexivity).
  set (mu := n * (1 - p) / p) in *. assert (0 < mu / (mu + n)) by (apply Rdiv_lt_0_compat; lra). assert (0 < n / (mu + n)) by (apply Rdiv_lt_0_compat; lra).
  unfold nbinom_logprob. cbv zeta. rewrite Q. destruct (poisson_fin _ x M X) as [l L]. rewrite L.
  match goal with |- context [rswitch _ _ ?b] => assert (B : exists k, b = Val (Fin k)) by (unfold xlogy0, binomln; xrun; eexists; reflexivity) end.
  destruct B as [k ->]. destruct (xgt _ _); cbn; eexists; reflexivity.
Qed.
Lemma hypergeometric_fin (good bad n : nat) x : (n <= good + bad)%nat -> 0 <= x -> INR n - INR bad <= x -> x <= INR good -> x <= INR n ->
  exists l, hypergeometric_logprob (Fin (INR good)) (Fin (INR bad)) (Fin (INR n)) (Fin x) = Val (Fin l).
Proof.
  intros T A B C D. apply le_INR in T. rewrite plus_INR in T. pose proof (pos_INR good). pose proof (pos_INR bad). pose proof (pos_INR n).
  unfold hypergeometric_logprob, betaln. cbv zeta. rewrite ?xsub_fin, ?xadd_fin.
  match goal with |- context [xle ?a (Fin x)] => replace (xle a (Fin x)) with true end.
  2:{ symmetry. destruct (xgt _ _); apply xle_true; lra. }
  match goal with |- context [xle (Fin x) ?a] => replace (xle (Fin x) a) with true end.
  2:{ symmetry. destruct (xlt _ _); apply xle_true; lra. }
  cbn [andb]. xrun. eexists; reflexivity.
Qed.
Lemma exact_by r (out : Prop) : (out -> r = Val NInf) -> (~ out -> exists l, r = Val (Fin l)) -> r = Val NInf <-> out.
Proof. intros A B. split; [|exact A]. intros E. destruct (Classical_Prop.classic out) as [H|H]; [exact H|]. destruct (B H) as [l L]. rewrite L in E. discriminate. Qed.
Lemma discrete_exact x :
  (forall mu, 0 < mu -> poisson_logprob (Fin mu) (Fin x) = Val NInf <-> x < 0) /\
  (forall p, 0 < p < 1 -> geometric_logprob (Fin p) (Fin x) = Val NInf <-> x < 1) /\
  (forall p, 0 < p < 1 -> bernoulli_logprob (Fin p) (Fin x) = Val NInf <-> x < 0 \/ 1 < x) /\
  (forall (n : nat) p, 0 < p < 1 -> binomial_logprob (Fin (INR n)) (Fin p) (Fin x) = Val NInf <-> x < 0 \/ INR n < x) /\
  (forall (n : nat) a b, 0 < a -> 0 < b -> betabinomial_logprob (Fin (INR n)) (Fin a) (Fin b) (Fin x) = Val NInf <-> x < 0 \/ INR n < x) /\
  (forall n p, 0 < n -> 0 < p < 1 -> nbinom_logprob (Fin n) (Fin p) (Fin x) = Val NInf <-> x < 0) /\
  (forall good bad n : nat, (n <= good + bad)%nat ->
    hypergeometric_logprob (Fin (INR good)) (Fin (INR bad)) (Fin (INR n)) (Fin x) = Val NInf <-> x < 0 \/ x < INR n - INR bad \/ INR good < x \/ INR n < x).
Proof.
  split; [intros mu M; apply exact_by; intros H; [apply poisson_out; lra|apply poisson_fin; lra]|].
  split; [intros p M; apply exact_by; intros H; [apply geometric_out; lra|apply geometric_fin; lra]|].
  split; [intros p M; apply exact_by; intros H; [apply bernoulli_out; lra|apply bernoulli_fin; lra]|].
  split; [intros n p M; apply exact_by; intros H; [apply binomial_out; lra|apply binomial_fin; lra]|].
  split; [intros n a b A B; apply exact_by; intros H; [apply betabinomial_out; lra|apply betabinomial_fin; lra]|].
  split; [intros n p N P; apply exact_by; intros H; [apply nbinom_out; lra|apply nbinom_fin; lra]|].
  intros good bad n T. apply exact_by; intros H; [now apply hypergeometric_out|apply hypergeometric_fin; [exact T|lra..]].
Qed.
