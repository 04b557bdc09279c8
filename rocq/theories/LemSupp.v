(** Values outside the support (C02), and the assembled C04/C05 facts. *)
From Coq Require Import Reals Lra Lia ZArith List Bool.
From Coquelicot Require Import Coquelicot.
From Verif Require Import XR Special LemInt LemLim LemGamma SpecDist XTac ModelDist LemDist LemNorm LemNorm2 LemDisc LemDisc2.
Import ListNotations.
Open Scope R_scope.

Lemma denotes_zero r : denotes r 0 -> r = Val NInf.
Proof. destruct r as [[l| | |]|]; simpl; try tauto. intros H. generalize (exp_pos l). lra. Qed.
Lemma denotes_zero_of r d : denotes r d -> d = 0 -> r = Val NInf.
Proof. intros H ->. now apply denotes_zero. Qed.

Lemma uniform_out a b x : a < b -> (x < a \/ b < x) -> uniform_logprob (Fin a) (Fin b) (Fin x) = Val NInf.
Proof. intros H Hx. apply (denotes_zero_of _ _ (uniform_ok a b x H)). unfold uniform_pdf. rcase. Qed.
Lemma halfnormal_out l s x : 0 < s -> x < l -> halfnormal_logprob (Fin l) (Fin s) (Fin x) = Val NInf.
Proof. intros H Hx. apply (denotes_zero_of _ _ (halfnormal_ok l s x H)). unfold halfnormal_pdf. rcase. Qed.
Lemma beta_out a b x : 0 < a -> 0 < b -> (x < 0 \/ 1 < x) -> beta_logprob (Fin a) (Fin b) (Fin x) = Val NInf.
Proof. intros Ha Hb Hx. apply (denotes_zero_of _ (beta_pdf a b x)); [apply beta_ok; lra|]. unfold beta_pdf. rcase. Qed.
Lemma exponential_out mu x : 0 < mu -> x < 0 -> exponential_logprob (Fin mu) (Fin x) = Val NInf.
Proof. intros H Hx. apply (denotes_zero_of _ _ (exponential_ok mu x H)). unfold exponential_pdf. rcase. Qed.
Lemma lognormal_out mu s x : 0 < s -> x <= 0 -> lognormal_logprob (Fin mu) (Fin s) (Fin x) = Val NInf.
Proof. intros H Hx. apply (denotes_zero_of _ _ (lognormal_ok mu s x H)). unfold lognormal_pdf. rcase. Qed.
Lemma pareto_out a m x : 0 < a -> 0 < m -> x < m -> pareto_logprob (Fin a) (Fin m) (Fin x) = Val NInf.
Proof. intros H H1 Hx. apply (denotes_zero_of _ _ (pareto_ok a m x H H1)). unfold pareto_pdf. rcase. Qed.
Lemma halfcauchy_out a b x : 0 < b -> x < a -> halfcauchy_logprob (Fin a) (Fin b) (Fin x) = Val NInf.
Proof. intros H Hx. apply (denotes_zero_of _ _ (halfcauchy_ok a b x H)). unfold halfcauchy_pdf. rcase. Qed.
Lemma gamma_out a s x : 0 < a -> 0 < s -> x < 0 -> gamma_logprob (Fin a) (Fin s) (Fin x) = Val NInf.
Proof. intros Ha Hb Hx. apply (denotes_zero_of _ (gamma_pdf a s x)); [apply gamma_ok; lra|]. unfold gamma_pdf. rcase. Qed.
Lemma invgamma_out a b x : 0 < a -> 0 < b -> x <= 0 -> invgamma_logprob (Fin a) (Fin b) (Fin x) = Val NInf.
Proof. intros H H1 Hx. apply (denotes_zero_of _ _ (invgamma_ok a b x H H1)). unfold invgamma_pdf. rcase. Qed.
Lemma chisquare_out k x : 0 < k -> x < 0 -> chisquare_logprob (Fin k) (Fin x) = Val NInf.
Proof. intros Ha Hx. apply (denotes_zero_of _ (chisquare_pdf k x)); [apply chisquare_ok; lra|]. unfold chisquare_pdf. rcase. Qed.
Lemma wald_out mu l x : 0 < mu -> 0 < l -> x <= 0 -> wald_logprob (Fin mu) (Fin l) (Fin x) = Val NInf.
Proof. intros H H1 Hx. apply (denotes_zero_of _ _ (wald_ok mu l x H H1)). unfold wald_pdf. rcase. Qed.
Lemma weibull_out c x : 0 < c -> x < 0 -> weibull_logprob (Fin c) (Fin x) = Val NInf.
Proof. intros Ha Hx. apply (denotes_zero_of _ (weibull_pdf c x)); [apply weibull_ok; lra|]. unfold weibull_pdf. rcase. Qed.
Lemma vonmises_out mu k x : 0 < k -> (x < - PI \/ PI < x) -> vonmises_logprob (Fin mu) (Fin k) (Fin x) = Val NInf.
Proof. intros H Hx. generalize PI_RGT_0; intros HP. apply (denotes_zero_of _ _ (vonmises_ok mu k x H)). unfold vonmises_pdf. rcase. Qed.
Lemma triangular_out a c b x : a <= c <= b -> a < b -> (x < a \/ b < x) ->
  triangular_logprob (Fin a) (Fin c) (Fin b) (Fin x) = Val NInf.
Proof. intros H H1 Hx. apply (denotes_zero_of _ (triangular_pdf a c b x)); [apply triangular_ok; lra|]. unfold triangular_pdf. rcase. Qed.

(** discrete families: every real below or above the range (integers or not) *)
Lemma binomial_out n p x : 0 <= p <= 1 -> (x < 0 \/ INR n < x) -> binomial_logprob (Fin (INR n)) (Fin p) (Fin x) = Val NInf.
Proof.
  intros H Hx. unfold binomial_logprob. rewrite check_true by (cbn [forallb]; rewrite !xle_true by lra; reflexivity).
  destruct Hx. - rewrite (xle_false 0 x) by lra. reflexivity. - rewrite (xle_false x (INR n)) by lra. now rewrite andb_false_r.
Qed.
Lemma betabinomial_out n a b x : 0 < a -> 0 < b -> (x < 0 \/ INR n < x) ->
  betabinomial_logprob (Fin (INR n)) (Fin a) (Fin b) (Fin x) = Val NInf.
Proof.
  intros H H1 Hx. unfold betabinomial_logprob. rewrite check_true by (cbn [forallb]; rewrite !xlt_true by lra; reflexivity).
  destruct Hx. - rewrite (xle_false 0 x) by lra. reflexivity. - rewrite (xle_false x (INR n)) by lra. now rewrite andb_false_r.
Qed.
Lemma bernoulli_out p x : 0 <= p <= 1 -> (x < 0 \/ 1 < x) -> bernoulli_logprob (Fin p) (Fin x) = Val NInf.
Proof.
  intros H Hx. unfold bernoulli_logprob. rewrite check_true by (cbn [forallb]; rewrite !xle_true by lra; reflexivity).
  destruct Hx. - rewrite (xle_false 0 x) by lra. reflexivity. - rewrite (xle_false x 1) by lra. now rewrite andb_false_r.
Qed.
Lemma poisson_out mu x : 0 <= mu -> x < 0 -> poisson_logprob (Fin mu) (Fin x) = Val NInf.
Proof.
  intros H Hx. unfold poisson_logprob. rewrite check_true by (cbn [forallb]; rewrite !xle_true by lra; reflexivity).
  rewrite (xle_false 0 x), (xeq_false x 0) by lra. rewrite andb_false_r. reflexivity.
Qed.
Lemma geometric_out p x : 0 < p <= 1 -> x < 1 -> geometric_logprob (Fin p) (Fin x) = Val NInf.
Proof.
  intros H Hx. unfold geometric_logprob. rewrite check_true by (cbn [forallb]; rewrite xle_true, xge_true by lra; reflexivity).
  rewrite (xle_false 1 x) by lra. reflexivity.
Qed.
Lemma nbinom_out n p x : 0 < n -> 0 < p < 1 -> x < 0 -> nbinom_logprob (Fin n) (Fin p) (Fin x) = Val NInf.
Proof.
  intros Hn Hp Hx. unfold nbinom_logprob. rewrite xsub_fin, xmul_fin, xdiv_fin by lra.
  assert (Hm : 0 < n * (1 - p) / p) by posi. rewrite poisson_out by lra.
  rewrite check_true by (cbn [forallb]; rewrite !xlt_true by lra; reflexivity).
  rewrite (xle_false 0 x) by lra. unfold rswitch. now destruct (xgt _ _).
Qed.
Lemma hypergeometric_out good bad n x :
  (x < 0 \/ x < INR n - INR bad \/ INR good < x \/ INR n < x) ->
  hypergeometric_logprob (Fin (INR good)) (Fin (INR bad)) (Fin (INR n)) (Fin x) = Val NInf.
Proof.
  intros Hx. unfold hypergeometric_logprob. rewrite !xadd_fin, !xsub_fin, !xadd_fin.
  match goal with |- context [xgt (Fin ?a) (Fin 0)] => set (t := a) end.
  assert (Et : t = INR n - INR bad) by (unfold t; ring).
  assert (E : xle (if xgt (Fin t) (Fin 0) then Fin t else Fin 0) (Fin x)
         && xle (Fin x) (if xlt (Fin (INR good)) (Fin (INR n)) then Fin (INR good) else Fin (INR n)) = false).
  { apply andb_false_iff. unfold xgt. cbn [xlt]. unfold Rltb.
    destruct (Rlt_dec 0 t), (Rlt_dec (INR good) (INR n)); rewrite !xle_fin, !Rleb_false; lra. }
  now rewrite E.
Qed.

(** ** C04 *)
Ltac ito p := apply (ito_intro _ p).
Ltac offz lem := let x := fresh in let H := fresh in intros x H; first [apply supp_cp in H | apply supp_fin in H]; rewrite lem by (simpl in *; lra); reflexivity.
Lemma uniform_int a b : a < b -> integrates_to_one (uniform_logprob (Fin a) (Fin b)) a b.
Proof. intros. ito (uniform_pdf a b); [intros; apply uniform_ok; lra|offz uniform_out|apply uniform_prim; lra]. Qed.
Ltac full := intros; exfalso; match goal with H : ~ supp _ _ _ |- _ => apply H; apply supp_all end.
Lemma normal_int mu s : 0 < s -> integrates_to_one (normal_logprob (Fin mu) (Fin s)) m_infty p_infty.
Proof. intros. ito (normal_pdf mu s); [intros; apply normal_ok; lra|full|apply normal_prim; lra]. Qed.
Lemma laplace_int mu s : 0 < s -> integrates_to_one (laplace_logprob (Fin mu) (Fin s)) m_infty p_infty.
Proof. intros. ito (laplace_pdf mu s); [intros; apply laplace_ok; lra|full|apply laplace_prim; lra]. Qed.
Lemma cauchy_int mu s : 0 < s -> integrates_to_one (cauchy_logprob (Fin mu) (Fin s)) m_infty p_infty.
Proof. intros. ito (cauchy_pdf mu s); [intros; apply cauchy_ok; lra|full|apply cauchy_prim; lra]. Qed.
Lemma gumbel_int mu s : 0 < s -> integrates_to_one (gumbel_logprob (Fin mu) (Fin s)) m_infty p_infty.
Proof. intros. ito (gumbel_pdf mu s); [intros; apply gumbel_ok; lra|full|apply gumbel_prim; lra]. Qed.
Lemma logistic_int mu s : 0 < s -> integrates_to_one (logistic_logprob (Fin mu) (Fin s)) m_infty p_infty.
Proof. intros. ito (logistic_pdf mu s); [intros; apply logistic_ok; lra|full|apply logistic_prim; lra]. Qed.
Lemma studentt_int nu m s : 0 < nu -> 0 < s -> integrates_to_one (studentt_logprob (Fin nu) (Fin m) (Fin s)) m_infty p_infty.
Proof. intros. ito (studentt_pdf nu m s); [intros; apply studentt_ok; lra|full|apply studentt_prim; lra]. Qed.
Lemma halfnormal_int l s : 0 < s -> integrates_to_one (halfnormal_logprob (Fin l) (Fin s)) l p_infty.
Proof. intros. ito (halfnormal_pdf l s); [intros; apply halfnormal_ok; lra|offz halfnormal_out|apply halfnormal_prim; lra]. Qed.
Lemma beta_int a b : 0 < a -> 0 < b -> integrates_to_one (beta_logprob (Fin a) (Fin b)) 0 1.
Proof. intros. ito (beta_pdf a b); [intros x [H1 H2]; simpl in H1, H2; apply beta_ok; lra|offz beta_out|apply beta_prim; lra]. Qed.
Lemma exponential_int mu : 0 < mu -> integrates_to_one (exponential_logprob (Fin mu)) 0 p_infty.
Proof. intros. ito (exponential_pdf mu); [intros; apply exponential_ok; lra|offz exponential_out|apply exponential_prim; lra]. Qed.
Lemma lognormal_int mu s : 0 < s -> integrates_to_one (lognormal_logprob (Fin mu) (Fin s)) 0 p_infty.
Proof. intros. ito (lognormal_pdf mu s); [intros; apply lognormal_ok; lra|offz lognormal_out|apply lognormal_prim; lra]. Qed.
Lemma pareto_int a m : 0 < a -> 0 < m -> integrates_to_one (pareto_logprob (Fin a) (Fin m)) m p_infty.
Proof. intros. ito (pareto_pdf a m); [intros; apply pareto_ok; lra|offz pareto_out|apply pareto_prim; lra]. Qed.
Lemma halfcauchy_int a b : 0 < b -> integrates_to_one (halfcauchy_logprob (Fin a) (Fin b)) a p_infty.
Proof. intros. ito (halfcauchy_pdf a b); [intros; apply halfcauchy_ok; lra|offz halfcauchy_out|apply halfcauchy_prim; lra]. Qed.
Lemma gamma_int a s : 0 < a -> 0 < s -> integrates_to_one (gamma_logprob (Fin a) (Fin s)) 0 p_infty.
Proof. intros. ito (gamma_pdf a s); [intros x [H1 H2]; simpl in H1; apply gamma_ok; lra|offz gamma_out|apply gamma_prim; lra]. Qed.
Lemma invgamma_int a b : 0 < a -> 0 < b -> integrates_to_one (invgamma_logprob (Fin a) (Fin b)) 0 p_infty.
Proof. intros. ito (invgamma_pdf a b); [intros; apply invgamma_ok; lra|offz invgamma_out|apply invgamma_prim; lra]. Qed.
Lemma chisquare_int k : 0 < k -> integrates_to_one (chisquare_logprob (Fin k)) 0 p_infty.
Proof. intros. ito (chisquare_pdf k); [intros x [H1 H2]; simpl in H1; apply chisquare_ok; lra|offz chisquare_out|apply chisquare_prim; lra]. Qed.
Lemma wald_int mu l : 0 < mu -> 0 < l -> integrates_to_one (wald_logprob (Fin mu) (Fin l)) 0 p_infty.
Proof. intros. ito (wald_pdf mu l); [intros; apply wald_ok; lra|offz wald_out|apply wald_prim; lra]. Qed.
Lemma weibull_int c : 0 < c -> integrates_to_one (weibull_logprob (Fin c)) 0 p_infty.
Proof. intros. ito (weibull_pdf c); [intros x [H1 H2]; simpl in H1; apply weibull_ok; lra|offz weibull_out|apply weibull_prim; lra]. Qed.
Lemma vonmises_int mu k : 0 < k -> integrates_to_one (vonmises_logprob (Fin mu) (Fin k)) (- PI) PI.
Proof. intros. ito (vonmises_pdf mu k); [intros; apply vonmises_ok; lra|offz vonmises_out|apply vonmises_prim]. Qed.
Lemma triangular_int a c b : a <= c <= b -> a < b -> integrates_to_one (triangular_logprob (Fin a) (Fin c) (Fin b)) a b.
Proof. intros. ito (triangular_pdf a c b); [intros x [H1 H2]; simpl in H1, H2; apply triangular_ok; lra|offz triangular_out|apply triangular_prim; lra]. Qed.

(** ** C05 *)
Lemma binomial_one n p : 0 <= p <= 1 -> masses_sum_to_one (binomial_logprob (Fin (INR n)) (Fin p)).
Proof. intros. exists (binomial_pmf n p). split; [|split]; intros; [now apply binomial_mass|now apply binomial_neg|apply binomial_sum]. Qed.
Lemma betabinomial_one n a b : 0 < a -> 0 < b -> masses_sum_to_one (betabinomial_logprob (Fin (INR n)) (Fin a) (Fin b)).
Proof. intros. exists (betabinomial_pmf n a b). split; [|split]; intros; [now apply betabinomial_mass|now apply betabinomial_neg|now apply betabinomial_sum]. Qed.
Lemma bernoulli_one p : 0 <= p <= 1 -> masses_sum_to_one (bernoulli_logprob (Fin p)).
Proof. intros. exists (bernoulli_pmf p). split; [|split]; intros; [now apply bernoulli_mass|now apply bernoulli_neg|apply bernoulli_sum]. Qed.
Lemma poisson_one mu : 0 <= mu -> masses_sum_to_one (poisson_logprob (Fin mu)).
Proof. intros. exists (poisson_pmf mu). split; [|split]; intros; [now apply poisson_mass|now apply poisson_neg|apply poisson_sum]. Qed.
Lemma geometric_one p : 0 < p <= 1 -> masses_sum_to_one (geometric_logprob (Fin p)).
Proof. intros. exists (geometric_pmf p). split; [|split]; intros; [now apply geometric_mass|now apply geometric_neg|now apply geometric_sum]. Qed.
Lemma hypergeometric_one good bad n : (n <= good + bad)%nat ->
  masses_sum_to_one (hypergeometric_logprob (Fin (INR good)) (Fin (INR bad)) (Fin (INR n))).
Proof. intros. exists (hypergeometric_pmf good bad n). split; [|split]; intros; [now apply hypergeometric_mass|now apply hypergeometric_neg|now apply hypergeometric_sum]. Qed.
(** for n beyond the Poisson switch the masses are Poisson masses, which also sum to one *)
Lemma nbinom_large n p v : 10000000000 < n -> 0 < p < 1 ->
  nbinom_logprob (Fin n) (Fin p) v = poisson_logprob (Fin (n * (1 - p) / p)) v.
Proof.
  intros Hn Hp. unfold nbinom_logprob. rewrite xsub_fin, xmul_fin, xdiv_fin by lra.
  assert (Hm : 0 < n * (1 - p) / p) by posi.
  rewrite xgt_true by lra. rewrite check_true by (cbn [forallb]; rewrite !xlt_true by lra; reflexivity).
  now destruct (poisson_logprob _ _).
Qed.
Lemma nbinom_one n p : 0 < n -> 0 < p < 1 -> masses_sum_to_one (nbinom_logprob (Fin n) (Fin p)).
Proof.
  intros Hn Hp. destruct (Rle_dec n 10000000000) as [L|L].
  - exists (nbinom_pmf n p). split; [|split]; intros; [apply nbinom_mass; lra|apply nbinom_neg; auto; lra|now apply nbinom_sum].
  - assert (Hm : 0 < n * (1 - p) / p) by posi.
    exists (poisson_pmf (n * (1 - p) / p)). split; [|split]; intros.
    + rewrite nbinom_large by lra. apply poisson_mass; lra.
    + rewrite nbinom_large by lra. apply poisson_neg; auto; lra.
    + apply poisson_sum.
Qed.
