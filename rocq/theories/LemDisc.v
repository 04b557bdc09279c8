(** Lemmas for C05/C06: mass functions of the discrete families and their sums. *)
From Coq Require Import Reals Lra Lia ZArith List Bool.
From Coquelicot Require Import Coquelicot.
From Verif Require Import XR Special LemInt LemLim LemGamma SpecDist XTac ModelDist LemDist.
Import ListNotations.
Open Scope R_scope.

(** ** Compositional reading of log-probabilities *)
Definition den (x : xr) (d : R) : Prop := denotes (Val x) d.
Lemma den_add a b x y : den a x -> den b y -> den (xadd a b) (x * y).
Proof.
  unfold den, denotes. destruct a, b; simpl; try tauto.
  - intros <- <-. apply exp_plus.
  - intros <- ->. ring.
  - intros -> <-. ring.
  - intros -> ->. ring.
Qed.
Lemma den_fin l : den (Fin l) (exp l).
Proof. reflexivity. Qed.
Lemma den_sub a l x y : den a x -> exp l = y -> den (xsub a (Fin l)) (x / y).
Proof. intros H <-. unfold xsub, Rdiv. apply den_add; auto. unfold den; simpl. apply exp_Ropp. Qed.
Lemma den_ext a x y : den a x -> x = y -> den a y.
Proof. now intros H <-. Qed.
Lemma pw_INR p k : 0 <= p -> pw p (INR k) = p ^ k.
Proof.
  intros Hp. destruct (Req_EM_T p 0) as [->|Hn].
  - destruct k; [simpl; now rewrite pw_0_0|]. rewrite pw_0_pos by (apply not_0_INR; lia). simpl; ring.
  - rewrite pw_pos by lra. now apply Rpower_pow; lra.
Qed.
Lemma den_xlogy0 m x : 0 <= x -> den (xlogy0 (Fin m) (Fin x)) (pw x m).
Proof.
  intros H. destruct (xlogy0_cases m x H) as [[l [-> E]]|[-> ->]]; [exact E|reflexivity].
Qed.
Lemma den_xlog x : 0 <= x -> den (xlog (Fin x)) x.
Proof.
  intros H. destruct (Req_EM_T x 0) as [->|]; [rewrite xlog_zero; reflexivity|].
  rewrite xlog_pos by lra. unfold den; simpl; apply exp_ln; lra.
Qed.

Lemma xgammaln_nat n : xgammaln (Fin (INR n + 1)) = Fin (ln (INR (fact n))).
Proof. rewrite xgammaln_fin by (generalize (pos_INR n); lra). now rewrite Gam_fact. Qed.
Lemma exp_ln_fact n : exp (ln (INR (fact n))) = INR (fact n).
Proof. apply exp_ln, INR_fact_lt_0. Qed.
Lemma binomln_nat n k : (k <= n)%nat -> den (binomln (Fin (INR n)) (Fin (INR k))) (Binomial.C n k).
Proof.
  intros H. unfold binomln. rewrite !xadd_fin, xsub_fin, <- minus_INR by auto. rewrite !xadd_fin, !xgammaln_nat.
  eapply den_ext. apply den_sub; [apply den_sub; [apply den_fin|apply exp_ln_fact]|apply exp_ln_fact].
  rewrite exp_ln_fact. unfold Binomial.C. field. split; apply INR_fact_neq_0.
Qed.

(** ** Mass functions *)
Lemma neg_INR z : (z < 0)%Z -> IZR z <= -1.
Proof. intros H. apply (IZR_le z (-1)). lia. Qed.

Lemma binomial_mass n p k : 0 <= p <= 1 ->
  denotes (binomial_logprob (Fin (INR n)) (Fin p) (Fin (INR k))) (binomial_pmf n p k).
Proof.
  intros Hp. unfold binomial_logprob, binomial_pmf. generalize (pos_INR k); intros Hk.
  destruct (Nat.leb_spec k n) as [H|H].
  - apply le_INR in H as H'. xrun. rewrite <- minus_INR by auto.
    eapply den_ext; [apply den_add; [apply den_add; [now apply binomln_nat|]|]|].
    + apply den_xlogy0; lra.
    + apply den_xlogy0; lra.
    + rewrite !pw_INR by lra. ring.
  - apply lt_INR in H. xrun. reflexivity.
Qed.
Lemma binomial_neg n p z : 0 <= p <= 1 -> (z < 0)%Z ->
  denotes (binomial_logprob (Fin (INR n)) (Fin p) (Fin (IZR z))) 0.
Proof. intros Hp Hz. apply neg_INR in Hz. unfold binomial_logprob. xrun. reflexivity. Qed.

Lemma betaln_den x y : 0 < x -> 0 < y -> exists l, betaln (Fin x) (Fin y) = Fin l /\ exp l = Gam x * Gam y / Gam (x + y).
Proof.
  intros Hx Hy. unfold betaln. xrun. eexists; split; [reflexivity|].
  pose proof (Gam_pos x Hx). pose proof (Gam_pos y Hy). pose proof (Gam_pos (x+y) ltac:(lra)).
  expo. reflexivity.
Qed.
Lemma betabinomial_mass n a b k : 0 < a -> 0 < b ->
  denotes (betabinomial_logprob (Fin (INR n)) (Fin a) (Fin b) (Fin (INR k))) (betabinomial_pmf n a b k).
Proof.
  intros Ha Hb. unfold betabinomial_logprob, betabinomial_pmf. generalize (pos_INR k); intros Hk.
  destruct (Nat.leb_spec k n) as [H|H].
  - apply le_INR in H as H'. xrun. rewrite <- minus_INR by auto.
    generalize (pos_INR (n - k)); intros Hnk.
    destruct (betaln_den (INR k + a) (INR (n - k) + b)) as [l1 [-> E1]]; [lra|lra|].
    destruct (betaln_den a b) as [l2 [-> E2]]; auto.
    rewrite !Beta_int_Gam by lra. rewrite <- E1, <- E2.
    eapply den_sub; auto. apply den_add; [|reflexivity]. now apply binomln_nat.
  - apply lt_INR in H. xrun. reflexivity.
Qed.
Lemma betabinomial_neg n a b z : 0 < a -> 0 < b -> (z < 0)%Z ->
  denotes (betabinomial_logprob (Fin (INR n)) (Fin a) (Fin b) (Fin (IZR z))) 0.
Proof. intros Ha Hb Hz. apply neg_INR in Hz. unfold betabinomial_logprob. xrun. reflexivity. Qed.

Lemma bernoulli_mass p k : 0 <= p <= 1 ->
  denotes (bernoulli_logprob (Fin p) (Fin (INR k))) (bernoulli_pmf p k).
Proof.
  intros Hp. unfold bernoulli_logprob, xtrue, bernoulli_pmf.
  destruct k as [|[|k]].
  - simpl INR. xrun. apply den_xlog; lra.
  - simpl INR. xrun. apply den_xlog; lra.
  - assert (2 <= INR (S (S k))) by (rewrite !S_INR; generalize (pos_INR k); lra). xrun. reflexivity.
Qed.
Lemma bernoulli_neg p z : 0 <= p <= 1 -> (z < 0)%Z -> denotes (bernoulli_logprob (Fin p) (Fin (IZR z))) 0.
Proof. intros Hp Hz. apply neg_INR in Hz. unfold bernoulli_logprob. xrun. reflexivity. Qed.

Lemma poisson_mass mu k : 0 <= mu ->
  denotes (poisson_logprob (Fin mu) (Fin (INR k))) (poisson_pmf mu k).
Proof.
  intros Hm. unfold poisson_logprob, poisson_pmf. generalize (pos_INR k); intros Hk. xrun.
  cbn [rswitch]. rewrite ?xgammaln_nat, ?Gam_fact.
  destruct (xeq (Fin mu) (Fin 0) && xeq (Fin (INR k)) (Fin 0)) eqn:E.
  - apply andb_true_iff in E. destruct E as [E1 E2]. apply Reqb_true in E1. apply Reqb_true in E2.
    change 0 with (INR 0) in E2. apply INR_eq in E2. subst. cbn [denotes]. simpl. rewrite Ropp_0, exp_0. field.
  - eapply den_ext; [apply den_sub; [apply den_sub; [now apply den_xlogy0|apply exp_ln_fact]|reflexivity]|].
    rewrite pw_INR by auto. rewrite exp_Ropp. reflexivity.
Qed.
Lemma poisson_neg mu z : 0 <= mu -> (z < 0)%Z -> denotes (poisson_logprob (Fin mu) (Fin (IZR z))) 0.
Proof.
  intros Hm Hz. apply neg_INR in Hz. unfold poisson_logprob. xrun. cbn [rswitch]. rewrite andb_false_r. reflexivity.
Qed.

Lemma rising_Gam n k : 0 < n -> rising n k = Gam (INR k + n) / Gam n.
Proof.
  intros Hn. pose proof (Gam_pos n Hn). induction k as [|k IH].
  - simpl. rewrite Rplus_0_l. field; lra.
  - cbn [rising]. rewrite IH, S_INR. generalize (pos_INR k); intros.
    replace (INR k + 1 + n) with (INR k + n + 1) by ring. rewrite Gam_succ by lra. field; lra.
Qed.
Lemma nbinom_mass n p k : 0 < n <= 10000000000 -> 0 < p < 1 ->
  denotes (nbinom_logprob (Fin n) (Fin p) (Fin (INR k))) (nbinom_pmf n p k).
Proof.
  intros Hn Hp. unfold nbinom_logprob, nbinom_pmf. generalize (pos_INR k); intros Hk.
  pose proof (Gam_pos n ltac:(lra)). xrun.
  assert (Hmu : 0 < n * (1 - p) / p) by (apply Rdiv_lt_0_compat; [apply Rmult_lt_0_compat|]; lra).
  assert (E1 : n * (1 - p) / p + n = n / p) by (field; lra).
  rewrite E1. assert (0 < n / p) by (apply Rdiv_lt_0_compat; lra).
  generalize (poisson_mass (n * (1 - p) / p) k ltac:(lra)). 
  destruct (poisson_logprob (Fin (n * (1 - p) / p)) (Fin (INR k))) as [v|]; [intros _|intros []].
  xrun. cbn [rswitch].
  replace (n * (1 - p) / p / (n / p)) with (1 - p) by (field; lra).
  replace (n / (n / p)) with p by (field; lra).
  unfold binomln. xrun.
  replace (INR k + n - 1 + 1) with (INR k + n) by ring.
  replace (INR k + n - 1 - INR k + 1) with n by ring.
  rewrite Gam_fact.
  eapply den_ext; [apply den_add; [apply den_add; [|apply den_xlogy0; lra]|apply den_xlogy0; lra]|].
  { apply den_fin. }
  rewrite pw_INR by lra. rewrite pw_pos by lra. rewrite rising_Gam by lra.
  pose proof (Gam_pos (INR k + n) ltac:(lra)).
  rewrite !exp_sub, exp_ln_fact, !exp_ln by lra. field. split; [lra|apply INR_fact_neq_0].
Qed.
Lemma nbinom_neg n p z : 0 < n <= 10000000000 -> 0 < p < 1 -> (z < 0)%Z ->
  denotes (nbinom_logprob (Fin n) (Fin p) (Fin (IZR z))) 0.
Proof.
  intros Hn Hp Hz. unfold nbinom_logprob. xrun.
  assert (Hmu : 0 < n * (1 - p) / p) by (apply Rdiv_lt_0_compat; [apply Rmult_lt_0_compat|]; lra).
  generalize (poisson_neg (n * (1 - p) / p) z ltac:(lra) Hz). 
  destruct (poisson_logprob (Fin (n * (1 - p) / p)) (Fin (IZR z))) as [v|]; [intros _|intros []].
  apply neg_INR in Hz. xrun. reflexivity.
Qed.

Lemma geometric_mass p k : 0 < p <= 1 ->
  denotes (geometric_logprob (Fin p) (Fin (INR k))) (geometric_pmf p k).
Proof.
  intros Hp. unfold geometric_logprob, geometric_pmf. destruct k as [|k].
  - simpl INR. xrun. reflexivity.
  - rewrite S_INR. generalize (pos_INR k); intros. xrun. replace (INR k + 1 - 1) with (INR k) by ring.
    eapply den_ext; [apply den_add; [apply den_fin|apply den_xlogy0; lra]|].
    rewrite exp_ln by lra. now rewrite pw_INR by lra.
Qed.
Lemma geometric_neg p z : 0 < p <= 1 -> (z < 0)%Z -> denotes (geometric_logprob (Fin p) (Fin (IZR z))) 0.
Proof. intros Hp Hz. apply neg_INR in Hz. unfold geometric_logprob. xrun. reflexivity. Qed.

Lemma betaln_nat (a b : nat) : exists l, betaln (Fin (INR a + 1)) (Fin (INR b + 1)) = Fin l
  /\ exp l = INR (fact a) * INR (fact b) / INR (fact (S (a + b))).
Proof.
  generalize (pos_INR a) (pos_INR b); intros.
  destruct (betaln_den (INR a + 1) (INR b + 1)) as [l [E1 E2]]; [lra|lra|].
  exists l. split; auto. rewrite E2, !Gam_fact. f_equal. f_equal.
  rewrite <- Gam_fact. f_equal. rewrite S_INR, plus_INR. ring.
Qed.
Lemma betaln_nat1 (a : nat) : exists l, betaln (Fin (INR a + 1)) (Fin 1) = Fin l /\ exp l = / INR (S a).
Proof.
  destruct (betaln_nat a 0) as [l [E1 E2]]. exists l. split.
  - rewrite <- E1. f_equal. f_equal. simpl; ring.
  - rewrite E2. rewrite Nat.add_0_r. rewrite fact_simpl, mult_INR. change (fact 0) with 1%nat. simpl (INR 1).
    field; repeat split; try apply INR_fact_neq_0; apply not_0_INR; lia.
Qed.
Lemma fact_S_div a : INR (fact (S a)) = INR (S a) * INR (fact a).
Proof. now rewrite fact_simpl, mult_INR. Qed.
Lemma hypergeometric_mass good bad n k : (n <= good + bad)%nat ->
  denotes (hypergeometric_logprob (Fin (INR good)) (Fin (INR bad)) (Fin (INR n)) (Fin (INR k)))
          (hypergeometric_pmf good bad n k).
Proof.
  intros Hn. unfold hypergeometric_logprob, hypergeometric_pmf, choose. cbv zeta.
  rewrite !xadd_fin, xsub_fin, xadd_fin.
  set (lower := if xgt _ _ then _ else _). set (upper := if xlt _ _ then _ else _).
  assert (Hlo : exists r, lower = Fin r /\ (r <= INR k <-> (n <= bad + k)%nat)).
  { unfold lower. generalize (pos_INR k); intros.
    destruct (Rlt_dec 0 (INR n - (INR good + INR bad) + INR good)).
    - xrun. eexists; split; [reflexivity|]. split; intros.
      + apply INR_le. rewrite plus_INR. lra.
      + apply le_INR in H0. rewrite plus_INR in H0. lra.
    - xrun. eexists; split; [reflexivity|]. split; intros; [|lra].
      apply INR_le. rewrite plus_INR. lra. }
  assert (Hup : exists r, upper = Fin r /\ (INR k <= r <-> (k <= good)%nat /\ (k <= n)%nat)).
  { unfold upper. destruct (Rlt_dec (INR good) (INR n)) as [r|r].
    - xrun. eexists; split; [reflexivity|]. apply INR_lt in r. split; intros.
      + apply INR_le in H. lia.
      + apply le_INR; lia.
    - xrun. eexists; split; [reflexivity|]. apply Rnot_lt_le, INR_le in r. split; intros.
      + apply INR_le in H. lia.
      + apply le_INR; lia. }
  destruct Hlo as [rl [-> Hl]]. destruct Hup as [ru [-> Hu]].
  rewrite !xle_fin.
  destruct (Rleb rl (INR k)) eqn:El; [apply Rleb_true in El; apply Hl in El |].
  2:{ apply Rleb_false in El. cbn [andb]. cbn [denotes].
      assert (~ (n <= bad + k)%nat) by (intros C; apply Hl in C; lra).
      destruct (Nat.leb_spec k n); auto. destruct (Nat.leb_spec (n - k) bad); [lia|]. rewrite Rmult_0_r. unfold Rdiv; ring. }
  destruct (Rleb (INR k) ru) eqn:Eu; [apply Rleb_true in Eu; apply Hu in Eu |].
  2:{ apply Rleb_false in Eu. cbn [andb]. cbn [denotes].
      assert (~ ((k <= good)%nat /\ (k <= n)%nat)) by (intros C; apply Hu in C; lra).
      destruct (Nat.leb_spec k n); auto. destruct (Nat.leb_spec k good); [lia|]. rewrite Rmult_0_l. unfold Rdiv; ring. }
  cbn [andb]. destruct Eu as [Kg Kn].
  rewrite (proj2 (Nat.leb_le k n) Kn), (proj2 (Nat.leb_le k good) Kg).
  rewrite (proj2 (Nat.leb_le (n - k) bad)) by lia.
  repeat (rewrite xsub_fin || rewrite xadd_fin).
  replace (INR good + INR bad - INR n) with (INR (good + bad - n)) by (rewrite minus_INR, plus_INR by lia; ring).
  replace (INR good - INR k) with (INR (good - k)) by (rewrite minus_INR by lia; ring).
  replace (INR n - INR k) with (INR (n - k)) by (rewrite minus_INR by lia; ring).
  replace (INR bad - INR n + INR k) with (INR (bad - (n - k))) by (rewrite !minus_INR by lia; ring).
  rewrite <- plus_INR.
  destruct (betaln_nat1 good) as [l1 [-> E1]]. destruct (betaln_nat1 bad) as [l2 [-> E2]].
  destruct (betaln_nat (good + bad - n) n) as [l3 [-> E3]].
  destruct (betaln_nat k (good - k)) as [l4 [-> E4]].
  destruct (betaln_nat (n - k) (bad - (n - k))) as [l5 [-> E5]].
  destruct (betaln_nat1 (good + bad)) as [l6 [-> E6]].
  repeat (rewrite xsub_fin || rewrite xadd_fin). cbn [denotes].
  rewrite !exp_sub, !exp_plus, E1, E2, E3, E4, E5, E6.
  replace (good + bad - n + n)%nat with (good + bad)%nat by lia.
  replace (k + (good - k))%nat with good by lia.
  replace (n - k + (bad - (n - k)))%nat with bad by lia.
  rewrite !fact_S_div. unfold Binomial.C.
  assert (N : forall a, INR (S a) <> 0) by (intros; apply not_0_INR; lia).
  field. repeat split; try apply INR_fact_neq_0; apply N.
Qed.
Lemma hypergeometric_neg good bad n z : (z < 0)%Z ->
  denotes (hypergeometric_logprob (Fin (INR good)) (Fin (INR bad)) (Fin (INR n)) (Fin (IZR z))) 0.
Proof.
  intros Hz. apply neg_INR in Hz. unfold hypergeometric_logprob. cbv zeta. rewrite !xadd_fin, xsub_fin, xadd_fin.
  set (t := INR n - (INR good + INR bad) + INR good).
  destruct (Rlt_dec 0 t); xrun; reflexivity.
Qed.

(** ** Sums *)
Lemma finite_series (f : nat -> R) n l : (forall k, (n < k)%nat -> f k = 0) -> sum_f_R0 f n = l -> is_series f l.
Proof.
  intros Hz Hs. apply is_series_Reals. intros eps He. exists n. intros m Hm.
  replace (sum_f_R0 f m) with l. { unfold R_dist. rewrite Rminus_eq_0, Rabs_R0. auto. }
  rewrite <- Hs. clear -Hz Hm. induction m.
  - assert (n = 0)%nat by lia. now subst.
  - destruct (Nat.eq_dec n (S m)) as [->|]; auto. simpl. rewrite <- IHm by lia. rewrite Hz by lia. ring.
Qed.
Lemma binomial_sum n p : is_series (binomial_pmf n p) 1.
Proof.
  apply (finite_series _ n).
  - intros k Hk. unfold binomial_pmf. destruct (Nat.leb_spec k n); [lia|auto].
  - transitivity ((p + (1 - p)) ^ n); [|replace (p + (1 - p)) with 1 by ring; apply pow1].
    rewrite binomial. apply sum_eq. intros i Hi. unfold binomial_pmf. rewrite (proj2 (Nat.leb_le i n) Hi). reflexivity.
Qed.
Lemma bernoulli_sum p : is_series (bernoulli_pmf p) 1.
Proof.
  apply (finite_series _ 1); [|simpl; ring]. intros [|[|k]] H; try lia. reflexivity.
Qed.
Lemma poisson_sum mu : is_series (poisson_pmf mu) 1.
Proof.
  assert (H := is_exp_Reals mu). unfold is_pseries in H.
  apply (is_series_scal_r (exp (- mu))) in H.
  replace (exp mu * exp (- mu)) with 1 in H by (rewrite <- exp_plus, Rplus_opp_r, exp_0; auto).
  eapply is_series_ext; [|exact H]. intros k. unfold poisson_pmf. rewrite pow_n_pow.
  unfold scal; simpl; unfold mult; simpl. field. apply INR_fact_neq_0.
Qed.
Lemma geometric_sum p : 0 < p <= 1 -> is_series (geometric_pmf p) 1.
Proof.
  intros Hp. apply (is_series_decr_1 (geometric_pmf p)).
  assert (G : is_series (fun k => p * (1 - p) ^ k) (p * / (1 - (1 - p)))).
  { apply (is_series_scal_l p (fun k => (1 - p) ^ k)). apply is_series_geom. rewrite Rabs_right; lra. }
  replace (p * / (1 - (1 - p))) with (1 + - 0) in G by (field; lra). exact G.
Qed.

(** Pascal's rule inside a sum *)
Lemma C_0 n : Binomial.C n 0 = 1.
Proof. unfold Binomial.C. rewrite Nat.sub_0_r. simpl (fact 0). simpl (INR 1). field. apply INR_fact_neq_0. Qed.
Lemma C_n n : Binomial.C n n = 1.
Proof. unfold Binomial.C. rewrite Nat.sub_diag. simpl (fact 0). simpl (INR 1). field. apply INR_fact_neq_0. Qed.
Lemma sum_shift f n : sum_f_R0 f (S n) = f 0%nat + sum_f_R0 (fun i => f (S i)) n.
Proof. rewrite decomp_sum by lia. reflexivity. Qed.
Lemma pascal_sum (W : nat -> nat -> R) n :
  sum_f_R0 (fun k => Binomial.C (S n) k * W k (S n - k)%nat) (S n) =
  sum_f_R0 (fun k => Binomial.C n k * (W (S k) (n - k)%nat + W k (S (n - k)))) n.
Proof.
  rewrite (sum_eq _ (fun k => Binomial.C n k * W (S k) (n - k)%nat + Binomial.C n k * W k (S (n - k))) n) by (intros; ring).
  rewrite sum_plus.
  destruct n as [|n].
  - simpl. rewrite !C_0, !C_n. ring.
  - rewrite sum_shift. rewrite tech5.
    rewrite (sum_shift (fun k => Binomial.C (S n) k * W k (S (S n - k)))).
    rewrite (tech5 (fun l => Binomial.C (S n) l * W (S l) (S n - l)%nat)).
    rewrite (sum_eq _ (fun i => Binomial.C (S n) i * W (S i) (S n - i)%nat + Binomial.C (S n) (S i) * W (S i) (S (S n - S i))) n).
    + rewrite sum_plus. rewrite !C_0, !C_n. replace (S (S n) - 0)%nat with (S (S n)) by lia.
      replace (S (S n - 0)) with (S (S n)) by lia. replace (S (S n) - S (S n))%nat with 0%nat by lia.
      replace (S n - S n)%nat with 0%nat by lia. ring.
    + intros i Hi. rewrite <- pascal by lia. replace (S (S n) - S i)%nat with (S n - i)%nat by lia.
      replace (S (S n - S i)) with (S n - i)%nat by lia. ring.
Qed.
Lemma bet_sum n : forall a b, 0 < a -> 0 < b ->
  sum_f_R0 (fun k => Binomial.C n k * Bet (INR k + a) (INR (n - k) + b)) n = Bet a b.
Proof.
  induction n as [|n IH]; intros a b Ha Hb.
  - simpl. rewrite C_0, !Rplus_0_l. ring.
  - rewrite (pascal_sum (fun i j => Bet (INR i + a) (INR j + b))).
    rewrite (sum_eq _ (fun k => Binomial.C n k * Bet (INR k + (a + 1)) (INR (n - k) + b) +
                                Binomial.C n k * Bet (INR k + a) (INR (n - k) + (b + 1))) n).
    + rewrite sum_plus, !IH by lra. symmetry. now apply Bet_split.
    + intros i Hi. rewrite !S_INR.
      replace (INR i + 1 + a) with (INR i + (a + 1)) by ring.
      replace (INR (n - i) + 1 + b) with (INR (n - i) + (b + 1)) by ring. ring.
Qed.
Lemma betabinomial_sum n a b : 0 < a -> 0 < b -> is_series (betabinomial_pmf n a b) 1.
Proof.
  intros Ha Hb. pose proof (Bet_pos a b Ha Hb).
  apply (finite_series _ n).
  - intros k Hk. unfold betabinomial_pmf. destruct (Nat.leb_spec k n); [lia|auto].
  - rewrite (sum_eq _ (fun k => Binomial.C n k * Bet (INR k + a) (INR (n - k) + b) * / Bet a b) n).
    + rewrite <- scal_sum, bet_sum by auto. field; lra.
    + intros i Hi. unfold betabinomial_pmf. rewrite (proj2 (Nat.leb_le i n) Hi). reflexivity.
Qed.

(** Vandermonde *)
Lemma choose_0 n : choose n 0 = 1.
Proof. unfold choose. simpl. apply C_0. Qed.
Lemma choose_pascal n k : choose (S n) (S k) = choose n k + choose n (S k).
Proof.
  unfold choose. destruct (Nat.leb_spec (S k) (S n)); destruct (Nat.leb_spec k n); try lia;
  destruct (Nat.leb_spec (S k) n); try lia.
  - symmetry. now apply pascal.
  - assert (k = n) by lia; subst. rewrite !C_n. ring.
  - ring.
Qed.
Lemma choose_zero k : choose 0 (S k) = 0.
Proof. reflexivity. Qed.
Lemma vandermonde g : forall b n, sum_f_R0 (fun k => choose g k * choose b (n - k)) n = choose (g + b) n.
Proof.
  induction g as [|g IH]; intros b n.
  - destruct n as [|n]. { simpl. rewrite !choose_0. ring. }
    rewrite sum_shift. rewrite choose_0, (sum_eq _ (fun _ => 0)).
    + rewrite sum_cte. simpl (0 + b)%nat. rewrite Nat.sub_0_r. ring.
    + intros i _. rewrite choose_zero. ring.
  - destruct n as [|n]. { simpl. rewrite !choose_0. ring. }
    rewrite sum_shift. simpl (S g + b)%nat. rewrite choose_pascal, choose_0.
    rewrite (sum_eq _ (fun i => choose g i * choose b (n - i) + choose g (S i) * choose b (S n - S i)) n).
    + rewrite sum_plus, IH. rewrite <- (IH b (S n)). rewrite sum_shift, choose_0. ring.
    + intros i Hi. rewrite choose_pascal. simpl (S n - S i)%nat. ring.
Qed.
Lemma C_pos n k : 0 < Binomial.C n k.
Proof. unfold Binomial.C. apply Rdiv_lt_0_compat; [|apply Rmult_lt_0_compat]; apply INR_fact_lt_0. Qed.
Lemma hypergeometric_sum good bad n : (n <= good + bad)%nat -> is_series (hypergeometric_pmf good bad n) 1.
Proof.
  intros Hn. pose proof (C_pos (good + bad) n). apply (finite_series _ n).
  - intros k Hk. unfold hypergeometric_pmf. destruct (Nat.leb_spec k n); [lia|auto].
  - rewrite (sum_eq _ (fun k => choose good k * choose bad (n - k) * / Binomial.C (good + bad) n) n).
    + rewrite <- scal_sum, vandermonde. unfold choose. rewrite (proj2 (Nat.leb_le _ _) Hn). field; lra.
    + intros i Hi. unfold hypergeometric_pmf. rewrite (proj2 (Nat.leb_le i n) Hi). reflexivity.
Qed.
