(** The default transform of von Mises distributions: turns of the circle. *)
From Coq Require Import Reals Lra Lia ZArith List Bool.
From Coquelicot Require Import Coquelicot.
From Verif Require Import XR Special LemInt LemLim LemGamma SpecDist XTac ModelDist ModelVec ModelTrans SpecTrans LemDist LemNorm LemNorm2 LemTrans LemTrans2.
Import ListNotations.
Open Scope R_scope.

Definition vm_turn (mu k y : R) : R := exp (k * cos (y - mu)) / (2 * PI * bessel_i0 k).
Lemma bessel_pos k : 0 < bessel_i0 k.
Proof. replace (bessel_i0 k) with (i0 k) by (unfold i0, bessel_i0, Rdiv; ring). apply i0_pos. Qed.
Lemma vm_transformed mu k y : 0 < k ->
  denotes (transformed_logprob true (vonmises_logprob (Fin mu) (Fin k)) TCircular (Fin y)) (vm_turn mu k y).
Proof.
  intros H. destruct (circular_ok y) as (w & n & W & -> & B). unfold transformed_logprob. rewrite B. cbn [bind log_jac_det].
  pose proof (vonmises_ok mu k w H) as D.
  assert (E : vonmises_pdf mu k w = vm_turn mu k (w + 2 * IZR n * PI)).
  { unfold vonmises_pdf, vm_turn. destruct (Rle_dec (- PI) w); [|lra]. destruct (Rle_dec w PI); [|lra].
    replace (w + 2 * IZR n * PI - mu) with (w - mu + 2 * IZR n * PI) by ring. now rewrite (proj2 (sin_2kPI (w - mu) n)). }
  rewrite E in D. destruct (vonmises_logprob (Fin mu) (Fin k) (Fin w)) as [[l| | |]|]; cbn [denotes bind xadd] in D |- *; try tauto.
  now rewrite Rplus_0_r.
Qed.
Lemma vm_turn_cont mu k y : continuous (vm_turn mu k) y.
Proof. apply deriv_cont. pose proof PI_RGT_0. pose proof (bessel_pos k). unfold vm_turn. auto_derive; auto. Qed.
Lemma vm_turn_mass mu k a : is_RInt (vm_turn mu k) a (a + 2 * PI) 1.
Proof.
  pose proof PI_RGT_0 as HP. pose proof (bessel_pos k) as HI.
  set (h := fun t => exp (k * cos t)). set (H := fun x => RInt h 0 x).
  assert (E := vm_int k (mu - a - PI)). cbv zeta in E. fold h in E. change (H (PI - (mu - a - PI)) - H (- PI - (mu - a - PI)) = 2 * H PI) in E.
  assert (EI : H PI = PI * bessel_i0 k). { unfold bessel_i0. fold h. assert (G : forall y : R, y = PI * (y / PI)) by (intros; field; lra). apply G. }
  assert (Hc : forall t, continuous h t) by (intros; apply deriv_cont; unfold h; auto_derive; auto).
  assert (HD : forall x, is_derive (fun x => / (2 * PI * bessel_i0 k) * H (x - mu)) x (vm_turn mu k x)).
  { intros x. replace (vm_turn mu k x) with (/ (2 * PI * bessel_i0 k) * (1 * h (x - mu))) by (unfold vm_turn, h; field; lra).
    apply is_derive_scal. apply (is_derive_comp H (fun s => s - mu) x); [|auto_derive; auto; ring].
    apply (cont_RInt_derive h m_infty p_infty 0); auto; apply inside_all. }
  replace 1 with (minus (/ (2 * PI * bessel_i0 k) * H (a + 2 * PI - mu)) (/ (2 * PI * bessel_i0 k) * H (a - mu))).
  - apply (is_RInt_derive (fun x => / (2 * PI * bessel_i0 k) * H (x - mu)) (vm_turn mu k)); intros; [apply HD|apply vm_turn_cont].
  - unfold minus, plus, opp; simpl. replace (a + 2 * PI - mu) with (PI - (mu - a - PI)) by ring. replace (a - mu) with (- PI - (mu - a - PI)) by ring.
    replace (H (PI - (mu - a - PI))) with (2 * H PI + H (- PI - (mu - a - PI))) by lra. rewrite EI. field. lra.
Qed.
Lemma vm_turn_ge mu k y : 0 < k -> exp (- k) / (2 * PI * bessel_i0 k) <= vm_turn mu k y.
Proof.
  intros H. pose proof PI_RGT_0. pose proof (bessel_pos k). unfold vm_turn. apply Rmult_le_compat_r.
  - apply Rlt_le, Rinv_0_lt_compat. nra.
  - destruct (Req_dec (- k) (k * cos (y - mu))) as [<-|N]; [lra|]. apply Rlt_le, exp_increasing. pose proof (COS_bound (y - mu)). nra.
Qed.
Lemma vm_infinite mu k : 0 < k -> ~ integrates_to_one (transformed_logprob true (vonmises_logprob (Fin mu) (Fin k)) TCircular) m_infty p_infty.
Proof.
  intros H (f & Hf & _ & Hi). pose proof PI_RGT_0 as HP. pose proof (bessel_pos k) as HI.
  set (c := exp (- k) / (2 * PI * bessel_i0 k)). assert (C : 0 < c) by (apply Rdiv_lt_0_compat; [apply exp_pos|nra]).
  assert (G : forall y, c <= f y).
  { intros y. assert (I : inside m_infty p_infty y) by apply inside_all. pose proof (Hf y I) as D. pose proof (vm_transformed mu k y H) as D'.
    replace (f y) with (vm_turn mu k y); [now apply vm_turn_ge|].
    destruct (transformed_logprob _ _ _ _) as [[l| | |]|]; cbn [denotes] in D, D'; try tauto; congruence. }
  specialize (Hi (ball 1 (mkposreal 1 Rlt_0_1)) (locally_ball _ _)). destruct Hi as [Q R0 HQ HR K].
  destruct HQ as [M1 HQ]. destruct HR as [M2 HR].
  set (A := Rmin (M1 - 1) (- / c)). set (B := Rmax (M2 + 1) (/ c)).
  assert (P : 0 < / c) by now apply Rinv_0_lt_compat.
  pose proof (Rmin_l (M1 - 1) (- / c)). pose proof (Rmin_r (M1 - 1) (- / c)). pose proof (Rmax_l (M2 + 1) (/ c)). pose proof (Rmax_r (M2 + 1) (/ c)). fold A in H0, H1. fold B in H2, H3.
  destruct (K A B) as (I & HI1 & HI2); [apply HQ; lra|apply HR; lra|].
  assert (L : c * (B - A) <= I).
  { apply (is_RInt_le (fun _ => c) f A B); [lra| |exact HI1|intros; apply G].
    replace (c * (B - A)) with (scal (B - A) c) by (unfold scal; simpl; unfold mult; simpl; ring). apply (is_RInt_const (V := R_NormedModule)). }
  unfold ball in HI2; simpl in HI2; unfold AbsRing_ball, abs, minus, plus, opp in HI2; simpl in HI2. apply Rabs_def2 in HI2.
  assert (2 <= c * (B - A)); [|lra]. replace 2 with (c * (/ c + / c)) by (field; lra). apply Rmult_le_compat_l; lra.
Qed.
