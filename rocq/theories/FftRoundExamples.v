(** * Concrete cases for C99 *)
From Coq Require Import Reals Lra Psatz.
From Coquelicot Require Import Complex.
From Verif Require Import Prelude ExtReal Sums SpecSig Fft FftProofs Cgd Helpers Metrics LeastSq PrepProofs ProjTheorems Witness SigExamples
  StatsProofs OneRefExamples Inexact InexactExamples FftRound FftRoundProofs.
Local Open Scope nat_scope.

(** transforms and products that are all too large by the same factor *)
Definition loud_rfft (n : nat) (e : R) (x : list R) : list C := map (Cmult (RtoC (1 + e)%R)) (rfft n x).
Definition loud_irfft (n : nat) (e : R) (Z : list C) : list R := map (Rmult (1 + e)) (irfft n Z).
Definition loud_mulc (e : R) (a b : C) : C := Cmult (RtoC (1 + e)%R) (Cmult (Cconj a) b).
Definition loud_sq (e : R) (z : C) : R := ((1 + e) * (fst z ^ 2 + snd z ^ 2))%R.

Lemma loud_rfft_near n e : rfft_near n e (loud_rfft n e).
Proof.
  intros x. split; [unfold loud_rfft; rewrite map_length; apply length_rfft|].
  rewrite <- ss_scal. apply ss_le. intros k Hk. right. unfold loud_rfft.
  rewrite (nth_indep _ (RtoC 0) (Cmult (RtoC (1 + e)%R) (RtoC 0))) by (rewrite map_length, length_rfft; lia).
  rewrite (map_nth (Cmult (RtoC (1 + e)%R))).
  replace (Cminus (Cmult (RtoC (1 + e)%R) (nth k (rfft n x) (RtoC 0))) (nth k (rfft n x) (RtoC 0)))
    with (Cmult (RtoC e) (nth k (rfft n x) (RtoC 0))) by (rewrite RtoC_plus; ring).
  rewrite Cmod_mult, Rpow_mult_distr, Cmod_R, pow2_abs. reflexivity.
Qed.
Lemma loud_irfft_near n e : irfft_near n e (loud_irfft n e).
Proof.
  intros Z. split; [unfold loud_irfft; rewrite map_length; apply length_irfft|].
  rewrite <- Rsum_scal_l. apply Rsum_le. intros t Ht. right. unfold loud_irfft.
  rewrite (nth_indep _ 0%R ((1 + e) * 0)%R) by (rewrite map_length, length_irfft; lia).
  rewrite (map_nth (Rmult (1 + e))). ring.
Qed.
Lemma loud_mulc_near e : (0 <= e)%R -> mulc_near e (loud_mulc e).
Proof.
  intros He a b. right. unfold loud_mulc.
  replace (Cminus (Cmult (RtoC (1 + e)%R) (Cmult (Cconj a) b)) (Cmult (Cconj a) b)) with (Cmult (RtoC e) (Cmult (Cconj a) b)) by (rewrite RtoC_plus; ring).
  rewrite !Cmod_mult, Cmod_conj, Cmod_R, (Rabs_right e) by lra. reflexivity.
Qed.
Lemma loud_sq_near e : (0 <= e)%R -> sq_near e (loud_sq e).
Proof.
  intros He z. unfold loud_sq. pose proof (sq_nonneg (fst z)). pose proof (sq_nonneg (snd z)).
  replace ((1 + e) * (fst z ^ 2 + snd z ^ 2) - (fst z ^ 2 + snd z ^ 2))%R with (e * (fst z ^ 2 + snd z ^ 2))%R by ring.
  rewrite Rabs_right; [lra|]. apply Rle_ge, Rmult_le_pos; lra.
Qed.

(** sizes met in binary64: errors of 2^-46, FFTs of up to 2^24 points *)
Lemma corr_error_size n u v : (0 <= u <= / 2 ^ 46)%R -> (0 <= v <= / 2 ^ 46)%R -> (INR n <= 2 ^ 24)%R -> (corr_error n u v <= / 2 ^ 33)%R.
Proof.
  intros Hu Hv Hn. assert (S : (0 <= sqrt (INR n) <= 4096)%R).
  { split; [apply sqrt_pos|]. rewrite <- (sqrt_pow2 4096) by lra. apply sqrt_le_1_alt. lra. }
  assert (E : (/ 2 ^ 33 = 8192 * / 2 ^ 46)%R) by (simpl; field). rewrite E.
  assert (U0 : (0 < / 2 ^ 46 <= 1 / 1000)%R) by (simpl; lra).
  set (U := (/ 2 ^ 46)%R) in *. clearbody U. unfold corr_error. set (s := sqrt (INR n)) in *. clearbody s. clear E Hn.
  assert (A : ((1 + u) ^ 2 <= 101 / 100)%R) by nra.
  assert (A0 : (0 <= (1 + u) ^ 2)%R) by apply sq_nonneg.
  set (w := ((1 + u) ^ 2)%R) in *. clearbody w.
  assert (B : (0 <= (1 + v) * w <= 103 / 100)%R) by nra.
  assert (D : (s * u <= 4096 * U)%R) by (apply Rmult_le_compat; lra).
  assert (D0 : (0 <= s * u)%R) by (apply Rmult_le_pos; lra).
  assert (D1 : (s * u * ((1 + v) * w) <= 4096 * U * (103 / 100))%R) by (apply Rmult_le_compat; lra).
  assert (V : (v * w <= U * (101 / 100))%R) by (apply Rmult_le_compat; lra).
  assert (Q : (u ^ 2 <= U)%R) by nra. lra.
Qed.

(** the program of near_opts with exact transforms *)
Lemma exact_rfft_near n e : rfft_near n e (rfft n).
Proof.
  intros x. split; [apply length_rfft|].
  replace (spectral_sum n (fun k => Cmod (Cminus (nth k (rfft n x) (RtoC 0)) (nth k (rfft n x) (RtoC 0))) ^ 2)%R) with (0 ^ 2 * spectral_sum n (fun k => Cmod (nth k (rfft n x) (RtoC 0)) ^ 2))%R.
  - apply Rmult_le_compat_r; [apply ss_nonneg; intros; apply sq_nonneg|]. rewrite pow_ne_zero by lia. apply sq_nonneg.
  - rewrite <- ss_scal. apply ss_ext. intros k _.
    replace (Cminus (nth k (rfft n x) (RtoC 0)) (nth k (rfft n x) (RtoC 0))) with (RtoC 0) by ring. rewrite Cmod_0. ring.
Qed.
Definition exact_mulc (a b : C) : C := Cmult (Cconj a) b.
Definition exact_sq (z : C) : R := (fst z ^ 2 + snd z ^ 2)%R.
Lemma exact_mulc_near : mulc_near 0 exact_mulc.
Proof.
  intros a b. unfold exact_mulc. replace (Cminus (Cmult (Cconj a) b) (Cmult (Cconj a) b)) with (RtoC 0) by ring. rewrite Cmod_0. lra.
Qed.
Lemma exact_sq_near : sq_near 0 exact_sq.
Proof. intros z. unfold exact_sq. rewrite Rminus_diag_eq by reflexivity. rewrite Rabs_R0. lra. Qed.

(** correlations with a loud inverse transform are too large by the factor *)
Lemma nth_loud_cut n e L Z l : l < L -> l < n -> nth l (cut L (loud_irfft n e Z)) 0%R = ((1 + e) * nth l (cut L (irfft n Z)) 0)%R.
Proof.
  intros HL Hn. rewrite !nth_cut by auto. unfold loud_irfft.
  rewrite (nth_indep _ 0%R ((1 + e) * 0)%R) by (rewrite map_length, length_irfft; lia). apply (map_nth (Rmult (1 + e))).
Qed.
Lemma loud_xcorr n e L x y l : l < L -> l < n -> length x + l <= n ->
  nth l (stats_xcorr_with (rfft n) exact_mulc (loud_irfft n e) L x y) 0%R = ((1 + e) * xcorr x y l)%R.
Proof. intros HL Hn Hx. unfold stats_xcorr_with. rewrite nth_loud_cut by auto. rewrite <- (stats_xcorr_plain n L x y l) by auto. reflexivity. Qed.
Lemma loud_acf n e L x l : l < L -> l < n -> length x + l <= n ->
  nth l (stats_acf_with (rfft n) exact_sq (loud_irfft n e) L x) 0%R = ((1 + e) * xcorr x x l)%R.
Proof. intros HL Hn Hx. unfold stats_acf_with. rewrite nth_loud_cut by auto. rewrite <- (stats_acf_plain n L x l) by auto. reflexivity. Qed.
