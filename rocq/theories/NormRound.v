(** * Inexact normalisation before inexact Fourier transforms *)
From Coq Require Import Reals Lra Psatz.
From Coquelicot Require Import Complex.
From Verif Require Import Prelude ExtReal SpecSig Sums Fft Helpers Linalg LinalgProofs Cgd Metrics StatsProofs LeastSq
  PrepProofs MetricsProofs SarProofs ProjTheorems MetricTheorems Sensitivity Perturb Inexact FftRound FftRoundProofs Apriori.
Local Open Scope nat_scope.

(** What C102 assumes of _normalize (numpy/helpers.py:42-46, torch/helpers.py:34-38) after the mean removal: the computed signal z' has
    an error w in the 2-norm against the exact one z, and the right length. *)
Definition unit_near (w : R) (z z' : list R) : Prop :=
  length z' = length z /\ (norm2 (map (fun t => smp z' t - smp z t) (seq 0 (length z))) <= w)%R.
(** The error of a correlation when w is the error of the signals and e the one of the transforms for signals of norm one. *)
Definition norm_error (e w : R) : R := (e * (1 + w) ^ 2 + w * (2 + w))%R.

Lemma unit_near_nrm n w z z' : unit_near w z z' -> length z <= n -> (nrm n (fun t => smp z' t - smp z t) <= w)%R.
Proof.
  intros (Hl & H) Hn. set (d := map _ _) in H. assert (Ld : length d = length z) by (unfold d; rewrite map_length, seq_length; auto).
  rewrite (nrm_ext n _ (smp d)).
  - rewrite nrm_norm2 by lia. exact H.
  - intros t _. unfold d, smp at 3. destruct (Nat.lt_ge_cases t (length z)) as [Ht|Ht].
    + rewrite (nth_indep _ 0%R ((fun t => smp z' t - smp z t)%R 0)) by (rewrite map_length, seq_length; auto).
      rewrite (map_nth (fun t => smp z' t - smp z t)%R), seq_nth by auto. reflexivity.
    + rewrite nth_overflow by (rewrite map_length, seq_length; auto). unfold smp. rewrite !nth_overflow by lia. ring.
Qed.
Lemma nrm_shift n x x' l : length x' = length x -> length x + l <= n ->
  nrm n (fun t => delayed x' l t - delayed x l t)%R = nrm n (fun t => smp x' t - smp x t)%R.
Proof.
  intros Hl Hn. unfold nrm. f_equal. unfold energy, dot.
  replace n with (l + (n - l)) at 1 by lia. rewrite Rsum_add. rewrite Rsum_zero.
  2:{ intros t Ht. unfold delayed. replace (t <? l) with true by (symmetry; apply Nat.ltb_lt; auto). ring. }
  rewrite Rplus_0_l. replace n with ((n - l) + l) at 2 by lia. rewrite Rsum_add.
  rewrite (Rsum_zero l).
  2:{ intros t Ht. unfold smp. rewrite !nth_overflow by lia. ring. }
  rewrite Rplus_0_r. apply Rsum_ext. intros t Ht. unfold delayed.
  replace (l + t <? l) with false by (symmetry; apply Nat.ltb_ge; lia). replace (l + t - l) with t by lia. reflexivity.
Qed.

Section Near.
  Variables (n : nat) (u v w : R) (rf : list R -> list C) (mulc : C -> C -> C) (sq : C -> R) (irf : list C -> list R).
  Hypotheses (Hu : (0 <= u)%R) (Hv : (0 <= v)%R) (Hrf : rfft_near n u rf) (Hirf : irfft_near n u irf).
  Let e := corr_error n u v.
  Lemma near_norm z z' : unit_near w z z' -> length z <= n -> (nrm n (smp z) <= 1)%R -> (0 <= nrm n (smp z') <= 1 + w)%R.
  Proof.
    intros H Hn H1. split; [apply nrm_pos|]. pose proof (nrm_sub n (smp z') (smp z)) as Q. pose proof (unit_near_nrm n w z z' H Hn).
    pose proof (Rle_abs (nrm n (smp z') - nrm n (smp z))). lra.
  Qed.
  Lemma near_pos z z' : unit_near w z z' -> (0 <= w)%R.
  Proof. intros (_ & H). eapply Rle_trans; [|exact H]. apply sqrt_pos. Qed.
  Lemma xcorr_unit_near x x' y y' l : unit_near w x x' -> unit_near w y y' -> length x + l <= n -> length y <= n ->
    (nrm n (smp x) <= 1)%R -> (nrm n (smp y) <= 1)%R -> (Rabs (xcorr x' y' l - xcorr x y l) <= w * (2 + w))%R.
  Proof.
    intros Hx Hy Hn Hn' Nx Ny. pose proof (near_pos _ _ Hx) as Pw. pose proof (proj1 Hx) as Lx.
    rewrite <- (dot_delayed n x' y' l), <- (dot_delayed n x y l) by lia.
    replace (dot n (delayed x' l) (smp y') - dot n (delayed x l) (smp y))%R
      with (dot n (fun t => delayed x' l t - delayed x l t) (smp y') + dot n (delayed x l) (fun t => smp y' t - smp y t))%R
      by (rewrite dot_sub_l, dot_sub_r; ring).
    eapply Rle_trans; [apply Rabs_triang|].
    pose proof (dot_le_nrm n (fun t => delayed x' l t - delayed x l t)%R (smp y')) as A.
    pose proof (dot_le_nrm n (delayed x l) (fun t => smp y' t - smp y t)%R) as B.
    rewrite nrm_shift in A by auto.
    pose proof (unit_near_nrm n w x x' Hx ltac:(lia)) as Ax. pose proof (unit_near_nrm n w y y' Hy Hn') as Ay.
    pose proof (near_norm y y' Hy Hn' Ny) as By.
    assert (Dx : (nrm n (delayed x l) <= 1)%R).
    { pose proof (nrm_shift n (map (fun _ => 0%R) x) x l ltac:(rewrite map_length; auto) ltac:(rewrite map_length; lia)) as Q.
      assert (Z : forall t, smp (map (fun _ => 0%R) x) t = 0%R).
      { intros t. exact (map_nth (fun _ : R => 0%R) x 0%R t). }
      rewrite (nrm_ext n _ (delayed x l)) in Q by (intros t _; unfold delayed; destruct (t <? l); rewrite ?Z; ring).
      rewrite (nrm_ext n (fun t => smp x t - smp (map (fun _ => 0%R) x) t)%R (smp x)) in Q by (intros t _; rewrite Z; ring). lra. }
    assert (A' : (nrm n (fun t => smp x' t - smp x t) * nrm n (smp y') <= w * (1 + w))%R) by (apply Rmult_le_compat; try lra; apply nrm_pos).
    assert (B' : (nrm n (delayed x l) * nrm n (fun t => smp y' t - smp y t) <= 1 * w)%R) by (apply Rmult_le_compat; try lra; apply nrm_pos).
    lra.
  Qed.
  Lemma xcorr_norm_near L x x' y y' l : mulc_near v mulc -> unit_near w x x' -> unit_near w y y' -> l < L -> l < n -> length x + l <= n -> length y <= n ->
    (nrm n (smp x) <= 1)%R -> (nrm n (smp y) <= 1)%R ->
    (Rabs (nth l (stats_xcorr_with rf mulc irf L x' y') 0 - xcorr x y l) <= norm_error e w)%R.
  Proof.
    intros Hm Hx Hy Hl Hl' Hn Hn' Nx Ny. pose proof (proj1 Hx) as Lx.
    pose proof (xcorr_near_plain n u v rf mulc irf L x' y' l Hu Hv Hrf Hirf Hm Hl Hl' ltac:(lia)) as A. fold e in A.
    pose proof (xcorr_unit_near x x' y y' l Hx Hy Hn Hn' Nx Ny) as B.
    pose proof (near_norm x x' Hx ltac:(lia) Nx) as Bx. pose proof (near_norm y y' Hy Hn' Ny) as By.
    assert (E0 : (0 <= e)%R) by (apply corr_error_pos; auto). unfold nrm in Bx, By.
    assert (P : (sqrt (energy n (smp x')) * sqrt (energy n (smp y')) <= (1 + w) * (1 + w))%R) by (apply Rmult_le_compat; lra).
    pose proof (Rmult_le_compat_l _ _ _ E0 P) as Q. unfold norm_error.
    replace (nth l (stats_xcorr_with rf mulc irf L x' y') 0 - xcorr x y l)%R
      with ((nth l (stats_xcorr_with rf mulc irf L x' y') 0 - xcorr x' y' l) + (xcorr x' y' l - xcorr x y l))%R by ring.
    eapply Rle_trans; [apply Rabs_triang|]. lra.
  Qed.
  Lemma acf_norm_near L x x' l : sq_near v sq -> unit_near w x x' -> l < L -> l < n -> length x + l <= n -> (nrm n (smp x) <= 1)%R ->
    (Rabs (nth l (stats_acf_with rf sq irf L x') 0 - xcorr x x l) <= norm_error e w)%R.
  Proof.
    intros Hs Hx Hl Hl' Hn Nx. pose proof (proj1 Hx) as Lx.
    pose proof (acf_near_plain n u v rf sq irf L x' l Hu Hv Hrf Hirf Hs Hl Hl' ltac:(lia)) as A. fold e in A.
    pose proof (xcorr_unit_near x x' x x' l Hx Hx Hn ltac:(lia) Nx Nx) as B.
    pose proof (near_norm x x' Hx ltac:(lia) Nx) as Bx.
    assert (E0 : (0 <= e)%R) by (apply corr_error_pos; auto).
    assert (P : (energy n (smp x') <= (1 + w) * (1 + w))%R) by (rewrite <- nrm_sq; apply Rmult_le_compat; lra).
    pose proof (Rmult_le_compat_l _ _ _ E0 P) as Q. unfold norm_error.
    replace (nth l (stats_acf_with rf sq irf L x') 0 - xcorr x x l)%R
      with ((nth l (stats_acf_with rf sq irf L x') 0 - xcorr x' x' l) + (xcorr x' x' l - xcorr x x l))%R by ring.
    eapply Rle_trans; [apply Rabs_triang|]. lra.
  Qed.
End Near.

Theorem norm_sdr b o ref est m c d x y ux' uy' rf mulc sq irf u v w acf' sol' c' tau rho gam lam : wf ref -> wf est ->
  2 <= filter_length o <= Nat.max (a_len ref) (a_len est) -> has_chan ref c x -> has_chan est d y -> (0 <= u)%R -> (0 <= v)%R ->
  let n := n_fft (a_len ref) (a_len est) in
  rfft_near n u rf -> irfft_near n u irf -> mulc_near v mulc -> sq_near v sq ->
  let L := filter_length o in
  unit_near w (unit_of (pre (zero_mean o) x)) ux' -> unit_near w (unit_of (pre (zero_mean o) y)) uy' ->
  let xc' l := nth l (stats_xcorr_with rf mulc irf L ux' uy') 0%R in
  (forall l, l < L -> (Rabs (acf' l - (nth l (stats_acf_with rf sq irf L ux') 0 + if Nat.eqb l 0 then loadv (load_diag o) else 0)) <= tau)%R) ->
  (forall i, i < L -> (Rabs (Rsum L (fun j => acf' (if (i <=? j)%nat then (j - i)%nat else (i - j)%nat) * sol' j) - xc' i) <= rho)%R) ->
  (Rabs (c' - Rsum L (fun l => xc' l * sol' l)) <= gam)%R ->
  use_cg_iter o = None -> sdr_coh b o ref est = Ok m -> load_diag o = Some lam -> (0 < lam)%R ->
  let e := norm_error (corr_error n u v) w in
  ((e + tau) * INR L <= lam / 4)%R -> ((e + rho) * sqrt (INR L / lam) <= 1 / 2)%R ->
  exists q, mat_of m c d = Fin q /\ (0 <= q <= 1)%R /\
    (Rabs (c' - q) <= gam + (3 * e + rho) * sqrt (INR L / lam) + 2 * (e + tau) * (INR L / lam))%R.
Proof.
  intros Wr We HL Hx Hy Hu Hv n Hrf Hirf Hm Hs L Nx Ny xc' Hacf Hr Hc Hcg Hco Hld Hlam e C1 C2. pose proof (proj1 Wr) as P.
  assert (Elv : loadv (load_diag o) = lam) by (rewrite Hld; reflexivity).
  set (ux := unit_of (pre (zero_mean o) x)) in *. set (uy := unit_of (pre (zero_mean o) y)) in *.
  destruct (sizes o ref est c d x y Wr We HL Hx Hy) as (S1 & S2 & S3 & S4 & S5 & S6). fold ux in S1. fold uy in S2. fold n L in S3, S4, S5, S6.
  assert (U : forall z, length (unit_of z) <= n -> (nrm n (smp (unit_of z)) <= 1)%R).
  { intros z Hz. rewrite length_unit_of in Hz. unfold nrm. rewrite <- sqrt_1. apply sqrt_le_1_alt, energy_unit_le1. auto. }
  assert (U1 : (nrm n (smp ux) <= 1)%R) by (apply U; fold ux; lia). assert (U2 : (nrm n (smp uy) <= 1)%R) by (apply U; fold uy; lia).
  apply (sdr_apriori b o ref est m c d x y (a_len ref + L + a_len est) acf' xc' sol' c' e (e + tau) rho gam lam); auto; try (unfold L; lia).
  - rewrite Elv. lra.
  - intros z. rewrite Elv. pose proof (energy_nonneg (a_len ref + L + a_len est)
      (fun t => Rsum (filter_length o) (fun k => z k * delayed (unit_of (pre (zero_mean o) x)) k t)%R)). lra.
  - intros l Hl. fold L in Hl. fold ux uy.
    exact (xcorr_norm_near n u v w rf mulc irf Hu Hv Hrf Hirf L ux ux' uy uy' l Hm Nx Ny Hl ltac:(lia) ltac:(lia) ltac:(lia) U1 U2).
  - intros l Hl. fold L in Hl. fold ux.
    pose proof (acf_norm_near n u v w rf sq irf Hu Hv Hrf Hirf L ux ux' l Hs Nx Hl ltac:(lia) ltac:(lia) U1) as A. fold e in A.
    pose proof (Hacf l Hl) as B.
    set (k := (if Nat.eqb l 0 then loadv (load_diag o) else 0)%R) in *. set (q := nth l (stats_acf_with rf sq irf L ux') 0%R) in *.
    replace (acf' l - (xcorr ux ux l + k))%R with ((q - xcorr ux ux l) + (acf' l - (q + k)))%R by ring.
    eapply Rle_trans; [apply Rabs_triang|]. lra.
Qed.

(** The normalisation of the model, computed with a norm of relative error del and divisions of relative error r. *)
Lemma normalize_near del r v N z' : (0 <= del < 1)%R -> (0 <= r)%R -> length z' = length v ->
  (Rabs (N - Rmax (norm2 v) norm_eps) <= del * Rmax (norm2 v) norm_eps)%R ->
  (forall t, t < length v -> (Rabs (smp z' t - smp v t / N) <= r * Rabs (smp v t / N))%R) ->
  unit_near ((1 + r) / (1 - del) - 1) (unit_of v) z'.
Proof.
  intros Hd Hr Hl HN Ht. split; [rewrite length_unit_of; auto|]. rewrite length_unit_of.
  set (D := Rmax (norm2 v) norm_eps) in *. assert (PD : (0 < D)%R) by apply gain_den.
  set (w := ((1 + r) / (1 - del) - 1)%R).
  assert (HN' : (D - del * D <= N <= D + del * D)%R) by (revert HN; unfold Rabs; destruct Rcase_abs; lra). assert (PN : (0 < N)%R) by nra. assert (I1 : (0 < / (1 - del))%R) by (apply Rinv_0_lt_compat; lra).
  assert (I2 : ((1 - del) * / (1 - del) = 1)%R) by (apply Rinv_r; lra).
  set (k := (D / N)%R). assert (K : (k * N = D)%R) by (unfold k; field; lra).
  assert (K1 : (k <= / (1 - del))%R).
  { apply (Rmult_le_reg_r N); auto. rewrite K. apply (Rmult_le_reg_l (1 - del)); [lra|]. rewrite <- Rmult_assoc, I2. lra. }
  assert (K2 : (0 < k)%R) by (unfold k; apply Rdiv_lt_0_compat; auto).
  assert (K3 : (Rabs (k - 1) <= / (1 - del) - 1)%R).
  { apply Rabs_le. split; [|lra]. assert (1 - del <= k)%R; [|nra]. apply (Rmult_le_reg_r N); auto. rewrite K. nra. }
  assert (W : forall t, t < length v -> (Rabs (smp z' t - smp (unit_of v) t) <= w * Rabs (smp (unit_of v) t))%R).
  { intros t Lt. specialize (Ht t Lt). set (s := smp (unit_of v) t). assert (Es : (smp v t / N = k * s)%R).
    { unfold s, k. rewrite smp_unit_of. unfold gain. fold D. field. lra. }
    rewrite Es in Ht. replace (smp z' t - s)%R with ((smp z' t - k * s) + (k - 1) * s)%R by ring.
    eapply Rle_trans; [apply Rabs_triang|]. rewrite Rabs_mult. rewrite Rabs_mult, (Rabs_pos_eq k) in Ht by lra.
    pose proof (Rabs_pos s). unfold w, Rdiv. pose proof (Rmult_le_compat_r (Rabs s) _ _ ltac:(auto) K3).
    assert (r * (k * Rabs s) <= r * (/ (1 - del) * Rabs s))%R by (apply Rmult_le_compat_l; auto; apply Rmult_le_compat_r; auto). lra. }
  assert (Pw : (0 <= w)%R).
  { unfold w, Rdiv. assert (1 <= / (1 - del))%R by nra. nra. }
  unfold norm2. rewrite map_length, seq_length. rewrite <- (sqrt_pow2 w) by auto. apply sqrt_le_1_alt.
  apply (Rle_trans _ (w ^ 2 * energy (length v) (smp (unit_of v)))).
  - unfold energy, dot. rewrite <- Rsum_scal_l. apply Rsum_le. intros t Lt.
    replace (smp (map (fun t => smp z' t - smp (unit_of v) t)%R (seq 0 (length v))) t) with (smp z' t - smp (unit_of v) t)%R.
    2:{ unfold smp at 3. rewrite (nth_indep _ 0%R ((fun t => smp z' t - smp (unit_of v) t)%R 0)) by (rewrite map_length, seq_length; auto).
        rewrite (map_nth (fun t => smp z' t - smp (unit_of v) t)%R), seq_nth by auto. reflexivity. }
    specialize (W t Lt). rewrite <- (Rabs_pos_eq (w ^ 2 * _)%R).
    2:{ apply Rmult_le_pos; [apply pow2_ge_0|]. apply Rle_0_sqr. }
    replace (w ^ 2 * (smp (unit_of v) t * smp (unit_of v) t))%R with ((w * Rabs (smp (unit_of v) t)) ^ 2)%R.
    2:{ rewrite Rpow_mult_distr, pow2_abs. ring. }
    rewrite Rabs_pos_eq by apply pow2_ge_0. rewrite <- pow2_abs. apply pow_incr. split; auto. apply Rabs_pos.
  - pose proof (energy_unit_le1 (length v) v ltac:(auto)). pose proof (pow2_ge_0 w). nra.
Qed.

Lemma near_of_nrm w z z' : length z' = length z -> (nrm (length z) (fun t => smp z' t - smp z t) <= w)%R -> unit_near w z z'.
Proof.
  intros Hl H. split; auto. eapply Rle_trans; [|exact H]. right.
  set (d := map _ _). assert (Ld : length d = length z) by (unfold d; rewrite map_length, seq_length; auto).
  rewrite <- (nrm_norm2 (length z)) by lia. apply nrm_ext. intros t Ht. unfold d, smp at 1.
  rewrite (nth_indep _ 0%R ((fun t => smp z' t - smp z t)%R 0)) by (rewrite map_length, seq_length; auto).
  rewrite (map_nth (fun t => smp z' t - smp z t)%R), seq_nth by auto. reflexivity.
Qed.
Lemma unit_near_trans w1 w2 a b c : unit_near w1 a b -> unit_near w2 b c -> unit_near (w1 + w2) a c.
Proof.
  intros H1 H2. pose proof (proj1 H1) as L1. pose proof (proj1 H2) as L2. apply near_of_nrm; [lia|].
  pose proof (unit_near_nrm (length a) _ _ _ H1 ltac:(lia)). pose proof (unit_near_nrm (length a) _ _ _ H2 ltac:(lia)).
  rewrite (nrm_ext _ _ (fun t => (smp b t - smp a t) + (smp c t - smp b t))%R) by (intros; ring).
  eapply Rle_trans; [apply (nrm_add (length a) (fun t => smp b t - smp a t)%R (fun t => smp c t - smp b t)%R)|]. lra.
Qed.
(** an error d of the signal moves the normalised signal by at most twice d over the norm *)
Lemma unit_of_near d v v' : unit_near d v v' -> unit_near (2 * d / Rmax (norm2 v) norm_eps) (unit_of v) (unit_of v').
Proof.
  intros H. pose proof (proj1 H) as L. pose proof (unit_near_nrm (length v) _ _ _ H ltac:(lia)) as N.
  apply near_of_nrm; [rewrite !length_unit_of; auto|]. rewrite length_unit_of.
  set (D := Rmax (norm2 v) norm_eps). set (D' := Rmax (norm2 v') norm_eps).
  assert (PD : (0 < D)%R) by apply gain_den. assert (PD' : (0 < D')%R) by apply gain_den.
  assert (Q : (Rabs (D - D') <= d)%R).
  { pose proof (nrm_sub (length v) (smp v') (smp v)) as S. rewrite (nrm_norm2 (length v) v'), (nrm_norm2 (length v) v) in S by lia.
    unfold D, D', Rmax. revert S N. set (q := nrm _ _). intros S N. unfold Rabs in *.
    repeat destruct Rle_dec; repeat destruct Rcase_abs; lra. }
  rewrite (nrm_ext _ _ (fun t => (/ D * (D - D')) * smp (unit_of v') t + / D * (smp v' t - smp v t))%R).
  2:{ intros t _. rewrite !smp_unit_of. unfold gain. fold D D'. field. split; lra. }
  eapply Rle_trans; [apply (nrm_add (length v) (fun t => (/ D * (D - D')) * smp (unit_of v') t)%R (fun t => / D * (smp v' t - smp v t))%R)|].
  rewrite (nrm_scal _ (smp (unit_of v'))), (nrm_scal _ (fun t => smp v' t - smp v t)%R), Rabs_mult.
  pose proof (Rinv_0_lt_compat D PD) as PI. rewrite (Rabs_pos_eq (/ D)) by lra.
  assert (U : (0 <= nrm (length v) (smp (unit_of v')) <= 1)%R).
  { split; [apply nrm_pos|]. unfold nrm. rewrite <- sqrt_1. apply sqrt_le_1_alt, energy_unit_le1. lia. }
  pose proof (Rabs_pos (D - D')). assert (Rabs (D - D') * nrm (length v) (smp (unit_of v')) <= d)%R by nra.
  unfold Rdiv. rewrite Rmult_assoc. pose proof (Rmult_le_compat_l (/ D) _ _ ltac:(lra) H1).
  pose proof (Rmult_le_compat_l (/ D) _ _ ltac:(lra) N). lra.
Qed.
(** mean removal with the error d, norm with the relative error del, divisions with the relative error r *)
Lemma prepare_near d del r v v' N z' : unit_near d v v' -> (0 <= del < 1)%R -> (0 <= r)%R -> length z' = length v ->
  (Rabs (N - Rmax (norm2 v') norm_eps) <= del * Rmax (norm2 v') norm_eps)%R ->
  (forall t, t < length v -> (Rabs (smp z' t - smp v' t / N) <= r * Rabs (smp v' t / N))%R) ->
  unit_near (2 * d / Rmax (norm2 v) norm_eps + ((1 + r) / (1 - del) - 1)) (unit_of v) z'.
Proof.
  intros H Hd Hr Hl HN Ht. pose proof (proj1 H) as L. apply (unit_near_trans _ _ _ (unit_of v')); [apply unit_of_near; auto|].
  apply (normalize_near del r v' N); auto; [lia|]. intros t Lt. apply Ht. lia.
Qed.
