(** * C102: inexact normalisation *)
From Coq Require Import Reals Lra.
From Coquelicot Require Import Complex.
From Verif Require Import Prelude ExtReal Spec SpecSig Sums Fft Helpers Metrics StatsProofs PrepProofs ProjTheorems MetricTheorems Sensitivity Witness SigExamples
  OneRefExamples Inexact InexactExamples FftRound FftRoundProofs FftRoundExamples FftRoundSarExamples NormRound NormRoundExamples.
Local Open Scope nat_scope.

(** C102: a norm of relative error del and divisions of relative error r give normalised signals with the error w. *)
Theorem C102_normalize del r v N z' : (0 <= del < 1)%R -> (0 <= r)%R -> length z' = length v ->
  (Rabs (N - Rmax (norm2 v) norm_eps) <= del * Rmax (norm2 v) norm_eps)%R ->
  (forall t, t < length v -> (Rabs (smp z' t - smp v t / N) <= r * Rabs (smp v t / N))%R) ->
  unit_near ((1 + r) / (1 - del) - 1) (unit_of v) z'.
Proof. exact (normalize_near del r v N z'). Qed.
Print Assumptions C102_normalize.
(** the norm too small by one thousandth and the quotients too large by almost as much *)
Example C102_normalize_example : unit_near ((1 + 1 / 1000) / (1 - 1 / 1000) - 1) (unit_of near_y) (map (Rmult (1002 / 1000)) near_y).
Proof.
  assert (E : Rmax (norm2 near_y) norm_eps = 1%R).
  { replace (norm2 near_y) with 1%R.
    - apply Rmax_left. unfold norm_eps. replace (10 ^ 6)%R with 1000000%R by ring. lra.
    - symmetry. unfold norm2. rewrite <- sqrt_1. f_equal. unfold smp. simpl. lra. }
  apply (C102_normalize (1 / 1000) (1 / 1000) near_y (999 / 1000)); try lra; try (apply map_length).
  - rewrite E. unfold Rabs; destruct Rcase_abs; lra.
  - intros t Ht. do 5 (destruct t as [|t]; [unfold smp; simpl; unfold Rabs; repeat destruct Rcase_abs; lra|]). simpl in Ht. lia.
Qed.

(** C102: the same when the signal before the normalisation has an error d, as after an inexact mean removal. *)
Theorem C102_prepare d del r v v' N z' : unit_near d v v' -> (0 <= del < 1)%R -> (0 <= r)%R -> length z' = length v ->
  (Rabs (N - Rmax (norm2 v') norm_eps) <= del * Rmax (norm2 v') norm_eps)%R ->
  (forall t, t < length v -> (Rabs (smp z' t - smp v' t / N) <= r * Rabs (smp v' t / N))%R) ->
  unit_near (2 * d / Rmax (norm2 v) norm_eps + ((1 + r) / (1 - del) - 1)) (unit_of v) z'.
Proof. exact (prepare_near d del r v v' N z'). Qed.
Print Assumptions C102_prepare.
(** the signal too large, its norm too small and the quotients too large *)
Example C102_prepare_example : unit_near (2 * (1 / 1000) / Rmax (norm2 near_y) norm_eps + ((1 + 1 / 1000) / (1 - 1 / 1000) - 1)) (unit_of near_y)
  (map (Rmult (1002 / 1000)) near_y).
Proof.
  assert (E : Rmax (norm2 big_est) norm_eps = (1001 / 1000)%R).
  { replace (norm2 big_est) with (1001 / 1000)%R.
    - apply Rmax_left. unfold norm_eps. replace (10 ^ 6)%R with 1000000%R by ring. lra.
    - symmetry. transitivity (sqrt ((1001 / 1000) ^ 2)); [|apply sqrt_pow2; lra]. unfold norm2. f_equal. unfold big_est, smp. simpl. lra. }
  apply (C102_prepare (1 / 1000) (1 / 1000) (1 / 1000) near_y big_est 1); try lra; try (apply map_length); try apply big_est_near.
  - rewrite E. unfold Rabs; destruct Rcase_abs; lra.
  - intros t Ht. do 5 (destruct t as [|t]; [unfold big_est, smp; simpl; unfold Rabs; repeat destruct Rcase_abs; lra|]). simpl in Ht. lia.
Qed.

(** C102: signals of norm at most one with an error w in the 2-norm, and the transforms and products of C99. *)
Theorem C102_xcorr n u v w rf mulc irf L x x' y y' l : (0 <= u)%R -> (0 <= v)%R -> rfft_near n u rf -> irfft_near n u irf -> mulc_near v mulc ->
  unit_near w x x' -> unit_near w y y' -> l < L -> l < n -> length x + l <= n -> length y <= n ->
  (nrm n (smp x) <= 1)%R -> (nrm n (smp y) <= 1)%R ->
  let e0 := (2 * u + u ^ 2 + v * (1 + u) ^ 2 + sqrt (INR n) * u * ((1 + v) * (1 + u) ^ 2))%R in
  (Rabs (nth l (stats_xcorr_with rf mulc irf L x' y') 0 - xcorr x y l) <= e0 * (1 + w) ^ 2 + w * (2 + w))%R.
Proof. exact (fun Hu Hv Hr Hi => xcorr_norm_near n u v w rf mulc irf Hu Hv Hr Hi L x x' y y' l). Qed.
Print Assumptions C102_xcorr.
Theorem C102_acf n u v w rf sq irf L x x' l : (0 <= u)%R -> (0 <= v)%R -> rfft_near n u rf -> irfft_near n u irf -> sq_near v sq ->
  unit_near w x x' -> l < L -> l < n -> length x + l <= n -> (nrm n (smp x) <= 1)%R ->
  let e0 := (2 * u + u ^ 2 + v * (1 + u) ^ 2 + sqrt (INR n) * u * ((1 + v) * (1 + u) ^ 2))%R in
  (Rabs (nth l (stats_acf_with rf sq irf L x') 0 - xcorr x x l) <= e0 * (1 + w) ^ 2 + w * (2 + w))%R.
Proof. exact (fun Hu Hv Hr Hi => acf_norm_near n u v w rf sq irf Hu Hv Hr Hi L x x' l). Qed.
Print Assumptions C102_acf.
(** signals, transforms and products that are all too large by one thousandth *)
Example C102_acf_example : let e := (1 / 1000)%R in
  let e0 := (2 * e + e ^ 2 + e * (1 + e) ^ 2 + sqrt (INR 16) * e * ((1 + e) * (1 + e) ^ 2))%R in
  (Rabs (nth 1 (stats_acf_with (loud_rfft 16 e) (loud_sq e) (loud_irfft 16 e) 2 big_est) 0 - xcorr near_y near_y 1) <= e0 * (1 + e) ^ 2 + e * (2 + e))%R /\
  (Rabs (nth 1 (stats_xcorr_with (loud_rfft 16 e) (loud_mulc e) (loud_irfft 16 e) 2 big_ref big_est) 0 - xcorr (exr 0) near_y 1) <= e0 * (1 + e) ^ 2 + e * (2 + e))%R.
Proof.
  cbv zeta.
  assert (N : forall z, Rsum 16 (fun t => smp z t * smp z t)%R = 1%R -> (nrm 16 (smp z) <= 1)%R).
  { intros z Hz. unfold nrm, energy, dot. rewrite Hz, sqrt_1. lra. }
  assert (N1 : (nrm 16 (smp near_y) <= 1)%R) by (apply N; unfold smp; simpl; lra).
  assert (N2 : (nrm 16 (smp (exr 0)) <= 1)%R) by (apply N; unfold smp; simpl; lra).
  split.
  - apply C102_acf; auto using big_est_near, loud_rfft_near, loud_irfft_near; try lra; try (simpl; lia). apply loud_sq_near. lra.
  - apply C102_xcorr; auto using big_ref_near, big_est_near, loud_rfft_near, loud_irfft_near; try lra; try (simpl; lia). apply loud_mulc_near. lra.
Qed.

(** C102: the SDR from the errors of the normalisation and of the transforms. *)
Theorem C102_sdr b o ref est m c d x y ux' uy' rf mulc sq irf u v w acf' sol' c' tau rho gam lam : wf ref -> wf est ->
  2 <= filter_length o <= Nat.max (a_len ref) (a_len est) -> has_chan ref c x -> has_chan est d y -> (0 <= u)%R -> (0 <= v)%R ->
  let n := n_fft (a_len ref) (a_len est) in
  rfft_near n u rf -> irfft_near n u irf -> mulc_near v mulc -> sq_near v sq ->
  let L := filter_length o in
  unit_near w (unit_of (pre (zero_mean o) x)) ux' -> unit_near w (unit_of (pre (zero_mean o) y)) uy' ->
  let xc' l := nth l (stats_xcorr_with rf mulc irf L ux' uy') 0%R in
  (forall l, l < L -> (Rabs (acf' l - (nth l (stats_acf_with rf sq irf L ux') 0 + if Nat.eqb l 0 then loadv (load_diag o) else 0)) <= tau)%R) ->
  (forall i, i < L -> (Rabs (Rsum L (fun j => acf' (if (i <=? j)%nat then (j - i)%nat else (i - j)%nat) * sol' j) - xc' i) <= rho)%R) ->
  (Rabs (c' - Rsum L (fun l => xc' l * sol' l)) <= gam)%R ->
  use_cg_iter o = None -> sdr_coh b o ref est = Ok m -> load_diag o = Some lam -> (0 < lam)%R ->
  let e0 := (2 * u + u ^ 2 + v * (1 + u) ^ 2 + sqrt (INR n) * u * ((1 + v) * (1 + u) ^ 2))%R in
  let e := (e0 * (1 + w) ^ 2 + w * (2 + w))%R in
  ((e + tau) * INR L <= lam / 4)%R -> ((e + rho) * sqrt (INR L / lam) <= 1 / 2)%R ->
  exists q, mat_of m c d = Fin q /\ (0 <= q <= 1)%R /\
    (Rabs (c' - q) <= gam + (3 * e + rho) * sqrt (INR L / lam) + 2 * (e + tau) * (INR L / lam))%R.
Proof. exact (norm_sdr b o ref est m c d x y ux' uy' rf mulc sq irf u v w acf' sol' c' tau rho gam lam). Qed.
Print Assumptions C102_sdr.
(** two taps, exact transforms of signals that are too large by one thousandth *)
Example C102_sdr_example b : exists m q, sdr_coh b near_opts mono_ref near_est = Ok m /\ mat_of m 0 0 = Fin q /\
  (Rabs (9104 / 10000 - q) <= 1 / 10000 + (3 * (2001 / 1000000) + 7 / 10000) * sqrt 20 + 2 * (2001 / 1000000) * 20)%R.
Proof.
  destruct (near_ok b) as [m H]. exists m.
  assert (X : forall l, l < 2 -> nth l (stats_xcorr_with (rfft 16) exact_mulc (loud_irfft 16 0) 2 big_ref big_est) 0%R = (1002001 / 1000000 * nth l [6 / 10; 8 / 10] 0)%R).
  { intros l Hl. rewrite loud_xcorr by (simpl; lia). destruct l as [|[|l]]; [| |lia]; unfold xcorr, smp, big_ref, big_est; simpl; lra. }
  assert (A : forall l, l < 2 -> nth l (stats_acf_with (rfft 16) exact_sq (loud_irfft 16 0) 2 big_ref) 0%R = (1002001 / 1000000 * nth l [1; 0] 0)%R).
  { intros l Hl. rewrite loud_acf by (simpl; lia). destruct l as [|[|l]]; [| |lia]; unfold xcorr, smp, big_ref; simpl; lra. }
  pose proof (C102_sdr b near_opts mono_ref near_est m 0 0 (exr 0) near_y big_ref big_est (rfft 16) exact_mulc exact_sq (loud_irfft 16 0) 0 0 (1 / 1000)
    (fun l => nth l [1102001 / 1000000; 0]%R 0%R) (fun l => nth l [545 / 1000; 727 / 1000]%R 0%R) (9104 / 10000) 0 (7 / 10000) (1 / 10000) (1 / 10)
    mono_wf near_wf ltac:(simpl; lia) mono_chan near_chan ltac:(lra) ltac:(lra)
    (exact_rfft_near 16 0) (loud_irfft_near 16 0) exact_mulc_near exact_sq_near) as Q.
  cbv zeta in Q. cbn [filter_length zero_mean load_diag near_opts pre] in Q. rewrite mono_unit, near_unit in Q.
  change (n_fft (a_len mono_ref) (a_len near_est)) with 16 in Q. pose proof big_error as BE. unfold norm_error, corr_error in BE. rewrite BE in Q.
  replace (INR 2 / (1 / 10))%R with 20%R in Q by (simpl; lra).
  destruct Q as (q & E & _ & B); auto using big_ref_near, big_est_near; try lra.
  - intros l Hl. rewrite A by auto. destruct l as [|[|l]]; [| |lia]; simpl; unfold Rabs; destruct Rcase_abs; lra.
  - intros i Hi. rewrite X by auto. destruct i as [|[|i]]; [| |lia]; simpl; unfold Rabs; destruct Rcase_abs; lra.
  - cbn [Rsum gsum]. rewrite !X by lia. simpl. unfold Rabs; destruct Rcase_abs; lra.
  - simpl. lra.
  - pose proof sqrt_twenty_le5. lra.
  - exists q. split; auto. split; auto. eapply Rle_trans; [exact B|]. right. ring.
Qed.
