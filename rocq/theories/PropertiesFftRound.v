(** * C99: from the error of the Fourier transforms to the error of the SDR *)
From Coq Require Import Reals Lra.
From Coquelicot Require Import Complex.
From Verif Require Import Prelude ExtReal Spec SpecSig Sums Fft Helpers Metrics StatsProofs PrepProofs ProjTheorems MetricTheorems Witness SigExamples
  OneRefExamples Inexact InexactExamples FftRound FftRoundProofs FftRoundExamples.
Local Open Scope nat_scope.

(** C99: transforms with a relative error u in the 2-norm and products with a relative error v. *)
Theorem C99_xcorr n u v rf mulc irf L x y l : (0 <= u)%R -> (0 <= v)%R ->
  rfft_near n u rf -> irfft_near n u irf -> mulc_near v mulc -> l < L -> l < n -> length x + l <= n ->
  (Rabs (nth l (stats_xcorr_with rf mulc irf L x y) 0 - xcorr x y l) <=
   (2 * u + u ^ 2 + v * (1 + u) ^ 2 + sqrt (INR n) * u * ((1 + v) * (1 + u) ^ 2)) *
   (sqrt (energy n (smp x)) * sqrt (energy n (smp y))))%R.
Proof. exact (xcorr_near_plain n u v rf mulc irf L x y l). Qed.
Print Assumptions C99_xcorr.
Example C99_xcorr_example : let e := (1 / 1000)%R in
  (Rabs (nth 1 (stats_xcorr_with (loud_rfft 8 e) (loud_mulc e) (loud_irfft 8 e) 2 (exr 0) near_y) 0 - xcorr (exr 0) near_y 1) <=
   (2 * e + e ^ 2 + e * (1 + e) ^ 2 + sqrt (INR 8) * e * ((1 + e) * (1 + e) ^ 2)) *
   (sqrt (energy 8 (smp (exr 0))) * sqrt (energy 8 (smp near_y))))%R.
Proof.
  cbv zeta. apply C99_xcorr; try lra; try lia.
  - apply loud_rfft_near.
  - apply loud_irfft_near.
  - apply loud_mulc_near. lra.
  - simpl. lia.
Qed.

Theorem C99_acf n u v rf sq irf L x l : (0 <= u)%R -> (0 <= v)%R ->
  rfft_near n u rf -> irfft_near n u irf -> sq_near v sq -> l < L -> l < n -> length x + l <= n ->
  (Rabs (nth l (stats_acf_with rf sq irf L x) 0 - xcorr x x l) <=
   (2 * u + u ^ 2 + v * (1 + u) ^ 2 + sqrt (INR n) * u * ((1 + v) * (1 + u) ^ 2)) * energy n (smp x))%R.
Proof. exact (acf_near_plain n u v rf sq irf L x l). Qed.
Print Assumptions C99_acf.
Example C99_acf_example : let e := (1 / 1000)%R in
  (Rabs (nth 1 (stats_acf_with (loud_rfft 8 e) (loud_sq e) (loud_irfft 8 e) 2 near_y) 0 - xcorr near_y near_y 1) <=
   (2 * e + e ^ 2 + e * (1 + e) ^ 2 + sqrt (INR 8) * e * ((1 + e) * (1 + e) ^ 2)) * energy 8 (smp near_y))%R.
Proof.
  cbv zeta. apply C99_acf; try lra; try lia.
  - apply loud_rfft_near.
  - apply loud_irfft_near.
  - apply loud_sq_near. lra.
  - simpl. lia.
Qed.

(** C99: the factor for errors up to 2^-46 and FFTs up to 2^24 points. *)
Theorem C99_size n u v : (0 <= u <= / 2 ^ 46)%R -> (0 <= v <= / 2 ^ 46)%R -> (INR n <= 2 ^ 24)%R ->
  (2 * u + u ^ 2 + v * (1 + u) ^ 2 + sqrt (INR n) * u * ((1 + v) * (1 + u) ^ 2) <= / 2 ^ 33)%R.
Proof. exact (corr_error_size n u v). Qed.
Print Assumptions C99_size.
Example C99_size_example : (0 <= / 2 ^ 46 <= / 2 ^ 46)%R /\ (0 <= / 2 ^ 50 <= / 2 ^ 46)%R /\ (INR 16 <= 2 ^ 24)%R.
Proof. repeat split; simpl; lra. Qed.

(** C99: the whole program.  The load is added with an error tau, the solver leaves a residual rho, the last sum has an error gam. *)
Theorem C99_sdr_loaded b o ref est m c d x y rf mulc sq irf u v acf' sol' c' tau rho gam lam : wf ref -> wf est ->
  2 <= filter_length o <= Nat.max (a_len ref) (a_len est) -> has_chan ref c x -> has_chan est d y -> (0 <= u)%R -> (0 <= v)%R ->
  let n := n_fft (a_len ref) (a_len est) in
  rfft_near n u rf -> irfft_near n u irf -> mulc_near v mulc -> sq_near v sq ->
  let L := filter_length o in
  let ux := unit_of (pre (zero_mean o) x) in let uy := unit_of (pre (zero_mean o) y) in
  let xc' l := nth l (stats_xcorr_with rf mulc irf L ux uy) 0%R in
  (forall l, l < L -> (Rabs (acf' l - (nth l (stats_acf_with rf sq irf L ux) 0 + if Nat.eqb l 0 then loadv (load_diag o) else 0)) <= tau)%R) ->
  (forall i, i < L -> (Rabs (Rsum L (fun j => acf' (if (i <=? j)%nat then (j - i)%nat else (i - j)%nat) * sol' j) - xc' i) <= rho)%R) ->
  (Rabs (c' - Rsum L (fun l => xc' l * sol' l)) <= gam)%R ->
  use_cg_iter o = None -> sdr_coh b o ref est = Ok m -> load_diag o = Some lam -> (0 < lam)%R ->
  let e := (2 * u + u ^ 2 + v * (1 + u) ^ 2 + sqrt (INR n) * u * ((1 + v) * (1 + u) ^ 2))%R in
  let S := Rsum L (fun l => Rabs (sol' l)) in
  exists q, mat_of m c d = Fin q /\
    (Rabs (c' - q) <= gam + e * S + (e + rho + (e + tau) * S) * sqrt (INR L / lam))%R.
Proof.
  exact (fun W1 W2 HL Hx Hy Hu Hv Hr Hi Hm Hs Ha Hp Hc Hg Ho =>
    fft_sdr_loaded b o ref est m c d x y rf mulc sq irf u v W1 W2 HL Hx Hy Hu Hv Hr Hi Hm Hs acf' sol' c' tau rho gam Ha Hp Hc Hg Ho lam).
Qed.
Print Assumptions C99_sdr_loaded.

(** two taps and an inverse transform whose results are all too large by one thousandth *)
Example C99_sdr_loaded_example b : let u := (1 / 1000)%R in
  let e := (2 * u + u ^ 2 + 0 * (1 + u) ^ 2 + sqrt (INR 16) * u * ((1 + 0) * (1 + u) ^ 2))%R in
  exists m q, sdr_coh b near_opts mono_ref near_est = Ok m /\ mat_of m 0 0 = Fin q /\
  (Rabs ((9095 / 10000) - q) <= 1 / 10000 + e * (1272 / 1000) + (e + 6 / 10000 + (e + 0) * (1272 / 1000)) * sqrt (20))%R.
Proof.
  cbv zeta. destruct (near_ok b) as [m H]. exists m.
  assert (X : forall l, l < 2 -> nth l (stats_xcorr_with (rfft 16) exact_mulc (loud_irfft 16 (1 / 1000)) 2 (exr 0) near_y) 0%R = (1001 / 1000 * nth l [6 / 10; 8 / 10] 0)%R).
  { intros l Hl. rewrite loud_xcorr by (simpl; lia). destruct l as [|[|l]]; [| |lia]; unfold xcorr, smp; simpl; lra. }
  assert (A : forall l, l < 2 -> nth l (stats_acf_with (rfft 16) exact_sq (loud_irfft 16 (1 / 1000)) 2 (exr 0)) 0%R = (1001 / 1000 * nth l [1; 0] 0)%R).
  { intros l Hl. rewrite loud_acf by (simpl; lia). destruct l as [|[|l]]; [| |lia]; unfold xcorr, smp; simpl; lra. }
  destruct (C99_sdr_loaded b (near_opts) mono_ref near_est m 0 0 (exr 0) near_y (rfft 16) exact_mulc exact_sq (loud_irfft 16 (1 / 1000)) (1 / 1000) 0
    (fun l => nth l [1101 / 1000; 0]%R 0%R) (fun l => nth l [(545 / 1000); (727 / 1000)]%R 0%R) (9095 / 10000) 0 (6 / 10000) (1 / 10000) (1 / 10)
    mono_wf near_wf ltac:(simpl; lia) mono_chan near_chan ltac:(lra) ltac:(lra)
    (exact_rfft_near 16 (1 / 1000)) (loud_irfft_near 16 (1 / 1000)) exact_mulc_near exact_sq_near) as (q & E & B); auto; try (simpl; lra); try (simpl; lia).
  all: cbn [filter_length zero_mean load_diag near_opts plain_opts pre] in *; rewrite ?mono_unit, ?near_unit in *.
  - intros l Hl. rewrite A by auto. destruct l as [|[|l]]; [| |lia]; simpl; unfold Rabs; destruct Rcase_abs; lra.
  - intros i Hi. rewrite X by auto. destruct i as [|[|i]]; [| |lia]; simpl; unfold Rabs; destruct Rcase_abs; lra.
  - cbn [Rsum gsum]. rewrite !X by lia. simpl. unfold Rabs; destruct Rcase_abs; lra.
  - exists q. split; auto. split; auto. change (n_fft (a_len mono_ref) (a_len near_est)) with 16 in B. eapply Rle_trans; [exact B|]. right.
    cbn [Rsum gsum nth]. replace (INR 2) with 2%R by (simpl; lra). rewrite !(Rabs_right (545 / 1000)), !(Rabs_right (727 / 1000)) by lra.
    replace (0 + 545 / 1000 + 727 / 1000)%R with (1272 / 1000)%R by lra. replace (2 / (1 / 10))%R with 20%R by lra. reflexivity.
Qed.

(** C99: any lower bound lam of the energy of the filtered reference (plus load) per unit of energy of the filter. *)
Theorem C99_sdr b o ref est m c d x y rf mulc sq irf u v acf' sol' c' tau rho gam lam M : wf ref -> wf est ->
  2 <= filter_length o <= Nat.max (a_len ref) (a_len est) -> has_chan ref c x -> has_chan est d y -> (0 <= u)%R -> (0 <= v)%R ->
  let n := n_fft (a_len ref) (a_len est) in
  rfft_near n u rf -> irfft_near n u irf -> mulc_near v mulc -> sq_near v sq ->
  let L := filter_length o in
  let ux := unit_of (pre (zero_mean o) x) in let uy := unit_of (pre (zero_mean o) y) in
  let xc' l := nth l (stats_xcorr_with rf mulc irf L ux uy) 0%R in
  (forall l, l < L -> (Rabs (acf' l - (nth l (stats_acf_with rf sq irf L ux) 0 + if Nat.eqb l 0 then loadv (load_diag o) else 0)) <= tau)%R) ->
  (forall i, i < L -> (Rabs (Rsum L (fun j => acf' (if (i <=? j)%nat then (j - i)%nat else (i - j)%nat) * sol' j) - xc' i) <= rho)%R) ->
  (Rabs (c' - Rsum L (fun l => xc' l * sol' l)) <= gam)%R ->
  use_cg_iter o = None -> sdr_coh b o ref est = Ok m ->
  (0 <= loadv (load_diag o))%R -> a_len ref + L - 1 <= M -> a_len est <= M -> (0 < lam)%R ->
  (forall w, (lam * energy L w <= energy M (fun t => Rsum L (fun k => w k * delayed ux k t)) + loadv (load_diag o) * energy L w)%R) ->
  let e := (2 * u + u ^ 2 + v * (1 + u) ^ 2 + sqrt (INR n) * u * ((1 + v) * (1 + u) ^ 2))%R in
  let S := Rsum L (fun l => Rabs (sol' l)) in
  exists q, mat_of m c d = Fin q /\ (0 <= q <= 1)%R /\
    (Rabs (c' - q) <= gam + e * S + (e + rho + (e + tau) * S) * sqrt (INR L * q / lam))%R.
Proof.
  exact (fun W1 W2 HL Hx Hy Hu Hv Hr Hi Hm Hs Ha Hp Hc Hg Ho =>
    fft_sdr b o ref est m c d x y rf mulc sq irf u v W1 W2 HL Hx Hy Hu Hv Hr Hi Hm Hs acf' sol' c' tau rho gam Ha Hp Hc Hg Ho lam M).
Qed.
Print Assumptions C99_sdr.
(** two taps and an inverse transform whose results are all too large by one thousandth *)
Example C99_sdr_plain_example b : let u := (1 / 1000)%R in
  let e := (2 * u + u ^ 2 + 0 * (1 + u) ^ 2 + sqrt (INR 16) * u * ((1 + 0) * (1 + u) ^ 2))%R in
  exists m q, sdr_coh b (plain_opts 2) mono_ref near_est = Ok m /\ mat_of m 0 0 = Fin q /\
  (Rabs ((10009 / 10000) - q) <= 1 / 10000 + e * (14 / 10) + (e + 6 / 10000 + (e + 0) * (14 / 10)) * sqrt (2 * q))%R.
Proof.
  cbv zeta. destruct (near_plain_ok b) as [m H]. exists m.
  assert (X : forall l, l < 2 -> nth l (stats_xcorr_with (rfft 16) exact_mulc (loud_irfft 16 (1 / 1000)) 2 (exr 0) near_y) 0%R = (1001 / 1000 * nth l [6 / 10; 8 / 10] 0)%R).
  { intros l Hl. rewrite loud_xcorr by (simpl; lia). destruct l as [|[|l]]; [| |lia]; unfold xcorr, smp; simpl; lra. }
  assert (A : forall l, l < 2 -> nth l (stats_acf_with (rfft 16) exact_sq (loud_irfft 16 (1 / 1000)) 2 (exr 0)) 0%R = (1001 / 1000 * nth l [1; 0] 0)%R).
  { intros l Hl. rewrite loud_acf by (simpl; lia). destruct l as [|[|l]]; [| |lia]; unfold xcorr, smp; simpl; lra. }
  destruct (C99_sdr b ((plain_opts 2)) mono_ref near_est m 0 0 (exr 0) near_y (rfft 16) exact_mulc exact_sq (loud_irfft 16 (1 / 1000)) (1 / 1000) 0
    (fun l => nth l [1001 / 1000; 0]%R 0%R) (fun l => nth l [(6 / 10); (8 / 10)]%R 0%R) (10009 / 10000) 0 (6 / 10000) (1 / 10000) 1 6
    mono_wf near_wf ltac:(simpl; lia) mono_chan near_chan ltac:(lra) ltac:(lra)
    (exact_rfft_near 16 (1 / 1000)) (loud_irfft_near 16 (1 / 1000)) exact_mulc_near exact_sq_near) as (q & E & _ & B); auto; try (simpl; lra); try (simpl; lia).
  all: cbn [filter_length zero_mean load_diag near_opts plain_opts pre] in *; rewrite ?mono_unit, ?near_unit in *.
  - intros l Hl. rewrite A by auto. destruct l as [|[|l]]; [| |lia]; simpl; unfold Rabs; destruct Rcase_abs; lra.
  - intros i Hi. rewrite X by auto. destruct i as [|[|i]]; [| |lia]; simpl; unfold Rabs; destruct Rcase_abs; lra.
  - cbn [Rsum gsum]. rewrite !X by lia. simpl. unfold Rabs; destruct Rcase_abs; lra.
  - intros w. unfold energy, dot, delayed, smp. simpl. lra.
  - exists q. split; auto. split; auto. change (n_fft (a_len mono_ref) (a_len near_est)) with 16 in B. eapply Rle_trans; [exact B|]. right.
    cbn [Rsum gsum nth]. replace (INR 2) with 2%R by (simpl; lra). rewrite !(Rabs_right (6 / 10)), !(Rabs_right (8 / 10)) by lra.
    replace (0 + 6 / 10 + 8 / 10)%R with (14 / 10)%R by lra. replace (2 * q / 1)%R with (2 * q)%R by lra. reflexivity.
Qed.

