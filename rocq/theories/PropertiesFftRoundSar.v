(** * C100: from the error of the Fourier transforms to the error of the SAR *)
From Coq Require Import Reals Lra.
From Coquelicot Require Import Complex.
From Verif Require Import Prelude ExtReal Spec SpecSig Sums Fft Helpers Linalg Cgd Metrics StatsProofs PrepProofs ProjTheorems MetricTheorems Witness SigExamples
  OneRefExamples Inexact InexactExamples FftRound FftRoundProofs FftRoundExamples FftRoundSar FftRoundSarProofs FftRoundSarExamples.
Local Open Scope nat_scope.

(** C100: both ends of the correlations of two references, transforms with a relative error u in the 2-norm and products with a relative error v. *)
Theorem C100_acf n u v rf mul2 irf L x1 x2 l : (0 <= u)%R -> (0 <= v)%R ->
  rfft_near n u rf -> irfft_near n u irf -> mul2_near v mul2 -> l < L -> L <= n ->
  length x1 + l <= n -> length x2 + l <= n ->
  let e := ((2 * u + u ^ 2 + v * (1 + u) ^ 2 + sqrt (INR n) * u * ((1 + v) * (1 + u) ^ 2)) *
    (sqrt (energy n (smp x2)) * sqrt (energy n (smp x1))))%R in
  (Rabs (nth l (stats2_acf_with rf mul2 irf L x1 x2) 0 - xcorr x2 x1 l) <= e)%R /\
  (0 < l -> (Rabs (nth (2 * L - l) (stats2_acf_with rf mul2 irf L x1 x2) 0 - xcorr x1 x2 l) <= e)%R).
Proof. exact (acf2_near_plain n u v rf mul2 irf L x1 x2 l). Qed.
Print Assumptions C100_acf.
Example C100_acf_example : let e := (1 / 1000)%R in
  (Rabs (nth 3 (stats2_acf_with (loud_rfft 16 e) (loud_mul2 e) (loud_irfft 16 e) 2 (exr 0) near_y) 0 - xcorr (exr 0) near_y 1) <=
   (2 * e + e ^ 2 + e * (1 + e) ^ 2 + sqrt (INR 16) * e * ((1 + e) * (1 + e) ^ 2)) *
   (sqrt (energy 16 (smp near_y)) * sqrt (energy 16 (smp (exr 0)))))%R.
Proof.
  cbv zeta. apply (C100_acf 16 (1 / 1000) (1 / 1000) _ _ _ 2 (exr 0) near_y 1); try lra; try (simpl; lia).
  - apply loud_rfft_near.
  - apply loud_irfft_near.
  - apply loud_mul2_near. lra.
Qed.

(** C100: the matrix that block_toeplitz makes of them against the inner products of the delayed references. *)
Theorem C100_system b o ref est d xs y rf mul2 irf u v B p q M : wf ref -> wf est ->
  2 <= filter_length o <= Nat.max (a_len ref) (a_len est) -> has_chans ref xs -> 0 < n_chan ref -> has_chan est d y -> (0 <= u)%R -> (0 <= v)%R ->
  let n := n_fft (a_len ref) (a_len est) in
  rfft_near n u rf -> irfft_near n u irf -> mul2_near v mul2 ->
  let L := filter_length o in let k := n_chan ref in
  let ux c := unit_of (pre (zero_mean o) (xs c)) in
  block_toeplitz b (2 * L) k k (block_acf_with rf mul2 irf L (load_diag o) ux) = Ok B ->
  p < L * k -> q < L * k -> a_len ref + L - 1 <= M ->
  (Rabs (B p q - (dot M (all_delays k ux p) (all_delays k ux q) + if Nat.eqb p q then loadv (load_diag o) else 0)) <=
   2 * u + u ^ 2 + v * (1 + u) ^ 2 + sqrt (INR n) * u * ((1 + v) * (1 + u) ^ 2))%R.
Proof.
  exact (fun W1 W2 HL Hx H0 Hy Hu Hv Hr Hi Hm => sar_mat_near b o ref est d xs y rf mul2 irf u v W1 W2 HL Hx H0 Hy Hu Hv Hr Hi Hm B p q M).
Qed.
Print Assumptions C100_system.

Example C100_system_example b : let u := (1 / 1000)%R in exists B, block_toeplitz b 4 1 1 loud_blocks = Ok B /\
  (Rabs (B 0%nat 1%nat - (dot 6 (all_delays 1 (fun _ => exr 0) 0) (all_delays 1 (fun _ => exr 0) 1) + 0)) <=
   2 * u + u ^ 2 + 0 * (1 + u) ^ 2 + sqrt (INR 16) * u * ((1 + 0) * (1 + u) ^ 2))%R.
Proof.
  cbv zeta. destruct (loud_system b) as (B & EB & _). exists B. split; auto.
  pose proof (C100_system b near_opts mono_ref near_est 0 (fun _ => exr 0) near_y (rfft 16) exact_mul2 (loud_irfft 16 (1 / 1000)) (1 / 1000) 0 B 0 1 6
    mono_wf near_wf ltac:(simpl; lia) mono_chans ltac:(cbv; lia) near_chan ltac:(lra) ltac:(lra)
    (exact_rfft_near 16 (1 / 1000)) (loud_irfft_near 16 (1 / 1000)) exact_mul2_near) as Q.
  cbv zeta in Q. change (n_chan mono_ref) with 1 in Q. cbn [filter_length zero_mean load_diag near_opts pre] in Q. rewrite mono_unit in Q.
  exact (Q EB ltac:(lia) ltac:(lia) ltac:(simpl; lia)).
Qed.

(** C100: the SAR.  The entries of the system are rounded again with errors up to tau, the solver leaves a residual rho, the last sum has an error gam. *)
Theorem C100_sar_loaded b o ref est m sar d xs y rf mulc mul2 irf u v B A' sol' c' tau rho gam lam : wf ref -> wf est ->
  2 <= filter_length o <= Nat.max (a_len ref) (a_len est) -> has_chans ref xs -> 0 < n_chan ref -> has_chan est d y -> (0 <= u)%R -> (0 <= v)%R ->
  let n := n_fft (a_len ref) (a_len est) in
  rfft_near n u rf -> irfft_near n u irf -> mulc_near v mulc -> mul2_near v mul2 ->
  let L := filter_length o in let k := n_chan ref in let K := L * k in
  let ux c := unit_of (pre (zero_mean o) (xs c)) in let uy := unit_of (pre (zero_mean o) y) in
  block_toeplitz b (2 * L) k k (block_acf_with rf mul2 irf L (load_diag o) ux) = Ok B ->
  let b' p := nth p (flatten k L (fun c => stats_xcorr_with rf mulc irf L (ux c) uy)) 0%R in
  (forall p q, p < K -> q < K -> (Rabs (A' p q - B p q) <= tau)%R) ->
  (forall i, i < K -> (Rabs (Rsum K (fun j => A' i j * sol' j) - b' i) <= rho)%R) ->
  (Rabs (c' - Rsum K (fun i => b' i * sol' i)) <= gam)%R ->
  use_cg_iter o = None -> sq_cos b o ref est = Ok (m, sar) -> load_diag o = Some lam -> (0 < lam)%R ->
  let e := (2 * u + u ^ 2 + v * (1 + u) ^ 2 + sqrt (INR n) * u * ((1 + v) * (1 + u) ^ 2))%R in
  let S := Rsum K (fun i => Rabs (sol' i)) in
  exists q, nth d sar NaN = Fin q /\
    (Rabs (c' - q) <= gam + e * S + (e + rho + (e + tau) * S) * sqrt (INR K / lam))%R.
Proof.
  exact (fun W1 W2 HL Hx H0 Hy Hu Hv Hr Hi Hm Hs =>
    fft_sar_loaded b o ref est m sar d xs y rf mulc mul2 irf u v W1 W2 HL Hx H0 Hy Hu Hv Hr Hi Hm Hs B A' sol' c' tau rho gam lam).
Qed.
Print Assumptions C100_sar_loaded.
(** two taps and an inverse transform whose results are all too large by one thousandth *)
Example C100_sar_example b : let u := (1 / 1000)%R in
  let e := (2 * u + u ^ 2 + 0 * (1 + u) ^ 2 + sqrt (INR 16) * u * ((1 + 0) * (1 + u) ^ 2))%R in
  exists m sar q, sq_cos b near_opts mono_ref near_est = Ok (m, sar) /\ nth 0 sar NaN = Fin q /\
  (Rabs (9095 / 10000 - q) <= 1 / 10000 + e * (1272 / 1000) + (e + 6 / 10000 + (e + 0) * (1272 / 1000)) * sqrt 20)%R.
Proof.
  cbv zeta. destruct (near_sar_ok b) as (m & sar & H). exists m, sar.
  assert (X : forall l, l < 2 -> nth l (flatten 1 2 (fun _ => stats_xcorr_with (rfft 16) exact_mulc (loud_irfft 16 (1 / 1000)) 2 (exr 0) near_y)) 0%R = (1001 / 1000 * nth l [6 / 10; 8 / 10] 0)%R).
  { intros l Hl. replace l with (l * 1 + 0) at 1 by lia. rewrite nth_flatten by lia.
    rewrite loud_xcorr by (simpl; lia). destruct l as [|[|l]]; [| |lia]; unfold xcorr, smp; simpl; lra. }
  destruct (loud_system b) as (B & EB & HB).
  destruct (C100_sar_loaded b near_opts mono_ref near_est m sar 0 (fun _ => exr 0) near_y (rfft 16) exact_mulc exact_mul2 (loud_irfft 16 (1 / 1000)) (1 / 1000) 0
    B (fun i j => if Nat.eqb i j then 1101 / 1000 else 0)%R (fun l => nth l [545 / 1000; 727 / 1000]%R 0%R) (9095 / 10000) 0 (6 / 10000) (1 / 10000) (1 / 10)
    mono_wf near_wf ltac:(simpl; lia) mono_chans ltac:(cbv; lia) near_chan ltac:(lra) ltac:(lra)
    (exact_rfft_near 16 (1 / 1000)) (loud_irfft_near 16 (1 / 1000)) exact_mulc_near exact_mul2_near) as (q & E & Q); auto; try (simpl; lra).
  all: change (n_chan mono_ref) with 1 in *; cbn [filter_length zero_mean load_diag near_opts pre] in *; rewrite ?mono_unit, ?near_unit in *;
    change (2 * 1) with 2 in *.
  - exact EB.
  - intros i j Hi Hj. rewrite HB by auto. rewrite Rminus_diag_eq by reflexivity. rewrite Rabs_R0. lra.
  - intros i Hi. rewrite X by auto. destruct i as [|[|i]]; [| |lia]; simpl; unfold Rabs; destruct Rcase_abs; lra.
  - cbn [Rsum gsum]. rewrite !X by lia. simpl. unfold Rabs; destruct Rcase_abs; lra.
  - exists q. split; auto. split; auto. change (n_fft (a_len mono_ref) (a_len near_est)) with 16 in Q. eapply Rle_trans; [exact Q|]. right.
    cbn [Rsum gsum nth]. replace (INR 2) with 2%R by (simpl; lra). rewrite !(Rabs_right (545 / 1000)), !(Rabs_right (727 / 1000)) by lra.
    replace (0 + 545 / 1000 + 727 / 1000)%R with (1272 / 1000)%R by lra. replace (2 / (1 / 10))%R with 20%R by lra. reflexivity.
Qed.
