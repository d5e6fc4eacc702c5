(** * C101: error bounds without computed quantities *)
From Coq Require Import Reals Lra.
From Coquelicot Require Import Complex.
From Verif Require Import Prelude ExtReal Spec SpecSig Sums Fft Helpers Linalg Cgd Metrics StatsProofs PrepProofs ProjTheorems MetricTheorems Witness SigExamples
  OneRefExamples Inexact InexactExamples FftRound FftRoundProofs FftRoundExamples FftRoundSar FftRoundSarProofs FftRoundSarExamples Apriori.
Local Open Scope nat_scope.

(** C101: the computed filter is bounded, and so the error of the coherence, by the errors of the statistics, the residual of the solver and lam.
    The hypotheses are those of C85_sdr and that the errors are small against lam / filter_length. *)
Theorem C101_sdr b o ref est m c d x y M acf' xc' sol' c' delta eta rho gam lam : wf ref -> wf est ->
  use_cg_iter o = None -> (0 <= loadv (load_diag o))%R -> 2 <= filter_length o <= Nat.max (a_len ref) (a_len est) ->
  has_chan ref c x -> has_chan est d y -> a_len ref + filter_length o - 1 <= M -> a_len est <= M ->
  sdr_coh b o ref est = Ok m ->
  let L := filter_length o in
  let ux := unit_of (pre (zero_mean o) x) in let uy := unit_of (pre (zero_mean o) y) in
  (0 < lam)%R ->
  (forall v, (lam * energy L v <= energy M (fun t => Rsum L (fun k => v k * delayed ux k t)) + loadv (load_diag o) * energy L v)%R) ->
  (forall l, l < L -> (Rabs (xc' l - xcorr ux uy l) <= delta)%R) ->
  (forall l, l < L -> (Rabs (acf' l - (xcorr ux ux l + if Nat.eqb l 0 then loadv (load_diag o) else 0)) <= eta)%R) ->
  (forall i, i < L -> (Rabs (Rsum L (fun j => acf' (if (i <=? j)%nat then (j - i)%nat else (i - j)%nat) * sol' j) - xc' i) <= rho)%R) ->
  (Rabs (c' - Rsum L (fun l => xc' l * sol' l)) <= gam)%R ->
  (eta * INR L <= lam / 4)%R -> ((delta + rho) * sqrt (INR L / lam) <= 1 / 2)%R ->
  (Rsum L (fun l => Rabs (sol' l)) <= 2 * sqrt (INR L / lam))%R /\
  exists q, mat_of m c d = Fin q /\ (0 <= q <= 1)%R /\
    (Rabs (c' - q) <= gam + (3 * delta + rho) * sqrt (INR L / lam) + 2 * eta * (INR L / lam))%R.
Proof. exact (sdr_apriori b o ref est m c d x y M acf' xc' sol' c' delta eta rho gam lam). Qed.
Print Assumptions C101_sdr.
Example C101_sdr_example b : exists m q, sdr_coh b (plain_opts 2) mono_ref near_est = Ok m /\ mat_of m 0 0 = Fin q /\
  (Rabs (9998 / 10000 - q) <= 1 / 1000 * sqrt 2)%R.
Proof.
  destruct (near_plain_ok b) as [m H]. exists m.
  destruct (C101_sdr b (plain_opts 2) mono_ref near_est m 0 0 (exr 0) near_y 6 (fun l => nth l [1; 0]%R 0%R) (fun l => nth l [6 / 10; 8 / 10]%R 0%R)
    (fun l => nth l [601 / 1000; 799 / 1000]%R 0%R) (9998 / 10000) 0 0 (1 / 1000) 0 1
    mono_wf near_wf eq_refl ltac:(simpl; lra) ltac:(simpl; lia) mono_chan near_chan ltac:(simpl; lia) ltac:(simpl; lia) H ltac:(lra)) as (_ & q & E & _ & B).
  - change (pre (zero_mean (plain_opts 2)) (exr 0)) with (exr 0). rewrite mono_unit. intros v. unfold energy, dot, delayed, smp. simpl. lra.
  - change (pre (zero_mean (plain_opts 2)) (exr 0)) with (exr 0). change (pre (zero_mean (plain_opts 2)) near_y) with near_y. rewrite mono_unit, near_unit.
    intros l Hl. simpl filter_length in Hl. destruct l as [|[|l]]; [| |lia]; unfold xcorr, smp; simpl; unfold Rabs; destruct Rcase_abs; lra.
  - change (pre (zero_mean (plain_opts 2)) (exr 0)) with (exr 0). rewrite mono_unit.
    intros l Hl. simpl filter_length in Hl. destruct l as [|[|l]]; [| |lia]; unfold xcorr, smp; simpl; unfold Rabs; destruct Rcase_abs; lra.
  - intros i Hi. simpl filter_length in *. destruct i as [|[|i]]; [| |lia]; simpl; unfold Rabs; destruct Rcase_abs; lra.
  - simpl. unfold Rabs; destruct Rcase_abs; lra.
  - lra.
  - simpl filter_length. replace (INR 2 / 1)%R with 2%R by (simpl; lra). pose proof (sqrt_two_le2). lra.
  - exists q. split; auto. split; auto. eapply Rle_trans; [exact B|]. right. simpl filter_length. replace (INR 2 / 1)%R with 2%R by (simpl; lra). ring.
Qed.

(** C101: the SAR. *)
Theorem C101_sar b o ref est m sar d xs y M A' b' sol' c' delta eta rho gam lam : wf ref -> wf est ->
  use_cg_iter o = None -> load_diag o = Some lam -> (0 < lam)%R -> 2 <= filter_length o <= Nat.max (a_len ref) (a_len est) ->
  has_chans ref xs -> 0 < n_chan ref -> has_chan est d y -> a_len ref + filter_length o - 1 <= M -> a_len est <= M ->
  sq_cos b o ref est = Ok (m, sar) ->
  let K := filter_length o * n_chan ref in
  let a := all_delays (n_chan ref) (fun c => unit_of (pre (zero_mean o) (xs c))) in
  (forall i, i < K -> (Rabs (b' i - dot M (a i) (smp (unit_of (pre (zero_mean o) y)))) <= delta)%R) ->
  (forall i j, i < K -> j < K -> (Rabs (A' i j - (dot M (a i) (a j) + if Nat.eqb i j then lam else 0)) <= eta)%R) ->
  (forall i, i < K -> (Rabs (Rsum K (fun j => A' i j * sol' j) - b' i) <= rho)%R) ->
  (Rabs (c' - Rsum K (fun i => b' i * sol' i)) <= gam)%R ->
  (eta * INR K <= lam / 4)%R -> ((delta + rho) * sqrt (INR K / lam) <= 1 / 2)%R ->
  (Rsum K (fun i => Rabs (sol' i)) <= 2 * sqrt (INR K / lam))%R /\
  exists q, nth d sar NaN = Fin q /\
    (Rabs (c' - q) <= gam + (3 * delta + rho) * sqrt (INR K / lam) + 2 * eta * (INR K / lam))%R.
Proof. exact (sar_apriori b o ref est m sar d xs y M A' b' sol' c' delta eta rho gam lam). Qed.
Print Assumptions C101_sar.
Example C101_sar_example b : exists m sar q, sq_cos b near_opts mono_ref near_est = Ok (m, sar) /\ nth 0 sar NaN = Fin q /\
  (Rabs (9086 / 10000 - q) <= 5 / 10000 * sqrt 20)%R.
Proof.
  destruct (near_sar_ok b) as (m & sar & H). exists m, sar.
  destruct (C101_sar b near_opts mono_ref near_est m sar 0 (fun _ => exr 0) near_y 6 (fun i j => if Nat.eqb i j then 11 / 10 else 0)%R
    (fun l => nth l [6 / 10; 8 / 10]%R 0%R) (fun l => nth l [545 / 1000; 727 / 1000]%R 0%R) (9086 / 10000) 0 0 (5 / 10000) 0 (1 / 10)
    mono_wf near_wf eq_refl eq_refl ltac:(lra) ltac:(simpl; lia) mono_chans ltac:(cbv; lia) near_chan ltac:(simpl; lia) ltac:(simpl; lia) H) as (_ & q & E & B).
  - change (pre (zero_mean near_opts) (exr 0)) with (exr 0). change (pre (zero_mean near_opts) near_y) with near_y. rewrite mono_unit, near_unit.
    intros l Hl. change (filter_length near_opts * n_chan mono_ref) with 2 in Hl. destruct l as [|[|l]]; [| |lia]; unfold dot, all_delays, delayed, smp; simpl; unfold Rabs; destruct Rcase_abs; lra.
  - change (pre (zero_mean near_opts) (exr 0)) with (exr 0). rewrite mono_unit.
    intros i j Hi Hj. change (filter_length near_opts * n_chan mono_ref) with 2 in Hi, Hj. destruct i as [|[|i]]; [| |lia]; (destruct j as [|[|j]]; [| |lia]);
      unfold dot, all_delays, delayed, smp; simpl; unfold Rabs; destruct Rcase_abs; lra.
  - intros i Hi. change (filter_length near_opts * n_chan mono_ref) with 2 in *. destruct i as [|[|i]]; [| |lia]; simpl; unfold Rabs; destruct Rcase_abs; lra.
  - change (filter_length near_opts * n_chan mono_ref) with 2. simpl. unfold Rabs; destruct Rcase_abs; lra.
  - lra.
  - change (filter_length near_opts * n_chan mono_ref) with 2. replace (INR 2 / (1 / 10))%R with 20%R by (simpl; lra). pose proof sqrt_twenty_le5. lra.
  - exists q. split; auto. split; auto. eapply Rle_trans; [exact B|]. right. change (filter_length near_opts * n_chan mono_ref) with 2.
    replace (INR 2 / (1 / 10))%R with 20%R by (simpl; lra). ring.
Qed.

(** C101: the SDR from the errors of the transforms (C99). *)
Theorem C101_fft_sdr b o ref est m c d x y rf mulc sq irf u v acf' sol' c' tau rho gam lam : wf ref -> wf est ->
  2 <= filter_length o <= Nat.max (a_len ref) (a_len est) -> has_chan ref c x -> has_chan est d y -> (0 <= u)%R -> (0 <= v)%R ->
  let n := n_fft (a_len ref) (a_len est) in
  rfft_near n u rf -> irfft_near n u irf -> mulc_near v mulc -> sq_near v sq ->
  let L := filter_length o in
  let ux := unit_of (pre (zero_mean o) x) in let uy := unit_of (pre (zero_mean o) y) in
  let xc' l := nth l (stats_xcorr_with rf mulc irf L ux uy) 0%R in
  (forall l, l < L -> (Rabs (acf' l - (nth l (stats_acf_with rf sq irf L ux) 0 + if Nat.eqb l 0 then loadv (load_diag o) else 0)) <= tau)%R) ->
  (forall i, i < L -> (Rabs (Rsum L (fun j => acf' (if (i <=? j)%nat then (j - i)%nat else (i - j)%nat) * sol' j) - xc' i) <= rho)%R) ->
  (Rabs (c' - Rsum L (fun l => xc' l * sol' l)) <= gam)%R ->
  use_cg_iter o = None -> sdr_coh b o ref est = Ok m -> load_diag o = Some lam -> (0 < lam)%R ->
  let e := (2 * u + u ^ 2 + v * (1 + u) ^ 2 + sqrt (INR n) * u * ((1 + v) * (1 + u) ^ 2))%R in
  ((e + tau) * INR L <= lam / 4)%R -> ((e + rho) * sqrt (INR L / lam) <= 1 / 2)%R ->
  exists q, mat_of m c d = Fin q /\ (0 <= q <= 1)%R /\
    (Rabs (c' - q) <= gam + (3 * e + rho) * sqrt (INR L / lam) + 2 * (e + tau) * (INR L / lam))%R.
Proof. exact (fft_sdr_apriori b o ref est m c d x y rf mulc sq irf u v acf' sol' c' tau rho gam lam). Qed.
Print Assumptions C101_fft_sdr.
(** two taps and an inverse transform whose results are all too large by one thousandth *)
Example C101_fft_sdr_example b : let u := (1 / 1000)%R in
  let e := (2 * u + u ^ 2 + 0 * (1 + u) ^ 2 + sqrt (INR 16) * u * ((1 + 0) * (1 + u) ^ 2))%R in
  exists m q, sdr_coh b near_opts mono_ref near_est = Ok m /\ mat_of m 0 0 = Fin q /\
  (Rabs (9095 / 10000 - q) <= 1 / 10000 + (3 * e + 6 / 10000) * sqrt 20 + 2 * (e + 0) * 20)%R.
Proof.
  cbv zeta. destruct (near_ok b) as [m H]. exists m.
  assert (X : forall l, l < 2 -> nth l (stats_xcorr_with (rfft 16) exact_mulc (loud_irfft 16 (1 / 1000)) 2 (exr 0) near_y) 0%R = (1001 / 1000 * nth l [6 / 10; 8 / 10] 0)%R).
  { intros l Hl. rewrite loud_xcorr by (simpl; lia). destruct l as [|[|l]]; [| |lia]; unfold xcorr, smp; simpl; lra. }
  assert (A : forall l, l < 2 -> nth l (stats_acf_with (rfft 16) exact_sq (loud_irfft 16 (1 / 1000)) 2 (exr 0)) 0%R = (1001 / 1000 * nth l [1; 0] 0)%R).
  { intros l Hl. rewrite loud_acf by (simpl; lia). destruct l as [|[|l]]; [| |lia]; unfold xcorr, smp; simpl; lra. }
  destruct (C101_fft_sdr b (near_opts) mono_ref near_est m 0 0 (exr 0) near_y (rfft 16) exact_mulc exact_sq (loud_irfft 16 (1 / 1000)) (1 / 1000) 0
    (fun l => nth l [1101 / 1000; 0]%R 0%R) (fun l => nth l [(545 / 1000); (727 / 1000)]%R 0%R) (9095 / 10000) 0 (6 / 10000) (1 / 10000) (1 / 10)
    mono_wf near_wf ltac:(simpl; lia) mono_chan near_chan ltac:(lra) ltac:(lra)
    (exact_rfft_near 16 (1 / 1000)) (loud_irfft_near 16 (1 / 1000)) exact_mulc_near exact_sq_near) as (q & E & _ & B); auto; try (simpl; lra); try (simpl; lia).
  all: cbn [filter_length zero_mean load_diag near_opts plain_opts pre] in *; rewrite ?mono_unit, ?near_unit in *.
  - intros l Hl. rewrite A by auto. destruct l as [|[|l]]; [| |lia]; simpl; unfold Rabs; destruct Rcase_abs; lra.
  - intros i Hi. rewrite X by auto. destruct i as [|[|i]]; [| |lia]; simpl; unfold Rabs; destruct Rcase_abs; lra.
  - cbn [Rsum gsum]. rewrite !X by lia. simpl. unfold Rabs; destruct Rcase_abs; lra.
  - change (n_fft (a_len mono_ref) (a_len near_est)) with 16. rewrite sqrt_16. replace (INR 2) with 2%R by (simpl; lra). lra.
  - replace (INR 2 / (1 / 10))%R with 20%R by (simpl; lra). change (n_fft (a_len mono_ref) (a_len near_est)) with 16. rewrite sqrt_16. pose proof sqrt_twenty_le5. lra.
  - exists q. split; auto. split; auto. change (n_fft (a_len mono_ref) (a_len near_est)) with 16 in B. eapply Rle_trans; [exact B|]. right.
    replace (INR 2 / (1 / 10))%R with 20%R by (simpl; lra). reflexivity.
Qed.

(** C101: the SAR from the errors of the transforms (C100). *)
Theorem C101_fft_sar b o ref est m sar d xs y rf mulc mul2 irf u v B A' sol' c' tau rho gam lam : wf ref -> wf est ->
  2 <= filter_length o <= Nat.max (a_len ref) (a_len est) -> has_chans ref xs -> 0 < n_chan ref -> has_chan est d y -> (0 <= u)%R -> (0 <= v)%R ->
  let n := n_fft (a_len ref) (a_len est) in
  rfft_near n u rf -> irfft_near n u irf -> mulc_near v mulc -> mul2_near v mul2 ->
  let L := filter_length o in let k := n_chan ref in let K := L * k in
  let ux c := unit_of (pre (zero_mean o) (xs c)) in let uy := unit_of (pre (zero_mean o) y) in
  block_toeplitz b (2 * L) k k (block_acf_with rf mul2 irf L (load_diag o) ux) = Ok B ->
  let b' p := nth p (flatten k L (fun c => stats_xcorr_with rf mulc irf L (ux c) uy)) 0%R in
  (forall p q, p < K -> q < K -> (Rabs (A' p q - B p q) <= tau)%R) ->
  (forall i, i < K -> (Rabs (Rsum K (fun j => A' i j * sol' j) - b' i) <= rho)%R) ->
  (Rabs (c' - Rsum K (fun i => b' i * sol' i)) <= gam)%R ->
  use_cg_iter o = None -> sq_cos b o ref est = Ok (m, sar) -> load_diag o = Some lam -> (0 < lam)%R ->
  let e := (2 * u + u ^ 2 + v * (1 + u) ^ 2 + sqrt (INR n) * u * ((1 + v) * (1 + u) ^ 2))%R in
  ((e + tau) * INR K <= lam / 4)%R -> ((e + rho) * sqrt (INR K / lam) <= 1 / 2)%R ->
  exists q, nth d sar NaN = Fin q /\
    (Rabs (c' - q) <= gam + (3 * e + rho) * sqrt (INR K / lam) + 2 * (e + tau) * (INR K / lam))%R.
Proof. exact (fft_sar_apriori b o ref est m sar d xs y rf mulc mul2 irf u v B A' sol' c' tau rho gam lam). Qed.
Print Assumptions C101_fft_sar.
Example C101_fft_sar_example b : let u := (1 / 1000)%R in
  let e := (2 * u + u ^ 2 + 0 * (1 + u) ^ 2 + sqrt (INR 16) * u * ((1 + 0) * (1 + u) ^ 2))%R in
  exists m sar q, sq_cos b near_opts mono_ref near_est = Ok (m, sar) /\ nth 0 sar NaN = Fin q /\
  (Rabs (9095 / 10000 - q) <= 1 / 10000 + (3 * e + 6 / 10000) * sqrt 20 + 2 * (e + 0) * 20)%R.
Proof.
  cbv zeta. destruct (near_sar_ok b) as (m & sar & H). exists m, sar.
  assert (X : forall l, l < 2 -> nth l (flatten 1 2 (fun _ => stats_xcorr_with (rfft 16) exact_mulc (loud_irfft 16 (1 / 1000)) 2 (exr 0) near_y)) 0%R = (1001 / 1000 * nth l [6 / 10; 8 / 10] 0)%R).
  { intros l Hl. replace l with (l * 1 + 0) at 1 by lia. rewrite nth_flatten by lia.
    rewrite loud_xcorr by (simpl; lia). destruct l as [|[|l]]; [| |lia]; unfold xcorr, smp; simpl; lra. }
  destruct (loud_system b) as (B & EB & HB).
  destruct (C101_fft_sar b near_opts mono_ref near_est m sar 0 (fun _ => exr 0) near_y (rfft 16) exact_mulc exact_mul2 (loud_irfft 16 (1 / 1000)) (1 / 1000) 0
    B (fun i j => if Nat.eqb i j then 1101 / 1000 else 0)%R (fun l => nth l [545 / 1000; 727 / 1000]%R 0%R) (9095 / 10000) 0 (6 / 10000) (1 / 10000) (1 / 10)
    mono_wf near_wf ltac:(simpl; lia) mono_chans ltac:(cbv; lia) near_chan ltac:(lra) ltac:(lra)
    (exact_rfft_near 16 (1 / 1000)) (loud_irfft_near 16 (1 / 1000)) exact_mulc_near exact_mul2_near) as (q & E & Q); auto; try (simpl; lra).
  all: change (n_chan mono_ref) with 1 in *; cbn [filter_length zero_mean load_diag near_opts pre] in *; rewrite ?mono_unit, ?near_unit in *;
    change (2 * 1) with 2 in *.
  - exact EB.
  - intros i j Hi Hj. rewrite HB by auto. rewrite Rminus_diag_eq by reflexivity. rewrite Rabs_R0. lra.
  - intros i Hi. rewrite X by auto. destruct i as [|[|i]]; [| |lia]; simpl; unfold Rabs; destruct Rcase_abs; lra.
  - cbn [Rsum gsum]. rewrite !X by lia. simpl. unfold Rabs; destruct Rcase_abs; lra.
  - change (n_fft (a_len mono_ref) (a_len near_est)) with 16. rewrite sqrt_16. replace (INR 2) with 2%R by (simpl; lra). lra.
  - replace (INR 2 / (1 / 10))%R with 20%R by (simpl; lra). change (n_fft (a_len mono_ref) (a_len near_est)) with 16. rewrite sqrt_16. pose proof sqrt_twenty_le5. lra.
  - exists q. split; auto. split; auto. change (n_fft (a_len mono_ref) (a_len near_est)) with 16 in Q. eapply Rle_trans; [exact Q|]. right.
    replace (INR 2 / (1 / 10))%R with 20%R by (simpl; lra). reflexivity.
Qed.

(** C101: the clamped SDR in decibels. *)
Theorem C101_decibels b o ref est m c d x y rf mulc sq irf u v acf' sol' c' tau rho gam lam D : wf ref -> wf est ->
  2 <= filter_length o <= Nat.max (a_len ref) (a_len est) -> has_chan ref c x -> has_chan est d y -> (0 <= u)%R -> (0 <= v)%R ->
  let n := n_fft (a_len ref) (a_len est) in
  rfft_near n u rf -> irfft_near n u irf -> mulc_near v mulc -> sq_near v sq ->
  let L := filter_length o in
  let ux := unit_of (pre (zero_mean o) x) in let uy := unit_of (pre (zero_mean o) y) in
  let xc' l := nth l (stats_xcorr_with rf mulc irf L ux uy) 0%R in
  (forall l, l < L -> (Rabs (acf' l - (nth l (stats_acf_with rf sq irf L ux) 0 + if Nat.eqb l 0 then loadv (load_diag o) else 0)) <= tau)%R) ->
  (forall i, i < L -> (Rabs (Rsum L (fun j => acf' (if (i <=? j)%nat then (j - i)%nat else (i - j)%nat) * sol' j) - xc' i) <= rho)%R) ->
  (Rabs (c' - Rsum L (fun l => xc' l * sol' l)) <= gam)%R ->
  use_cg_iter o = None -> sdr_coh b o ref est = Ok m -> load_diag o = Some lam -> (0 < lam)%R ->
  let e := (2 * u + u ^ 2 + v * (1 + u) ^ 2 + sqrt (INR n) * u * ((1 + v) * (1 + u) ^ 2))%R in
  ((e + tau) * INR L <= lam / 4)%R -> ((e + rho) * sqrt (INR L / lam) <= 1 / 2)%R ->
  clamp_db o = Some D -> (0 <= D)%R ->
  let eps := (Rpower 10 (- D / 10) / (1 + Rpower 10 (- D / 10)))%R in
  exists loss p p', pairwise_sdr_loss b o est ref = Ok loss /\ mat_of loss c d = Fin p /\
    coherence_to_neg_sdr (Some D) (Fin c') = Fin p' /\
    (Rabs (p' - p) <= 10 / (ln 10 * (eps * (1 - eps))) * (gam + (3 * e + rho) * sqrt (INR L / lam) + 2 * (e + tau) * (INR L / lam)))%R.
Proof. exact (fft_sdr_decibels b o ref est m c d x y rf mulc sq irf u v acf' sol' c' tau rho gam lam D). Qed.
Print Assumptions C101_decibels.
Example C101_decibels_example b : let u := (1 / 1000)%R in
  let e := (2 * u + u ^ 2 + 0 * (1 + u) ^ 2 + sqrt (INR 16) * u * ((1 + 0) * (1 + u) ^ 2))%R in
  let eps := (Rpower 10 (- 30 / 10) / (1 + Rpower 10 (- 30 / 10)))%R in
  exists loss p p', pairwise_sdr_loss b near_opts near_est mono_ref = Ok loss /\ mat_of loss 0 0 = Fin p /\
  coherence_to_neg_sdr (Some 30%R) (Fin (9095 / 10000)) = Fin p' /\
  (Rabs (p' - p) <= 10 / (ln 10 * (eps * (1 - eps))) * (1 / 10000 + (3 * e + 6 / 10000) * sqrt 20 + 2 * (e + 0) * 20))%R.
Proof.
  cbv zeta. destruct (near_ok b) as [m H].
  assert (X : forall l, l < 2 -> nth l (stats_xcorr_with (rfft 16) exact_mulc (loud_irfft 16 (1 / 1000)) 2 (exr 0) near_y) 0%R = (1001 / 1000 * nth l [6 / 10; 8 / 10] 0)%R).
  { intros l Hl. rewrite loud_xcorr by (simpl; lia). destruct l as [|[|l]]; [| |lia]; unfold xcorr, smp; simpl; lra. }
  assert (A : forall l, l < 2 -> nth l (stats_acf_with (rfft 16) exact_sq (loud_irfft 16 (1 / 1000)) 2 (exr 0)) 0%R = (1001 / 1000 * nth l [1; 0] 0)%R).
  { intros l Hl. rewrite loud_acf by (simpl; lia). destruct l as [|[|l]]; [| |lia]; unfold xcorr, smp; simpl; lra. }
  destruct (C101_decibels b (near_opts) mono_ref near_est m 0 0 (exr 0) near_y (rfft 16) exact_mulc exact_sq (loud_irfft 16 (1 / 1000)) (1 / 1000) 0
    (fun l => nth l [1101 / 1000; 0]%R 0%R) (fun l => nth l [(545 / 1000); (727 / 1000)]%R 0%R) (9095 / 10000) 0 (6 / 10000) (1 / 10000) (1 / 10) 30
    mono_wf near_wf ltac:(simpl; lia) mono_chan near_chan ltac:(lra) ltac:(lra)
    (exact_rfft_near 16 (1 / 1000)) (loud_irfft_near 16 (1 / 1000)) exact_mulc_near exact_sq_near) as (loss & p & p' & E1 & E2 & E3 & B); auto; try (simpl; lra); try (simpl; lia).
  all: cbn [filter_length zero_mean load_diag near_opts plain_opts pre] in *; rewrite ?mono_unit, ?near_unit in *.
  - intros l Hl. rewrite A by auto. destruct l as [|[|l]]; [| |lia]; simpl; unfold Rabs; destruct Rcase_abs; lra.
  - intros i Hi. rewrite X by auto. destruct i as [|[|i]]; [| |lia]; simpl; unfold Rabs; destruct Rcase_abs; lra.
  - cbn [Rsum gsum]. rewrite !X by lia. simpl. unfold Rabs; destruct Rcase_abs; lra.
  - change (n_fft (a_len mono_ref) (a_len near_est)) with 16. rewrite sqrt_16. replace (INR 2) with 2%R by (simpl; lra). lra.
  - replace (INR 2 / (1 / 10))%R with 20%R by (simpl; lra). change (n_fft (a_len mono_ref) (a_len near_est)) with 16. rewrite sqrt_16. pose proof sqrt_twenty_le5. lra.
  - exists loss, p, p'. split; auto. split; auto. split; auto. change (n_fft (a_len mono_ref) (a_len near_est)) with 16 in B.
    replace (INR 2 / (1 / 10))%R with 20%R in B by (simpl; lra). exact B.
Qed.
