(** * The computed filter is bounded: error bounds without computed quantities *)
From Coq Require Import Reals Lra Psatz.
From Coquelicot Require Import Complex.
From Verif Require Import Prelude ExtReal SpecSig Sums Fft Helpers Linalg LinalgProofs Cgd Metrics StatsProofs LeastSq
  PrepProofs MetricsProofs SarProofs ProjTheorems MetricTheorems Sensitivity Perturb Inexact FftRound FftRoundProofs FftRoundSar FftRoundSarProofs.
Local Open Scope nat_scope.

Lemma taps_bound K M a load y A' b' g delta eta rho lam : (0 <= load)%R -> (energy M y <= 1)%R -> (0 < lam)%R ->
  (forall v, (lam * sq K v <= energy M (comb K a v) + load * sq K v)%R) ->
  (forall i, i < K -> (Rabs (b' i - dot M (a i) y) <= delta)%R) ->
  (forall i j, i < K -> j < K -> (Rabs (A' i j - gram M a load i j) <= eta)%R) ->
  (forall i, i < K -> (Rabs (Rsum K (fun j => A' i j * g j) - b' i) <= rho)%R) ->
  (0 <= delta)%R -> (0 <= eta)%R -> (0 <= rho)%R ->
  (eta * INR K <= lam / 4)%R -> ((delta + rho) * sqrt (INR K / lam) <= 1 / 2)%R ->
  (Rsum K (fun i => Rabs (g i)) <= 2 * sqrt (INR K / lam))%R.
Proof.
  intros Hld Hy Hlam Hco Hb HA Hr Pd Pe Pr C1 C2. set (S := Rsum K (fun i => Rabs (g i))).
  assert (PS : (0 <= S)%R) by (apply Rsum_nonneg; intros; apply Rabs_pos).
  set (F := energy M (comb K a g)). set (Q := (F + load * sq K g)%R).
  assert (PF : (0 <= F)%R) by apply energy_nonneg.
  assert (Psq : (0 <= sq K g)%R) by (apply Rsum_nonneg; intros; apply Rle_0_sqr).
  assert (PQ : (F <= Q)%R) by (unfold Q; pose proof (Rmult_le_pos _ _ Hld Psq); lra).
  set (w := sqrt Q). assert (Pw : (0 <= w)%R) by apply sqrt_pos. assert (Ew : (w * w = Q)%R) by (apply sqrt_sqrt; lra).
  set (r := sqrt (INR K / lam)). assert (Pr0 : (0 <= r)%R) by apply sqrt_pos.
  assert (PK : (0 <= INR K / lam)%R) by (apply Rmult_le_pos; [apply pos_INR|left; apply Rinv_0_lt_compat; auto]).
  assert (Er : (r * r = INR K / lam)%R) by (apply sqrt_sqrt; auto).
  assert (HS : (S <= r * w)%R).
  { eapply Rle_trans; [apply norm1_le|]. unfold r, w. rewrite <- sqrt_mult by lra. apply sqrt_le_1_alt. unfold Rdiv. rewrite Rmult_assoc.
    apply Rmult_le_compat_l; [apply pos_INR|]. apply Rmult_le_reg_l with lam; auto. rewrite <- Rmult_assoc, Rinv_r, Rmult_1_l by lra.
    exact (Hco g). }
  assert (HD : (dot M (comb K a g) y <= w)%R).
  { eapply Rle_trans; [apply Rle_abs|]. rewrite <- (Rabs_right w) by lra. apply Rsqr_le_abs_0. unfold Rsqr.
    pose proof (cauchy M (comb K a g) y) as C. fold F in C. pose proof (energy_nonneg M y). nra. }
  assert (E : (Q - dot M (comb K a g) y = Rsum K (fun i => g i * (Rmv K (gram M a load) g i - dot M (a i) y)))%R).
  { rewrite (Rsum_ext K _ (fun i => g i * Rmv K (gram M a load) g i - g i * dot M (a i) y)%R) by (intros; ring).
    rewrite Rsum_minus, <- dot_comb_l. rewrite gram_form. reflexivity. }
  assert (U : (Q - dot M (comb K a g) y <= (eta * S + rho + delta) * S)%R).
  { rewrite E. eapply Rle_trans; [apply Rle_abs|]. unfold S at 2. rewrite <- Rsum_scal_l. apply Rsum_abs_le. intros i Hi.
    rewrite Rabs_mult, Rmult_comm. apply Rmult_le_compat_r; [apply Rabs_pos|]. unfold mulmv.
    replace (Rsum K (fun j => gram M a load i j * g j) - dot M (a i) y)%R
      with (Rsum K (fun j => (gram M a load i j - A' i j) * g j) + (Rsum K (fun j => A' i j * g j) - b' i) + (b' i - dot M (a i) y))%R.
    2:{ rewrite (Rsum_ext K (fun j => (gram M a load i j - A' i j) * g j)%R (fun j => gram M a load i j * g j - A' i j * g j)%R) by (intros; ring).
        rewrite Rsum_minus. ring. }
    eapply Rle_trans; [apply Rabs_triang|]. apply Rplus_le_compat; auto.
    eapply Rle_trans; [apply Rabs_triang|]. apply Rplus_le_compat; auto.
    unfold S. rewrite <- Rsum_scal_l. apply Rsum_abs_le. intros j Hj. rewrite Rabs_mult.
    apply Rmult_le_compat_r; [apply Rabs_pos|]. rewrite Rabs_minus_sym. auto. }
  assert (C1' : (eta * (r * r) <= 1 / 4)%R).
  { rewrite Er. apply Rmult_le_reg_r with lam; auto. replace (eta * (INR K / lam) * lam)%R with (eta * INR K)%R by (field; lra). lra. }
  fold r in C2.
  assert (T1 : (eta * (S * S) <= 1 / 4 * (w * w))%R).
  { apply Rle_trans with (eta * ((r * w) * (r * w)))%R.
    - apply Rmult_le_compat_l; auto. apply Rmult_le_compat; auto.
    - replace (eta * (r * w * (r * w)))%R with (eta * (r * r) * (w * w))%R by ring. apply Rmult_le_compat_r; auto. apply Rmult_le_pos; auto. }
  assert (T2 : ((rho + delta) * S <= 1 / 2 * w)%R).
  { apply Rle_trans with ((rho + delta) * (r * w))%R; [apply Rmult_le_compat_l; auto; lra|].
    replace ((rho + delta) * (r * w))%R with ((delta + rho) * r * w)%R by ring. apply Rmult_le_compat_r; auto. }
  assert (T3 : (w * w - w <= 1 / 4 * (w * w) + 1 / 2 * w)%R).
  { rewrite Ew. rewrite Ew in T1. assert ((eta * S + rho + delta) * S = eta * (S * S) + (rho + delta) * S)%R by ring. lra. }
  assert (W2 : (w <= 2)%R) by nra.
  eapply Rle_trans; [exact HS|]. rewrite (Rmult_comm 2). apply Rmult_le_compat_l; auto.
Qed.

(** the error with the bound on the taps *)
Lemma apriori_value gam delta eta rho S r lam K : (0 <= delta)%R -> (0 <= eta)%R -> (0 <= rho)%R -> (0 < lam)%R -> r = sqrt (INR K / lam) ->
  (S <= 2 * r)%R ->
  (gam + delta * S + (delta + rho + eta * S) * r <= gam + (3 * delta + rho) * r + 2 * eta * (INR K / lam))%R.
Proof.
  intros Pd Pe Pr Hlam -> HS. set (r := sqrt (INR K / lam)) in *. assert (Pr0 : (0 <= r)%R) by apply sqrt_pos.
  assert (PK : (0 <= INR K / lam)%R) by (apply Rmult_le_pos; [apply pos_INR|left; apply Rinv_0_lt_compat; auto]).
  assert (Er : (r * r = INR K / lam)%R) by (apply sqrt_sqrt; auto). rewrite <- Er.
  pose proof (Rmult_le_compat_l _ _ _ Pd HS) as A. pose proof (Rmult_le_compat_l _ _ _ (Rmult_le_pos _ _ Pe Pr0) HS) as B. nra.
Qed.

Theorem sdr_apriori b o ref est m c d x y M acf' xc' sol' c' delta eta rho gam lam : wf ref -> wf est ->
  use_cg_iter o = None -> (0 <= loadv (load_diag o))%R -> 2 <= filter_length o <= Nat.max (a_len ref) (a_len est) ->
  has_chan ref c x -> has_chan est d y -> a_len ref + filter_length o - 1 <= M -> a_len est <= M ->
  sdr_coh b o ref est = Ok m ->
  let L := filter_length o in
  let ux := unit_of (pre (zero_mean o) x) in let uy := unit_of (pre (zero_mean o) y) in
  (0 < lam)%R ->
  (forall v, (lam * energy L v <= energy M (fun t => Rsum L (fun k => v k * delayed ux k t)) + loadv (load_diag o) * energy L v)%R) ->
  (forall l, l < L -> (Rabs (xc' l - xcorr ux uy l) <= delta)%R) ->
  (forall l, l < L -> (Rabs (acf' l - (xcorr ux ux l + if Nat.eqb l 0 then loadv (load_diag o) else 0)) <= eta)%R) ->
  (forall i, i < L -> (Rabs (Rsum L (fun j => acf' (if (i <=? j)%nat then (j - i)%nat else (i - j)%nat) * sol' j) - xc' i) <= rho)%R) ->
  (Rabs (c' - Rsum L (fun l => xc' l * sol' l)) <= gam)%R ->
  (eta * INR L <= lam / 4)%R -> ((delta + rho) * sqrt (INR L / lam) <= 1 / 2)%R ->
  (Rsum L (fun l => Rabs (sol' l)) <= 2 * sqrt (INR L / lam))%R /\
  exists q, mat_of m c d = Fin q /\ (0 <= q <= 1)%R /\
    (Rabs (c' - q) <= gam + (3 * delta + rho) * sqrt (INR L / lam) + 2 * eta * (INR L / lam))%R.
Proof.
  intros Hwr Hwe Hcg Hld HL Hx Hy HM1 HM2 H L ux uy Hlam Hco Hxc Hacf Hr Hc C1 C2.
  destruct (has_chan_pchan (zero_mean o) ref c x Hwr Hx) as [_ Lx].
  destruct (has_chan_pchan (zero_mean o) est d y Hwe Hy) as [_ Ly].
  assert (Lux : length ux = a_len ref) by (unfold ux; rewrite length_unit_of, length_pre; auto).
  assert (P : forall f e, (Rabs f <= e)%R -> (0 <= e)%R) by (intros f e He; pose proof (Rabs_pos f); lra).
  pose proof (P _ _ (Hxc 0 ltac:(unfold L; lia))) as Pd. pose proof (P _ _ (Hacf 0 ltac:(unfold L; lia))) as Pe.
  pose proof (P _ _ (Hr 0 ltac:(unfold L; lia))) as Pr.
  pose proof (energy_unit_le1 M (pre (zero_mean o) y) ltac:(rewrite length_pre; lia)) as B1. fold uy in B1.
  assert (HS : (Rsum L (fun l => Rabs (sol' l)) <= 2 * sqrt (INR L / lam))%R).
  { apply (taps_bound L M (delays ux) (loadv (load_diag o)) (smp uy) (fun i j => acf' (lag i j)) xc' sol' delta eta rho lam); auto.
    - intros i Hi. unfold delays. rewrite dot_delayed by (unfold L in Hi; lia). auto.
    - intros i j Hi Hj. rewrite (gram_lags L) by (auto; unfold L in *; lia). apply Hacf. unfold lag. destruct (i <=? j); lia. }
  split; auto.
  destruct (sdr_inexact b o ref est m c d x y M acf' xc' sol' c' delta eta rho gam lam) as (q & Eq & B & HB); auto.
  exists q. split; auto. split; auto. fold L in HB. set (S := Rsum L (fun l => Rabs (sol' l))) in *.
  assert (PS : (0 <= S)%R) by (apply Rsum_nonneg; intros; apply Rabs_pos).
  eapply Rle_trans; [exact HB|]. eapply Rle_trans; [apply bound_one; [auto|lra|pose proof (Rmult_le_pos eta S Pe PS); lra]|].
  apply apriori_value; auto.
Qed.

Theorem sar_apriori b o ref est m sar d xs y M A' b' sol' c' delta eta rho gam lam : wf ref -> wf est ->
  use_cg_iter o = None -> load_diag o = Some lam -> (0 < lam)%R -> 2 <= filter_length o <= Nat.max (a_len ref) (a_len est) ->
  has_chans ref xs -> 0 < n_chan ref -> has_chan est d y -> a_len ref + filter_length o - 1 <= M -> a_len est <= M ->
  sq_cos b o ref est = Ok (m, sar) ->
  let K := filter_length o * n_chan ref in
  let a := all_delays (n_chan ref) (fun c => unit_of (pre (zero_mean o) (xs c))) in
  (forall i, i < K -> (Rabs (b' i - dot M (a i) (smp (unit_of (pre (zero_mean o) y)))) <= delta)%R) ->
  (forall i j, i < K -> j < K -> (Rabs (A' i j - (dot M (a i) (a j) + if Nat.eqb i j then lam else 0)) <= eta)%R) ->
  (forall i, i < K -> (Rabs (Rsum K (fun j => A' i j * sol' j) - b' i) <= rho)%R) ->
  (Rabs (c' - Rsum K (fun i => b' i * sol' i)) <= gam)%R ->
  (eta * INR K <= lam / 4)%R -> ((delta + rho) * sqrt (INR K / lam) <= 1 / 2)%R ->
  (Rsum K (fun i => Rabs (sol' i)) <= 2 * sqrt (INR K / lam))%R /\
  exists q, nth d sar NaN = Fin q /\
    (Rabs (c' - q) <= gam + (3 * delta + rho) * sqrt (INR K / lam) + 2 * eta * (INR K / lam))%R.
Proof.
  intros Hwr Hwe Hcg Hld Hlam HL Hx H0 Hy HM1 HM2 H K a Hb HA Hr Hc C1 C2.
  destruct (has_chan_pchan (zero_mean o) est d y Hwe Hy) as [_ Ly].
  assert (HK : 0 < K) by (unfold K; nia).
  assert (P : forall f e, (Rabs f <= e)%R -> (0 <= e)%R) by (intros f e He; pose proof (Rabs_pos f); lra).
  pose proof (P _ _ (Hb 0 HK)) as Pd. pose proof (P _ _ (HA 0 0 HK HK)) as Pe. pose proof (P _ _ (Hr 0 HK)) as Pr.
  pose proof (energy_unit_le1 M (pre (zero_mean o) y) ltac:(rewrite length_pre; lia)) as B1.
  assert (HS : (Rsum K (fun i => Rabs (sol' i)) <= 2 * sqrt (INR K / lam))%R).
  { apply (taps_bound K M a lam (smp (unit_of (pre (zero_mean o) y))) A' b' sol' delta eta rho lam); auto; [lra|].
    intros v. apply load_coercive. }
  split; auto.
  destruct (sar_inexact_loaded b o ref est m sar d xs y M A' b' sol' c' delta eta rho gam lam) as (q & Eq & HB); auto.
  exists q. split; auto. eapply Rle_trans; [exact HB|]. apply apriori_value; auto.
Qed.

(** with load_diag and the errors of the transforms *)
Theorem fft_sdr_apriori b o ref est m c d x y rf mulc sq irf u v acf' sol' c' tau rho gam lam : wf ref -> wf est ->
  2 <= filter_length o <= Nat.max (a_len ref) (a_len est) -> has_chan ref c x -> has_chan est d y -> (0 <= u)%R -> (0 <= v)%R ->
  let n := n_fft (a_len ref) (a_len est) in
  rfft_near n u rf -> irfft_near n u irf -> mulc_near v mulc -> sq_near v sq ->
  let L := filter_length o in
  let ux := unit_of (pre (zero_mean o) x) in let uy := unit_of (pre (zero_mean o) y) in
  let xc' l := nth l (stats_xcorr_with rf mulc irf L ux uy) 0%R in
  (forall l, l < L -> (Rabs (acf' l - (nth l (stats_acf_with rf sq irf L ux) 0 + if Nat.eqb l 0 then loadv (load_diag o) else 0)) <= tau)%R) ->
  (forall i, i < L -> (Rabs (Rsum L (fun j => acf' (if (i <=? j)%nat then (j - i)%nat else (i - j)%nat) * sol' j) - xc' i) <= rho)%R) ->
  (Rabs (c' - Rsum L (fun l => xc' l * sol' l)) <= gam)%R ->
  use_cg_iter o = None -> sdr_coh b o ref est = Ok m -> load_diag o = Some lam -> (0 < lam)%R ->
  let e := corr_error n u v in
  ((e + tau) * INR L <= lam / 4)%R -> ((e + rho) * sqrt (INR L / lam) <= 1 / 2)%R ->
  exists q, mat_of m c d = Fin q /\ (0 <= q <= 1)%R /\
    (Rabs (c' - q) <= gam + (3 * e + rho) * sqrt (INR L / lam) + 2 * (e + tau) * (INR L / lam))%R.
Proof.
  intros Wr We HL Hx Hy Hu Hv n Hrf Hirf Hm Hs L ux uy xc' Hacf Hr Hc Hcg Hco Hld Hlam e C1 C2. pose proof (proj1 Wr) as P.
  assert (Elv : loadv (load_diag o) = lam) by (rewrite Hld; reflexivity).
  apply (sdr_apriori b o ref est m c d x y (a_len ref + L + a_len est) acf' xc' sol' c' e (e + tau) rho gam lam); auto; try (unfold L; lia).
  - rewrite Elv. lra.
  - intros w. rewrite Elv. pose proof (energy_nonneg (a_len ref + L + a_len est)
      (fun t => Rsum (filter_length o) (fun k => w k * delayed (unit_of (pre (zero_mean o) x)) k t)%R)). lra.
  - exact (unit_corr_near o ref est c d x y rf mulc irf u v Wr We HL Hx Hy Hu Hv Hrf Hirf Hm).
  - exact (acf_total o ref est c d x y rf sq irf u v Wr We HL Hx Hy Hu Hv Hrf Hirf Hs acf' tau Hacf).
Qed.
Theorem fft_sar_apriori b o ref est m sar d xs y rf mulc mul2 irf u v B A' sol' c' tau rho gam lam : wf ref -> wf est ->
  2 <= filter_length o <= Nat.max (a_len ref) (a_len est) -> has_chans ref xs -> 0 < n_chan ref -> has_chan est d y -> (0 <= u)%R -> (0 <= v)%R ->
  let n := n_fft (a_len ref) (a_len est) in
  rfft_near n u rf -> irfft_near n u irf -> mulc_near v mulc -> mul2_near v mul2 ->
  let L := filter_length o in let k := n_chan ref in let K := L * k in
  let ux c := unit_of (pre (zero_mean o) (xs c)) in let uy := unit_of (pre (zero_mean o) y) in
  block_toeplitz b (2 * L) k k (block_acf_with rf mul2 irf L (load_diag o) ux) = Ok B ->
  let b' p := nth p (flatten k L (fun c => stats_xcorr_with rf mulc irf L (ux c) uy)) 0%R in
  (forall p q, p < K -> q < K -> (Rabs (A' p q - B p q) <= tau)%R) ->
  (forall i, i < K -> (Rabs (Rsum K (fun j => A' i j * sol' j) - b' i) <= rho)%R) ->
  (Rabs (c' - Rsum K (fun i => b' i * sol' i)) <= gam)%R ->
  use_cg_iter o = None -> sq_cos b o ref est = Ok (m, sar) -> load_diag o = Some lam -> (0 < lam)%R ->
  let e := corr_error n u v in
  ((e + tau) * INR K <= lam / 4)%R -> ((e + rho) * sqrt (INR K / lam) <= 1 / 2)%R ->
  exists q, nth d sar NaN = Fin q /\
    (Rabs (c' - q) <= gam + (3 * e + rho) * sqrt (INR K / lam) + 2 * (e + tau) * (INR K / lam))%R.
Proof.
  intros Wr We HL Hx H0 Hy Hu Hv n Hrf Hirf Hm Hm2 L k K ux uy HB b' HA Hr Hc Hcg Hco Hld Hlam e C1 C2. pose proof (proj1 Wr) as P.
  apply (sar_apriori b o ref est m sar d xs y (a_len ref + L + a_len est) A' b' sol' c' e (e + tau) rho gam lam); auto; try (unfold L; lia).
  - intros i Hi. apply (sar_rhs_near o ref est d xs y rf mulc irf u v); auto. fold L. lia.
  - intros i j Hi Hj.
    pose proof (sar_mat_near b o ref est d xs y rf mul2 irf u v Wr We HL Hx H0 Hy Hu Hv Hrf Hirf Hm2 B i j (a_len ref + L + a_len est) HB Hi Hj ltac:(fold L; lia)) as Q.
    pose proof (HA i j Hi Hj) as T. rewrite Hld in Q. change (loadv (Some lam)) with lam in Q.
    fold k in Q |- *. fold ux in Q |- *. fold n e in Q.
    set (w := (dot (a_len ref + L + a_len est) (all_delays k ux i) (all_delays k ux j) + (if i =? j then lam else 0))%R) in *.
    replace (A' i j - w)%R with ((B i j - w) + (A' i j - B i j))%R by ring. eapply Rle_trans; [apply Rabs_triang|]. lra.
Qed.

(** the same in decibels *)
Theorem fft_sdr_decibels b o ref est m c d x y rf mulc sq irf u v acf' sol' c' tau rho gam lam D : wf ref -> wf est ->
  2 <= filter_length o <= Nat.max (a_len ref) (a_len est) -> has_chan ref c x -> has_chan est d y -> (0 <= u)%R -> (0 <= v)%R ->
  let n := n_fft (a_len ref) (a_len est) in
  rfft_near n u rf -> irfft_near n u irf -> mulc_near v mulc -> sq_near v sq ->
  let L := filter_length o in
  let ux := unit_of (pre (zero_mean o) x) in let uy := unit_of (pre (zero_mean o) y) in
  let xc' l := nth l (stats_xcorr_with rf mulc irf L ux uy) 0%R in
  (forall l, l < L -> (Rabs (acf' l - (nth l (stats_acf_with rf sq irf L ux) 0 + if Nat.eqb l 0 then loadv (load_diag o) else 0)) <= tau)%R) ->
  (forall i, i < L -> (Rabs (Rsum L (fun j => acf' (if (i <=? j)%nat then (j - i)%nat else (i - j)%nat) * sol' j) - xc' i) <= rho)%R) ->
  (Rabs (c' - Rsum L (fun l => xc' l * sol' l)) <= gam)%R ->
  use_cg_iter o = None -> sdr_coh b o ref est = Ok m -> load_diag o = Some lam -> (0 < lam)%R ->
  let e := corr_error n u v in
  ((e + tau) * INR L <= lam / 4)%R -> ((e + rho) * sqrt (INR L / lam) <= 1 / 2)%R ->
  clamp_db o = Some D -> (0 <= D)%R ->
  let eps := (Rpower 10 (- D / 10) / (1 + Rpower 10 (- D / 10)))%R in
  exists loss p p', pairwise_sdr_loss b o est ref = Ok loss /\ mat_of loss c d = Fin p /\
    coherence_to_neg_sdr (Some D) (Fin c') = Fin p' /\
    (Rabs (p' - p) <= 10 / (ln 10 * (eps * (1 - eps))) * (gam + (3 * e + rho) * sqrt (INR L / lam) + 2 * (e + tau) * (INR L / lam)))%R.
Proof.
  intros Wr We HL Hx Hy Hu Hv n Hrf Hirf Hm Hs L ux uy xc' Hacf Hr Hc Hcg Hco Hld Hlam e C1 C2 HD HD0 eps.
  destruct (fft_sdr_apriori b o ref est m c d x y rf mulc sq irf u v acf' sol' c' tau rho gam lam Wr We HL Hx Hy Hu Hv Hrf Hirf Hm Hs
    Hacf Hr Hc Hcg Hco Hld Hlam C1 C2) as (q & Eq & _ & B).
  destruct (db_inexact D q c' _ HD0 B) as (p & p' & P1 & P2 & P3).
  exists (to_db o m), p, p'. split; [unfold pairwise_sdr_loss; rewrite Hco; reflexivity|].
  split; [rewrite to_db_entry, Eq, HD; exact P1|]. split; auto.
Qed.
