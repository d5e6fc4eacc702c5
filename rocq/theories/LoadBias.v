(** * What diagonal loading costs: bias and ceiling *)
From Coq Require Import Reals Lra.
From Verif Require Import Prelude ExtReal Spec SpecSig Sums Helpers Linalg LinalgProofs Metrics StatsProofs LeastSq
  PrepProofs DbProofs MetricsProofs SarProofs ProjTheorems MetricTheorems FastPath Sensitivity.
Local Open Scope nat_scope.

(** ** Least squares with loading against least squares without *)
Lemma lsq_bias K M a lam y q0 q h : (0 <= lam)%R -> normal_eq K M a 0 y h -> q0 = qval K M a y h ->
  lsq K M a lam y q -> (0 <= q0 - q <= lam * sq K h)%R.
Proof.
  intros Hl N -> Hq. split.
  - assert (q <= qval K M a y h)%R; [|lra].
    apply (lsq_mono K K M a a lam 0 y _ _ (fun k => k)); auto; try lra. exists h. auto.
  - pose proof (lsq_max K M a lam y q h Hl Hq) as B. pose proof (q_energy K M a 0 y h N) as E. lra.
Qed.
Lemma comb_energy K M a g : (forall k, k < K -> (energy M (a k) <= 1)%R) ->
  (energy M (comb K a g) <= INR K * sq K g)%R.
Proof.
  intros H. unfold energy, dot.
  apply Rle_trans with (Rsum M (fun t => sq K g * Rsum K (fun k => a k t * a k t))%R).
  - apply Rsum_le. intros t Ht. pose proof (cauchy K g (fun k => a k t)) as C.
    unfold comb, energy, dot, sq in *. simpl in C. lra.
  - rewrite Rsum_scal_l, Rsum_swap, Rmult_comm. apply Rmult_le_compat_r; [apply sq_nonneg|].
    rewrite <- (Rmult_1_r (INR K)), <- Rsum_const. apply Rsum_le. intros k Hk. apply (H k Hk).
Qed.
Lemma lsq_ceiling K M a lam y q : (0 < lam)%R -> 0 < K -> (forall k, k < K -> (energy M (a k) <= 1)%R) ->
  (energy M y <= 1)%R -> lsq K M a lam y q -> (q <= INR K / (INR K + lam))%R.
Proof.
  intros Hl HK Ha Hy (h & N & ->). assert (HK' : (0 < INR K)%R) by (apply lt_0_INR; auto).
  pose proof (q_energy K M a lam y h N) as E. pose proof (comb_energy K M a h Ha) as B.
  pose proof (cauchy M y (comb K a h)) as C. rewrite <- qval_dot in C.
  pose proof (energy_nonneg M (comb K a h)) as P. pose proof (energy_nonneg M y) as Py.
  pose proof (sq_nonneg K h) as Ps.
  set (q := qval K M a y h) in *. set (A := energy M (comb K a h)) in *. set (s := sq K h) in *.
  assert (C' : (q ^ 2 <= A)%R) by nra.
  apply (Rmult_le_reg_r (INR K + lam)); [lra|]. unfold Rdiv. rewrite Rmult_assoc, Rinv_l, Rmult_1_r by lra.
  (* q >= A + lam A / K *)
  assert (D : (A * (INR K + lam) <= q * INR K)%R) by nra.
  destruct (Rle_dec q 0) as [Z|Z]; [nra|].
  apply (Rmult_le_reg_l q); [lra|]. nra.
Qed.
Lemma energy_cdelayed nf x i : i < nf -> energy nf (cdelayed nf x i) = energy nf (smp x).
Proof.
  intros Hi. unfold energy, dot, cdelayed.
  apply (Rsum_cyclic nf (nf - i) (fun t => nth t x 0 * nth t x 0)%R). lia.
Qed.

Lemma ceiling_dB k lam q : (0 < k)%R -> (0 < lam)%R -> (0 <= q <= k / (k + lam))%R ->
  xle (Fin (- (10 * log10 (k / lam)))) (coherence_to_neg_sdr None (Fin q)).
Proof.
  intros Hk Hl Hq.
  assert (B : (0 < k / (k + lam) < 1)%R).
  { split; [apply Rdiv_lt_0_compat; lra|]. apply (Rmult_lt_reg_r (k + lam)); [lra|].
    unfold Rdiv. rewrite Rmult_assoc, Rinv_l by lra. lra. }
  pose proof (neg_sdr_mono None q (k / (k + lam)) ltac:(lra) ltac:(lra) ltac:(lra)) as Mo.
  rewrite neg_sdr_fin in Mo by auto.
  replace (- (10 * log10 (k / lam)))%R with (gdb (k / (k + lam))); auto.
  unfold gdb. replace ((1 - k / (k + lam)) / (k / (k + lam)))%R with (/ (k / lam))%R by (field; lra).
  unfold log10. rewrite ln_Rinv by (apply Rdiv_lt_0_compat; lra). unfold Rdiv. ring.
Qed.

(** ** The SDR coherence *)
Section Sdr.
Variables (b : backend) (o : opts) (ref est : arr) (c d : nat) (x y : list R).
Hypotheses (Wr : wf ref) (We : wf est) (Hcg : use_cg_iter o = None) (HL : 2 <= filter_length o).
Hypotheses (Hx : has_chan ref c x) (Hy : has_chan est d y).

(** the normalised signals and the delays of the reference *)
Let nf := n_fft (a_len ref) (a_len est).
Let ux := unit_of (pre (zero_mean o) x).
Let uy := unit_of (pre (zero_mean o) y).

Theorem sdr_ceiling lam m : (0 < lam)%R -> sdr_coh b (with_load o (Some lam)) ref est = Ok m ->
  exists q, mat_of m c d = Fin q /\ (0 <= q <= INR (filter_length o) / (INR (filter_length o) + lam))%R.
Proof.
  intros Hl H. destruct (has_chan_pchan (zero_mean o) ref c x Wr Hx) as [Px Lx].
  destruct (has_chan_pchan (zero_mean o) est d y We Hy) as [Py Ly].
  assert (H0 : 0 < a_len ref) by apply Wr. assert (HN : filter_length o <> 1) by lia.
  destruct (sdr_entry b (with_load o (Some lam)) ref est m c d _ _ H Hcg HN (proj1 Hx) (proj1 Hy) Px Py) as (q & Hq & Eq).
  simpl loadv in Hq. simpl filter_length in Hq. fold nf in Hq.
  pose proof (nf_ge_est (a_len ref) (a_len est) H0) as G1. pose proof (nf_ge_ref (a_len ref) (a_len est) H0) as G2.
  fold nf in G1, G2.
  exists q. split; auto. split; [apply lsq_bounds in Hq; [lra|lra]|].
  assert (B : (q <= INR (Nat.min (filter_length o) nf) / (INR (Nat.min (filter_length o) nf) + lam))%R).
  { eapply lsq_ceiling; try exact Hq; auto; try lia.
    - intros k Hk. rewrite energy_cdelayed by lia. apply (pchan_energy_le1 _ _ _ _ _ Wr Px). auto.
    - apply (pchan_energy_le1 _ _ _ _ _ We Py). auto. }
  eapply Rle_trans; [exact B|].
  assert (M1 : (0 < INR (Nat.min (filter_length o) nf))%R) by (apply lt_0_INR; lia).
  assert (M2 : (INR (Nat.min (filter_length o) nf) <= INR (filter_length o))%R) by (apply le_INR; lia).
  apply (Rmult_le_reg_r ((INR (Nat.min (filter_length o) nf) + lam) * (INR (filter_length o) + lam)));
    [apply Rmult_lt_0_compat; lra|].
  field_simplify; nra.
Qed.

(** in decibels: with loading lam the SDR is at most 10 log10 (L / lam) *)
Theorem sdr_ceiling_dB lam m : clamp_db o = None -> (0 < lam)%R -> pairwise_sdr_loss b (with_load o (Some lam)) est ref = Ok m ->
  xle (Fin (- (10 * log10 (INR (filter_length o) / lam)))) (mat_of m c d).
Proof.
  intros Hc Hl H. destruct (loss_inv _ _ _ _ _ H) as (m' & E & ->). rewrite to_db_entry.
  change (clamp_db (with_load o (Some lam))) with (clamp_db o). rewrite Hc.
  destruct (sdr_ceiling lam m' Hl E) as (q & -> & Hq).
  apply ceiling_dB; auto. apply lt_0_INR. lia.
Qed.

Theorem sdr_bias M lam m0 m h p : filter_length o <= Nat.max (a_len ref) (a_len est) ->
  a_len ref + filter_length o - 1 <= M -> (0 <= lam)%R ->
  is_projection (filter_length o) M (delays ux) (smp uy) p ->
  (forall t, t < M -> p t = Rsum (filter_length o) (fun k => h k * delays ux k t)%R) ->
  sdr_coh b (with_load o None) ref est = Ok m0 -> sdr_coh b (with_load o (Some lam)) ref est = Ok m ->
  exists q0 q, mat_of m0 c d = Fin q0 /\ mat_of m c d = Fin q /\
    (0 <= q0 - q <= lam * Rsum (filter_length o) (fun k => h k * h k))%R.
Proof.
  intros HM1 HM Hl P Hh H0 H.
  destruct (sdr_solved b (with_load o None) ref est m0 c d x y M Wr We Hcg (conj HL HM1) Hx Hy HM H0) as (h0 & N0 & E0).
  destruct (sdr_solved b (with_load o (Some lam)) ref est m c d x y M Wr We Hcg (conj HL HM1) Hx Hy HM H) as (h1 & N1 & E1).
  simpl filter_length in *. simpl zero_mean in *. simpl loadv in *.
  do 2 eexists. split; [exact E0|]. split; [exact E1|].
  apply (lsq_bias (filter_length o) M (delays ux) lam (smp uy) _ _ h Hl).
  - intros i Hi. rewrite gram_mv by auto. rewrite Rmult_0_l, Rplus_0_r.
    rewrite (dot_ext M _ (delays ux i) _ p); auto.
    + pose proof (proj2 P i Hi) as O. rewrite dot_sub_r in O. lra.
    + intros t Ht. rewrite Hh by auto. reflexivity.
  - apply (lsq_unique (filter_length o) M (delays ux) 0 (smp uy)); [lra| |].
    + exists h0. split; [exact N0|reflexivity].
    + exists h. split; [|reflexivity]. intros i Hi. rewrite gram_mv by auto. rewrite Rmult_0_l, Rplus_0_r.
      rewrite (dot_ext M _ (delays ux i) _ p); auto.
      * pose proof (proj2 P i Hi) as O. rewrite dot_sub_r in O. lra.
      * intros t Ht. rewrite Hh by auto. reflexivity.
  - exists h1. split; [exact N1|reflexivity].
Qed.
Theorem sdr_bias_limit m0 : filter_length o <= Nat.max (a_len ref) (a_len est) ->
  sdr_coh b (with_load o None) ref est = Ok m0 ->
  exists q0, mat_of m0 c d = Fin q0 /\
  forall eps, (0 < eps)%R -> exists dl, (0 < dl)%R /\ forall lam m, (0 <= lam < dl)%R ->
    sdr_coh b (with_load o (Some lam)) ref est = Ok m ->
    exists q, mat_of m c d = Fin q /\ (q0 - eps < q <= q0)%R.
Proof.
  intros HM1 H0. set (M := a_len ref + filter_length o - 1).
  destruct (sdr_solved b (with_load o None) ref est m0 c d x y M Wr We Hcg (conj HL HM1) Hx Hy (le_n _) H0) as (h0 & N0 & E0).
  simpl filter_length in *. simpl zero_mean in *. simpl loadv in *.
  eexists. split; [exact E0|]. intros eps He. set (s := sq (filter_length o) h0).
  assert (Hs : (0 <= s)%R) by apply sq_nonneg.
  exists (eps / (s + 1))%R. split; [apply Rdiv_lt_0_compat; lra|]. intros lam m Hl H.
  destruct (sdr_solved b (with_load o (Some lam)) ref est m c d x y M Wr We Hcg (conj HL HM1) Hx Hy (le_n _) H) as (h1 & N1 & E1).
  simpl filter_length in *. simpl zero_mean in *. simpl loadv in *.
  eexists. split; [exact E1|].
  pose proof (lsq_bias (filter_length o) M (delays ux) lam (smp uy) _ (qval (filter_length o) M (delays ux) (smp uy) h1) h0 (proj1 Hl) N0 eq_refl) as B.
  unfold qval at 2 3 in B.
  assert (Q : lsq (filter_length o) M (delays ux) lam (smp uy) (qval (filter_length o) M (delays ux) (smp uy) h1)).
  { exists h1. split; [exact N1|reflexivity]. }
  specialize (B Q). fold s in B.
  assert (lam * s < eps)%R.
  { assert (L1 : (lam * (s + 1) < eps)%R).
    { apply (Rmult_lt_reg_r (/ (s + 1))); [apply Rinv_0_lt_compat; lra|].
      rewrite Rmult_assoc, Rinv_r, Rmult_1_r by lra. apply Hl. }
    nra. }
  unfold qval in B. unfold delays in B. fold ux uy. lra.
Qed.
End Sdr.

(** ** The SAR coherence *)
Section Sar.
Variables (b : backend) (o : opts) (ref est : arr) (d : nat) (xs : nat -> list R) (y : list R).
Hypotheses (Wr : wf ref) (We : wf est) (Hcg : use_cg_iter o = None) (HL : 1 <= filter_length o).
Hypothesis (HL1 : filter_length o = 1 -> a_len ref = a_len est).
Hypotheses (Hx : has_chans ref xs) (Hy : has_chan est d y) (Hn : 0 < n_chan ref).

Theorem sar_ceiling lam m sar : (0 < lam)%R -> sq_cos b (with_load o (Some lam)) ref est = Ok (m, sar) ->
  let k := INR (filter_length o * n_chan ref) in
  exists q, nth d sar NaN = Fin q /\ (0 <= q <= k / (k + lam))%R.
Proof.
  intros Hl H k. destruct (has_chan_pchan (zero_mean o) est d y We Hy) as [Py Ly].
  assert (H0 : 0 < a_len ref) by apply Wr.
  pose proof (has_chans_clean (zero_mean o) ref xs Wr Hx) as Hcl.
  destruct (Nat.eq_dec (filter_length o) 1) as [E1|N1].
  - destruct (sar_entry1 b (with_load o (Some lam)) ref est m sar d _ Wr We H E1 (HL1 E1) Hcl (proj1 Hy) Py) as (q & Hq & Eq).
    simpl loadv in Hq. simpl zero_mean in Hq. exists q. split; auto. split; [apply lsq_bounds in Hq; [lra|lra]|].
    unfold k. rewrite E1, Nat.mul_1_l. eapply lsq_ceiling; try exact Hq; auto.
    + intros c Hc. cbv beta. apply (pchan_energy_le1 (zero_mean o) ref c _ _ Wr (clean_pc _ _ _ Hcl Hc)). auto.
    + apply (pchan_energy_le1 _ _ _ _ _ We Py). rewrite HL1; auto.
  - destruct (sar_entry b (with_load o (Some lam)) ref est m sar d _ H Hcg ltac:(simpl; lia) Hcl (proj1 Hy) Py) as (B & q & Hq & Eq).
    simpl loadv in Hq. simpl zero_mean in Hq. simpl filter_length in *. exists q. split; auto. split; [apply lsq_bounds in Hq; [lra|lra]|].
    pose proof (nf_ge_est (a_len ref) (a_len est) H0) as G1. pose proof (nf_ge_ref (a_len ref) (a_len est) H0) as G2.
    unfold k. eapply lsq_ceiling; try exact Hq; auto; [apply Nat.mul_pos_pos; lia| |].
    + intros i Hi. destruct (lag_split _ _ _ Hi) as (l & c & Hl' & Hc & ->). rewrite all_cdelays_at by auto.
      rewrite energy_cdelayed by lia. apply (pchan_energy_le1 (zero_mean o) ref c _ _ Wr (clean_pc _ _ _ Hcl Hc)). auto.
    + apply (pchan_energy_le1 _ _ _ _ _ We Py). auto.
Qed.
Theorem sar_ceiling_dB lam m sar c : clamp_db o = None -> (0 < lam)%R ->
  sq_cos b (with_load o (Some lam)) ref est = Ok (m, sar) ->
  let '(nsdr, nsir, nsar) := bss_mats o (m, sar) in
  xle (Fin (- (10 * log10 (INR (filter_length o * n_chan ref) / lam)))) (nsar c d).
Proof.
  intros Hc Hl H. destruct (sar_ceiling lam m sar Hl H) as (q & E & Hq). simpl. rewrite E, Hc.
  apply ceiling_dB; auto. apply lt_0_INR. apply Nat.mul_pos_pos; lia.
Qed.
End Sar.
