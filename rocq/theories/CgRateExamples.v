(** * Instances of the convergence rate (C63) *)
From Coq Require Import Reals Lra.
From Coquelicot Require Import Complex.
From Verif Require Import Prelude ExtReal Slice Sums SpecSig Fft FftProofs Helpers Linalg LinalgProofs
  Cgd Metrics StatsProofs LeastSq PrepProofs MetricsProofs SarProofs ProjTheorems MetricTheorems
  CgdOps CgdPrecond CgProofs CgCirc Cells CgTheorems CgRate CgRateToep CgRateSdr Invariance Witness SigExamples Glue.
Local Open Scope nat_scope.

(** ** A Toeplitz matrix that is not circulant *)
Lemma tri_bounds b u : (/ 2 * energy 3 u <= form 3 (ent (toeplitz b [2; 1; 0]%R)) u u <= 4 * energy 3 u)%R.
Proof.
  rewrite (form_mat 3 _ (fun i j => nth (adist i j) [2; 1; 0]%R 0%R))
    by (intros; apply toeplitz_entry; auto).
  unfold form, energy, dot, Rmv, Rsum, adist. simpl.
  set (a := u 0). set (c := u 1). set (e := u 2).
  pose proof (Rle_0_sqr (a + c)) as H1. pose proof (Rle_0_sqr (c + e)) as H2.
  pose proof (Rle_0_sqr (a - c)) as H3. pose proof (Rle_0_sqr (c - e)) as H4.
  pose proof (Rle_0_sqr (3 / 2 * a + c)) as H5. pose proof (Rle_0_sqr (3 / 2 * e + c)) as H6.
  pose proof (Rle_0_sqr a) as H7. pose proof (Rle_0_sqr c) as H8. pose proof (Rle_0_sqr e) as H9.
  unfold Rsqr in *. split; lra.
Qed.
Lemma pd_of_bounds b acf lo hi : (0 < lo)%R ->
  (forall u, lo * energy (length acf) u <= form (length acf) (ent (toeplitz b acf)) u u <= hi * energy (length acf) u)%R ->
  psd_mat (length acf) (ent (toeplitz b acf)) /\ nonsingular (length acf) (ent (toeplitz b acf)).
Proof.
  intros Hlo H. split.
  - intros u. destruct (H u) as [H1 _]. pose proof (energy_nonneg (length acf) u).
    fold (form (length acf) (ent (toeplitz b acf)) u u). nra.
  - intros u Hu i Hi. destruct (H u) as [H1 _].
    assert (Z : form (length acf) (ent (toeplitz b acf)) u u = 0%R).
    { apply Rsum_zero. intros j Hj. rewrite Hu by auto. ring. }
    rewrite Z in H1. pose proof (energy_nonneg (length acf) u). apply (energy_zero (length acf) u); auto. nra.
Qed.
Lemma between_of_bounds b acf lo hi : 0 < length acf -> (0 < lo)%R -> (cg_eps <= lo * lo)%R ->
  (forall u, lo * energy (length acf) u <= form (length acf) (ent (toeplitz b acf)) u u <= hi * energy (length acf) u)%R ->
  preconditioned_between b acf (lo / hi) (hi / lo).
Proof.
  intros Hn Hlo He H. destruct (pd_of_bounds b acf lo hi Hlo H) as [Hp Hs]. apply between_bounds.
  apply bounds_from_spectrum; auto.
  - apply (psd_ext _ (ent (toeplitz b acf))); auto. intros. apply toeplitz_entry; auto.
  - intros u Hu. apply Hs. intros i Hi. etransitivity; [|exact (Hu i Hi)]. apply Rsum_ext. intros j Hj.
    rewrite toeplitz_entry by auto. reflexivity.
  - intros u. rewrite (form_mat _ _ (ent (toeplitz b acf))); auto. intros. symmetry. apply toeplitz_entry; auto.
Qed.
Theorem tri_example b : let acf := [2; 1; 0]%R in
  psd_mat 3 (ent (toeplitz b acf)) /\ nonsingular 3 (ent (toeplitz b acf)) /\
  preconditioned_between b acf (/ 8) 8.
Proof.
  cbv zeta. destruct (pd_of_bounds b [2; 1; 0]%R (/ 2) 4 ltac:(lra) (tri_bounds b)) as [H1 H2].
  split; [exact H1|]. split; [exact H2|].
  replace (/ 8)%R with (/ 2 / 4)%R by lra. replace 8%R with (4 / / 2)%R by lra.
  apply between_of_bounds; [simpl; lia|lra| |exact (tri_bounds b)].
  unfold cg_eps. assert (/ 10 ^ 6 <= / 4)%R by (apply Rinv_le_contravar; simpl; lra). lra.
Qed.

(** ** Loaded white reference *)
Definition swhite (s : R) (nn : nat) : list R := s :: repeat 0%R (nn - 1).
Lemma length_swhite s nn : 0 < nn -> length (swhite s nn) = nn.
Proof. intros. unfold swhite. simpl. rewrite repeat_length. lia. Qed.
Lemma swhite_spec s nn k : 0 < nn -> spec (swhite s nn) k = s.
Proof.
  intros Hn. unfold spec. set (col := swhite s nn).
  assert (Hl : length col = nn) by (apply length_swhite; auto).
  assert (Hz : forall t, 0 < t -> nth t col 0%R = 0%R).
  { intros [|t] Ht; [lia|]. unfold col. simpl. apply nth_repeat. }
  assert (Hs : forall t, t < nn -> smp (sym_col col) t = if Nat.eqb t 0 then s else 0%R).
  { intros t Ht. unfold smp, sym_col. rewrite Hl. rewrite nth_tab by auto.
    destruct (Nat.eqb_spec t 0) as [->|H0]; [reflexivity|]. rewrite !Hz by lia.
    unfold Rdiv. ring. }
  rewrite Hl. unfold dft. rewrite Re_Csum, (Rsum_single nn 0); auto.
  - rewrite Hs by auto. rewrite Nat.mul_0_r, E_0. unfold Re, Cconj, Cmult, RtoC. simpl. ring.
  - intros t Ht Hne. rewrite Hs by auto. destruct (Nat.eqb_spec t 0); [lia|].
    unfold Re, Cmult, RtoC. simpl. ring.
Qed.
Lemma swhite_prec s nn v t : 0 < nn -> length v = nn -> (1 <= s)%R -> t < nn ->
  nth t (circ_prec (swhite s nn) v) 0%R = (nth t v 0 / s)%R.
Proof.
  intros Hn Hv Hs Ht. pose proof (white_prec nn v Hn Hv) as W.
  assert (E : nth t (circ_prec (white nn) v) 0%R = nth t v 0%R) by (rewrite W; reflexivity).
  rewrite circ_prec_full in E by (rewrite length_white; auto).
  rewrite circ_prec_full by (rewrite length_swhite; auto). rewrite length_white in E by auto.
  rewrite length_swhite by auto. rewrite <- E. unfold Rdiv.
  rewrite Rmult_assoc. f_equal. rewrite <- Rsum_scal_r. apply Rsum_ext. intros k Hk.
  assert (G : gain_at (swhite s nn) k = (/ s)%R).
  { unfold gain_at. rewrite swhite_spec by auto. rewrite Rmax_left; [field; lra|].
    assert (1 * 1 <= s * s)%R by (apply Rmult_le_compat; lra).
    replace (s ^ 2)%R with (s * s)%R by ring. eapply Rle_trans; [apply eps_le_1|]. lra. }
  assert (G1 : gain_at (white nn) k = 1%R).
  { unfold gain_at. change (white nn) with (swhite 1 nn). rewrite swhite_spec by auto.
    replace (1 ^ 2)%R with 1%R by ring. rewrite Rmax_left; [unfold Rdiv; rewrite Rinv_1; ring|apply eps_le_1]. }
  rewrite G, G1. ring.
Qed.
Lemma swhite_dense s nn v t : 0 < nn -> length v = nn -> t < nn -> nth t (dense_toeplitz (swhite s nn) v) 0%R = (s * nth t v 0)%R.
Proof.
  intros Hn Hv Ht. unfold dense_toeplitz. rewrite length_swhite, nth_tab by auto.
  rewrite (Rsum_single nn t); auto.
  - unfold adist. rewrite Nat.sub_diag. simpl. ring.
  - intros j Hj Hne. assert (H : 0 < adist t j) by (unfold adist; lia).
    unfold swhite. destruct (adist t j) as [|u]; [lia|]. simpl. rewrite nth_repeat. ring.
Qed.
Theorem swhite_inactive s nn xc k : 0 < nn -> length xc = nn -> (1 <= s)%R -> (cg_eps * s <= dotl nn xc xc)%R ->
  cg_inactive (swhite s nn) xc k.
Proof.
  intros Hn Hx Hs He. unfold cg_inactive. rewrite length_swhite by auto. cbv zeta.
  set (A := dense_toeplitz (swhite s nn)). set (P := circ_prec (swhite s nn)).
  set (run := cg_run nn A P xc (repeat 0%R nn)).
  assert (LP : forall v, length (P v) = nn) by (intros; unfold P; rewrite length_circ_prec; apply length_swhite; auto).
  assert (Er0 : cg_r (run 0) = xc).
  { unfold run, cg_run. simpl. unfold cg_init. simpl cg_r. apply (list_eq_nth _ _ 0%R); rewrite length_axpy; auto.
    intros i Hi. rewrite nth_axpy by auto. unfold A. rewrite swhite_dense by (auto; apply repeat_length).
    rewrite nth_repeat. ring. }
  assert (Ep0 : cg_p (run 0) = P xc).
  { rewrite <- Er0. reflexivity. }
  assert (Es0 : cg_rs (run 0) = (dotl nn xc xc / s)%R).
  { assert (cg_rs (run 0) = dotl nn (cg_r (run 0)) (P (cg_r (run 0)))) as -> by reflexivity.
    rewrite Er0. unfold dotl, Rdiv. rewrite <- Rsum_scal_r. apply Rsum_ext. intros i Hi.
    unfold P. rewrite swhite_prec by auto. unfold Rdiv. ring. }
  assert (EpAp : dotl nn (P xc) (A (P xc)) = (dotl nn xc xc / s)%R).
  { unfold dotl, Rdiv. rewrite <- Rsum_scal_r. apply Rsum_ext. intros i Hi.
    unfold A. rewrite swhite_dense by auto. unfold P. rewrite swhite_prec by auto. field. lra. }
  assert (Hpos : (cg_eps <= dotl nn xc xc / s)%R).
  { apply (Rmult_le_reg_r s); [lra|]. unfold Rdiv. rewrite Rmult_assoc, Rinv_l by lra. lra. }
  pose proof CgProofs.eps_pos as Pe.
  assert (R1 : zero_vec nn (cg_r (run 1))).
  { unfold run. rewrite cg_run_S. fold run. unfold cg_step.
    change (0 + 1 mod 5 =? 0) with false. cbn iota. cbn [cg_r]. rewrite Er0, Ep0, Es0, EpAp.
    intros i Hi. rewrite Rmax_left by auto. rewrite nth_axpy by auto. unfold A at 1. rewrite swhite_dense by auto.
    unfold P at 1. rewrite swhite_prec by auto.
    assert (D1 : (dotl nn xc xc / s / (dotl nn xc xc / s) = 1)%R) by (apply Rinv_r; lra).
    rewrite D1. field. lra. }
  intros (i & Hi & Hr). destruct k as [|k].
  - fold run in Hr |- *. rewrite Ep0, Es0, EpAp. auto.
  - exfalso. apply Hr. change (S k) with (1 + k).
    refine (proj2 (converged_stays nn A P xc (repeat 0%R nn) _ _ _ 1 k R1) i Hi).
    + apply repeat_length.
    + intros. apply LP.
    + intros v Hv Hz j Hj. unfold P. rewrite swhite_prec, Hz by auto. unfold Rdiv. ring.
Qed.

Definition ex_load : opts := with_load (plain_opts 2) (Some 1%R).
Theorem ex_load_never_guarded n : never_guarded ex_load ex_ref ex_est n.
Proof.
  unfold never_guarded. cbv zeta. rewrite ex_nf. intros c d x y Hx Hy k _.
  pose proof (pchan_lt _ _ _ _ Hx) as Hc. pose proof (pchan_lt _ _ _ _ Hy) as Hd.
  change (c < 2) in Hc. change (d < 2) in Hd.
  rewrite (proj1 (has_chan_pchan _ _ _ _ ex_ref_wf (ex_ref_chan c Hc))) in Hx.
  rewrite (proj1 (has_chan_pchan _ _ _ _ ex_est_wf (ex_est_chan d Hd))) in Hy.
  simpl pre in Hx, Hy. rewrite ex_ref_unit in Hx by auto. injection Hx as <-. injection Hy as <-.
  unfold sdr_acf. simpl filter_length. simpl load_diag. rewrite ex_acf by auto.
  change (add_load (Some 1%R) (white 2)) with (swhite (1 + 1) 2).
  apply swhite_inactive; [lia|apply length_stats_xcorr|lra|].
  assert (Hlen : length (exr c) + 1 <= 16) by (revert c Hc; apply (two (fun c => _ <= _)); simpl; lia).
  unfold dotl. cbn [zero_mean plain_opts pre].
  rewrite (Rsum_ext 2 _ (fun i => xcorr (exr c) (unit_of (exe d)) i * xcorr (exr c) (unit_of (exe d)) i)%R)
    by (intros i Hi; rewrite stats_xcorr_plain by lia; reflexivity).
  rewrite Rsum_S_l, (Rsum_S_l 0). change (Rsum 0 ?f) with 0%R. cbv beta.
  assert (Hg : (/ 8 <= gain (exe d) ^ 2)%R).
  { rewrite gain_norm by (apply ex_est_norm; auto).
    assert (Hn : (0 < norm2 (exe d) ^ 2 <= 8)%R).
    { rewrite norm2_sq. revert d Hd. apply (two (fun d => 0 < _ <= _)%R); unfold smp; simpl; lra. }
    rewrite pow_inv. apply Rinv_le_contravar; lra. }
  assert (He : (cg_eps <= / 16)%R) by (unfold cg_eps; apply Rinv_le_contravar; simpl; lra).
  assert (Hxc : exists u v : R, xcorr (exr c) (unit_of (exe d)) 0 = (gain (exe d) * u)%R /\
     xcorr (exr c) (unit_of (exe d)) 1 = (gain (exe d) * v)%R /\ (1 <= u ^ 2 + v ^ 2)%R).
  { exists (xcorr (exr c) (exe d) 0), (xcorr (exr c) (exe d) 1).
    assert (Hs : forall l, xcorr (exr c) (unit_of (exe d)) l = (gain (exe d) * xcorr (exr c) (exe d) l)%R).
    { intros l. unfold xcorr. rewrite <- Rsum_scal_l. apply Rsum_ext. intros t Ht. rewrite smp_unit_of. ring. }
    rewrite !Hs. split; auto. split; auto. clear - Hc Hd. revert c Hc d Hd.
    apply (two (fun c => forall d, d < 2 -> _)); apply (two (fun d => 1 <= _)%R); unfold xcorr, smp; simpl; lra. }
  destruct Hxc as (u & v & -> & -> & Huv).
  nra.
Qed.
Theorem ex_load_rate b n : never_guarded ex_load ex_ref ex_est n /\
  is_ok (sdr_coh b (with_cg ex_load (Some n)) ex_ref ex_est) /\
  is_ok (sdr_coh b (with_cg ex_load None) ex_ref ex_est) /\
  has_chan ex_ref 0 (exr 0) /\ has_chan ex_est 1 (exe 1) /\ load_diag ex_load = Some 1%R.
Proof.
  assert (K : forall it, is_ok (sdr_coh b (with_cg ex_load it) ex_ref ex_est)).
  { intros it. destruct (sdr_coh b (with_cg ex_load it) ex_ref ex_est) as [m|e] eqn:E; [eexists; reflexivity|exfalso].
    destruct it as [k|].
    - rewrite sdr_coh_cells in E by (simpl; lia). revert E. match goal with |- mapM ?f ?l = _ -> _ =>
        assert (H : exists r, mapM f l = Ok r) end.
      { match goal with |- exists r, mapM ?f ?u = _ => induction u as [|x l (r & IH)] end; [eexists; reflexivity|].
        cbn [mapM]. rewrite IH. destruct x; eexists; reflexivity. }
      destruct H as (r & ->). discriminate.
    - pose proof (loss_never_raises_loaded b (with_cg ex_load None) ex_ref ex_est ex_ref_wf eq_refl
        ltac:(simpl; lra) ltac:(simpl; lia)) as (z & Hz).
      unfold pairwise_sdr_loss in Hz. rewrite E in Hz. discriminate. }
  split; [apply ex_load_never_guarded|]. split; [apply K|]. split; [apply K|].
  split; [apply ex_ref_chan; lia|]. split; [apply ex_est_chan; lia|]. reflexivity.
Qed.

Theorem ex_load_between b : preconditioned_between b (sdr_acf ex_load 16 (unit_of (pre false (exr 0)))) (/ 3) 3.
Proof.
  pose proof (load_between b ex_load 16 (unit_of (pre false (exr 0))) ltac:(simpl; lia) ltac:(simpl; lra)) as H.
  simpl loadv in H. change (INR (Nat.min (filter_length ex_load) 16)) with 2%R in H.
  replace (1 / (2 + 1))%R with (/ 3)%R in H by lra. replace ((2 + 1) / 1)%R with 3%R in H by lra.
  apply H.
  - apply energy_unit_le1. simpl. lia.
  - pose proof (Rinv_le_contravar 1 (10 ^ 3) ltac:(lra) ltac:(lra)) as H1. rewrite Rinv_1 in H1. exact H1.
Qed.
