(** * Concrete gradients through the conjugate gradient *)
From Coq Require Import Reals Lra.
From Verif Require Import Prelude ExtReal Sums SpecSig Fft FftProofs Helpers Invariance Cgd CgdOps CgdPrecond CgProofs CgCirc Cells Metrics LeastSq StatsProofs PrepProofs
  MetricsProofs ProjTheorems DbProofs MetricTheorems CgTheorems Solvability Edge Diag Witness SigExamples BlockWitness Gradient GradientExamples Autograd AutogradCg
  AutogradCgProofs AutogradCgTheorems.
Local Open Scope nat_scope.

(** an impulse, two taps: the first iteration reaches the solution *)
Definition kx : list R := [1; 0; 0]%R.
Definition ky : list R := [1; 1; 1]%R.
Definition kz : list R := [0; 0; 1]%R.
Definition k_ref : arr := rarr 3 [kx].
Definition k_est (v : list R) : arr := rarr 3 [v].
Definition k_opts (it : nat) (cd : option R) : opts := with_clamp (with_cg (plain_opts 2) (Some it)) cd.
Definition k_loss (it : nat) (cd : option R) (v : list R) : list (list xr) :=
  match pairwise_sdr_loss Torch (k_opts it cd) (k_est v) k_ref with Ok m => m | Raise _ => [] end.
Definition k_coh (it : nat) (cd : option R) (v : list R) : list (list xr) :=
  match sdr_coh Torch (k_opts it cd) k_ref (k_est v) with Ok m => m | Raise _ => [] end.

Lemma k_wf : wf k_ref. Proof. apply rarr_wf; [lia|repeat constructor]. Qed.
Lemma k_chan : has_chan k_ref 0 kx. Proof. apply (rarr_chan 3 [kx] 0). simpl; lia. Qed.
Lemma k_chans c : c < n_chan k_ref -> exists x, has_chan k_ref c x.
Proof. intros Hc. change (c < 1) in Hc. assert (c = 0) as -> by lia. exists kx. apply k_chan. Qed.
Lemma k_family : family k_est 0 3.
Proof.
  intros v Hv. split; [apply rarr_wf; [lia|repeat constructor; auto]|]. apply (rarr_chan 3 [v] 0). simpl; lia.
Qed.
Lemma k_coh_ok it cd v : length v = 3 -> sdr_coh Torch (k_opts it cd) k_ref (k_est v) = Ok (k_coh it cd v).
Proof.
  intros Hv. unfold k_coh. rewrite sdr_coh_cells by discriminate. cbv zeta.
  destruct (k_family v Hv) as [W C].
  pose proof (proj1 (has_chan_pchan (zero_mean (k_opts it cd)) k_ref 0 kx k_wf k_chan)) as Px.
  unfold pchan in Px. pose proof (length_prep (zero_mean (k_opts it cd)) k_ref) as Lp. change (n_chan k_ref) with 1 in Lp.
  destruct (prep_arr (zero_mean (k_opts it cd)) k_ref) as [|p [|? ?]]; try discriminate. simpl in Px. subst p. reflexivity.
Qed.
Lemma k_ok it cd v : length v = 3 -> pairwise_sdr_loss Torch (k_opts it cd) (k_est v) k_ref = Ok (k_loss it cd v).
Proof.
  intros Hv. unfold k_loss, pairwise_sdr_loss. rewrite k_coh_ok by auto. reflexivity.
Qed.
Lemma k_pchan c x : pchan false k_ref c = Some x -> c = 0 /\ x = kx.
Proof.
  intros H. pose proof (pchan_lt _ _ _ _ H) as Hc. change (c < 1) in Hc. assert (c = 0) as -> by lia. split; auto.
  rewrite (proj1 (has_chan_pchan false k_ref 0 kx k_wf k_chan)) in H. injection H as <-.
  apply unit_of_one, norm2_one. unfold smp; simpl; ring.
Qed.
Lemma k_acf : stats_acf 8 2 kx = white 2.
Proof.
  apply (list_eq_nth _ _ 0%R); rewrite length_stats_acf; [reflexivity|].
  intros i Hi. change (Nat.min 2 8) with 2 in Hi. rewrite stats_acf_plain by (simpl; lia).
  revert i Hi. apply (two (fun i => _ = _)); unfold xcorr, smp; simpl; ring.
Qed.
Lemma k_xc v i : length v = 3 -> i < 2 -> nth i (stats_xcorr 8 2 kx v) 0%R = nth i v 0%R.
Proof.
  intros Hv Hi. rewrite stats_xcorr_plain by (simpl; lia).
  revert i Hi. apply (two (fun i => _ = _)); unfold xcorr, smp; simpl; ring.
Qed.
Lemma ky_norm2 : (norm2 ky ^ 2 = 3)%R.
Proof. rewrite norm2_sq. unfold smp, ky; simpl; ring. Qed.
Lemma ky_norm : (norm_eps < norm2 ky)%R.
Proof.
  apply Rle_lt_trans with 1%R; [apply eps_le_1|]. unfold norm2. rewrite <- sqrt_1 at 1.
  apply sqrt_lt_1; unfold smp, ky; simpl; lra.
Qed.
Lemma ky_gain : (gain ky ^ 2 = / 3)%R.
Proof. rewrite gain_norm by (left; apply ky_norm). rewrite pow_inv, ky_norm2. reflexivity. Qed.
Lemma ky_dot : dotl 2 (stats_xcorr 8 2 kx (unit_of ky)) (stats_xcorr 8 2 kx (unit_of ky)) = (2 / 3)%R.
Proof.
  unfold dotl. rewrite (Rsum_ext 2 _ (fun _ => gain ky ^ 2)%R).
  - rewrite ky_gain. cbn. lra.
  - intros i Hi. rewrite k_xc by (auto; apply length_unit_of).
    change (nth i (unit_of ky) 0%R) with (smp (unit_of ky) i). rewrite smp_unit_of.
    replace (smp ky i) with 1%R; [ring|]. revert i Hi. apply (two (fun i => _ = _)); reflexivity.
Qed.
Lemma small_eps : (cg_eps < 2 / 3)%R.
Proof. unfold cg_eps. assert (/ 10 ^ 6 <= / 2)%R by (apply Rinv_le_contravar; simpl; lra). lra. Qed.

Lemma white_reached nn xc : 0 < nn -> length xc = nn -> (cg_eps < dotl nn xc xc)%R -> cg_reached (white nn) xc 1.
Proof.
  intros Hn Hx He.
  assert (Hxz : axpy nn xc (-1) (repeat 0%R nn) = xc).
  { apply (list_eq_nth _ _ 0%R); rewrite length_axpy; auto. intros i Hi. rewrite nth_axpy, nth_repeat by auto. ring. }
  assert (R0 : cg_at (white nn) xc 0 = CG (repeat 0%R nn) xc xc (dotl nn xc xc)).
  { unfold cg_at. rewrite length_white by auto. unfold cg_run. simpl. unfold cg_init. rewrite white_dense by (auto; apply repeat_length).
    rewrite Hxz, white_prec by auto. reflexivity. }
  split.
  - unfold cg_at. rewrite cg_run_S. fold (cg_at (white nn) xc 0). rewrite R0. unfold cg_step. cbn [cg_x cg_r cg_p cg_rs].
    change (0 + 1 mod 5 =? 0) with false. cbn iota. rewrite white_dense, length_white by auto. rewrite Rmax_left by lra.
    intros i Hi. rewrite nth_axpy by auto. pose proof CgProofs.eps_pos. field. lra.
  - intros j Hj. assert (j = 0) as -> by lia. unfold cg_curv. rewrite R0. cbn [cg_p cg_rs]. rewrite white_dense, length_white by auto. auto.
Qed.
Lemma k_reached it cd : 1 <= it -> cg_all_reached (k_opts it cd) k_ref ky it.
Proof.
  intros Hit. unfold cg_all_reached, cg_pair. cbv zeta. intros c x Px. cbn [k_opts with_clamp with_cg plain_opts zero_mean pre] in *.
  apply k_pchan in Px. destruct Px as [-> ->]. change (n_fft (a_len k_ref) (length ky)) with 8.
  change (sdr_acf _ 8 kx) with (stats_acf 8 2 kx). rewrite k_acf. exists 1. split; [auto|].
  apply white_reached; [lia|rewrite length_stats_xcorr; reflexivity|]. pose proof small_eps as S. rewrite <- ky_dot in S. exact S.
Qed.
Lemma k_no_kink it cd : 1 <= it -> cg_no_kink (k_opts it cd) k_ref ky it.
Proof.
  intros Hit. pose proof (k_reached it cd Hit) as H. unfold cg_all_reached, cg_no_kink, cg_pair in *. cbv zeta in *. intros c x Px.
  destruct (H c x Px) as (k & Hk & Hr). set (acf := sdr_acf _ _ _) in *. set (xc := stats_xcorr _ _ _ _) in *.
  assert (Lx : length xc = length acf) by (unfold xc, acf, sdr_acf; apply stats_len).
  pose proof (line_0 acf xc xc Lx) as E0.
  destruct (solve_reached acf _ xc k it (line_vderiv acf xc xc Lx Lx) Hk) as [S _].
  - rewrite E0. exact Hr.
  - rewrite E0 in S. exact S.
Qed.
Lemma k_cell cd v : length v = 3 -> cgc (k_opts 1 cd) 1 3 3 kx (unit_of v) =
  (dotl 2 (stats_xcorr 8 2 kx (unit_of v)) (stats_xcorr 8 2 kx (unit_of v)) ^ 2 /
   Rmax (dotl 2 (stats_xcorr 8 2 kx (unit_of v)) (stats_xcorr 8 2 kx (unit_of v))) cg_eps)%R.
Proof.
  intros Hv. unfold cgc. change (n_fft 3 3) with 8. change (sdr_acf _ 8 kx) with (stats_acf 8 2 kx). rewrite k_acf.
  change (filter_length (k_opts 1 cd)) with 2. unfold sdr_cell, dot_nth. rewrite length_white by lia.
  set (xc := stats_xcorr 8 2 kx (unit_of v)).
  rewrite (Rsum_ext 2 _ (fun l => dotl 2 xc xc / Rmax (dotl 2 xc xc) cg_eps * (nth l xc 0 * nth l xc 0))%R).
  - rewrite Rsum_scal_l. change (Rsum 2 (fun l => nth l xc 0 * nth l xc 0)%R) with (dotl 2 xc xc). unfold Rdiv. ring.
  - intros l Hl. unfold sdr_sol. rewrite white_one by (auto; unfold xc; rewrite ?length_stats_xcorr; auto). unfold Rdiv. ring.
Qed.
Lemma ky_coh cd : mat_of (k_coh 1 cd ky) 0 0 = Fin (2 / 3).
Proof.
  destruct (k_family ky eq_refl) as [W C].
  destruct (coh_chan (k_opts 1 cd) 1 k_ref k_wf eq_refl ltac:(discriminate) k_chans (k_est ky) (k_coh 1 cd ky) 0 0 ky W C
    (k_coh_ok 1 cd ky eq_refl) ltac:(cbv; lia)) as (x & Px & E).
  cbn [k_opts with_clamp with_cg plain_opts zero_mean pre] in Px, E. apply k_pchan in Px. destruct Px as [_ ->].
  rewrite E. f_equal. etransitivity; [apply (k_cell cd ky eq_refl)|]. rewrite ky_dot. pose proof small_eps. rewrite Rmax_left by lra. field.
Qed.
Lemma kz_coh cd : mat_of (k_coh 1 cd kz) 0 0 = Fin 0.
Proof.
  destruct (k_family kz eq_refl) as [W C].
  destruct (coh_chan (k_opts 1 cd) 1 k_ref k_wf eq_refl ltac:(discriminate) k_chans (k_est kz) (k_coh 1 cd kz) 0 0 kz W C
    (k_coh_ok 1 cd kz eq_refl) ltac:(cbv; lia)) as (x & Px & E).
  cbn [k_opts with_clamp with_cg plain_opts zero_mean pre] in Px, E. apply k_pchan in Px. destruct Px as [_ ->].
  rewrite E. f_equal. etransitivity; [apply (k_cell cd kz eq_refl)|].
  replace (dotl 2 (stats_xcorr 8 2 kx (unit_of kz)) (stats_xcorr 8 2 kx (unit_of kz))) with 0%R.
  - unfold Rdiv. ring.
  - symmetry. apply Rsum_zero. intros i Hi. rewrite k_xc by (auto; apply length_unit_of).
    change (nth i (unit_of kz) 0%R) with (smp (unit_of kz) i). rewrite smp_unit_of.
    replace (smp kz i) with 0%R; [ring|]. revert i Hi. apply (two (fun i => _ = _)); reflexivity.
Qed.
Lemma k_loss_coh v : mat_of (k_loss 1 None v) 0 0 = coherence_to_neg_sdr None (mat_of (k_coh 1 None v) 0 0) \/ length v <> 3.
Proof.
  destruct (Nat.eq_dec (length v) 3) as [Hv|]; [|auto]. left.
  destruct (loss_inv _ _ _ _ _ (k_ok 1 None v Hv)) as (m & Em & ->). rewrite to_db_entry.
  rewrite k_coh_ok in Em by auto. injection Em as <-. reflexivity.
Qed.
Lemma ky_loss : exists r, mat_of (k_loss 1 None ky) 0 0 = Fin r.
Proof.
  destruct (k_loss_coh ky) as [E|E]; [|exfalso; apply E; reflexivity]. rewrite E, ky_coh. eexists. apply neg_sdr_fin. lra.
Qed.
Lemma kz_loss : mat_of (k_loss 1 None kz) 0 0 = PInf.
Proof.
  destruct (k_loss_coh kz) as [E|E]; [|exfalso; apply E; reflexivity]. rewrite E, kz_coh. apply neg_sdr_pos_inf. right. eexists. split; [reflexivity|]. lra.
Qed.
(** the direct solver *)
Definition k_lossd (v : list R) : list (list xr) :=
  match pairwise_sdr_loss Torch (clamp_opts 2 30) (k_est v) k_ref with Ok m => m | Raise _ => [] end.
Lemma k_okd v : length v = 3 -> pairwise_sdr_loss Torch (clamp_opts 2 30) (k_est v) k_ref = Ok (k_lossd v).
Proof.
  intros Hv. unfold k_lossd. destruct (pairwise_sdr_loss Torch (clamp_opts 2 30) (k_est v) k_ref) as [m|e] eqn:H; auto. exfalso.
  unfold pairwise_sdr_loss in H. destruct (sdr_coh Torch (clamp_opts 2 30) k_ref (k_est v)) as [m|e'] eqn:E; [discriminate|].
  destruct (sdr_raises_iff Torch (clamp_opts 2 30) k_ref (k_est v) k_wf eq_refl ltac:(simpl; lra) ltac:(simpl; lia)) as [_ [K _]].
  destruct K as (_ & c & x & [Hc Hx] & Hs); [eexists; eassumption|].
  change (c < 1) in Hc. assert (c = 0) as -> by lia. symmetry in Hx. apply (map_Fin_inj kx) in Hx. subst x.
  change (pre (zero_mean (clamp_opts 2 30)) kx) with kx in Hs. specialize (Hs 0). unfold smp, kx in Hs. simpl in Hs. lra.
Qed.
