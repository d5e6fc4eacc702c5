(** * Iterative bss_eval outside the range of the direct one (C64) *)
From Coq Require Import Reals Lra.
From Coquelicot Require Import Complex.
From Verif Require Import Prelude ExtReal Slice Sums Spec SpecSig Fft FftProofs Helpers DbProofs Linalg LinalgProofs
  Cgd Metrics StatsProofs LeastSq PrepProofs MetricsProofs SarProofs ProjTheorems MetricTheorems Invariance Outputs
  CgdOps CgdPrecond CgProofs CgCirc Cells Diag CgTheorems Witness SigExamples CgRate CgRateToep CgRateSdr CgRateExamples
  BlockPrec Solvability BlockCg BlockRate BlockGlue BlockExamples.
Local Open Scope nat_scope.

(** ** Short signals *)
Definition shr (c : nat) : list R := nth c [[1; 0]; [0; 1]]%R [].
Definition short_ref : arr := rarr 2 [shr 0; shr 1].
Theorem short_example : wf short_ref /\ has_chans short_ref shr /\
  2 <= filter_length (plain_opts 2) <= Nat.max (a_len short_ref) (a_len short_ref) /\
  a_len short_ref + filter_length (plain_opts 2) - 1 < filter_length (plain_opts 2) * n_chan short_ref /\
  independent (n_chan short_ref) (a_len short_ref) (fun c => smp (pre (zero_mean (plain_opts 2)) (shr c))).
Proof.
  split; [apply rarr_wf; [lia|repeat constructor]|].
  split; [intros c; apply (two (fun c => nth c (a_chans short_ref) [] = map Fin (shr c))); reflexivity|].
  split; [simpl; lia|]. split; [simpl; lia|].
  change (n_chan short_ref) with 2. change (a_len short_ref) with 2.
  intros g Hg. apply two.
  - pose proof (Hg 0 ltac:(lia)) as H. unfold comb, smp in H. simpl in H. lra.
  - pose proof (Hg 1 ltac:(lia)) as H. unfold comb, smp in H. simpl in H. lra.
Qed.

(** ** The witness: one reference almost, but not quite, orthogonal to the estimate *)
Definition wr (c : nat) : list R := nth c [[1; 0; 0]; [8000; 0; 15999999]]%R [].
Definition wer (d : nat) : list R := nth d [[1; 0; 0]; [1; 0; 0]]%R [].
Definition wref : arr := rarr 3 [wr 0; wr 1].
Definition west : arr := rarr 3 [wer 0; wer 1].
Definition wc : R := (8000 / 16000001)%R.
Definition ws : R := (15999999 / 16000001)%R.
Definition wu (c : nat) : list R := nth c [[1; 0; 0]; [wc; 0; ws]]%R [].
Definition wopt : opts := with_cg (plain_opts 2) (Some 1).

Lemma wc_ws : (wc * wc + ws * ws = 1)%R. Proof. unfold wc, ws. field. Qed.
Lemma wref_wf : wf wref. Proof. apply rarr_wf; [lia|repeat constructor]. Qed.
Lemma west_wf : wf west. Proof. apply rarr_wf; [lia|repeat constructor]. Qed.
Lemma wref_chans : has_chans wref wr.
Proof. intros c. apply (two (fun c => nth c (a_chans wref) [] = map Fin (wr c))); reflexivity. Qed.
Lemma west_chans : has_chans west wer.
Proof. intros c. apply (two (fun c => nth c (a_chans west) [] = map Fin (wer c))); reflexivity. Qed.
Lemma wref_chan c : c < 2 -> has_chan wref c (wr c).
Proof. intros H. split; auto. apply wref_chans; auto. Qed.
Lemma west_chan c : c < 2 -> has_chan west c (wer c).
Proof. intros H. split; auto. apply west_chans; auto. Qed.
Lemma w_nf : n_fft (a_len wref) (a_len west) = 8. Proof. reflexivity. Qed.
Lemma wr_unit c : c < 2 -> unit_of (wr c) = wu c.
Proof.
  revert c. apply (two (fun c => unit_of (wr c) = wu c)).
  - apply unit_of_one, norm2_one. unfold smp; simpl; ring.
  - assert (En : norm2 (wr 1) = 16000001%R).
    { unfold norm2. replace (Rsum _ _) with (16000001 * 16000001)%R by (unfold smp; simpl; ring). apply sqrt_square. lra. }
    unfold unit_of. rewrite gain_norm.
    + rewrite En. simpl. unfold wu, wc, ws. simpl. f_equal; [field|]. f_equal; [ring|]. f_equal. field.
    + rewrite En. pose proof eps_le_1. lra.
Qed.
Lemma wer_unit d : d < 2 -> unit_of (wer d) = wu 0.
Proof.
  revert d. apply (two (fun d => unit_of (wer d) = wu 0)); apply unit_of_one, norm2_one; unfold smp; simpl; ring.
Qed.
Lemma w_rchan c : c < 2 -> rchan (prep_arr false wref) c = wu c.
Proof.
  intros Hc. unfold rchan. pose proof (proj1 (has_chan_pchan false _ _ _ wref_wf (wref_chan c Hc))) as E.
  unfold pchan in E. rewrite E. cbn [opt0 pre]. apply wr_unit. auto.
Qed.
Definition wM (r s : nat) : R := if r =? s then 1%R else wc.
Definition wacf : nat -> nat -> list R := sar_acf 8 2 None (prep_arr false wref).
Lemma w_bmat i r j s : i < 2 -> r < 2 -> j < 2 -> s < 2 ->
  bmat 2 2 wacf (i * 2 + r) (j * 2 + s) = if i =? j then wM r s else 0%R.
Proof.
  intros Hi Hr Hj Hs.
  pose proof (bm_gram 8 2 None (prep_arr false wref) ltac:(lia) ltac:(lia) (i * 2 + r) (j * 2 + s)) as H.
  change (length (prep_arr false wref)) with 2 in H. unfold wacf. rewrite H by (simpl; lia). clear H.
  unfold gram, all_cdelays. rewrite !lag_div, !lag_mod by auto. simpl loadv. rewrite !w_rchan by auto.
  pose proof wc_ws as W.
  revert i Hi r Hr j Hj s Hs.
  apply (two (fun i => forall r, r < 2 -> forall j, j < 2 -> forall s, s < 2 -> _));
  apply (two (fun r => forall j, j < 2 -> forall s, s < 2 -> _));
  apply (two (fun j => forall s, s < 2 -> _)); apply (two (fun s => _ = _));
  unfold dot, cdelayed, wu, wM; simpl; lra.
Qed.
Lemma w_mv v i r : i < 2 -> r < 2 ->
  Rmv 4 (bmat 2 2 wacf) v (i * 2 + r) = Rsum 2 (fun s => wM r s * v (i * 2 + s)%nat)%R.
Proof.
  intros Hi Hr. unfold mulmv. change 4 with (2 * 2). rewrite Rsum_prod. rewrite (Rsum_single 2 i); auto.
  - apply Rsum_ext. intros s Hs. rewrite w_bmat, Nat.eqb_refl by auto. reflexivity.
  - intros j Hj Hne. apply Rsum_zero. intros s Hs. rewrite w_bmat by auto.
    destruct (Nat.eqb_spec i j); [lia|]. ring.
Qed.
Lemma w_ns : nonsingular 4 (bmat 2 2 wacf).
Proof.
  intros v Hv p Hp. destruct (lag_split 2 2 p Hp) as (i & r & Hi & Hr & ->). clear Hp.
  pose proof (Hv (i * 2 + 0) ltac:(lia)) as H0. pose proof (Hv (i * 2 + 1) ltac:(lia)) as H1.
  rewrite w_mv in H0, H1 by auto. rewrite Rsum_S_l, (Rsum_S_l 0) in H0, H1. change (Rsum 0 ?f) with 0%R in H0, H1.
  cbv beta in H0, H1. change (wM 0 0) with 1%R in H0. change (wM 0 1) with wc in H0.
  change (wM 1 0) with wc in H1. change (wM 1 1) with 1%R in H1.
  assert (Hs : (0 < 1 - wc * wc)%R) by (unfold wc; lra).
  assert (A : forall x, ((1 - wc * wc) * x = 0 -> x = 0)%R).
  { intros x Hx. apply Rmult_integral in Hx. destruct Hx; auto; lra. }
  set (a := v (i * 2 + 0)) in *. set (b := v (i * 2 + 1)) in *.
  assert (Ea : a = 0%R).
  { apply A. replace ((1 - wc * wc) * a)%R with ((1 * a + (wc * b + 0)) - wc * (wc * a + (1 * b + 0)))%R by ring.
    rewrite H0, H1. ring. }
  assert (Eb : b = 0%R).
  { apply A. replace ((1 - wc * wc) * b)%R with ((wc * a + (1 * b + 0)) - wc * (1 * a + (wc * b + 0)))%R by ring.
    rewrite H0, H1. ring. }
  revert r Hr. apply (two (fun r => v (i * 2 + r) = 0%R)); auto.
Qed.
Lemma wu_len c : c < 2 -> length (wu c) = 3.
Proof. revert c. apply (two (fun c => length (wu c) = 3)); reflexivity. Qed.
Lemma w_acf c : c < 2 -> stats_acf 8 2 (wu c) = white 2.
Proof.
  intros Hc. apply (list_eq_nth _ _ 0%R); rewrite length_stats_acf; [reflexivity|].
  intros i Hi. change (Nat.min 2 8) with 2 in Hi.
  rewrite stats_acf_plain by (rewrite ?wu_len; auto; lia). pose proof wc_ws as W.
  revert c Hc i Hi. apply (two (fun c => forall i, i < 2 -> _)); apply (two (fun i => _ = _));
    unfold xcorr, smp, wu; simpl; lra.
Qed.
Definition wxc (c : nat) : R := if c =? 0 then 1%R else wc.
Lemma w_xc c l : c < 2 -> l < 2 -> nth l (stats_xcorr 8 2 (wu c) (wu 0)) 0%R = if l =? 0 then wxc c else 0%R.
Proof.
  intros Hc Hl. rewrite stats_xcorr_plain by (rewrite ?wu_len; auto; lia).
  revert c Hc l Hl. apply (two (fun c => forall i, i < 2 -> _)); apply (two (fun i => _ = _));
    unfold xcorr, smp, wu, wxc; simpl; lra.
Qed.
(** one iteration of the single-source solver on a white reference scales the right-hand side *)
Lemma white_one nn xc i : 0 < nn -> length xc = nn -> i < nn ->
  nth i (toeplitz_cg_spec (white nn) xc 1) 0%R = (dotl nn xc xc / Rmax (dotl nn xc xc) cg_eps * nth i xc 0)%R.
Proof.
  intros Hn Hx Hi. set (I := fun i j : nat => if i =? j then 1%R else 0%R).
  assert (HI : forall v p, p < nn -> Rmv nn I v p = v p).
  { intros v p Hp. unfold mulmv. rewrite (Rsum_single nn p); auto; unfold I.
    - rewrite Nat.eqb_refl. ring.
    - intros j _ Hne. destruct (Nat.eqb_spec p j); [lia|ring]. }
  assert (HA : acts_as nn (dense_toeplitz (white nn)) I).
  { intros v p Hv Hp. rewrite white_dense, HI by auto. reflexivity. }
  assert (HP : acts_as nn (circ_prec (white nn)) I).
  { intros v p Hv Hp. rewrite white_prec, HI by auto. reflexivity. }
  pose proof (ep_step nn (dense_toeplitz (white nn)) (circ_prec (white nn)) I I xc (repeat 0%R nn) (smp xc) HA HP
    (repeat_length _ _) (fun v Hv => eq_trans (f_equal (@length R) (white_prec nn v Hn Hv)) Hv)
    (fun p Hp => HI _ p Hp) (fun v p Hp => eq_trans (HI _ p Hp) (HI v p Hp)) i Hi) as H.
  unfold toeplitz_cg_spec, conjugate_gradient. rewrite length_white by auto. unfold smp at 1 in H.
  rewrite H. clear H. unfold smp at 1. rewrite nth_repeat.
  assert (F : form nn I (fun i => smp xc i - smp (repeat 0 nn) i)%R (fun i => smp xc i - smp (repeat 0 nn) i)%R = dotl nn xc xc).
  { unfold form, dotl. apply Rsum_ext. intros p Hp. rewrite HI by auto. unfold smp. rewrite nth_repeat. ring. }
  unfold Rdiv at 1. rewrite F. unfold smp. rewrite nth_repeat. unfold Rdiv. ring.
Qed.
Definition wa : R := (wc * wc / cg_eps)%R.
Lemma w_small : (0 < wc * wc < cg_eps)%R.
Proof. unfold wc, cg_eps. simpl. lra. Qed.
Lemma wa_range : (0 < wa < 1)%R.
Proof.
  pose proof w_small as [H1 H2]. unfold wa, Rdiv. split.
  - apply Rmult_lt_0_compat; [lra|apply Rinv_0_lt_compat; lra].
  - apply (Rmult_lt_reg_r cg_eps); [lra|]. rewrite Rmult_assoc, Rinv_l; lra.
Qed.
Lemma w_dot c : c < 2 -> dotl 2 (stats_xcorr 8 2 (wu c) (wu 0)) (stats_xcorr 8 2 (wu c) (wu 0)) = (wxc c * wxc c)%R.
Proof.
  intros Hc. unfold dotl. rewrite Rsum_S_l, (Rsum_S_l 0). change (Rsum 0 ?f) with 0%R. cbv beta.
  rewrite !w_xc by (auto; lia). simpl. ring.
Qed.
Definition wg (c : nat) : R := if c =? 0 then 1%R else wa.
Lemma w_sol c l : c < 2 -> l < 2 ->
  nth l (toeplitz_cg_spec (white 2) (stats_xcorr 8 2 (wu c) (wu 0)) 1) 0%R = if l =? 0 then (wg c * wxc c)%R else 0%R.
Proof.
  intros Hc Hl. rewrite white_one by (auto; apply length_stats_xcorr). rewrite w_dot, w_xc by auto.
  pose proof w_small as [H1 H2]. assert (He : (cg_eps <= 1)%R) by (unfold cg_eps; simpl; lra).
  destruct (l =? 0); [|ring]. f_equal. revert c Hc. apply (two (fun c => _ = wg c)); unfold wxc, wg; simpl.
  - rewrite Rmax_left by lra. field.
  - rewrite Rmax_right by lra. reflexivity.
Qed.
(** the SDR coherences *)
Lemma w_sdr b m c d : c < 2 -> d < 2 -> sdr_coh b wopt wref west = Ok m ->
  mat_of m c d = Fin (wg c * (wxc c * wxc c)).
Proof.
  intros Hc Hd H.
  pose proof (proj1 (has_chan_pchan false _ _ _ wref_wf (wref_chan c Hc))) as Px.
  pose proof (proj1 (has_chan_pchan false _ _ _ west_wf (west_chan d Hd))) as Py.
  cbn [pre] in Px, Py. rewrite wr_unit in Px by auto. rewrite wer_unit in Py by auto.
  pose proof (cg_entry b wopt 1 wref west m c d (wu c) (wu 0) eq_refl ltac:(simpl; lia) Px Py H) as E.
  cbv zeta in E. rewrite w_nf in E. unfold sdr_acf in E. cbn [filter_length load_diag wopt with_cg plain_opts add_load] in E.
  rewrite w_acf in E by auto. rewrite E. f_equal. unfold sdr_cell. change (length (white 2)) with 2.
  unfold dot_nth, sdr_sol. rewrite Rsum_S_l, (Rsum_S_l 0). change (Rsum 0 ?f) with 0%R. cbv beta.
  rewrite !w_sol, !w_xc by (auto; lia). simpl. ring.
Qed.
(** the SAR coherence *)
Definition wq : R := (1 + wa * wc ^ 2 * (1 - wa ^ 2 * wc ^ 2 / cg_eps))%R.
Lemma wq_gt : (1 < wq)%R.
Proof.
  unfold wq. pose proof w_small as [H1 H2]. pose proof wa_range as [A1 A2].
  assert (H : (wa ^ 2 * wc ^ 2 / cg_eps < 1)%R).
  { replace (wa ^ 2 * wc ^ 2 / cg_eps)%R with (wa ^ 2 * wa)%R by (unfold wa, Rdiv; ring). simpl. nra. }
  assert (0 < wa * wc ^ 2 * (1 - wa ^ 2 * wc ^ 2 / cg_eps))%R; [|lra].
  apply Rmult_lt_0_compat; [|lra]. apply Rmult_lt_0_compat; simpl; lra.
Qed.
Lemma w_start l c : l < 2 -> c < 2 ->
  smp (sar_start true 1 8 2 None (prep_arr false wref) (wu 0)) (l * 2 + c) = if l =? 0 then (wg c * wxc c)%R else 0%R.
Proof.
  intros Hl Hc. pose proof (start_entry 8 2 1 None (prep_arr false wref) (wu 0) l c Hl Hc) as H.
  change (length (prep_arr false wref)) with 2 in H. rewrite H. cbn [add_load]. rewrite w_rchan, w_acf by auto.
  apply w_sol; auto.
Qed.
Lemma w_sxc l c : l < 2 -> c < 2 ->
  nth (l * 2 + c) (sar_xc 8 2 (prep_arr false wref) (wu 0)) 0%R = if l =? 0 then wxc c else 0%R.
Proof.
  intros Hl Hc. unfold sar_xc. change (length (prep_arr false wref)) with 2. change (Nat.min 2 8) with 2.
  rewrite nth_flatten by auto. rewrite w_rchan by auto. apply w_xc; auto.
Qed.
Definition wxs (p : nat) : R := if p =? 0 then 1%R else 0%R.
Lemma w_normal p : p < 4 -> Rmv 4 (bmat 2 2 wacf) wxs p = nth p (sar_xc 8 2 (prep_arr false wref) (wu 0)) 0%R.
Proof.
  intros Hp. destruct (lag_split 2 2 p Hp) as (i & r & Hi & Hr & ->). clear Hp. rewrite w_mv, w_sxc by auto.
  revert i Hi r Hr. apply (two (fun i => forall r, r < 2 -> _)); apply (two (fun i => _ = _));
  unfold wxs, wM, wxc; simpl; ring.
Qed.
Lemma w_form : let w := fun i => (wxs i - smp (sar_start true 1 8 2 None (prep_arr false wref) (wu 0)) i)%R in
  (forall l c, l < 2 -> c < 2 -> w (l * 2 + c) = if (l =? 0) && (c =? 1) then (- (wa * wc))%R else 0%R) /\
  form 4 (bmat 2 2 wacf) w w = (wa ^ 2 * wc ^ 2)%R.
Proof.
  intros w. assert (Hw : forall l c, l < 2 -> c < 2 -> w (l * 2 + c) = if (l =? 0) && (c =? 1) then (- (wa * wc))%R else 0%R).
  { intros l c Hl Hc. unfold w. rewrite w_start by auto. revert l Hl c Hc.
    apply (two (fun l => forall c, c < 2 -> _)); apply (two (fun c => _ = _)); unfold wxs, wg, wxc; simpl; ring. }
  split; auto. unfold form. change 4 with (2 * 2) at 1. rewrite Rsum_prod.
  rewrite (Rsum_ext 2 _ (fun l => Rsum 2 (fun c => w (l * 2 + c)%nat * Rsum 2 (fun s => wM c s * w (l * 2 + s)%nat)))%R).
  2:{ intros l Hl. apply Rsum_ext. intros c Hc. rewrite w_mv by auto. reflexivity. }
  repeat rewrite Rsum_S_l. change (Rsum 0 ?f) with 0%R. cbv beta.
  rewrite !Hw by lia. unfold wM. simpl. ring.
Qed.
Lemma w_sar b m s d : d < 2 -> sq_cos b wopt wref west = Ok (m, s) -> nth d s NaN = Fin wq.
Proof.
  intros Hd H. apply sq_cos_row in H; [|simpl; lia|apply wref_wf]. destruct H as [_ H].
  rewrite w_nf in H. cbn [use_cg_iter filter_length load_diag zero_mean wopt with_cg plain_opts] in H.
  rewrite sar_row_cells in H by lia.
  pose proof (gl_clean (plain_opts 2) wref wr wref_wf wref_chans) as Hcl.
  change (existsb tainted (prep_arr false wref) = false) in Hcl. rewrite Hcl in H.
  pose proof (cg_ready 8 2 None (prep_arr false wref) ltac:(lia) ltac:(lia) ltac:(simpl; lra) 1 w_ns) as Hr.
  rewrite Hr in H. cbn [bind] in H. injection H as <-.
  pose proof (proj1 (has_chan_pchan false _ _ _ west_wf (west_chan d Hd))) as Py. unfold pchan in Py.
  cbn [pre] in Py. rewrite wer_unit in Py by auto.
  set (f := sar_cell _ _ _ _ _ _ _).
  change (nth d (map (vcell f) (prep_arr false west)) NaN = Fin wq).
  rewrite (nth_indep _ NaN (vcell f None)) by (rewrite map_length, length_prep; exact Hd).
  rewrite map_nth, Py. cbn [vcell]. f_equal. unfold f, sar_cell, dot_nth, sar_sol.
  change (length (prep_arr false wref)) with 2. change (2 * 2) with 4.
  set (x0 := sar_start true 1 8 2 None (prep_arr false wref) (wu 0)).
  pose proof (lr_step 8 2 None (prep_arr false wref) wM ltac:(lia) ltac:(lia) ltac:(simpl; lra) w_ns w_bmat
    (wu 0) x0 wxs (start_len 8 2 1 None (prep_arr false wref) (wu 0) true) w_normal) as Hs.
  cbv zeta in Hs. change (length (prep_arr false wref)) with 2 in Hs. change (2 * 2) with 4 in Hs.
  destruct w_form as [Hw Hf]. cbv zeta in Hf. fold wacf x0 in Hs, Hf, Hw. 
  change (2 * length (prep_arr false wref)) with 4 in Hs.
  rewrite Hf in Hs.
  assert (Hm : Rmax (wa ^ 2 * wc ^ 2) cg_eps = cg_eps).
  { apply Rmax_right. pose proof w_small as W. pose proof wa_range as A.
    assert (H1 : (wa ^ 2 <= 1)%R) by (simpl; generalize dependent wa; intros; nra).
    assert (H0 : (0 <= wa ^ 2)%R) by apply pow2_ge_0.
    replace (wc ^ 2)%R with (wc * wc)%R by ring. generalize dependent (wa ^ 2)%R. generalize dependent (wc * wc)%R.
    generalize cg_eps. intros; nra. }
  rewrite Hm in Hs. clear Hm Hf.
  rewrite (Rsum_ext 4 _ (fun p => nth p (sar_xc 8 2 (prep_arr false wref) (wu 0)) 0 *
    (smp x0 p + wa ^ 2 * wc ^ 2 / cg_eps * (wxs p - smp x0 p)))%R).
  2:{ intros p Hp. rewrite <- (Hs p Hp). reflexivity. }
  change 4 with (2 * 2). rewrite Rsum_prod.
  rewrite (Rsum_ext 2 _ (fun l => Rsum 2 (fun c => (if l =? 0 then wxc c else 0) * ((if l =? 0 then wg c * wxc c else 0) +
    wa ^ 2 * wc ^ 2 / cg_eps * (if (l =? 0) && (c =? 1) then - (wa * wc) else 0))))%R).
  2:{ intros l Hl. apply Rsum_ext. intros c Hc. rewrite w_sxc, Hw by auto. unfold x0. rewrite w_start by auto. reflexivity. }
  repeat rewrite Rsum_S_l. change (Rsum 0 ?f) with 0%R. cbv beta.
  unfold wxc, wg, wq. simpl. unfold Rdiv. ring.
Qed.
Lemma w_ok b : is_ok (sq_cos b wopt wref west).
Proof.
  apply (block_cg_raises b (plain_opts 2) 1 wref west wr wref_wf west_wf eq_refl ltac:(simpl; lia) wref_chans).
  change (n_chan wref) with 2. change (a_len wref) with 3.
  intros g Hg. pose proof (Hg 0 ltac:(lia)) as H0. pose proof (Hg 2 ltac:(lia)) as H2.
  unfold comb, smp in H0, H2. simpl in H0, H2. apply two; lra.
Qed.
(** C20/C64: the SAR coherence of the iterative solver can exceed 1 *)
Theorem sar_above_one b : exists m s q, sq_cos b wopt wref west = Ok (m, s) /\ nth 0 s NaN = Fin q /\ (1 < q)%R.
Proof.
  destruct (w_ok b) as [[m s] H]. exists m, s, wq. split; auto. split; [apply (w_sar b m s 0); auto; lia|apply wq_gt].
Qed.
(** C21/C64: with the iterative solver the SDR can exceed the SIR *)
Theorem cg_order_fails b sp : lsa_contract sp ->
  exists s i a perm, bss_eval_sources b sp wopt wref west = Ok (s, i, a, perm) /\
    ~ le_out s i.
Proof.
  intros Hsp. destruct (w_ok b) as [[m sar] Hm].
  pose proof (sq_cos_row b wopt wref west m sar ltac:(simpl; lia) wref_wf Hm) as [Hsdr _].
  assert (E0 : forall d, d < 2 -> mat_of m 0 d = Fin 1).
  { intros d Hd. rewrite (w_sdr b m 0 d) by (auto; lia). f_equal. unfold wg, wxc. simpl. ring. }
  assert (E1 : forall d, d < 2 -> mat_of m 1 d = Fin (wa * (wc * wc))).
  { intros d Hd. rewrite (w_sdr b m 1 d) by (auto; lia). reflexivity. }
  pose proof wq_gt as Hq. pose proof w_small as [S1 S2]. pose proof wa_range as [A1 A2].
  assert (He : (cg_eps <= 1)%R) by (unfold cg_eps; simpl; lra).
  assert (Hdiv : forall r, (0 < r <= 1)%R -> (0 < r / wq < 1)%R).
  { intros r Hr. unfold Rdiv. split; [apply Rmult_lt_0_compat; [lra|apply Rinv_0_lt_compat; lra]|].
    apply (Rmult_lt_reg_r wq); [lra|]. rewrite Rmult_assoc, Rinv_l; lra. }
  assert (Hx : forall r, xdiv (Fin r) (Fin wq) = Fin (r / wq)).
  { intros r. unfold xdiv, Reqb. destruct (Req_EM_T wq 0); [lra|reflexivity]. }
  pose proof (bss_optimal b sp wopt wref west (m, sar) Hsp Hm) as Hopt.
  assert (Hi0 : forall d, d < 2 -> snd (fst (bss_mats wopt (m, sar))) 0 d = Fin (gdb (1 / wq))).
  { intros d Hd. cbn [bss_mats fst snd]. unfold base_metrics. cbn [fst snd]. rewrite E0, (w_sar b m sar d), Hx by auto.
    apply neg_sdr_fin, Hdiv. lra. }
  assert (Hi1 : forall d, d < 2 -> snd (fst (bss_mats wopt (m, sar))) 1 d = Fin (gdb (wa * (wc * wc) / wq))).
  { intros d Hd. cbn [bss_mats fst snd]. unfold base_metrics. cbn [fst snd]. rewrite E1, (w_sar b m sar d), Hx by auto.
    apply neg_sdr_fin, Hdiv. nra. }
  assert (Hs0 : forall d, d < 2 -> fst (fst (bss_mats wopt (m, sar))) 0 d = NInf).
  { intros d Hd. cbn [bss_mats fst snd]. unfold base_metrics. cbn [fst snd]. rewrite E0 by auto.
    apply neg_sdr_neg_inf. right. exists 1%R. split; auto. lra. }
  pose proof (bss_outputs b sp wopt wref west) as Hout.
  destruct (bss_mats wopt (m, sar)) as [[nsdr nsir] nsar] eqn:Em. cbn [fst snd] in *.
  destruct Hopt as (s & i & a & perm & Es & _).
  { intros c d Hc Hd. change (n_chan wref) with 2 in Hc. change (n_chan west) with 2 in Hd.
    revert c Hc. apply (two (fun c => is_fin (nsir c d) = true)); rewrite ?Hi0, ?Hi1 by auto; reflexivity. }
  exists s, i, a, perm. split; auto. intros [_ Hle].
  destruct (Hout s i a perm Hsp Es) as (c' & E' & Hv). assert (c' = (m, sar)) by congruence. subst c'.
  rewrite Em in Hv. destruct Hv as (Hc & Hlen & Hnd & Hr & Hs & Hi & Ha).
  change (n_chan wref) with 2 in *. change (n_chan west) with 2 in *.
  destruct perm as [|p0 [|p1 [|p2 perm]]]; try (simpl in Hlen; discriminate).
  assert (H0 : p0 < 2) by (apply (Hr p0); simpl; auto).
  unfold matching in Hs, Hi. simpl in Hs, Hi. unfold pair_at in Hs, Hi. simpl in Hs, Hi. unfold at_pair in Hs, Hi.
  cbn [fst snd] in Hs, Hi. subst s i. specialize (Hle 0 ltac:(simpl; lia)). cbn [nth] in Hle.
  rewrite Hs0, Hi0 in Hle by auto. discriminate Hle.
Qed.

(** ** Instances for the rate theorems *)
Theorem ex_block_between b : n_fft (a_len ex_ref) (a_len ex_est) = 16 /\
  block_between b 2 2 (sar_acf 16 2 None (prep_arr false ex_ref)) 1 1 /\ is_ok (sq_cos b (with_cg (plain_opts 2) None) ex_ref ex_est).
Proof.
  split; [reflexivity|]. split; [|apply ex_sq_cos_ok].
  pose proof (block_between_iff b 16 2 None (prep_arr false ex_ref) ltac:(lia) ltac:(lia) ltac:(simpl; lra) ex_T_ns 1 1) as H.
  change (length (prep_arr false ex_ref)) with 2 in H. apply H. clear H. intros u.
  set (T := bmat 2 2 _). set (Q := pmat 2 2 _). change (2 * 2) with 4.
  assert (HQ : forall v p, p < 4 -> Rmv 4 Q v p = v p).
  { intros v p Hp.
    pose proof (lr_inverse 16 2 None (prep_arr false ex_ref) (fun r s => if r =? s then 1 else 0)%R ltac:(lia) ltac:(lia)
      ltac:(simpl; lra) ex_T_ns ex_bmat v p Hp) as I.
    change (length (prep_arr false ex_ref)) with 2 in I. change (2 * 2) with 4 in I. fold T Q in I.
    rewrite <- I. apply Rsum_ext. intros q Hq. unfold T. rewrite ex_T_id by auto. reflexivity. }
  assert (E : form 4 T (Rmv 4 Q u) (Rmv 4 Q u) = form 4 Q u u).
  { unfold form. apply Rsum_ext. intros p Hp. unfold T. rewrite ex_T_id by auto. rewrite !HQ by auto. ring. }
  rewrite E. lra.
Qed.
Theorem ex_block_load b it : is_ok (sq_cos b (with_cg ex_load (Some it)) ex_ref ex_est) /\
  is_ok (sq_cos b (with_cg ex_load None) ex_ref ex_est) /\ has_chans ex_ref exr /\ has_chan ex_est 1 (exe 1).
Proof.
  split; [|split; [|split; [apply ex_ref_chans|apply ex_est_chan; lia]]].
  - apply (block_cg_loaded b ex_load it ex_ref ex_est exr ex_ref_wf ex_est_wf ltac:(simpl; lra) ltac:(simpl; lia) ex_ref_chans).
  - apply (bss_loaded_ok b (with_cg ex_load None) ex_ref ex_est exr ex_ref_wf ex_est_wf eq_refl); [simpl; lra|simpl; lia|simpl; lia|apply ex_ref_chans].
Qed.

Lemma w_all : wf wref /\ wf west /\
  (forall c, c < n_chan wref -> exists x, has_chan wref c x) /\ (forall d, d < n_chan west -> exists y, has_chan west d y).
Proof.
  split; [apply wref_wf|]. split; [apply west_wf|].
  split; intros c Hc; eexists; [apply wref_chan|apply west_chan]; exact Hc.
Qed.
Theorem sar_range_fails b : exists ref est m s q, wf ref /\ wf est /\
  (forall c, c < n_chan ref -> exists x, has_chan ref c x) /\ (forall d, d < n_chan est -> exists y, has_chan est d y) /\
  sq_cos b wopt ref est = Ok (m, s) /\ nth 0 s NaN = Fin q /\ (1 < q)%R.
Proof.
  destruct w_all as (A & B & C & D). destruct (sar_above_one b) as (m & s & q & H & E & Q).
  exists wref, west, m, s, q. auto 9.
Qed.
Theorem order_fails b sp : lsa_contract sp -> exists ref est s i a perm, wf ref /\ wf est /\
  (forall c, c < n_chan ref -> exists x, has_chan ref c x) /\ (forall d, d < n_chan est -> exists y, has_chan est d y) /\
  bss_eval_sources b sp wopt ref est = Ok (s, i, a, perm) /\ ~ le_out s i.
Proof.
  intros Hsp. destruct w_all as (A & B & C & D). destruct (cg_order_fails b sp Hsp) as (s & i & a & perm & H & E).
  exists wref, west, s, i, a, perm. auto 9.
Qed.
