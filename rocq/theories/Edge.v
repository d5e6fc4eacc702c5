(** * Edge cases: non-finite samples, orthogonal estimates, filters longer than the FFT (C32, C37, C44) *)
From Coq Require Import Reals Lra.
From Coquelicot Require Import Complex.
From Verif Require Import Prelude ExtReal Slice Sums SpecSig Fft Helpers HelpersProofs PermProofs DbProofs Linalg
  LinalgProofs Cgd Metrics StatsProofs LeastSq PrepProofs MetricsProofs SarProofs ProjTheorems MetricTheorems
  CgdOps CgdPrecond Cells Diag Outputs.
Local Open Scope nat_scope.

(** ** Non-finite samples *)
(** some sample of channel c is NaN or infinite *)
Definition nonfinite (a : arr) (c : nat) : Prop :=
  c < n_chan a /\ exists i, i < a_len a /\ is_fin (nth i (nth c (a_chans a) []) (Fin 0)) = false.

Lemma pchan_nonfinite zm a c : wf a -> c < n_chan a -> (pchan zm a c = None <-> nonfinite a c).
Proof.
  intros Hw Hc. rewrite pchan_nth by auto. pose proof (wf_nth a c Hw Hc) as Hl.
  assert (Hp : 0 < length (nth c (a_chans a) [])) by (rewrite Hl; apply Hw).
  rewrite (prep_none_iff zm _ Hp), Hl. unfold nonfinite. firstorder.
Qed.

Lemma sdr_coh_nan b o ref est m c d : sdr_coh b o ref est = Ok m -> c < n_chan ref -> d < n_chan est ->
  (mat_of m c d = NaN <-> pchan (zero_mean o) ref c = None \/ pchan (zero_mean o) est d = None).
Proof.
  intros H Hc Hd.
  assert (HC : c < length (prep_arr (zero_mean o) ref)) by (rewrite length_prep; auto).
  assert (HD : d < length (prep_arr (zero_mean o) est)) by (rewrite length_prep; auto).
  destruct (Nat.eq_dec (filter_length o) 1) as [E1|N1].
  - unfold sdr_coh in H. rewrite E1 in H. simpl Nat.eqb in H. cbn iota in H.
    destruct (bc_len b (a_len ref) (a_len est)) as [n|]; [|discriminate]. cbn [bind] in H. injection H as <-.
    unfold len1_sdr. rewrite (mat_of_map2 (fun x y => lift2 (fun a b0 => ip n a b0 ^ 2)%R x y)) by auto.
    unfold pchan. destruct (nth c (prep_arr (zero_mean o) ref) None), (nth d (prep_arr (zero_mean o) est) None);
      simpl; split; auto; try discriminate. intros [X|X]; discriminate.
  - rewrite sdr_coh_entries in H by auto.
    match type of H with bind ?r _ = _ => destruct r as [u|]; [|discriminate] end.
    cbn [bind] in H. injection H as <-. rewrite mat_of_map2 by auto. unfold pchan, pair_cell, vcell.
    destruct (nth c (prep_arr (zero_mean o) ref) None), (nth d (prep_arr (zero_mean o) est) None);
      simpl; split; auto; try discriminate. intros [X|X]; discriminate.
Qed.

(** C37, losses: NaN exactly in the rows and columns of the affected channels. *)
Theorem loss_nan_iff b o ref est m c d : wf ref -> wf est ->
  pairwise_sdr_loss b o est ref = Ok m -> c < n_chan ref -> d < n_chan est ->
  (mat_of m c d = NaN <-> nonfinite ref c \/ nonfinite est d).
Proof.
  intros Hwr Hwe H Hc Hd. unfold pairwise_sdr_loss in H.
  destruct (sdr_coh b o ref est) as [m0|] eqn:E; [|discriminate]. cbn [bind] in H. injection H as <-.
  rewrite mat_of_to_db, neg_sdr_no_nan, (sdr_coh_nan b o ref est m0 c d E Hc Hd).
  rewrite !pchan_nonfinite by auto. reflexivity.
Qed.
(** C37, sdr *)
Theorem sdr_nonfinite b sp o cs ref est c d : wf ref -> wf est -> c < n_chan ref -> d < n_chan est ->
  nonfinite ref c \/ nonfinite est d ->
  exists e, sdr b sp o cs ref est = Raise e /\
    (is_ok (pairwise_sdr_loss b o est ref) -> e = ValueError).
Proof.
  intros Hwr Hwe Hc Hd Hn. unfold sdr.
  destruct (pairwise_sdr_loss b o est ref) as [m|e] eqn:E.
  - exists ValueError. split; auto. cbn [bind].
    rewrite (solve_perm_nan sp b _ _ (mat_of m) [] c d Hc Hd); auto.
    apply (loss_nan_iff b o ref est m c d); auto.
  - exists e. split; auto. intros (x & X). discriminate.
Qed.
(** C37, bss_eval_sources *)
Theorem bss_nonfinite b sp o ref est c d : wf ref -> wf est -> 0 < filter_length o ->
  c < n_chan ref -> d < n_chan est ->
  nonfinite ref c \/ nonfinite est d ->
  exists e, bss_eval_sources b sp o ref est = Raise e /\
    (is_ok (sq_cos b o ref est) -> e = ValueError).
Proof.
  intros Hwr Hwe HL Hc Hd Hn. unfold bss_eval_sources.
  destruct (sq_cos b o ref est) as [[m sar]|e] eqn:E.
  - exists ValueError. split; auto. cbn [bind]. simpl bss_mats. cbv beta iota zeta.
    rewrite (solve_perm_nan sp b _ _ _ _ c d Hc Hd); auto.
    simpl. apply neg_sdr_no_nan.
    pose proof (sq_cos_sdr b o ref est HL (sq_cos_bound _ _ _ _ _ HL E) m sar E) as Hs.
    assert (Hm : mat_of m c d = NaN).
    { apply (sdr_coh_nan b o ref est m c d Hs Hc Hd). rewrite !pchan_nonfinite by auto. auto. }
    rewrite Hm. reflexivity.
  - exists e. split; auto. intros (x & X). discriminate.
Qed.

(** ** Estimates orthogonal to the shifted references (C32) *)
Definition orthogonal_to (L : nat) (x y : list R) : Prop := forall l, l < L -> xcorr x y l = 0%R.

Lemma xcorr_unit x y l : xcorr (unit_of x) (unit_of y) l = (gain x * gain y * xcorr x y l)%R.
Proof.
  unfold xcorr. rewrite length_unit_of, <- Rsum_scal_l. apply Rsum_ext. intros t _.
  rewrite !smp_unit_of. ring.
Qed.
Lemma xcorr_silent x y l : silent y -> xcorr x y l = 0%R.
Proof. intros H. unfold xcorr. apply Rsum_zero. intros t _. rewrite H. ring. Qed.
Lemma orth_unit L x y : orthogonal_to L x y -> orthogonal_to L (unit_of x) (unit_of y).
Proof. intros H l Hl. rewrite xcorr_unit, H by auto. ring. Qed.
Lemma orth_stats lx ly L x y l : length x = lx -> 0 < lx -> L <= Nat.max lx ly ->
  orthogonal_to L x y -> nth l (stats_xcorr (n_fft lx ly) L x y) 0%R = 0%R.
Proof.
  intros Hx Hp HL Ho. pose proof (n_fft_ge lx ly Hp). destruct (Nat.lt_ge_cases l L).
  - rewrite stats_xcorr_plain by lia. auto.
  - apply nth_overflow. rewrite length_stats_xcorr. lia.
Qed.

Theorem orth_coh b o ref est m c d x y : wf ref -> wf est ->
  1 <= filter_length o <= Nat.max (a_len ref) (a_len est) ->
  (filter_length o = 1 -> a_len ref = a_len est) ->
  has_chan ref c x -> has_chan est d y ->
  orthogonal_to (filter_length o) (pre (zero_mean o) x) (pre (zero_mean o) y) ->
  sdr_coh b o ref est = Ok m -> mat_of m c d = Fin 0.
Proof.
  intros Hwr Hwe HL HL1 Hx Hy Ho H.
  destruct (has_chan_pchan (zero_mean o) ref c x Hwr Hx) as [Px Lx].
  destruct (has_chan_pchan (zero_mean o) est d y Hwe Hy) as [Py Ly].
  apply orth_unit in Ho.
  assert (HC : c < length (prep_arr (zero_mean o) ref)) by (rewrite length_prep; apply Hx).
  assert (HD : d < length (prep_arr (zero_mean o) est)) by (rewrite length_prep; apply Hy).
  assert (Hlx : length (unit_of (pre (zero_mean o) x)) = a_len ref)
    by (rewrite length_unit_of, length_pre; auto).
  destruct (Nat.eq_dec (filter_length o) 1) as [E1|N1].
  - rewrite (sdr_entry1 b o ref est m c d _ _ Hwr Hwe H E1 (HL1 E1) Px Py). f_equal.
    assert (E0 : dot (a_len ref) (smp (unit_of (pre (zero_mean o) x))) (smp (unit_of (pre (zero_mean o) y))) = 0%R).
    { rewrite <- (Ho 0) by lia. unfold xcorr. rewrite Hlx. apply Rsum_ext. intros t _.
      rewrite Nat.add_0_r. reflexivity. }
    rewrite E0. ring.
  - rewrite sdr_coh_entries in H by auto.
    match type of H with bind ?r _ = _ => destruct r as [u|]; [|discriminate] end.
    cbn [bind] in H. injection H as <-. rewrite mat_of_map2 by auto.
    unfold pchan in Px, Py. rewrite Px, Py. unfold pair_cell, vcell. f_equal.
    unfold sdr_cell, dot_nth. apply Rsum_zero. intros l _.
    rewrite orth_stats; auto; [ring|apply Hwr|apply HL].
Qed.
(** value in decibels of a zero coherence *)
Definition worst_loss (o : opts) : xr := match clamp_db o with None => PInf | Some D => Fin D end.
Lemma worst_loss_coh o : (forall D, clamp_db o = Some D -> 0 <= D)%R ->
  coherence_to_neg_sdr (clamp_db o) (Fin 0) = worst_loss o.
Proof.
  unfold worst_loss. destruct (clamp_db o) as [D|]; intros H.
  - apply clamp_low. auto.
  - apply neg_sdr_pos_inf. right. exists 0%R. split; auto. apply Rle_refl.
Qed.
Theorem orth_loss b o ref est m c d x y : wf ref -> wf est ->
  1 <= filter_length o <= Nat.max (a_len ref) (a_len est) ->
  (filter_length o = 1 -> a_len ref = a_len est) ->
  (forall D, clamp_db o = Some D -> 0 <= D)%R ->
  has_chan ref c x -> has_chan est d y ->
  orthogonal_to (filter_length o) (pre (zero_mean o) x) (pre (zero_mean o) y) ->
  pairwise_sdr_loss b o est ref = Ok m -> mat_of m c d = worst_loss o.
Proof.
  intros Hwr Hwe HL HL1 HD Hx Hy Ho H. unfold pairwise_sdr_loss in H.
  destruct (sdr_coh b o ref est) as [m0|] eqn:E; [|discriminate]. cbn [bind] in H. injection H as <-.
  rewrite mat_of_to_db. rewrite (orth_coh b o ref est m0 c d x y); auto. apply worst_loss_coh; auto.
Qed.

Lemma lsq_orth K M a lam y q : (forall i, i < K -> dot M (a i) y = 0%R) -> lsq K M a lam y q -> q = 0%R.
Proof. intros H (h & _ & ->). apply Rsum_zero. intros i Hi. rewrite H by auto. ring. Qed.

Theorem orth_sar b o ref est m sar d xs y : wf ref -> wf est ->
  1 <= filter_length o <= Nat.max (a_len ref) (a_len est) ->
  (filter_length o = 1 -> a_len ref = a_len est) ->
  has_chans ref xs -> has_chan est d y ->
  (forall c, c < n_chan ref ->
     orthogonal_to (filter_length o) (pre (zero_mean o) (xs c)) (pre (zero_mean o) y)) ->
  sq_cos b o ref est = Ok (m, sar) -> nth d sar NaN = Fin 0.
Proof.
  intros Hwr Hwe HL HL1 Hx Hy Ho H.
  destruct (has_chan_pchan (zero_mean o) est d y Hwe Hy) as [Py Ly].
  pose proof (has_chans_clean (zero_mean o) ref xs Hwr Hx) as Hcl.
  assert (Hpos : 0 < a_len ref) by apply Hwr.
  assert (Hlx : forall c, c < n_chan ref -> length (unit_of (pre (zero_mean o) (xs c))) = a_len ref).
  { intros c Hc. rewrite length_unit_of, length_pre.
    apply (has_chan_pchan (zero_mean o) ref c (xs c) Hwr). apply has_chans_at; auto. }
  destruct (Nat.eq_dec (filter_length o) 1) as [E1|N1].
  - destruct (sar_entry1 b o ref est m sar d _ Hwr Hwe H E1 (HL1 E1) Hcl (proj1 Hy) Py) as (q & Hq & Eq).
    rewrite Eq. f_equal. apply (lsq_orth _ _ _ _ _ _) in Hq; auto. intros c Hc.
    rewrite (has_chans_pc _ _ _ _ Hwr Hx Hc).
    rewrite <- (orth_unit _ _ _ (Ho c Hc) 0) by lia. unfold xcorr. rewrite (Hlx c Hc). apply Rsum_ext.
    intros t _. rewrite Nat.add_0_r. reflexivity.
  - assert (H2 : 2 <= filter_length o) by lia.
    pose proof (n_fft_ge (a_len ref) (a_len est) Hpos) as Hnf.
    rewrite sq_cos_cells in H by lia.
    destruct (sdr_coh b o ref est) as [m0|]; [|discriminate]. cbn [bind] in H.
    rewrite sar_row_cells in H by lia.
    apply clean_tainted in Hcl as HT. rewrite HT in H.
    destruct (sar_ready (use_cg_iter o) (n_fft (a_len ref) (a_len est)) (filter_length o) (load_diag o)
      (prep_arr (zero_mean o) ref)) as [inv|]; [|discriminate]. cbn [bind] in H. injection H as _ <-.
    match goal with |- nth d (map ?f ?l) NaN = _ =>
      rewrite (nth_indep (map f l) NaN (f None)) by (rewrite map_length, length_prep; apply Hy);
      rewrite (map_nth f l) end.
    unfold pchan in Py. rewrite Py. unfold vcell. f_equal. unfold sar_cell, dot_nth. apply Rsum_zero.
    intros p Hp. rewrite length_prep in *. destruct (lag_split _ _ _ Hp) as (l & c & Hl & Hc & ->).
    unfold sar_xc. rewrite length_prep, Nat.min_l by lia. rewrite nth_flatten by auto.
    replace (rchan (prep_arr (zero_mean o) ref) c) with (unit_of (pre (zero_mean o) (xs c))).
    + rewrite orth_stats; auto; [ring|apply HL|apply orth_unit; auto].
    + symmetry. apply (has_chans_pc _ _ _ _ Hwr Hx Hc).
Qed.
(** C32: bss_eval_sources raises, whatever the clamping. *)
Theorem orth_bss b sp o ref est d xs y : wf ref -> wf est ->
  1 <= filter_length o <= Nat.max (a_len ref) (a_len est) ->
  (filter_length o = 1 -> a_len ref = a_len est) ->
  0 < n_chan ref -> has_chans ref xs -> has_chan est d y ->
  (forall c, c < n_chan ref ->
     orthogonal_to (filter_length o) (pre (zero_mean o) (xs c)) (pre (zero_mean o) y)) ->
  exists e, bss_eval_sources b sp o ref est = Raise e /\
    (is_ok (sq_cos b o ref est) -> e = ValueError).
Proof.
  intros Hwr Hwe HL HL1 Hn Hx Hy Ho. unfold bss_eval_sources.
  destruct (sq_cos b o ref est) as [[m sar]|e] eqn:E.
  - exists ValueError. split; auto. cbn [bind]. simpl bss_mats. cbv beta iota zeta.
    rewrite (solve_perm_nan sp b _ _ _ _ 0 d Hn (proj1 Hy)); auto.
    simpl. apply neg_sdr_no_nan.
    assert (HLp : 0 < filter_length o) by lia.
    pose proof (sq_cos_sdr b o ref est HLp (sq_cos_bound _ _ _ _ _ HLp E) m sar E) as Hs.
    rewrite (orth_coh b o ref est m 0 d (xs 0) y); auto.
    + rewrite (orth_sar b o ref est m sar d xs y); auto. simpl.
      replace (Reqb 0 0) with true by (symmetry; apply Reqb_true; auto). reflexivity.
    + apply has_chans_at; auto.
  - exists e. split; auto. intros (z & X). discriminate.
Qed.
Lemma silent_orthogonal L x y : silent y -> orthogonal_to L x y.
Proof. intros H l _. apply xcorr_silent. auto. Qed.

(** ** Filters longer than the FFT (C44) *)
Lemma pair_cell_long cg ld nf L x y : nf <= L -> pair_cell cg ld nf L x y = pair_cell cg ld nf nf x y.
Proof.
  intros H. destruct x as [v|]; auto. unfold pair_cell. rewrite (stats_acf_long nf L v H).
  destruct y as [w|]; auto. unfold vcell. rewrite (stats_xcorr_long nf L v w H). reflexivity.
Qed.
Lemma pair_check_long cg ld nf L x : nf <= L -> pair_check cg ld nf L x = pair_check cg ld nf nf x.
Proof.
  intros H. destruct x as [v|]; auto. unfold pair_check. rewrite (stats_acf_long nf L v H).
  rewrite Nat.min_r, Nat.min_id by auto. reflexivity.
Qed.
Theorem long_filter_loss b o ref est : let nf := n_fft (a_len ref) (a_len est) in
  nf <> 1 -> nf <= filter_length o ->
  pairwise_sdr_loss b o est ref = pairwise_sdr_loss b (with_length o nf) est ref.
Proof.
  intros nf H1 HL. unfold pairwise_sdr_loss.
  assert (E : sdr_coh b o ref est = sdr_coh b (with_length o nf) ref est).
  { pose proof (n_fft_pos (a_len ref) (a_len est)). fold nf in H.
    rewrite !sdr_coh_entries by (simpl; lia). simpl. fold nf.
    rewrite (mapM_ext _ (pair_check (use_cg_iter o) (load_diag o) nf nf)) by (intros; apply pair_check_long; auto).
    match goal with |- bind ?r _ = _ => destruct r; auto end. cbn [bind]. f_equal.
    apply map_ext. intros x. apply map_ext. intros y. apply pair_cell_long; auto. }
  rewrite E. reflexivity.
Qed.
Theorem long_filter_bss b sp o ref est :
  n_fft (a_len ref) (a_len est) < filter_length o ->
  bss_eval_sources b sp o ref est =
  Raise (match use_cg_iter o with None => shape_exn b | Some _ => AssertionError end).
Proof.
  intros H. pose proof (n_fft_pos (a_len ref) (a_len est)).
  unfold bss_eval_sources, sq_cos.
  destruct (Nat.eqb_spec (filter_length o) 1); [lia|]. cbv zeta.
  rewrite check_sizes_raise by auto. reflexivity.
Qed.
