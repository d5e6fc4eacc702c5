(** * Proofs about the coherence -> decibel mapping *)
From Coq Require Import Reals Lra.
From Verif Require Import Prelude ExtReal Helpers.
Local Open Scope R_scope.

Lemma ln10_pos : 0 < ln 10.
Proof. rewrite <- ln_1. apply ln_increasing; lra. Qed.

Lemma log10_lt x y : 0 < x -> x < y -> log10 x < log10 y.
Proof.
  intros Hx Hxy. unfold log10. apply Rmult_lt_compat_r.
  - apply Rinv_0_lt_compat, ln10_pos.
  - apply ln_increasing; auto.
Qed.
Lemma log10_le x y : 0 < x -> x <= y -> log10 x <= log10 y.
Proof. intros Hx [H|H]; [left; apply log10_lt; auto|subst; right; auto]. Qed.
Lemma log10_pow x : log10 (Rpower 10 x) = x.
Proof. unfold log10, Rpower. rewrite ln_exp. field. pose proof ln10_pos; lra. Qed.
Lemma log10_mult x y : 0 < x -> 0 < y -> log10 (x * y) = log10 x + log10 y.
Proof. intros. unfold log10. rewrite ln_mult by auto. field. pose proof ln10_pos; lra. Qed.
Lemma log10_inv x : 0 < x -> log10 (/ x) = - log10 x.
Proof. intros. unfold log10. rewrite ln_Rinv by auto. field. pose proof ln10_pos; lra. Qed.
Lemma log10_1 : log10 1 = 0.
Proof. unfold log10. rewrite ln_1. field. pose proof ln10_pos; lra. Qed.

(** Negative SDR of a coherence strictly between 0 and 1. *)
Definition gdb (c : R) : R := 10 * log10 ((1 - c) / c).

Lemma ratio_pos c : 0 < c < 1 -> 0 < (1 - c) / c.
Proof. intros. apply Rdiv_lt_0_compat; lra. Qed.
Lemma ratio_lt a b : 0 < a -> a < b -> (1 - b) / b < (1 - a) / a.
Proof.
  intros Ha Hab. unfold Rdiv. rewrite !Rmult_minus_distr_r, !Rmult_1_l, !Rinv_r by lra.
  assert (/ b < / a) by (apply Rinv_lt_contravar; [apply Rmult_lt_0_compat; lra|auto]). lra.
Qed.
Lemma gdb_lt a b : 0 < a -> a < b -> b < 1 -> gdb b < gdb a.
Proof.
  intros. unfold gdb. apply Rmult_lt_compat_l; [lra|]. apply log10_lt.
  - apply ratio_pos; lra.
  - apply ratio_lt; auto.
Qed.
Lemma gdb_le a b : 0 < a -> a <= b -> b < 1 -> gdb b <= gdb a.
Proof. intros Ha [H|H] Hb; [left; apply gdb_lt; auto|subst; right; auto]. Qed.

(** ** Without clamping *)
Lemma neg_sdr_pos_inf coh : coh = NInf \/ (exists c, coh = Fin c /\ c <= 0) ->
  coherence_to_neg_sdr None coh = PInf.
Proof.
  assert (H0 : xmul (Fin 10) (xlog10 (xdiv (xsub (Fin 1) (Fin 0)) (Fin 0))) = PInf).
  { rewrite xsub_fin. simpl.
    replace (Reqb 0 0) with true by (symmetry; apply Reqb_true; auto).
    replace (Reqb (1 - 0) 0) with false by (symmetry; apply Reqb_false; lra).
    replace (Rltb 0 (1 - 0)) with true by (symmetry; apply Rltb_true; lra).
    simpl. unfold xsign_mul_inf.
    replace (Reqb 10 0) with false by (symmetry; apply Reqb_false; lra).
    replace (Rltb 0 10) with true by (symmetry; apply Rltb_true; lra). reflexivity. }
  intros [->|(c & -> & Hc)]; unfold coherence_to_neg_sdr, clamp.
  - cbn [xmax xleb]. rewrite xmin_fin. replace (Rmin 0 (1 - 0)) with 0; auto.
    unfold Rmin; destruct (Rle_dec 0 (1-0)); lra.
  - rewrite xmax_fin, xmin_fin. replace (Rmin (Rmax c 0) (1 - 0)) with 0; auto.
    rewrite Rmax_right by auto. rewrite Rmin_left by lra. auto.
Qed.

Lemma neg_sdr_neg_inf coh : coh = PInf \/ (exists c, coh = Fin c /\ 1 <= c) ->
  coherence_to_neg_sdr None coh = NInf.
Proof.
  assert (H0 : xmul (Fin 10) (xlog10 (xdiv (xsub (Fin 1) (Fin (1 - 0))) (Fin (1 - 0)))) = NInf).
  { rewrite xsub_fin, xdiv_fin by lra. replace ((1 - (1 - 0)) / (1 - 0)) with 0 by field.
    rewrite xlog10_0. simpl. unfold xsign_mul_inf.
    replace (Reqb 10 0) with false by (symmetry; apply Reqb_false; lra).
    replace (Rltb 0 10) with true by (symmetry; apply Rltb_true; lra). reflexivity. }
  intros [->|(c & -> & Hc)]; unfold coherence_to_neg_sdr, clamp.
  - cbn [xmax xmin xleb]. exact H0.
  - rewrite xmax_fin, xmin_fin. rewrite Rmax_left by lra. rewrite Rmin_right by lra. exact H0.
Qed.

Lemma neg_sdr_fin c : 0 < c < 1 -> coherence_to_neg_sdr None (Fin c) = Fin (gdb c).
Proof.
  intros Hc. unfold coherence_to_neg_sdr, clamp. rewrite xmax_fin, xmin_fin.
  rewrite Rmax_left, Rmin_left by lra. rewrite xsub_fin, xdiv_fin by lra.
  rewrite xlog10_fin by (apply ratio_pos; lra). reflexivity.
Qed.

Lemma neg_sdr_nan D : coherence_to_neg_sdr D NaN = NaN.
Proof. destruct D; reflexivity. Qed.

(** ** With clamping *)
Lemma eps_bounds D : 0 < db_clamp_eps D < 1.
Proof.
  unfold db_clamp_eps. set (e := Rpower 10 (- D / 10)).
  assert (0 < e) by apply exp_pos. split.
  - apply Rdiv_lt_0_compat; lra.
  - apply Rmult_lt_reg_r with (1 + e); [lra|]. unfold Rdiv. rewrite Rmult_assoc, Rinv_l by lra. lra.
Qed.
Lemma eps_half D : 0 <= D -> db_clamp_eps D <= / 2.
Proof.
  intros HD. unfold db_clamp_eps. set (e := Rpower 10 (- D / 10)).
  assert (0 < e) by apply exp_pos.
  assert (e <= 1).
  { unfold e. rewrite <- (Rpower_O 10) by lra. apply Rle_Rpower; lra. }
  apply Rmult_le_reg_r with (1 + e); [lra|]. unfold Rdiv. rewrite Rmult_assoc, Rinv_l by lra. lra.
Qed.
Lemma eps_half_neg D : D < 0 -> / 2 < db_clamp_eps D.
Proof.
  intros HD. unfold db_clamp_eps. set (e := Rpower 10 (- D / 10)).
  assert (1 < e).
  { unfold e. rewrite <- (Rpower_O 10) by lra. apply Rpower_lt; lra. }
  apply Rmult_lt_reg_r with (1 + e); [lra|]. unfold Rdiv. rewrite Rmult_assoc, Rinv_l by lra. lra.
Qed.
Lemma gdb_eps D : gdb (db_clamp_eps D) = D.
Proof.
  unfold gdb, db_clamp_eps. set (e := Rpower 10 (- D / 10)).
  assert (He : 0 < e) by apply exp_pos.
  replace ((1 - e / (1 + e)) / (e / (1 + e))) with (/ e) by (field; lra).
  rewrite log10_inv by auto. unfold e. rewrite log10_pow. field.
Qed.
Lemma gdb_1eps D : gdb (1 - db_clamp_eps D) = - D.
Proof.
  unfold gdb, db_clamp_eps. set (e := Rpower 10 (- D / 10)).
  assert (He : 0 < e) by apply exp_pos.
  replace ((1 - (1 - e / (1 + e))) / (1 - e / (1 + e))) with e by (field; lra).
  unfold e. rewrite log10_pow. field.
Qed.

(** Value used after clamping the coherence. *)
Definition sat (lo hi : R) (c : xr) : R :=
  match c with Fin r => Rmin (Rmax r lo) hi | PInf => hi | NInf => Rmin lo hi | NaN => 0 end.

Lemma clamp_sat lo hi c : c <> NaN -> clamp c (Some lo) (Some hi) = Fin (sat lo hi c).
Proof.
  intros H. unfold clamp. destruct c; try congruence.
  - rewrite xmax_fin, xmin_fin. reflexivity.
  - reflexivity.
  - cbn [xmax xleb]. rewrite xmin_fin. reflexivity.
Qed.

Lemma neg_sdr_clamped D coh : coh <> NaN -> 0 <= D ->
  let s := sat (db_clamp_eps D) (1 - db_clamp_eps D) coh in
  db_clamp_eps D <= s <= 1 - db_clamp_eps D /\
  coherence_to_neg_sdr (Some D) coh = Fin (gdb s).
Proof.
  intros Hn HD. pose proof (eps_bounds D). pose proof (eps_half D HD).
  set (s := sat (db_clamp_eps D) (1 - db_clamp_eps D) coh). simpl.
  assert (Hs : db_clamp_eps D <= s <= 1 - db_clamp_eps D).
  { unfold s, sat. destruct coh; try congruence; try lra.
    - split; [apply Rmin_glb; [apply Rmax_r|lra]|apply Rmin_r].
    - rewrite Rmin_left by lra. lra. }
  split; auto. unfold coherence_to_neg_sdr. rewrite clamp_sat by auto. fold s.
  rewrite xsub_fin, xdiv_fin by lra. rewrite xlog10_fin by (apply ratio_pos; lra). reflexivity.
Qed.

Theorem clamp_bounds D coh : 0 <= D -> coh <> NaN ->
  exists v, coherence_to_neg_sdr (Some D) coh = Fin v /\ - D <= v <= D.
Proof.
  intros HD Hn. destruct (neg_sdr_clamped D coh Hn HD) as [Hs E].
  pose proof (eps_bounds D). pose proof (eps_half D HD).
  eexists. split; [exact E|]. split.
  - apply Rle_trans with (gdb (1 - db_clamp_eps D)); [right; symmetry; apply gdb_1eps|apply gdb_le; lra].
  - apply Rle_trans with (gdb (db_clamp_eps D)); [apply gdb_le; lra|right; apply gdb_eps].
Qed.

Theorem clamp_low D : 0 <= D -> coherence_to_neg_sdr (Some D) (Fin 0) = Fin D.
Proof.
  intros HD. destruct (neg_sdr_clamped D (Fin 0)) as [Hs ->]; auto; [congruence|].
  pose proof (eps_bounds D). pose proof (eps_half D HD). cbn [sat].
  rewrite Rmax_right, Rmin_left by lra. f_equal. apply gdb_eps.
Qed.
Theorem clamp_high D : 0 <= D -> coherence_to_neg_sdr (Some D) (Fin 1) = Fin (- D).
Proof.
  intros HD. destruct (neg_sdr_clamped D (Fin 1)) as [Hs ->]; auto; [congruence|].
  pose proof (eps_bounds D). pose proof (eps_half D HD). cbn [sat].
  rewrite Rmax_left, Rmin_right by lra. f_equal. apply gdb_1eps.
Qed.

(** clamp_db is saturation of the dB value *)
Theorem clamp_saturates D coh : 0 <= D -> coh <> NaN ->
  coherence_to_neg_sdr (Some D) coh =
  xmin (Fin D) (xmax (Fin (- D)) (coherence_to_neg_sdr None coh)).
Proof.
  intros HD Hn. destruct (neg_sdr_clamped D coh Hn HD) as [Hs ->].
  pose proof (eps_bounds D) as He. pose proof (eps_half D HD) as Hh.
  destruct coh as [c| | |]; try congruence.
  - destruct (Rle_dec c 0) as [Hc|Hc].
    + rewrite neg_sdr_pos_inf by eauto. cbn [sat xmax xmin xleb].
      rewrite Rmax_right, Rmin_left by lra. rewrite gdb_eps. reflexivity.
    + destruct (Rle_dec 1 c) as [Hc1|Hc1].
      * rewrite neg_sdr_neg_inf by eauto. cbn [sat].
        rewrite Rmax_left, Rmin_right by lra. rewrite gdb_1eps. cbn [xmax xleb]. rewrite xmin_fin.
        rewrite Rmin_right by lra. reflexivity.
      * rewrite neg_sdr_fin by lra. rewrite xmax_fin, xmin_fin. f_equal. cbn [sat].
        destruct (Rle_dec c (db_clamp_eps D)) as [H1|H1].
        -- rewrite Rmax_right, Rmin_left by lra. rewrite gdb_eps.
           assert (gdb (db_clamp_eps D) <= gdb c) by (apply gdb_le; lra); rewrite gdb_eps in *.
           rewrite Rmax_right, Rmin_left; auto; try lra.
        -- destruct (Rle_dec c (1 - db_clamp_eps D)) as [H2|H2].
           ++ rewrite Rmax_left, Rmin_left by lra.
              assert (gdb c <= gdb (db_clamp_eps D)) by (apply gdb_le; lra); rewrite gdb_eps in *.
              assert (gdb (1 - db_clamp_eps D) <= gdb c) by (apply gdb_le; lra); rewrite gdb_1eps in *.
              rewrite Rmax_right, Rmin_right; auto.
           ++ rewrite Rmax_left, Rmin_right by lra. rewrite gdb_1eps.
              assert (gdb c <= gdb (1 - db_clamp_eps D)) by (apply gdb_le; lra); rewrite gdb_1eps in *.
              rewrite Rmax_left, Rmin_right; auto; lra.
  - rewrite neg_sdr_neg_inf by auto. cbn [sat]. rewrite gdb_1eps. cbn [xmax xleb]. rewrite xmin_fin.
    rewrite Rmin_right by lra. reflexivity.
  - rewrite neg_sdr_pos_inf by auto. cbn [sat xmax xmin xleb].
    rewrite Rmin_left by lra. rewrite gdb_eps. reflexivity.
Qed.

(** A negative clamp_db makes the result a constant. *)
Theorem clamp_negative D coh : D < 0 -> coh <> NaN ->
  coherence_to_neg_sdr (Some D) coh = Fin (- D).
Proof.
  intros HD Hn. pose proof (eps_bounds D). pose proof (eps_half_neg D HD).
  unfold coherence_to_neg_sdr. rewrite clamp_sat by auto.
  replace (sat (db_clamp_eps D) (1 - db_clamp_eps D) coh) with (1 - db_clamp_eps D).
  - rewrite xsub_fin, xdiv_fin by lra. rewrite xlog10_fin by (apply ratio_pos; lra).
    cbn [xmul]. f_equal. apply gdb_1eps.
  - unfold sat. destruct coh; try congruence.
    + symmetry. apply Rmin_right. pose proof (Rmax_r r (db_clamp_eps D)). lra.
    + symmetry. apply Rmin_right. lra.
Qed.

(** Strict monotonicity *)
Theorem neg_sdr_decreasing a b : 0 <= a -> a < b -> b <= 1 ->
  xlt (coherence_to_neg_sdr None (Fin b)) (coherence_to_neg_sdr None (Fin a)).
Proof.
  intros Ha Hab Hb.
  destruct (Req_dec a 0) as [->|Ha0].
  - rewrite (neg_sdr_pos_inf (Fin 0)) by (right; eexists; split; eauto; lra).
    destruct (Req_dec b 1) as [->|Hb1].
    + rewrite (neg_sdr_neg_inf (Fin 1)) by (right; eexists; split; eauto; lra). split; reflexivity.
    + rewrite neg_sdr_fin by lra. split; reflexivity.
  - rewrite (neg_sdr_fin a) by lra. destruct (Req_dec b 1) as [->|Hb1].
    + rewrite (neg_sdr_neg_inf (Fin 1)) by (right; eexists; split; eauto; lra). split; reflexivity.
    + rewrite neg_sdr_fin by lra. apply xlt_fin. apply gdb_lt; lra.
Qed.

Theorem neg_sdr_no_nan D coh : coherence_to_neg_sdr D coh = NaN <-> coh = NaN.
Proof.
  split.
  - intros H. destruct D as [D|].
    + destruct coh; auto; exfalso; destruct (Rle_dec 0 D) as [HD|HD].
      all: try (match type of H with coherence_to_neg_sdr _ ?c = _ => destruct (clamp_bounds D c HD) as (v & E & _); [congruence|]; rewrite E in H; discriminate end).
      all: match type of H with coherence_to_neg_sdr _ ?c = _ => rewrite (clamp_negative D c) in H by (congruence || lra); discriminate end.
    + destruct coh as [c| | |]; auto; exfalso.
      * destruct (Rle_dec c 0). { rewrite neg_sdr_pos_inf in H by eauto. discriminate. }
        destruct (Rle_dec 1 c). { rewrite neg_sdr_neg_inf in H by eauto. discriminate. }
        rewrite neg_sdr_fin in H by lra. discriminate.
      * rewrite neg_sdr_neg_inf in H by auto. discriminate.
      * rewrite neg_sdr_pos_inf in H by auto. discriminate.
  - intros ->. apply neg_sdr_nan.
Qed.

(** Weakly decreasing for any clamping option: used by the metric theorems. *)
Theorem neg_sdr_mono D a b : 0 <= a -> a <= b -> b <= 1 ->
  xle (coherence_to_neg_sdr D (Fin b)) (coherence_to_neg_sdr D (Fin a)).
Proof.
  intros Ha Hab Hb. destruct D as [D|].
  - destruct (Rle_dec 0 D) as [HD|HD].
    + destruct (neg_sdr_clamped D (Fin a)) as [Ha2 ->]; auto; [congruence|].
      destruct (neg_sdr_clamped D (Fin b)) as [Hb2 ->]; auto; [congruence|].
      pose proof (eps_bounds D). apply xle_fin. apply gdb_le; try lra.
      cbn [sat]. apply Rle_min_compat_r. apply Rle_max_compat_r. auto.
    + rewrite !clamp_negative by (congruence || lra). apply xle_fin. lra.
  - destruct Hab as [H|H].
    + apply (neg_sdr_decreasing a b); auto.
    + subst. destruct (coherence_to_neg_sdr None (Fin b)) eqn:E; try reflexivity.
      * apply xle_fin. lra.
      * apply neg_sdr_no_nan in E. discriminate.
Qed.
