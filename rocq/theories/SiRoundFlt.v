(** * The error bound for IEEE formats, and its effect in decibels *)
From Coq Require Import Reals Lra Psatz Permutation.
From Verif Require Import Prelude ExtReal Sums Helpers Metrics SpecSig LeastSq PrepProofs MetricsProofs DbProofs
  ProjTheorems SigExamples SiRound SiRoundProofs.
From Flocq Require Import Core Relative.
Local Open Scope R_scope.

(** Rounding to nearest (ties by [choice]) with precision [prec] and gradual underflow
    at [emin]; no overflow. *)
Definition rnd (emin prec : Z) (choice : Z -> bool) (x : R) : R :=
  round radix2 (FLT_exp emin prec) (Znearest choice) x.
(** Unit roundoff and half the smallest positive number. *)
Definition uro (prec : Z) : R := bpow radix2 (- prec).
Definition tiny (emin : Z) : R := bpow radix2 (emin - 1).

Lemma half_bpow e : / 2 * bpow radix2 e = bpow radix2 (e - 1).
Proof. unfold Zminus. rewrite bpow_plus. cbn. lra. Qed.

Lemma rnd_error emin prec choice x : (0 < prec)%Z ->
  Rabs (rnd emin prec choice x - x) <= uro prec * Rabs x + tiny emin.
Proof.
  intros Hp. destruct (error_N_FLT radix2 emin prec Hp choice x) as (e & t & He & Ht & _ & E).
  unfold rnd. rewrite E. rewrite half_bpow in He, Ht.
  replace (- prec + 1 - 1)%Z with (- prec)%Z in He by ring.
  replace (x * (1 + e) + t - x) with (e * x + t) by ring.
  eapply Rle_trans; [apply Rabs_triang|]. rewrite Rabs_mult.
  apply Rplus_le_compat; [|exact Ht]. apply Rmult_le_compat_r; [apply Rabs_pos|exact He].
Qed.

Lemma rnd_pos emin prec choice x : (0 < prec)%Z -> 0 <= x -> 0 <= rnd emin prec choice x.
Proof.
  intros Hp Hx. unfold rnd. pose proof (FLT_exp_valid emin prec (prec_gt_0_ := Hp)).
  rewrite <- (round_0 radix2 (FLT_exp emin prec) (Znearest choice)).
  apply round_le; [assumption|apply valid_rnd_N|exact Hx].
Qed.

Lemma eps_bpow : bpow radix2 (-20) <= norm_eps.
Proof. unfold norm_eps. cbn. apply Rinv_le_contravar; lra. Qed.

Lemma tiny_enough emin prec n h k :
  INR (h + 1) * uro prec <= / 100 -> INR n <= bpow radix2 k -> (k + emin + prec + 41 <= 0)%Z ->
  2 * INR n * P (uro prec) h * tiny emin / (norm_eps * norm_eps) <= uro prec.
Proof.
  intros Hw Hn Hk. pose proof eps_bpow as He. pose proof (bpow_gt_0 radix2 (-20)) as He0.
  assert (Hu : 0 <= uro prec) by apply bpow_ge_0.
  pose proof (P_small _ h Hu Hw) as HP. pose proof (P_ge1 _ Hu h) as HP1.
  assert (HP2 : P (uro prec) h <= 2) by lra.
  assert (Hee : bpow radix2 (-40) <= norm_eps * norm_eps).
  { change (-40)%Z with (-20 + -20)%Z. rewrite bpow_plus. apply Rmult_le_compat; lra. }
  pose proof (bpow_gt_0 radix2 (-40)). assert (Hee0 : 0 < norm_eps * norm_eps) by lra.
  pose proof (bpow_gt_0 radix2 (emin - 1)) as Ht. fold (tiny emin) in Ht.
  apply Rmult_le_reg_r with (norm_eps * norm_eps); [exact Hee0|].
  unfold Rdiv. rewrite Rmult_assoc, Rinv_l, Rmult_1_r by lra.
  apply Rle_trans with (uro prec * bpow radix2 (-40)); [|apply Rmult_le_compat_l; assumption].
  replace (uro prec * bpow radix2 (-40)) with (bpow radix2 (- prec + -40)) by apply bpow_plus.
  apply Rle_trans with (2 * bpow radix2 k * 2 * tiny emin).
  - apply Rmult_le_compat_r; [lra|]. pose proof (pos_INR n).
    apply Rmult_le_compat; [|lra| |exact HP2].
    + apply Rmult_le_pos; lra.
    + apply Rmult_le_compat_l; lra.
  - replace (2 * bpow radix2 k * 2 * tiny emin) with (bpow radix2 (1 + k + 1 + (emin - 1))).
    + apply bpow_le. lia.
    + rewrite !bpow_plus. cbn. unfold tiny. unfold Zminus. rewrite bpow_plus. cbn. ring.
Qed.

(** The exact coherence of the model. *)
Lemma den_max v : den (length v) (smp v) = Rmax (norm2 v) norm_eps.
Proof.
  unfold den, norm2. f_equal. f_equal. apply Rsum_ext. intros i _. ring.
Qed.

Lemma exact_ip v w n : length v = n -> length w = n ->
  Rsum n (fun i => smp v i / den n (smp v) * (smp w i / den n (smp w)))
  = ip n (unit_of v) (unit_of w).
Proof.
  intros Hv Hw. rewrite ip_dot by (rewrite length_unit_of; assumption).
  unfold dot. apply Rsum_ext. intros i _. rewrite !smp_unit_of. unfold gain.
  rewrite <- !den_max, Hv, Hw. unfold Rdiv. ring.
Qed.

Theorem fcoh_flt emin prec choice k fx fy fxy tx ty txy n h v w :
  (0 < prec)%Z -> (0 < n)%nat -> length v = n -> length w = n ->
  sums n h tx -> sums n h ty -> sums n h txy ->
  INR (h + 1) * uro prec <= / 100 -> INR n <= bpow radix2 k -> (k + emin + prec + 41 <= 0)%Z ->
  Rabs (fcoh (rnd emin prec choice) fx fy fxy tx ty txy (smp v) (smp w)
        - ip n (unit_of v) (unit_of w) ^ 2) <= (8 * INR h + 40) * uro prec.
Proof.
  intros Hp Hn Hv Hw Hx Hy Hxy Hs Hk Hke.
  assert (Hu : 0 <= uro prec) by apply bpow_ge_0. assert (Ht : 0 <= tiny emin) by apply bpow_ge_0.
  destruct (coh_bound_simple (uro prec) (tiny emin) n h Hu Ht Hn Hs
              (tiny_enough emin prec n h k Hs Hk Hke)) as [H1 H2].
  rewrite <- (exact_ip v w n Hv Hw). eapply Rle_trans; [|exact H2].
  apply fcoh_error; auto.
  - intros z. now apply rnd_error.
  - intros z. now apply rnd_pos.
Qed.

(** ** Effect on the dB value *)
Lemma ln_quot a b : 0 < a -> 0 < b -> ln (a / b) = ln a - ln b.
Proof. intros. unfold Rdiv. rewrite ln_mult, ln_Rinv; try lra. now apply Rinv_0_lt_compat. Qed.

Lemma ln_rel a a' th : 0 < a -> 0 <= th < 1 -> Rabs (a' - a) <= th * a ->
  0 < a' /\ ln (1 - th) <= ln a' - ln a <= ln (1 + th).
Proof.
  intros Ha Ht H. apply abs_le_iff in H.
  assert (H1 : (1 - th) * a <= a') by lra. assert (H2 : a' <= (1 + th) * a) by lra.
  assert (H3 : 0 < (1 - th) * a) by (apply Rmult_lt_0_compat; lra).
  assert (Ha' : 0 < a') by lra. split; [exact Ha'|].
  rewrite <- ln_quot by assumption. split.
  - destruct (Req_dec (1 - th) (a' / a)) as [->|]; [lra|]. apply Rlt_le, ln_increasing; [lra|].
    assert (1 - th <= a' / a); [|lra]. apply Rmult_le_reg_r with a; [exact Ha|].
    unfold Rdiv. rewrite Rmult_assoc, Rinv_l; lra.
  - destruct (Req_dec (1 + th) (a' / a)) as [->|]; [lra|]. apply Rlt_le, ln_increasing.
    + apply Rmult_lt_0_compat; [exact Ha'|now apply Rinv_0_lt_compat].
    + assert (a' / a <= 1 + th); [|lra]. apply Rmult_le_reg_r with a; [exact Ha|].
      unfold Rdiv. rewrite Rmult_assoc, Rinv_l; lra.
Qed.

Theorem db_error c c' th : 0 < c < 1 -> 0 <= th < 1 ->
  Rabs (c' - c) <= th * c -> Rabs (c' - c) <= th * (1 - c) ->
  0 < c' < 1 /\ Rabs (gdb c' - gdb c) <= 10 * log10 ((1 + th) / (1 - th)).
Proof.
  intros Hc Ht H1 H2.
  destruct (ln_rel c c' th ltac:(lra) Ht H1) as [P1 Q1].
  destruct (ln_rel (1 - c) (1 - c') th ltac:(lra) Ht) as [P2 Q2].
  { replace (1 - c' - (1 - c)) with (- (c' - c)) by ring. rewrite Rabs_Ropp. exact H2. }
  split; [lra|]. unfold gdb, log10.
  rewrite !ln_quot by lra. pose proof (ln_lt_2 : / 2 < ln 2) as L2.
  assert (L10 : 0 < ln 10) by (rewrite <- ln_1; apply ln_increasing; lra).
  replace (10 * ((ln (1 - c') - ln c') / ln 10) - 10 * ((ln (1 - c) - ln c) / ln 10))
    with (10 / ln 10 * ((ln (1 - c') - ln (1 - c)) - (ln c' - ln c))) by (field; lra).
  rewrite Rabs_mult, (Rabs_right (10 / ln 10)).
  - replace (10 * ((ln (1 + th) - ln (1 - th)) / ln 10)) with (10 / ln 10 * (ln (1 + th) - ln (1 - th)))
      by (field; lra).
    apply Rmult_le_compat_l; [apply Rlt_le, Rmult_lt_0_compat; [lra|now apply Rinv_0_lt_compat]|].
    apply abs_le_iff. lra.
  - apply Rle_ge, Rlt_le, Rmult_lt_0_compat; [lra|now apply Rinv_0_lt_compat].
Qed.

(** ** Slope of the dB mapping *)
Lemma ln10_pos : 0 < ln 10.
Proof. rewrite <- ln_1. apply ln_increasing; lra. Qed.

Lemma gdb_deriv c : 0 < c < 1 -> derivable_pt_lim gdb c (- 10 / (ln 10 * (c * (1 - c)))).
Proof.
  intros Hc. pose proof ln10_pos as L10.
  apply (derivable_pt_lim_locally_ext
           (fun x => 10 / ln 10 * (ln (1 - x) - ln x)) gdb c 0 1 _ Hc).
  - intros x Hx. unfold gdb, log10. rewrite ln_quot by lra. field. lra.
  - replace (- 10 / (ln 10 * (c * (1 - c))))
      with (10 / ln 10 * (/ (1 - c) * (0 - 1) - / c)) by (field; lra).
    apply (derivable_pt_lim_scal (fun x => ln (1 - x) - ln x)).
    apply (derivable_pt_lim_minus (fun x => ln (1 - x)) ln).
    + apply (derivable_pt_lim_comp (fun x => 1 - x) ln).
      * apply (derivable_pt_lim_minus (fun _ => 1) (fun x => x)).
        -- apply derivable_pt_lim_const.
        -- apply derivable_pt_lim_id.
      * apply derivable_pt_lim_ln. lra.
    + apply derivable_pt_lim_ln. lra.
Qed.

Lemma gdb_lip e a b : 0 < e -> e <= a <= 1 - e -> e <= b <= 1 - e ->
  Rabs (gdb b - gdb a) <= 10 / (ln 10 * (e * (1 - e))) * Rabs (b - a).
Proof.
  intros He.
  assert (W : forall a b, e <= a -> a < b -> b <= 1 - e ->
    Rabs (gdb b - gdb a) <= 10 / (ln 10 * (e * (1 - e))) * (b - a)).
  { clear a b. intros a b Ha Hab Hb. pose proof ln10_pos as L10.
    destruct (MVT_cor2 gdb (fun c => - 10 / (ln 10 * (c * (1 - c)))) a b Hab) as (c & E & Hc).
    { intros c Hc. apply gdb_deriv. lra. }
    rewrite E, Rabs_mult, (Rabs_right (b - a)) by lra. apply Rmult_le_compat_r; [lra|].
    unfold Rdiv. rewrite Rabs_mult, Rabs_inv, (Rabs_left (-10)) by lra; replace (- -10) with 10 by lra.
    assert (Hq : e * (1 - e) <= c * (1 - c)) by nra.
    assert (0 < e * (1 - e)) by (apply Rmult_lt_0_compat; lra).
    assert (0 < ln 10 * (e * (1 - e))) by (apply Rmult_lt_0_compat; lra).
    assert (ln 10 * (e * (1 - e)) <= ln 10 * (c * (1 - c))) by (apply Rmult_le_compat_l; lra).
    apply Rmult_le_compat_l; [lra|]. rewrite Rabs_right by lra.
    apply Rinv_le_contravar; assumption. }
  intros Ha Hb. destruct (Rtotal_order a b) as [H|[H|H]].
  - rewrite (Rabs_right (b - a)) by lra. apply W; lra.
  - subst. replace (gdb b - gdb b) with 0 by ring. replace (b - b) with 0 by ring. rewrite Rabs_R0, Rmult_0_r. lra.
  - rewrite (Rabs_minus_sym (gdb b)), (Rabs_minus_sym b), (Rabs_right (a - b)) by lra. apply W; lra.
Qed.

Lemma sat_lip lo hi a b : lo <= hi -> Rabs (sat lo hi (Fin b) - sat lo hi (Fin a)) <= Rabs (b - a).
Proof.
  intros H. unfold sat.
  unfold Rmax; repeat match goal with |- context [Rle_dec ?p ?q] => destruct (Rle_dec p q) end;
  unfold Rmin; repeat match goal with |- context [Rle_dec ?p ?q] => destruct (Rle_dec p q) end;
  apply abs_le_iff; pose proof (Rle_abs (b - a)); pose proof (Rle_abs (- (b - a))) as Hn;
  rewrite Rabs_Ropp in Hn; lra.
Qed.

(** With a clamp the loss is Lipschitz in the coherence. *)
Theorem clamped_lip D a b : 0 <= D ->
  exists p q, coherence_to_neg_sdr (Some D) (Fin a) = Fin p /\
    coherence_to_neg_sdr (Some D) (Fin b) = Fin q /\
    Rabs (q - p) <= 10 / (ln 10 * (db_clamp_eps D * (1 - db_clamp_eps D))) * Rabs (b - a).
Proof.
  intros HD. pose proof (eps_bounds D) as He. pose proof (eps_half D HD) as Hh.
  destruct (neg_sdr_clamped D (Fin a) ltac:(discriminate) HD) as [Ha Ea].
  destruct (neg_sdr_clamped D (Fin b) ltac:(discriminate) HD) as [Hb Eb].
  eexists _, _. split; [exact Ea|]. split; [exact Eb|].
  eapply Rle_trans; [apply (gdb_lip (db_clamp_eps D)); [lra|exact Ha|exact Hb]|].
  apply Rmult_le_compat_l; [|apply sat_lip; lra].
  apply Rlt_le, Rdiv_lt_0_compat; [lra|]. apply Rmult_lt_0_compat; [apply ln10_pos|].
  apply Rmult_lt_0_compat; lra.
Qed.

(** Without one it is not: the slope is unbounded at both ends. *)
Theorem unclamped_steep K : exists c, 0 < c < / 2 /\
  K < Rabs (- 10 / (ln 10 * (c * (1 - c)))) /\ K < Rabs (- 10 / (ln 10 * ((1 - c) * (1 - (1 - c))))).
Proof.
  pose proof ln10_pos as L10. pose proof (Rle_abs K) as HK. pose proof (Rabs_pos K) as HK0.
  set (d := (Rabs K + 1) * ln 10 + 2).
  assert (0 < (Rabs K + 1) * ln 10) by (apply Rmult_lt_0_compat; lra).
  assert (Hd : 2 < d) by (unfold d; lra).
  exists (/ d).
  assert (H1 : 0 < / d) by (apply Rinv_0_lt_compat; lra).
  assert (H2 : / d < / 2) by (apply Rinv_lt_contravar; lra).
  replace ((1 - / d) * (1 - (1 - / d))) with (/ d * (1 - / d)) by ring.
  split; [lra|]. split; [|].
  all: unfold Rdiv; rewrite Rabs_mult, Rabs_inv, (Rabs_left (-10)) by lra; replace (- -10) with 10 by lra.
  all: assert (H3 : 0 < / d * (1 - / d)) by (apply Rmult_lt_0_compat; lra).
  all: assert (H4 : 0 < ln 10 * (/ d * (1 - / d))) by (apply Rmult_lt_0_compat; lra).
  all: rewrite Rabs_right by lra.
  all: apply Rmult_lt_reg_r with (ln 10 * (/ d * (1 - / d))); [exact H4|].
  all: rewrite Rmult_assoc, Rinv_l, Rmult_1_r by lra.
  all: apply Rle_lt_trans with ((Rabs K + 1) * ln 10 * / d);
    [|apply Rle_lt_trans with (d * / d); [apply Rmult_le_compat_r; [lra|unfold d; lra]|rewrite Rinv_r; lra]].
  all: rewrite Rmult_assoc; apply Rle_trans with ((Rabs K + 1) * (ln 10 * (/ d * (1 - / d)))).
  all: try (apply Rmult_le_compat_r; lra).
  all: apply Rmult_le_compat_l; [lra|]; apply Rmult_le_compat_l; [lra|].
  all: apply Rle_trans with (/ d * 1); [apply Rmult_le_compat_l; lra|lra].
Qed.

(** ** The rounded coherence against the model *)
Theorem coh_error b o ref est m c d v w emin prec choice k fx fy fxy tx ty txy h :
  wf ref -> wf est -> a_len ref = a_len est ->
  sdr_coh b o ref est = Ok m -> filter_length o = 1%nat -> zero_mean o = false ->
  has_chan ref c v -> has_chan est d w ->
  (0 < prec)%Z -> INR (a_len ref) <= bpow radix2 k -> (k + emin + prec + 41 <= 0)%Z ->
  INR (h + 1) * uro prec <= / 100 ->
  sums (a_len ref) h tx -> sums (a_len ref) h ty -> sums (a_len ref) h txy ->
  exists q, mat_of m c d = Fin q /\
    Rabs (fcoh (rnd emin prec choice) fx fy fxy tx ty txy (smp v) (smp w) - q)
      <= (8 * INR h + 40) * uro prec.
Proof.
  intros Hr He Hl Hm HL Hz [Hc Ev] [Hd Ew] Hp Hk Hke Hs Hx Hy Hxy.
  destruct (pchan_fin false ref c v Hr Hc Ev) as [Px Lv].
  destruct (pchan_fin false est d w He Hd Ew) as [Py Lw].
  rewrite <- Hz in Px, Py.
  pose proof (sdr_entry1 b o ref est m c d _ _ Hr He Hm HL Hl Px Py) as E.
  eexists. split; [exact E|]. rewrite Hz. cbn [pre].
  rewrite <- ip_dot by (rewrite length_unit_of; congruence).
  apply (fcoh_flt emin prec choice k); auto; try congruence. apply Hr.
Qed.

Lemma bpow_INR n k : (0 <= k)%Z -> (Z.of_nat n <= 2 ^ k)%Z -> INR n <= bpow radix2 k.
Proof.
  intros Hk H. rewrite INR_IZR_INZ, <- (IZR_Zpower radix2) by exact Hk. now apply IZR_le.
Qed.

Lemma small_depth h prec : (7 <= prec)%Z -> (Z.of_nat h < 2 ^ (prec - 7))%Z ->
  INR (h + 1) * uro prec <= / 100.
Proof.
  intros Hp H. assert (H1 : INR (h + 1) <= bpow radix2 (prec - 7)) by (apply bpow_INR; lia).
  pose proof (bpow_ge_0 radix2 (- prec)) as H0. unfold uro.
  apply Rle_trans with (bpow radix2 (prec - 7) * bpow radix2 (- prec)).
  - apply Rmult_le_compat_r; assumption.
  - rewrite <- bpow_plus. replace (prec - 7 + - prec)%Z with (-7)%Z by ring. cbn. lra.
Qed.

(** Any order of n additions is at most n - 1 deep. *)
Lemma depth_leaves t : (depth t < length (leaves t))%nat.
Proof. induction t; cbn; [lia|]. rewrite app_length. lia. Qed.
Lemma sums_depth n h t : sums n h t -> sums n (n - 1) t.
Proof.
  intros [Hp _]. split; [exact Hp|]. pose proof (depth_leaves t) as H.
  rewrite (Permutation_length Hp), seq_length in H. lia.
Qed.
Lemma sums_any n t : Permutation (leaves t) (seq 0 n) -> sums n (n - 1) t.
Proof. intros H. apply (sums_depth n (depth t)). split; [exact H|lia]. Qed.

Section Top.
  Variables (b : backend) (o : opts) (ref est : arr) (m : list (list xr)) (c d : nat) (v w : list R).
  Hypotheses (Hr : wf ref) (He : wf est) (Hl : a_len ref = a_len est)
    (Hm : sdr_coh b o ref est = Ok m) (HL : filter_length o = 1%nat) (Hz : zero_mean o = false)
    (Hc : has_chan ref c v) (Hd : has_chan est d w).
  Variables (choice : Z -> bool) (fx fy fxy : nat -> bool) (tx ty txy : stree).

  Theorem coh_error_flt emin prec h :
    (7 <= prec)%Z -> (emin + 2 * prec + 34 <= 0)%Z ->
    (Z.of_nat (a_len ref) <= 2 ^ (prec - 7))%Z -> (Z.of_nat h < 2 ^ (prec - 7))%Z ->
    sums (a_len ref) h tx -> sums (a_len ref) h ty -> sums (a_len ref) h txy ->
    exists q, mat_of m c d = Fin q /\
      Rabs (fcoh (rnd emin prec choice) fx fy fxy tx ty txy (smp v) (smp w) - q)
        <= (8 * INR h + 40) * uro prec.
  Proof.
    intros Hp Hq Hn Hh. apply (coh_error b o ref est m c d v w emin prec choice (prec - 7)); auto.
    - lia.
    - apply bpow_INR; lia.
    - lia.
    - now apply small_depth.
  Qed.

  Theorem db_error_flt emin prec h D :
    (7 <= prec)%Z -> (emin + 2 * prec + 34 <= 0)%Z ->
    (Z.of_nat (a_len ref) <= 2 ^ (prec - 7))%Z -> (Z.of_nat h < 2 ^ (prec - 7))%Z ->
    sums (a_len ref) h tx -> sums (a_len ref) h ty -> sums (a_len ref) h txy -> 0 <= D ->
    let eps := db_clamp_eps D in
    exists p q, coherence_to_neg_sdr (Some D) (mat_of m c d) = Fin q /\
      coherence_to_neg_sdr (Some D)
        (Fin (fcoh (rnd emin prec choice) fx fy fxy tx ty txy (smp v) (smp w))) = Fin p /\
      Rabs (p - q) <= 10 / (ln 10 * (eps * (1 - eps))) * ((8 * INR h + 40) * uro prec).
  Proof.
    intros Hp Hq Hn Hh Hx Hy Hxy HD eps.
    destruct (coh_error_flt emin prec h Hp Hq Hn Hh Hx Hy Hxy) as (q & E & H).
    set (r := fcoh _ _ _ _ _ _ _ _ _) in *.
    destruct (clamped_lip D q r HD) as (a & b' & E1 & E2 & H2).
    exists b', a. rewrite E. split; [exact E1|]. split; [exact E2|].
    eapply Rle_trans; [exact H2|]. fold eps.
    pose proof (eps_bounds D) as Hb. fold eps in Hb.
    apply Rmult_le_compat_l; [|exact H].
    apply Rlt_le, Rdiv_lt_0_compat; [lra|]. apply Rmult_lt_0_compat; [apply ln10_pos|].
    apply Rmult_lt_0_compat; lra.
  Qed.
End Top.

Theorem db_error_model c c' th : 0 < c < 1 -> 0 <= th < 1 ->
  Rabs (c' - c) <= th * c -> Rabs (c' - c) <= th * (1 - c) ->
  exists p q, coherence_to_neg_sdr None (Fin c) = Fin p /\ coherence_to_neg_sdr None (Fin c') = Fin q /\
    Rabs (q - p) <= 10 * log10 ((1 + th) / (1 - th)).
Proof.
  intros Hc Ht H1 H2. destruct (db_error c c' th Hc Ht H1 H2) as [Hc' H].
  exists (gdb c), (gdb c'). split; [now apply neg_sdr_fin|]. split; [now apply neg_sdr_fin|exact H].
Qed.

(** A pair of the example signals with coherence 1/2. *)
Lemma ex_half m : sdr_coh NumPy (Opts 1 None false None None) ex_ref ex_est = Ok m ->
  mat_of m 0 0 = Fin (1 / 2).
Proof.
  intros Hm.
  destruct (ex_ref_chan 0 ltac:(lia)) as [Hc Ev]. destruct (ex_est_chan 0 ltac:(lia)) as [Hd Ew].
  destruct (pchan_fin false _ _ _ ex_ref_wf Hc Ev) as [Px _].
  destruct (pchan_fin false _ _ _ ex_est_wf Hd Ew) as [Py _].
  rewrite (sdr_entry1 NumPy _ _ _ _ 0 0 _ _ ex_ref_wf ex_est_wf Hm eq_refl eq_refl Px Py).
  cbn [pre]. f_equal. change (a_len ex_ref) with 5%nat. unfold dot.
  rewrite (Rsum_ext 5 _ (fun t => gain (exr 0) * gain (exe 0) * (smp (exr 0) t * smp (exe 0) t)))
    by (intros t _; rewrite !smp_unit_of; ring).
  assert (E1 : gain (exr 0) = 1).
  { unfold gain. rewrite Rmax_left by (apply ex_ref_norm; lia). unfold norm2, smp. simpl.
    match goal with |- / sqrt ?e = _ => replace e with 1 by ring end. rewrite sqrt_1. lra. }
  assert (E2 : gain (exe 0) ^ 2 = / 8).
  { unfold gain. rewrite Rmax_left by (apply ex_est_norm; lia). unfold norm2, smp. simpl length. simpl Rsum.
    rewrite pow_inv.
    match goal with |- / sqrt ?e ^ 2 = _ => replace e with 8 by (simpl; ring) end.
    rewrite <- Rsqr_pow2, Rsqr_sqrt by lra. reflexivity. }
  rewrite E1. unfold smp. simpl Rsum.
  match goal with |- ?e ^ 2 = _ => replace e with (2 * gain (exe 0)) by (simpl; ring) end.
  rewrite Rpow_mult_distr, E2. lra.
Qed.
