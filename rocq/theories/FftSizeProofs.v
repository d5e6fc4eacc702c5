(** * The size of the FFT with a rounded logarithm (C97) *)
From Coq Require Import Reals Lra Psatz ZArith Arith Lia.
From Verif Require Import Prelude Metrics SiRoundFlt FftSize.
From Flocq Require Import Core Relative.
Local Open Scope R_scope.

Lemma ln2_bounds : / 2 < ln 2 < 1.
Proof.
  split.
  - apply exp_lt_inv. rewrite exp_ln by lra.
    assert (E : exp (/ 2) * exp (/ 2) = exp 1) by (rewrite <- exp_plus; f_equal; lra).
    pose proof exp_le_3 as H3. pose proof (exp_pos (/ 2)). nra.
  - apply exp_lt_inv. rewrite exp_ln by lra. pose proof (exp_ineq1 1 ltac:(lra)). lra.
Qed.
Lemma ln_le_sub x : 0 < x -> ln x <= x - 1.
Proof. intros H. pose proof (exp_ineq1_le (ln x)) as E. rewrite exp_ln in E by auto. lra. Qed.
Lemma ln_ge_sub x : 0 < x -> 1 - / x <= ln x.
Proof. intros H. pose proof (ln_le_sub (/ x) ltac:(now apply Rinv_0_lt_compat)) as E. rewrite ln_Rinv in E by auto. lra. Qed.

Definition lg (x : R) : R := ln x / ln 2.
Lemma lg_ge a x : a * ln 2 <= ln x -> a <= lg x.
Proof. intros H. pose proof ln2_bounds. unfold lg. apply Rmult_le_reg_r with (ln 2); [lra|]. unfold Rdiv. rewrite Rmult_assoc, Rinv_l by lra. lra. Qed.
Lemma lg_le a x : ln x <= a * ln 2 -> lg x <= a.
Proof. intros H. pose proof ln2_bounds. unfold lg. apply Rmult_le_reg_r with (ln 2); [lra|]. unfold Rdiv. rewrite Rmult_assoc, Rinv_l by lra. lra. Qed.
Lemma lg_lt a x : ln x < a * ln 2 -> lg x < a.
Proof. intros H. pose proof ln2_bounds. unfold lg. apply Rmult_lt_reg_r with (ln 2); [lra|]. unfold Rdiv. rewrite Rmult_assoc, Rinv_l by lra. lra. Qed.
Lemma lg_mult x y : 0 < x -> 0 < y -> lg (x * y) = lg x + lg y.
Proof. intros. unfold lg. rewrite ln_mult by auto. pose proof ln2_bounds. field. lra. Qed.
Lemma ln_pow2 k : ln (2 ^ k) = INR k * ln 2.
Proof. apply ln_pow. lra. Qed.
Lemma lg_pow2 k : lg (2 ^ k) = INR k.
Proof. unfold lg. rewrite ln_pow2. pose proof ln2_bounds. field. lra. Qed.
Lemma lg_low t : 0 < t <= 1 -> t / 2 <= lg (1 + t).
Proof.
  intros Ht. pose proof ln2_bounds. pose proof (ln_ge_sub (1 + t) ltac:(lra)) as E.
  assert (L : t / 2 <= 1 - / (1 + t)).
  { apply Rmult_le_reg_r with (1 + t); [lra|]. rewrite Rmult_minus_distr_r, Rinv_l by lra. nra. }
  apply lg_ge. nra.
Qed.
Lemma lg_high t : 0 <= t -> lg (1 + t) <= 2 * t.
Proof.
  intros Ht. pose proof ln2_bounds. pose proof (ln_le_sub (1 + t) ltac:(lra)) as E.
  apply lg_le. nra.
Qed.
Lemma lg_below s : 0 <= s < 1 -> lg (1 - s) <= - s.
Proof.
  intros Hs. pose proof ln2_bounds. pose proof (ln_le_sub (1 - s) ltac:(lra)) as E.
  apply lg_le. nra.
Qed.
Lemma lg_between k n : (2 ^ k < n < 2 ^ S k)%nat ->
  INR k + / 2 ^ S k <= lg (INR n) <= INR (S k) - / 2 ^ S k.
Proof.
  intros [H1 H2]. assert (P : 0 < 2 ^ k) by (apply pow_lt; lra).
  assert (N1 : 2 ^ k + 1 <= INR n).
  { replace (2 ^ k + 1) with (INR (2 ^ k + 1)) by (rewrite plus_INR, pow_INR; simpl; f_equal; f_equal; lra). apply le_INR. lia. }
  assert (N2 : INR n + 1 <= 2 * 2 ^ k).
  { replace (2 * 2 ^ k) with (INR (2 ^ S k)) by (rewrite pow_INR; simpl; f_equal; f_equal; lra).
    replace (INR n + 1) with (INR (n + 1)) by (rewrite plus_INR; simpl; lra). apply le_INR. lia. }
  split.
  - replace (INR n) with (2 ^ k * (1 + (INR n / 2 ^ k - 1))) by (field; lra).
    set (t := INR n / 2 ^ k - 1).
    assert (T : / 2 ^ k <= t <= 1).
    { unfold t. split.
      - apply Rmult_le_reg_r with (2 ^ k); auto. unfold Rdiv. rewrite Rmult_minus_distr_r, Rmult_assoc, Rinv_l by lra. lra.
      - apply Rmult_le_reg_r with (2 ^ k); auto. unfold Rdiv. rewrite Rmult_minus_distr_r, Rmult_assoc, Rinv_l by lra. lra. }
    assert (0 < / 2 ^ k) by (now apply Rinv_0_lt_compat).
    rewrite lg_mult, lg_pow2 by lra. pose proof (lg_low t ltac:(lra)). simpl. rewrite Rinv_mult. lra.
  - assert (Q : 0 < 2 ^ S k) by (apply pow_lt; lra).
    replace (INR n) with (2 ^ S k * (1 - (1 - INR n / 2 ^ S k))) by (field; lra).
    set (s := 1 - INR n / 2 ^ S k).
    assert (S0 : / 2 ^ S k <= s < 1).
    { unfold s. assert (0 < INR n / 2 ^ S k) by (apply Rdiv_lt_0_compat; lra). split; [|lra].
      apply Rmult_le_reg_r with (2 ^ S k); auto. unfold Rdiv. rewrite Rmult_minus_distr_r, Rmult_assoc, Rinv_l by lra. simpl in *. lra. }
    assert (0 < / 2 ^ S k) by (now apply Rinv_0_lt_compat).
    rewrite lg_mult, lg_pow2 by lra. pose proof (lg_below s ltac:(lra)). lra.
Qed.

(** A logarithm that is exact at powers of two and off by at most 2^-46 elsewhere. *)
Section Size.
  Variable f : Z -> R.
  Hypothesis Hexact : forall k : nat, (k <= 45)%nat -> f (2 ^ Z.of_nat k)%Z = INR k.
  Hypothesis Herr : forall m, (1 <= m <= 2 ^ 45)%Z -> Rabs (f m - lg (IZR m)) <= / 2 ^ 46.

  Lemma ceil_log2 n : (1 <= n)%nat -> (Z.of_nat n <= 2 ^ 45)%Z -> Zceil (f (Z.of_nat n)) = Z.of_nat (Nat.log2_up n).
  Proof.
    intros H1 Hn. destruct (Nat.eq_dec n 1) as [->|N1].
    - change (Z.of_nat 1) with (2 ^ Z.of_nat 0)%Z. rewrite Hexact by lia. simpl. apply (Zceil_IZR 0).
    - pose proof (Nat.log2_up_spec n ltac:(lia)) as [L U]. set (j := Nat.log2_up n) in *.
      assert (J : (0 < j)%nat) by (apply Nat.log2_up_pos; lia).
      assert (J45 : (j <= 45)%nat).
      { destruct (le_lt_dec j 45) as [|G]; [assumption|]. exfalso.
        assert (X : (2 ^ 45 < Z.of_nat n)%Z).
        { apply Z.le_lt_trans with (Z.of_nat (2 ^ Nat.pred j)); [|lia].
          rewrite Nat2Z.inj_pow. apply Z.pow_le_mono_r; lia. } lia. }
      destruct (Nat.eq_dec n (2 ^ j)) as [E|NE].
      + rewrite E, Nat2Z.inj_pow. change (Z.of_nat 2) with 2%Z. rewrite Hexact by lia. rewrite INR_IZR_INZ. apply Zceil_IZR.
      + destruct j as [|k]; [lia|]. simpl Nat.pred in L.
        pose proof (lg_between k n ltac:(lia)) as [B1 B2].
        pose proof (Herr (Z.of_nat n) ltac:(lia)) as E. rewrite <- INR_IZR_INZ in E.
        apply Rabs_le_inv in E.
        assert (G : / 2 ^ 46 < / 2 ^ S k).
        { apply Rinv_lt_contravar; [apply Rmult_lt_0_compat; apply pow_lt; lra|]. apply Rlt_pow; [lra|lia]. }
        apply Zceil_imp. rewrite S_INR in *. rewrite <- !INR_IZR_INZ || idtac.
        replace (Z.of_nat (S k) - 1)%Z with (Z.of_nat k) by lia. rewrite <- !INR_IZR_INZ, S_INR. lra.
  Qed.
  Theorem fft_size_eq lx ly : (1 <= lx)%nat -> (Z.of_nat (lx + Nat.max lx ly - 1) <= 2 ^ 45)%Z ->
    fft_size_with f (Z.of_nat (lx + Nat.max lx ly - 1)) = Z.of_nat (n_fft lx ly).
  Proof.
    intros H1 H. unfold fft_size_with, n_fft. rewrite ceil_log2 by lia. rewrite Nat2Z.inj_pow. reflexivity.
  Qed.
End Size.

(** Correctly rounded binary64. *)
Section Rounded.
  Variable choice : Z -> bool.
  Let fl := rnd (-1074) 53 choice.
  Lemma fl_int z : (Z.abs z <= 2 ^ 53)%Z -> fl (IZR z) = IZR z.
  Proof.
    intros H. unfold fl, rnd. apply round_generic; [apply valid_rnd_N|].
    apply generic_format_FLT. destruct (Z.eq_dec (Z.abs z) (2 ^ 53)) as [E|N].
    - assert (Hz : z = (2 ^ 53)%Z \/ z = (- 2 ^ 53)%Z) by lia.
      destruct Hz as [-> | ->].
      + exists (Float radix2 1 53); [unfold F2R; simpl; lra|simpl; lia|simpl; lia].
      + exists (Float radix2 (-1) 53); [unfold F2R; simpl; lra|simpl; lia|simpl; lia].
    - exists (Float radix2 z 0); [unfold F2R; simpl; lra|simpl; lia|simpl; lia].
  Qed.
  Lemma fl_exact k : (k <= 45)%nat -> fl (lg (IZR (2 ^ Z.of_nat k))) = INR k.
  Proof.
    intros H. replace (IZR (2 ^ Z.of_nat k)) with (2 ^ k) by (rewrite <- pow_IZR; reflexivity).
    rewrite lg_pow2, INR_IZR_INZ. apply fl_int. lia.
  Qed.
  Lemma fl_err m : (1 <= m <= 2 ^ 45)%Z -> Rabs (fl (lg (IZR m)) - lg (IZR m)) <= / 2 ^ 46.
  Proof.
    intros [H1 H2].
    assert (L : 0 <= lg (IZR m) <= 45).
    { pose proof ln2_bounds. assert (M1 : 1 <= IZR m) by (apply IZR_le; lia). split.
      - apply lg_ge. rewrite Rmult_0_l, <- ln_1. destruct M1 as [M1| <-]; [left; apply ln_increasing; lra|lra].
      - apply lg_le.
        replace (45 * ln 2) with (ln (2 ^ 45)) by (rewrite ln_pow2; f_equal; simpl; lra).
        assert (M2 : IZR m <= 2 ^ 45) by (rewrite pow_IZR; apply IZR_le; exact H2).
        destruct M2 as [M2|M2]; [left; apply ln_increasing; lra|rewrite M2; lra]. }
    assert (E : Rabs (fl (lg (IZR m)) - lg (IZR m)) <= uro 53 * Rabs (lg (IZR m)) + tiny (-1074)) by (apply rnd_error; lia).
    eapply Rle_trans; [exact E|]. rewrite Rabs_pos_eq by lra.
    assert (U : uro 53 = / 2 ^ 53) by (unfold uro; simpl; f_equal; lra).
    assert (T : tiny (-1074) <= / 2 ^ 53).
    { rewrite <- U. unfold tiny, uro. apply bpow_le. lia. }
    rewrite U. replace (/ 2 ^ 46) with (128 * / 2 ^ 53) by (simpl; field).
    assert (0 < / 2 ^ 53) by (apply Rinv_0_lt_compat, pow_lt; lra). nra.
  Qed.
  Theorem fft_size_rounded lx ly : (1 <= lx)%nat -> (Z.of_nat (lx + Nat.max lx ly - 1) <= 2 ^ 45)%Z ->
    fft_size_with (fun m => fl (lg (IZR m))) (Z.of_nat (lx + Nat.max lx ly - 1)) = Z.of_nat (n_fft lx ly).
  Proof. apply fft_size_eq; [intros; now apply fl_exact|apply fl_err]. Qed.

  (** 2^49 + 1 *)
  Lemma large_log : fl (lg (IZR (2 ^ 49 + 1))) = 49.
  Proof.
    set (x := lg (IZR (2 ^ 49 + 1))).
    assert (X : 49 <= x < 49 + / 2 ^ 48).
    { assert (E : IZR (2 ^ 49 + 1) = 2 ^ 49 * (1 + / 2 ^ 49)) by (rewrite plus_IZR; change (2 ^ 49)%Z with (2 ^ Z.of_nat 49)%Z; rewrite <- pow_IZR, Rmult_plus_distr_l, Rinv_r by (apply pow_nonzero; lra); ring).
      unfold x. rewrite E. assert (P : 0 < / 2 ^ 49) by (apply Rinv_0_lt_compat, pow_lt; lra).
      rewrite lg_mult by (try apply pow_lt; lra). rewrite lg_pow2. replace (INR 49) with 49 by (simpl; lra).
      pose proof (lg_low (/ 2 ^ 49)) as L. 
      assert (Q : / 2 ^ 49 <= 1) by (rewrite <- Rinv_1; apply Rinv_le_contravar; [lra|apply pow_R1_Rle; lra]).
      specialize (L ltac:(lra)).
      assert (H : lg (1 + / 2 ^ 49) < / 2 ^ 48).
      { pose proof ln2_bounds. apply lg_lt.
        pose proof (ln_le_sub (1 + / 2 ^ 49) ltac:(lra)). replace (/ 2 ^ 48) with (2 * / 2 ^ 49) by (simpl; field). nra. }
      lra. }
    pose proof (FLT_exp_valid (-1074) 53 (prec_gt_0_ := eq_refl)) as V.
    assert (F49 : generic_format radix2 (FLT_exp (-1074) 53) 49).
    { apply generic_format_FLT. exists (Float radix2 49 0); [unfold F2R; simpl; lra|simpl; lia|simpl; lia]. }
    apply Rle_antisym.
    - unfold fl, rnd. apply round_N_le_midp; auto. rewrite succ_eq_pos by lra.
      rewrite ulp_neq_0 by lra. unfold cexp. 
      assert (G : mag radix2 49 = 6%Z :> Z).
      { apply mag_unique. rewrite Rabs_pos_eq by lra. change (bpow radix2 (6 - 1)) with 32. change (bpow radix2 6) with 64. lra. }
      rewrite G.
      unfold FLT_exp. change (Z.max (6 - 53) (-1074)) with (-47)%Z.
      assert (B : bpow radix2 (-47) = 2 * / 2 ^ 48).
      { assert (B1 : bpow radix2 48 = 2 ^ 48) by (rewrite bpow_powerRZ; reflexivity).
        rewrite <- B1. transitivity (bpow radix2 1 * bpow radix2 (-48)); [rewrite <- bpow_plus; reflexivity|].
        change (bpow radix2 1) with 2. reflexivity. }
      rewrite B. clear - X. lra.
    - unfold fl, rnd. apply round_ge_generic; auto; [apply valid_rnd_N|lra].
  Qed.
  Theorem fft_size_too_small : fft_size_with (fun m => fl (lg (IZR m))) (2 ^ 49 + 1) = (2 ^ 49)%Z.
  Proof. unfold fft_size_with. rewrite large_log, (Zceil_IZR 49). reflexivity. Qed.
End Rounded.
