(** * The dB mapping in IEEE-754 arithmetic (Flocq)

    The real-number model of _coherence_to_neg_sdr is [Helpers.coherence_to_neg_sdr]; here
    the same four steps are done on binary floats of any format, in any rounding mode. *)
From Coq Require Import Reals Lra.
From Flocq Require Import Core BinarySingleNaN Relative Plus_error.
From Verif Require Import Prelude.
Local Open Scope R_scope.

Section IEEE.
  Variables prec emax : Z.
  Context (prec_gt_0_ : Prec_gt_0 prec) (prec_lt_emax_ : Prec_lt_emax prec emax).
  Notation bf := (binary_float prec emax).
  Notation fexp := (SpecFloat.fexp prec emax).
  Notation fzero := (B754_zero false : bf).
  Notation fone := (Bone : bf).

  (** np.maximum, np.minimum on floats: NaN if an argument is NaN; of two equal arguments
      (that is +0 and -0) the first, as in the C code of numpy and std::max. *)
  Definition fmax (x m : bf) : bf :=
    if is_nan x then x else if is_nan m then m else if Bleb m x then x else m.
  Definition fmin (x m : bf) : bf :=
    if is_nan x then x else if is_nan m then m else if Bleb x m then x else m.
  (** clamp(coh, min=eps, max=1 - eps), numpy/helpers.py:27-35, 64; torch/helpers.py:58. *)
  Definition fclamp (lo hi x : bf) : bf := fmin (fmax x lo) hi.
  (** ratio = (1 - coh) / coh, numpy/helpers.py:66; torch/helpers.py:60 *)
  Definition fratio (md : mode) (c : bf) : bf := Bdiv md (Bminus md fone c) c.
  (** 10.0 * log10(ratio), numpy/helpers.py:69; [ten] is the constant 10.0 in the format,
      [flog10] the log10 of the C library. *)
  Definition fneg_sdr (md : mode) (ten : bf) (flog10 : bf -> bf) (lo hi x : bf) : bf :=
    Bmult md ten (flog10 (fratio md (fclamp lo hi x))).

  (** What is used of log10: it is NaN only on NaN and on numbers below zero. *)
  Definition log10_defined (f : bf -> bf) : Prop :=
    forall x, is_nan x = false -> Bleb fzero x = true -> is_nan (f x) = false.
  Definition log10_monotone (f : bf -> bf) : Prop :=
    forall x y, Bleb fzero x = true -> Bleb x y = true -> Bleb (f x) (f y) = true.

  (** A coherence after clamping. *)
  Definition unit_range (c : bf) : Prop :=
    is_finite c = true /\ Bsign c = false /\ 0 <= B2R c <= 1.

  Lemma fin_not_nan (x : bf) : is_finite x = true -> is_nan x = false.
  Proof. now destruct x. Qed.
  Lemma Bsign_pos (x : bf) : is_finite x = true -> 0 < B2R x -> Bsign x = false.
  Proof.
    destruct x as [s|s| |s m e H]; simpl; try (intros; lra); try discriminate.
    intros _ K. destruct s; [|reflexivity]. exfalso.
    assert (F2R (Float radix2 (Z.neg m) e) < 0) by (apply F2R_lt_0; simpl; lia).
    unfold SpecFloat.cond_Zopp in K; simpl in K. lra.
  Qed.
  Lemma Bleb_zero (x : bf) : is_finite x = true -> Bleb fzero x = true <-> 0 <= B2R x.
  Proof.
    intros H. rewrite Bleb_correct by auto. simpl. split; intros K.
    - revert K. case Rle_bool_spec; intros; [auto|discriminate].
    - now apply Rle_bool_true.
  Qed.
  Lemma sign_nonneg (x : bf) : is_finite x = true -> Bsign x = false -> 0 <= B2R x.
  Proof.
    destruct x as [s|s| |s m e H]; simpl; try (intros; lra); try discriminate.
    intros _ ->. apply F2R_ge_0. simpl. lia.
  Qed.

  (** The bounds of the clamp: two finite floats without sign, the upper one at most 1. *)
  Definition clamp_bounds (lo hi : bf) : Prop :=
    is_finite lo = true /\ Bsign lo = false /\
    is_finite hi = true /\ Bsign hi = false /\ B2R hi <= 1.

  Lemma Bleb_nan_l (x y : bf) : Bleb x y = true -> is_nan x = false /\ is_nan y = false.
  Proof. destruct x, y; simpl; try (intros; split; reflexivity); discriminate. Qed.

  Lemma fclamp_range lo hi x : clamp_bounds lo hi -> is_nan x = false ->
    x <> B754_zero true -> unit_range (fclamp lo hi x).
  Proof.
    intros (L1 & L2 & H1 & H2 & H3) Hx Hz. unfold fclamp.
    set (y := fmax x lo).
    assert (is_nan y = false /\ Bsign y = false /\
            (is_finite y = true \/ y = B754_infinity false)) as (Y1 & Y2 & Y3).
    { unfold y, fmax. rewrite Hx. rewrite (fin_not_nan lo) by exact L1.
      destruct (Bleb lo x) eqn:E; [|repeat split; auto using fin_not_nan].
      split; [auto|]. destruct x as [s|s| |s m e Hb]; try discriminate.
      - split; [|now left]. simpl. destruct s; [congruence|reflexivity].
      - destruct s.
        + destruct lo as [sl|sl| |sl ml el Hl]; simpl in L1; discriminate.
        + split; [reflexivity|now right].
      - rewrite Bleb_correct in E by auto. apply sign_nonneg in L2; auto.
        split; [|now left]. apply Bsign_pos; auto.
        destruct (Req_dec (B2R (B754_finite s m e Hb)) 0) as [Z|Z].
        + exfalso. simpl in Z. apply eq_0_F2R in Z. destruct s; discriminate.
        + revert E. case Rle_bool_spec; [|discriminate]. intros; lra. }
    clearbody y. unfold fmin. rewrite Y1, (fin_not_nan hi) by exact H1.
    assert (unit_range hi) as Uh by (split; [auto|split; [auto|split; auto using sign_nonneg]]).
    destruct Y3 as [Y3|Y3].
    - destruct (Bleb y hi) eqn:E; [|exact Uh].
      rewrite Bleb_correct in E by auto. revert E. case Rle_bool_spec; [|discriminate]. intros E _.
      split; [auto|split; [auto|]]. split; [auto using sign_nonneg|lra].
    - subst y. destruct (Bleb (B754_infinity false) hi) eqn:E; [|exact Uh]. exfalso.
      destruct hi as [s|s| |s m e Hb]; simpl in *; try discriminate; destruct s; discriminate.
  Qed.

  Lemma fclamp_range_pos lo hi x : clamp_bounds lo hi -> 0 < B2R lo -> is_nan x = false ->
    unit_range (fclamp lo hi x).
  Proof.
    intros B P Hx.
    assert (x = B754_zero true \/ x <> B754_zero true) as [->|Hz]
      by (destruct x as [[]|[]| |]; (now left) || (right; discriminate)).
    - assert (fmax (B754_zero true) lo = lo) as E.
      { destruct B as (L1 & _). unfold fmax. simpl (is_nan _). rewrite (fin_not_nan lo) by exact L1.
        rewrite Bleb_correct by auto. simpl (B2R (B754_zero _)). rewrite Rle_bool_false by lra. reflexivity. }
      assert (fmax lo lo = lo) as E2 by (unfold fmax; destruct (is_nan lo), (Bleb lo lo); reflexivity).
      unfold fclamp. rewrite E, <- E2. apply fclamp_range; auto.
      + destruct B as (L1 & _). now apply fin_not_nan.
      + intros K. rewrite K in P. simpl in P. lra.
    - now apply fclamp_range.
  Qed.

  Lemma round_le1 md x : x <= 1 -> round radix2 fexp (round_mode md) x <= 1.
  Proof.
    intros H. apply round_le_generic; [typeclasses eauto|typeclasses eauto| |auto].
    rewrite <- (Bone_correct prec emax _ _). apply generic_format_B2R.
  Qed.
  Lemma round_ge0 md x : 0 <= x -> 0 <= round radix2 fexp (round_mode md) x.
  Proof.
    intros H. apply round_ge_generic; [typeclasses eauto|typeclasses eauto|apply generic_format_0|auto].
  Qed.
  Lemma one_lt_emax : 1 < bpow radix2 emax.
  Proof.
    apply (bpow_lt radix2 0). pose proof prec_gt_0_. pose proof prec_lt_emax_.
    unfold Prec_gt_0, Prec_lt_emax in *. lia.
  Qed.

  (** 1 - c is computed without overflow, and is positive unless c is 1. *)
  Lemma num_spec md c : unit_range c ->
    is_finite (Bminus md fone c) = true /\
    B2R (Bminus md fone c) = round radix2 fexp (round_mode md) (1 - B2R c) /\
    0 <= B2R (Bminus md fone c) <= 1 /\
    (B2R c < 1 -> 0 < B2R (Bminus md fone c) /\ Bsign (Bminus md fone c) = false).
  Proof.
    intros (F & S & C).
    generalize (Bminus_correct prec emax _ _ md fone c (is_finite_Bone prec emax _ _) F).
    rewrite Bone_correct.
    assert (0 <= round radix2 fexp (round_mode md) (1 - B2R c)) as G0 by (apply round_ge0; lra).
    assert (round radix2 fexp (round_mode md) (1 - B2R c) <= 1) as G1 by (apply round_le1; lra).
    rewrite Rlt_bool_true by (rewrite Rabs_pos_eq by auto; pose proof one_lt_emax; lra).
    intros (E1 & E2 & E3). split; [auto|]. split; [auto|]. rewrite E1. split; [lra|].
    intros Hc. split.
    - destruct (Rlt_or_le 0 (round radix2 fexp (round_mode md) (1 - B2R c))) as [K|K]; [auto|].
      exfalso. assert (round radix2 fexp (round_mode md) (1 - B2R c) = 0) as Z by lra.
      apply (round_plus_neq_0 radix2 fexp (round_mode md)) with (x := 1) (y := - B2R c) in Z; auto.
      + rewrite <- (Bone_correct prec emax _ _). apply generic_format_B2R.
      + apply generic_format_opp, generic_format_B2R.
      + lra.
    - rewrite E3. rewrite Rcompare_Gt by lra. reflexivity.
  Qed.

  (** ** A float that is the rounding of a real, with overflow *)
  Definition rep (md : mode) (q : R) (u : bf) : Prop :=
    if Rlt_bool (Rabs (round radix2 fexp (round_mode md) q)) (bpow radix2 emax)
    then is_finite u = true /\ B2R u = round radix2 fexp (round_mode md) q
    else B2SF u = binary_overflow prec emax md (Rlt_bool q 0).

  (** The result of an overflow: infinity, or the largest number of the format. *)
  Definition big (s : bool) (u : bf) : Prop :=
    u = B754_infinity s \/
    (is_finite u = true /\
     B2R u = (if s then -1 else 1) * (bpow radix2 emax - bpow radix2 (emax - prec))).

  Lemma overflow_big md s u : B2SF u = binary_overflow prec emax md s -> big s u.
  Proof.
    unfold binary_overflow, big. destruct (overflow_to_inf md s); intros E.
    - left. destruct u; simpl in E; try discriminate. congruence.
    - right. split; [destruct u; simpl in E; discriminate || reflexivity|].
      rewrite <- SF2R_B2SF, E. unfold SF2R, F2R; cbn [Fnum Fexp].
      assert (IZR (Z.pos (Z.to_pos (2 ^ prec - 1))) = bpow radix2 prec - 1) as E2.
      { pose proof prec_gt_0_ as P. unfold Prec_gt_0 in P.
        assert (1 < 2 ^ prec)%Z by (apply (Z.pow_gt_1 2 prec); lia).
        rewrite Z2Pos.id by lia. rewrite minus_IZR, (IZR_Zpower radix2) by lia. reflexivity. }
      assert (bpow radix2 emax = bpow radix2 prec * bpow radix2 (emax - prec)) as E3
        by (rewrite <- bpow_plus; f_equal; lia).
      destruct s; unfold SpecFloat.cond_Zopp.
      + rewrite opp_IZR, E2, E3. ring.
      + rewrite E2, E3. ring.
  Qed.

  Lemma Bleb_fin (x y : bf) : is_finite x = true -> is_finite y = true ->
    B2R x <= B2R y -> Bleb x y = true.
  Proof. intros. rewrite Bleb_correct by auto. now apply Rle_bool_true. Qed.
  Lemma Bleb_inf (x : bf) : is_nan x = false -> Bleb x (B754_infinity false) = true.
  Proof. destruct x as [s|s| |s m e H]; try discriminate; destruct s; reflexivity. Qed.
  Lemma Bleb_minf (x : bf) : is_nan x = false -> Bleb (B754_infinity true) x = true.
  Proof. destruct x as [s|s| |s m e H]; try discriminate; destruct s; reflexivity. Qed.
  Lemma Bleb_refl (x : bf) : is_nan x = false -> Bleb x x = true.
  Proof.
    destruct x as [s|s| |s m e H]; intros; try discriminate; try (destruct s; reflexivity).
    apply Bleb_fin; auto. lra.
  Qed.
  Lemma big_top u x : big false u -> is_finite x = true -> Bleb x u = true.
  Proof.
    intros [->|[F E]] Fx; [apply Bleb_inf, fin_not_nan, Fx|].
    apply Bleb_fin; auto. rewrite E.
    generalize (abs_B2R_le_emax_minus_prec _ _ prec_gt_0_ x). intros K.
    pose proof (Rle_abs (B2R x)). lra.
  Qed.
  Lemma big_bot u x : big true u -> is_finite x = true -> Bleb u x = true.
  Proof.
    intros [->|[F E]] Fx; [apply Bleb_minf, fin_not_nan, Fx|].
    apply Bleb_fin; auto. rewrite E.
    generalize (abs_B2R_le_emax_minus_prec _ _ prec_gt_0_ x). intros K.
    pose proof (Rle_abs (- B2R x)). rewrite Rabs_Ropp in H. lra.
  Qed.
  Lemma big_nonneg : 0 < bpow radix2 emax - bpow radix2 (emax - prec).
  Proof.
    assert (bpow radix2 (emax - prec) < bpow radix2 emax); [|lra].
    apply bpow_lt. pose proof prec_gt_0_ as P. unfold Prec_gt_0 in P. lia.
  Qed.
  Lemma big_nan s u : big s u -> is_nan u = false.
  Proof. intros [->|[F _]]; [reflexivity|now apply fin_not_nan]. Qed.

  Lemma rep_nan md q u : rep md q u -> is_nan u = false.
  Proof.
    unfold rep. destruct (Rlt_bool _ _).
    - intros [F _]. now apply fin_not_nan.
    - intros E. apply overflow_big in E. now apply big_nan in E.
  Qed.

  Lemma rep_le md q1 q2 u1 u2 : rep md q1 u1 -> rep md q2 u2 -> q1 <= q2 -> Bleb u1 u2 = true.
  Proof.
    unfold rep. intros H1 H2 Hq.
    assert (round radix2 fexp (round_mode md) q1 <= round radix2 fexp (round_mode md) q2) as Hr
      by (apply round_le; auto; typeclasses eauto).
    assert (forall q, 0 <= q -> 0 <= round radix2 fexp (round_mode md) q) as P0
      by (intros; now apply round_ge0).
    assert (forall q, q <= 0 -> round radix2 fexp (round_mode md) q <= 0) as N0.
    { intros q K. apply round_le_generic; auto; try typeclasses eauto. apply generic_format_0. }
    set (r1 := round radix2 fexp (round_mode md) q1) in *.
    set (r2 := round radix2 fexp (round_mode md) q2) in *.
    destruct (Rlt_bool_spec (Rabs r1) (bpow radix2 emax)) as [B1|B1];
      destruct (Rlt_bool_spec (Rabs r2) (bpow radix2 emax)) as [B2|B2].
    - destruct H1 as [F1 E1], H2 as [F2 E2]. apply Bleb_fin; auto. lra.
    - destruct H1 as [F1 E1]. apply overflow_big in H2.
      destruct (Rlt_bool_spec q2 0) as [K|K]; [|now apply big_top].
      exfalso. assert (r2 <= 0) by (apply N0; lra). assert (r1 <= 0) by (apply N0; lra).
      rewrite Rabs_left1 in B1, B2 by auto. lra.
    - destruct H2 as [F2 E2]. apply overflow_big in H1.
      destruct (Rlt_bool_spec q1 0) as [K|K]; [now apply big_bot|].
      exfalso. assert (0 <= r1) by (apply P0; lra). assert (0 <= r2) by (apply P0; lra).
      rewrite Rabs_pos_eq in B1, B2 by auto. lra.
    - destruct (Rlt_bool_spec q1 0) as [K1|K1]; destruct (Rlt_bool_spec q2 0) as [K2|K2]; try lra.
      + assert (u1 = u2) as -> by (apply B2SF_inj; congruence).
        apply Bleb_refl. apply overflow_big in H2. now apply big_nan in H2.
      + apply overflow_big in H1. apply overflow_big in H2. pose proof big_nonneg.
        destruct H1 as [->|[F1 E1]]; [apply Bleb_minf; now apply big_nan in H2|].
        destruct H2 as [->|[F2 E2]]; [apply Bleb_inf; now apply fin_not_nan|].
        apply Bleb_fin; auto. rewrite E1, E2. lra.
      + assert (u1 = u2) as -> by (apply B2SF_inj; congruence).
        apply Bleb_refl. apply overflow_big in H2. now apply big_nan in H2.
  Qed.

  Lemma rep_nonneg md q u : rep md q u -> 0 <= q -> Bleb fzero u = true.
  Proof.
    intros H Hq. apply (rep_le md 0 q _ _); auto.
    unfold rep. rewrite round_0 by typeclasses eauto. rewrite Rabs_R0.
    rewrite Rlt_bool_true by apply bpow_gt_0. split; reflexivity.
  Qed.

  (** ** The ratio *)
  Lemma fratio_zero md : fratio md fzero = B754_infinity false.
  Proof.
    unfold fratio.
    assert (Bminus md fone fzero = fone) as ->.
    { generalize (is_finite_strict_Bone prec emax _ _). destruct fone; simpl; auto; discriminate. }
    generalize (is_finite_strict_Bone prec emax _ _) (Bsign_Bone prec emax _ _).
    destruct fone; simpl; try discriminate. now intros _ ->.
  Qed.

  Lemma fratio_rep md c : unit_range c -> 0 < B2R c ->
    rep md (B2R (Bminus md fone c) / B2R c) (fratio md c).
  Proof.
    intros U P. destruct (num_spec md c U) as (N1 & N2 & N3 & N4). unfold fratio, rep.
    set (n := Bminus md fone c) in *. clearbody n.
    generalize (Bdiv_correct prec emax _ _ md n c (Rgt_not_eq _ _ P)).
    case Rlt_bool_spec; intros B.
    - intros (E1 & E2 & E3). rewrite N1 in E2. auto.
    - intros E. rewrite E. f_equal.
      assert (0 <= B2R n / B2R c) by (apply Rle_mult_inv_pos; lra).
      rewrite Rlt_bool_false by auto.
      destruct U as (U1 & U2 & U3). rewrite U2.
      destruct (Req_dec (B2R n) 0) as [Z|Z].
      + exfalso. rewrite Z in B. unfold Rdiv in B. rewrite Rmult_0_l, round_0, Rabs_R0 in B by typeclasses eauto.
        generalize (bpow_gt_0 radix2 emax). lra.
      + rewrite Bsign_pos by (auto; lra). reflexivity.
  Qed.

  Lemma unit_zero c : unit_range c -> B2R c <= 0 -> c = fzero.
  Proof.
    intros (U1 & U2 & U3) Z. destruct c as [s|s| |s m e Hb]; try discriminate.
    - simpl in U2. now subst.
    - exfalso. assert (0 < B2R (B754_finite s m e Hb)); [|lra].
      simpl in U2. subst s. simpl. apply F2R_gt_0. simpl. lia.
  Qed.

  Lemma fratio_nonneg md c : unit_range c ->
    is_nan (fratio md c) = false /\ Bleb fzero (fratio md c) = true.
  Proof.
    intros U. destruct (Rlt_or_le 0 (B2R c)) as [P|P].
    - generalize (fratio_rep md c U P). intros H. split; [now apply rep_nan in H|].
      apply rep_nonneg in H; auto. destruct (num_spec md c U) as (_ & _ & N3 & _).
      apply Rle_mult_inv_pos; lra.
    - rewrite (unit_zero c U P), fratio_zero. split; reflexivity.
  Qed.

  Lemma fratio_mono md c1 c2 : unit_range c1 -> unit_range c2 -> B2R c1 <= B2R c2 ->
    Bleb (fratio md c2) (fratio md c1) = true.
  Proof.
    intros U1 U2 H. destruct (Rlt_or_le 0 (B2R c1)) as [P|P].
    - apply (rep_le md _ _ _ _ (fratio_rep md c2 U2 ltac:(lra)) (fratio_rep md c1 U1 P)).
      destruct (num_spec md c1 U1) as (_ & A2 & A3 & _).
      destruct (num_spec md c2 U2) as (_ & B2 & B3 & _).
      assert (B2R (Bminus md fone c2) <= B2R (Bminus md fone c1)).
      { rewrite A2, B2. apply round_le; try typeclasses eauto. lra. }
      unfold Rdiv. apply Rmult_le_compat; try lra.
      + apply Rlt_le, Rinv_0_lt_compat; lra.
      + apply Rinv_le; lra.
    - rewrite (unit_zero c1 U1 P), fratio_zero. apply Bleb_inf. now apply fratio_nonneg.
  Qed.

  (** ** Multiplication by 10 *)
  Definition pos_const (ten : bf) : Prop := is_finite ten = true /\ 0 < B2R ten.

  Lemma mult_nan md ten y : pos_const ten -> is_nan y = false -> is_nan (Bmult md ten y) = false.
  Proof.
    intros [F P] Hy. generalize (Bmult_correct prec emax _ _ md ten y).
    destruct y as [s|s| |s m e Hb]; try discriminate.
    - case Rlt_bool; intros H; [|now apply overflow_big, big_nan in H].
      destruct H as (_ & H & _). rewrite F in H. now apply fin_not_nan.
    - intros _. destruct ten; simpl in *; try lra; try discriminate; reflexivity.
    - case Rlt_bool; intros H; [|now apply overflow_big, big_nan in H].
      destruct H as (_ & H & _). rewrite F in H. now apply fin_not_nan.
  Qed.

  Lemma mult_rep md ten y : pos_const ten -> is_finite y = true ->
    rep md (B2R ten * B2R y) (Bmult md ten y).
  Proof.
    intros [F P] Fy. generalize (Bmult_correct prec emax _ _ md ten y). unfold rep.
    case Rlt_bool_spec; intros B H.
    - destruct H as (H1 & H2 & _). rewrite F, Fy in H2. auto.
    - rewrite H. f_equal. rewrite (Bsign_pos ten) by auto. simpl.
      destruct (Rtotal_order (B2R y) 0) as [K|[K|K]].
      + rewrite Rlt_bool_true by nra.
        destruct y as [s|s| |s m e Hb]; simpl in K; try lra; try discriminate.
        destruct s; [reflexivity|]. exfalso.
        assert (0 < F2R (Float radix2 (Z.pos m) e)) by (apply F2R_gt_0; simpl; lia).
        unfold SpecFloat.cond_Zopp in K. lra.
      + exfalso. rewrite K, Rmult_0_r, round_0, Rabs_R0 in B by typeclasses eauto.
        generalize (bpow_gt_0 radix2 emax). lra.
      + rewrite Rlt_bool_false by nra. now rewrite (Bsign_pos y).
  Qed.

  Lemma mult_mono md ten x y : pos_const ten -> Bleb x y = true ->
    Bleb (Bmult md ten x) (Bmult md ten y) = true.
  Proof.
    intros T H. destruct (Bleb_nan_l _ _ H) as [Nx Ny].
    assert (forall s, Bmult md ten (B754_infinity s) = B754_infinity s) as MI.
    { intros s. destruct T as [F P]. generalize (Bsign_pos ten F P). destruct ten as [t|t| |t m e Hb]; simpl in *; try lra; try discriminate.
      intros ->. destruct s; reflexivity. }
    assert (is_finite x = true \/ exists s, x = B754_infinity s) as [Fx|[s ->]]
      by (destruct x; simpl; try discriminate; eauto).
    - assert (is_finite y = true \/ exists s, y = B754_infinity s) as [Fy|[s ->]]
        by (destruct y; simpl; try discriminate; eauto).
      + apply (rep_le md _ _ _ _ (mult_rep md ten x T Fx) (mult_rep md ten y T Fy)).
        rewrite Bleb_correct in H by auto. revert H. case Rle_bool_spec; [|discriminate]. intros H _.
        apply Rmult_le_compat_l; auto. destruct T; lra.
      + rewrite MI. destruct s; [|apply Bleb_inf; now apply mult_nan].
        exfalso. destruct x as [s|s| |s m e Hb]; simpl in *; try discriminate; destruct s; discriminate.
    - rewrite MI. destruct s; [apply Bleb_minf; now apply mult_nan|].
      destruct y as [s|s| |s m e Hb]; simpl in H; try discriminate; destruct s; try discriminate.
      now rewrite MI.
  Qed.

  (** ** Results *)
  Theorem fneg_sdr_not_nan md ten flog10 lo hi x :
    pos_const ten -> log10_defined flog10 -> clamp_bounds lo hi ->
    is_nan x = false -> x <> B754_zero true ->
    is_nan (fneg_sdr md ten flog10 lo hi x) = false.
  Proof.
    intros T L B Hx Hz. unfold fneg_sdr. apply mult_nan; auto.
    destruct (fratio_nonneg md (fclamp lo hi x)) as [N1 N2].
    - now apply fclamp_range.
    - now apply L.
  Qed.
  Theorem fneg_sdr_not_nan_pos md ten flog10 lo hi x :
    pos_const ten -> log10_defined flog10 -> clamp_bounds lo hi -> 0 < B2R lo ->
    is_nan x = false -> is_nan (fneg_sdr md ten flog10 lo hi x) = false.
  Proof.
    intros T L B P Hx. unfold fneg_sdr. apply mult_nan; auto.
    destruct (fratio_nonneg md (fclamp lo hi x)) as [N1 N2].
    - now apply fclamp_range_pos.
    - now apply L.
  Qed.
  Theorem fneg_sdr_nan md ten flog10 lo hi :
    (forall x, is_nan x = true -> is_nan (flog10 x) = true) ->
    is_nan (fneg_sdr md ten flog10 lo hi B754_nan) = true.
  Proof.
    intros L. unfold fneg_sdr, fclamp, fratio. change (fmax B754_nan lo) with (B754_nan : bf).
    change (fmin B754_nan hi) with (B754_nan : bf).
    assert (is_nan (flog10 (Bdiv md (Bminus md fone B754_nan) B754_nan)) = true) as H.
    { apply L. destruct (Bminus md fone B754_nan); reflexivity. }
    destruct (flog10 _); try discriminate. destruct ten; reflexivity.
  Qed.

  (** The coherence -0.0: not changed by the clamp, 1 / -0.0 = -inf, log10(-inf) = NaN. *)
  Theorem fneg_sdr_negzero md ten flog10 :
    (is_nan (flog10 (B754_infinity true)) = true) ->
    is_nan (fneg_sdr md ten flog10 fzero fone (B754_zero true)) = true.
  Proof.
    intros L. unfold fneg_sdr.
    assert (fclamp fzero fone (B754_zero true) = B754_zero true) as ->.
    { unfold fclamp. change (fmax (B754_zero true) fzero) with (B754_zero true : bf).
      unfold fmin. simpl (is_nan (B754_zero true)). rewrite is_nan_Bone.
      rewrite Bleb_correct by (auto using is_finite_Bone). rewrite Bone_correct.
      simpl (B2R (B754_zero true)). now rewrite Rle_bool_true by lra. }
    assert (fratio md (B754_zero true) = B754_infinity true) as ->.
    { unfold fratio.
      assert (Bminus md fone (B754_zero true) = fone) as ->.
      { generalize (is_finite_strict_Bone prec emax _ _). destruct fone; simpl; auto; discriminate. }
      generalize (is_finite_strict_Bone prec emax _ _) (Bsign_Bone prec emax _ _).
      destruct fone; simpl; try discriminate. now intros _ ->. }
    destruct (flog10 _); try discriminate. destruct ten; reflexivity.
  Qed.

  Theorem fneg_sdr_negzero_ex md ten flog10 :
    (is_nan (flog10 (B754_infinity true)) = true) ->
    exists x, is_nan x = false /\ is_nan (fneg_sdr md ten flog10 fzero fone x) = true.
  Proof. intros H. exists (B754_zero true). split; [reflexivity|now apply fneg_sdr_negzero]. Qed.

  (** Larger coherence, smaller loss: also after rounding. *)
  Lemma fclamp_mono lo hi x y : clamp_bounds lo hi -> Bleb x y = true ->
    x <> B754_zero true -> y <> B754_zero true ->
    B2R (fclamp lo hi x) <= B2R (fclamp lo hi y).
  Proof.
    intros B H Zx Zy. destruct (Bleb_nan_l _ _ H) as [Nx Ny].
    pose proof (fclamp_range lo hi x B Nx Zx) as Ux.
    pose proof (fclamp_range lo hi y B Ny Zy) as Uy.
    destruct B as (L1 & L2 & H1 & H2 & H3).
    (* value of the clamp *)
    assert (forall z, is_finite z = true ->
      B2R (fclamp lo hi z) = Rmin (Rmax (B2R z) (B2R lo)) (B2R hi)) as V.
    { intros z Fz. unfold fclamp.
      assert (is_finite (fmax z lo) = true /\ B2R (fmax z lo) = Rmax (B2R z) (B2R lo)) as [M1 M2].
      { unfold fmax. rewrite !fin_not_nan by auto. rewrite Bleb_correct by auto.
        case Rle_bool_spec; intros K; split; auto.
        - rewrite Rmax_left; auto.
        - rewrite Rmax_right; lra. }
      unfold fmin. rewrite !fin_not_nan by auto. rewrite Bleb_correct by auto. rewrite M2.
      case Rle_bool_spec; intros K.
      - rewrite Rmin_left; auto.
      - rewrite Rmin_right; lra. }
    assert (B2R (fclamp lo hi (B754_infinity false)) = B2R hi) as VI.
    { unfold fclamp.
      assert (fmax (B754_infinity false) lo = B754_infinity false) as ->.
      { unfold fmax. simpl (is_nan (B754_infinity false)). rewrite fin_not_nan by auto.
        now rewrite Bleb_inf by (now apply fin_not_nan). }
      unfold fmin. simpl (is_nan (B754_infinity false)). rewrite fin_not_nan by auto.
      destruct (Bleb (B754_infinity false) hi) eqn:E; auto.
      destruct hi as [s|s| |s m e Hb]; simpl in *; try discriminate; destruct s; discriminate. }
    assert (B2R (fclamp lo hi (B754_infinity true)) = Rmin (B2R lo) (B2R hi)) as VM.
    { unfold fclamp.
      assert (fmax (B754_infinity true) lo = lo) as ->.
      { unfold fmax. simpl (is_nan (B754_infinity true)). rewrite fin_not_nan by auto.
        destruct lo as [s|s| |s m e Hb]; simpl in *; try discriminate; reflexivity. }
      unfold fmin. rewrite !fin_not_nan by auto. rewrite Bleb_correct by auto.
      case Rle_bool_spec; intros K; [rewrite Rmin_left|rewrite Rmin_right]; auto; lra. }
    assert (is_finite x = true \/ exists s, x = B754_infinity s) as [Fx|[s ->]]
      by (destruct x; simpl; try discriminate; eauto);
    assert (is_finite y = true \/ exists s, y = B754_infinity s) as [Fy|[t ->]]
      by (destruct y; simpl; try discriminate; eauto).
    - rewrite !V by auto. rewrite Bleb_correct in H by auto. revert H.
      case Rle_bool_spec; [|discriminate]. intros H _.
      apply Rle_min_compat_r, Rle_max_compat_r, H.
    - destruct t.
      + exfalso. destruct x as [s|s| |s m e Hb]; simpl in *; try discriminate; destruct s; discriminate.
      + rewrite VI, V by auto. apply Rmin_r.
    - destruct s.
      + rewrite VM, V by auto. apply Rle_min_compat_r, Rmax_r.
      + exfalso. destruct y as [s|s| |s m e Hb]; simpl in *; try discriminate; destruct s; discriminate.
    - destruct s, t; simpl in H; try discriminate; try lra. rewrite VM, VI. apply Rmin_r.
  Qed.

  Theorem fneg_sdr_antitone md ten flog10 lo hi x y :
    pos_const ten -> log10_monotone flog10 -> clamp_bounds lo hi ->
    x <> B754_zero true -> y <> B754_zero true -> Bleb x y = true ->
    Bleb (fneg_sdr md ten flog10 lo hi y) (fneg_sdr md ten flog10 lo hi x) = true.
  Proof.
    intros T L B Zx Zy H. destruct (Bleb_nan_l _ _ H) as [Nx Ny].
    pose proof (fclamp_range lo hi x B Nx Zx) as Ux.
    pose proof (fclamp_range lo hi y B Ny Zy) as Uy.
    unfold fneg_sdr. apply mult_mono; auto. apply L.
    - now apply fratio_nonneg.
    - apply fratio_mono; auto. now apply fclamp_mono.
  Qed.

  (** ** Rounding error of the ratio *)
  Theorem fratio_error c : (prec + 2 <= emax)%Z -> unit_range c -> 0 < B2R c < 1 ->
    is_finite (fratio mode_NE c) = true ->
    exists d, Rabs d <= 2 * bpow radix2 (- prec) + bpow radix2 (- prec) ^ 2 /\
      B2R (fratio mode_NE c) = (1 - B2R c) / B2R c * (1 + d).
  Proof.
    intros Hp U C F. destruct (num_spec mode_NE c U) as (N1 & N2 & N3 & N4).
    assert (0 < B2R (Bminus mode_NE fone c)) as NP by (apply N4; lra).
    pose proof (fratio_rep mode_NE c U ltac:(lra)) as Hrep.
    set (n := Bminus mode_NE fone c) in *.
    set (u := bpow radix2 (- prec)).
    assert (0 < u) as Pu by apply bpow_gt_0.
    assert (u_ro radix2 prec = u) as Eu.
    { unfold u_ro, u. rewrite bpow_plus. simpl (bpow radix2 1). lra. }
    destruct (FLT_plus_error_N_ex radix2 (3 - emax - prec) prec (fun x => negb (Z.even x)) 1 (- B2R c)) as (e1 & E1 & R1).
    { rewrite <- (Bone_correct prec emax _ _). apply (generic_format_B2R prec emax). }
    { apply generic_format_opp, (generic_format_B2R prec emax). }
    change (FLT_exp (3 - emax - prec) prec) with fexp in R1.
    change (ZnearestE) with (round_mode mode_NE) in R1.
    fold (1 - B2R c) in R1. rewrite Eu in E1.
    assert (B2R n = (1 - B2R c) * (1 + e1)) as EN by (rewrite N2; exact R1).
    assert (Rabs e1 <= u) as E1'.
    { apply Rle_trans with (1 := E1). apply (Rmult_le_reg_r (1 + u)); [lra|].
      unfold Rdiv. rewrite Rmult_assoc, Rinv_l by lra. nra. }
    (* the quotient is not small *)
    assert (u <= 1 - B2R c) as Hc.
    { unfold u. destruct (Rle_or_lt (bpow radix2 (- prec)) (1 - B2R c)) as [K|K]; auto. exfalso.
      (* c is a multiple of ulp below 1 *)
      assert (B2R c <= pred radix2 fexp 1) as K2.
      { apply pred_ge_gt; auto; try typeclasses eauto.
        - apply generic_format_B2R.
        - rewrite <- (Bone_correct prec emax _ _). apply generic_format_B2R.
        - lra. }
      change 1 with (bpow radix2 0) in K2. rewrite (pred_bpow radix2 fexp 0) in K2. simpl (bpow radix2 0) in K2.
      assert (fexp 0 = - prec)%Z as E0.
      { pose proof prec_gt_0_ as P. unfold Prec_gt_0 in P. unfold SpecFloat.fexp, SpecFloat.emin. lia. }
      rewrite E0 in K2. lra. }
    assert (u <= B2R n) as Hn.
    { rewrite N2. apply round_ge_generic; auto; try typeclasses eauto.
      unfold u. apply generic_format_bpow. unfold SpecFloat.fexp, SpecFloat.emin.
      pose proof prec_gt_0_ as P. unfold Prec_gt_0 in P. lia. }
    assert (u <= B2R n / B2R c) as Hq.
    { apply (Rmult_le_reg_r (B2R c)); [lra|]. unfold Rdiv. rewrite Rmult_assoc, Rinv_l by lra. nra. }
    destruct (relative_error_N_FLT_ex radix2 (3 - emax - prec) prec prec_gt_0_ (fun x => negb (Z.even x)) (B2R n / B2R c)) as (e2 & E2 & R2).
    { rewrite Rabs_pos_eq by lra. apply Rle_trans with (2 := Hq). unfold u. apply bpow_le. lia. }
    change (FLT_exp (3 - emax - prec) prec) with fexp in R2.
    change (ZnearestE) with (round_mode mode_NE) in R2.
    assert (/ 2 * bpow radix2 (- prec + 1) = u) as E3.
    { rewrite bpow_plus. fold u. simpl (bpow radix2 1). lra. }
    rewrite E3 in E2.
    assert (B2R (fratio mode_NE c) = B2R n / B2R c * (1 + e2)) as E4.
    { rewrite <- R2. revert Hrep. unfold rep. case Rlt_bool_spec; intros B.
      - now intros [_ ->].
      - intros K. exfalso. assert (Rlt_bool (B2R n / B2R c) 0 = false) as Z by (apply Rlt_bool_false; lra).
        rewrite Z in K. unfold binary_overflow in K. simpl in K.
        destruct (fratio mode_NE c); simpl in *; discriminate. }
    exists (e1 + e2 + e1 * e2). split.
    - apply Rle_trans with (1 := Rabs_triang _ _). rewrite Rabs_mult.
      apply Rle_trans with (u + u + u * u).
      + apply Rplus_le_compat.
        * apply Rle_trans with (1 := Rabs_triang _ _). lra.
        * apply Rmult_le_compat; auto using Rabs_pos.
      + simpl. lra.
    - rewrite E4, EN. field. lra.
  Qed.
End IEEE.
