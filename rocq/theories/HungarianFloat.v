(** * The Hungarian algorithm with rounded arithmetic (Flocq) *)
From Coq Require Import Reals Lra.
From Flocq Require Import Core BinarySingleNaN.
From Verif Require Import Prelude Hungarian HungarianProofs HungarianTop Spec.

(** ** Rounding to any format (no overflow) *)
Section Generic.
  Variable beta : radix.
  Variable fexp : Z -> Z.
  Context {vexp : Valid_exp fexp}.
  Variable rnd : R -> Z.
  Context {vrnd : Valid_rnd rnd}.

  (** Arithmetic of tensor entries where every addition and subtraction is
      rounded to the format [fexp] with the rounding [rnd]. *)
  Definition round_ops : num_ops R :=
    {| n_zero := 0%R;
       n_add := fun x y => round beta fexp rnd (x + y);
       n_sub := fun x y => round beta fexp rnd (x - y);
       n_leb := Rleb; n_is0 := Ris0 |}.

  Lemma round_laws K : num_laws round_ops (fun _ x => generic_format beta fexp x) K.
  Proof.
    constructor; simpl; auto.
    - intros. apply generic_format_round; auto.
    - intros. apply generic_format_round; auto.
    - intros. apply Ris0_true. rewrite Rminus_diag_eq by reflexivity. apply round_0; auto.
    - intros k x v _ Hx Hv H. apply Ris0_true in H. subst x. apply Ris0_true.
      rewrite Rplus_0_l, (round_generic beta fexp rnd v) by auto.
      rewrite Rminus_diag_eq by reflexivity. apply round_0; auto.
  Qed.

  Theorem lsa_rounded n m (c : nat -> nat -> R) fuel :
    (forall i j, i < n -> j < m -> generic_format beta fexp (c i j)) ->
    run_fuel (Nat.min n m) <= fuel ->
    exists l, linear_sum_assignment round_ops fuel n m c = Ok l /\
      complete_assignment n m l /\ rows_increasing l.
  Proof.
    intros Hc Hf.
    apply (lsa_complete round_ops (fun _ x => generic_format beta fexp x)
             (1 + 2 * (Nat.min n m * Nat.min n m)) (round_laws _)); auto.
  Qed.
End Generic.

(** ** IEEE binary formats with overflow *)
Section IEEE.
  Variables prec emax : Z.
  Context (prec_gt_0_ : Prec_gt_0 prec) (prec_lt_emax_ : Prec_lt_emax prec emax).
  Notation bf := (binary_float prec emax).
  Notation fexp := (SpecFloat.fexp prec emax).

  (** Tensor entries as IEEE binary floats (all NaNs identified), additions and
      subtractions rounded with mode [md]. *)
  Definition ieee_ops (md : mode) : num_ops bf :=
    {| n_zero := B754_zero false;
       n_add := Bplus md; n_sub := Bminus md;
       n_leb := Bleb; n_is0 := fun x => Beqb x (B754_zero false) |}.

  Definition within (e0 : Z) (k : nat) (x : bf) : Prop :=
    is_finite x = true /\ (Rabs (B2R x) <= bpow radix2 (e0 + Z.of_nat k))%R.

  Lemma emin_lt : (SpecFloat.emin prec emax < emax)%Z.
  Proof. unfold SpecFloat.emin. unfold Prec_gt_0, Prec_lt_emax in *. lia. Qed.

  Lemma round_bpow_le md e x : (SpecFloat.emin prec emax <= e)%Z ->
    (Rabs x <= bpow radix2 e)%R -> (Rabs (round radix2 fexp (round_mode md) x) <= bpow radix2 e)%R.
  Proof.
    intros He Hx. apply abs_round_le_generic; auto with typeclass_instances.
    - apply fexp_correct; auto.
    - apply generic_format_bpow. unfold SpecFloat.fexp.
      unfold SpecFloat.emin in *. unfold Prec_gt_0 in *. lia.
  Qed.

  Lemma is0_spec x : is_finite x = true ->
    (Beqb x (@B754_zero prec emax false) = true <-> B2R x = 0%R).
  Proof.
    intros Hx. rewrite Beqb_correct by auto. simpl.
    destruct (Req_bool_spec (B2R x) 0); split; congruence.
  Qed.

  Lemma ieee_laws md e0 K : (SpecFloat.emin prec emax <= e0)%Z -> (e0 + Z.of_nat K < emax)%Z ->
    num_laws (ieee_ops md) (within e0) K.
  Proof.
    intros He HK.
    assert (Hadd : forall k x y, k < K -> within e0 k x -> within e0 k y ->
      B2R (Bplus md x y) = round radix2 fexp (round_mode md) (B2R x + B2R y) /\
      within e0 (S k) (Bplus md x y)).
    { intros k x y Hk [Fx Bx] [Fy By].
      assert (Hr : (Rabs (round radix2 fexp (round_mode md) (B2R x + B2R y)) <= bpow radix2 (e0 + Z.of_nat (S k)))%R).
      { apply round_bpow_le; [lia|]. replace (e0 + Z.of_nat (S k))%Z with (e0 + Z.of_nat k + 1)%Z by lia.
        rewrite bpow_plus_1. simpl. eapply Rle_trans; [apply Rabs_triang|]. lra. }
      generalize (Bplus_correct prec emax _ _ md x y Fx Fy). rewrite Rlt_bool_true.
      - intros (H1 & H2 & _). split; auto. split; auto. rewrite H1. exact Hr.
      - eapply Rle_lt_trans; [apply Hr|]. apply bpow_lt. lia. }
    assert (Hsub : forall k x y, k < K -> within e0 k x -> within e0 k y ->
      B2R (Bminus md x y) = round radix2 fexp (round_mode md) (B2R x - B2R y) /\
      within e0 (S k) (Bminus md x y)).
    { intros k x y Hk [Fx Bx] [Fy By].
      assert (Hr : (Rabs (round radix2 fexp (round_mode md) (B2R x - B2R y)) <= bpow radix2 (e0 + Z.of_nat (S k)))%R).
      { apply round_bpow_le; [lia|]. replace (e0 + Z.of_nat (S k))%Z with (e0 + Z.of_nat k + 1)%Z by lia.
        rewrite bpow_plus_1. simpl. unfold Rminus. eapply Rle_trans; [apply Rabs_triang|].
        rewrite Rabs_Ropp. lra. }
      generalize (Bminus_correct prec emax _ _ md x y Fx Fy). rewrite Rlt_bool_true.
      - intros (H1 & H2 & _). split; auto. split; auto. rewrite H1. exact Hr.
      - eapply Rle_lt_trans; [apply Hr|]. apply bpow_lt. lia. }
    assert (Hself : forall k x, k < K -> within e0 k x ->
        Beqb (Bminus md x x) (@B754_zero prec emax false) = true).
    { intros k x Hk Hx. destruct (Hsub k x x Hk Hx Hx) as [E [F _]]. apply is0_spec; auto.
      rewrite E, Rminus_diag_eq by reflexivity. apply round_0; auto with typeclass_instances. }
    constructor.
    - intros k x [F B]. split; auto. eapply Rle_trans; [apply B|]. apply bpow_le. lia.
    - intros k x y Hk Hx Hy. apply (Hadd k x y); auto.
    - intros k x y Hk Hx Hy. apply (Hsub k x y); auto.
    - intros k x Hk Hx. apply (Hself k x); auto.
    - intros k x v Hk Hx Hv H0. simpl in *. apply is0_spec in H0; [|apply Hx].
      destruct (Hadd k x v Hk Hx Hv) as [E [F Bd]]. rewrite H0, Rplus_0_l in E.
      rewrite round_generic in E; [|auto with typeclass_instances|apply generic_format_B2R].
      assert (W : within e0 k (Bplus md x v)).
      { split; auto. rewrite E. apply Hv. }
      destruct (Hsub k (Bplus md x v) v Hk W Hv) as [E' [F' _]]. apply is0_spec; auto.
      rewrite E', E, Rminus_diag_eq by reflexivity. apply round_0; auto with typeclass_instances.
  Qed.

  Theorem lsa_ieee md n m (c : nat -> nat -> bf) e0 fuel :
    (SpecFloat.emin prec emax <= e0)%Z ->
    (e0 + 1 + 2 * Z.of_nat (Nat.min n m * Nat.min n m) < emax)%Z ->
    (forall i j, i < n -> j < m -> is_finite (c i j) = true /\ (Rabs (B2R (c i j)) <= bpow radix2 e0)%R) ->
    run_fuel (Nat.min n m) <= fuel ->
    exists l, linear_sum_assignment (ieee_ops md) fuel n m c = Ok l /\
      complete_assignment n m l /\ rows_increasing l.
  Proof.
    intros He HK Hc Hf.
    apply (lsa_complete (ieee_ops md) (within e0) (1 + 2 * (Nat.min n m * Nat.min n m))); auto.
    - apply ieee_laws; lia.
    - intros i j Hi Hj. destruct (Hc i j Hi Hj). split; auto.
      simpl. rewrite Z.add_0_r. auto.
  Qed.
End IEEE.
