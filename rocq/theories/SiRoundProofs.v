(** * Error bound for the scale-invariant coherence *)
From Coq Require Import Reals Lra Psatz Permutation.
From Verif Require Import Prelude Sums Helpers Metrics SpecSig PrepProofs SiRound.
Local Open Scope R_scope.

(** ** Exact sums along a tree *)
Fixpoint lsum (f : nat -> R) (l : list nat) : R :=
  match l with [] => 0 | i :: l' => f i + lsum f l' end.

Lemma lsum_app f l1 l2 : lsum f (l1 ++ l2) = lsum f l1 + lsum f l2.
Proof. induction l1 as [|i l IH]; cbn; [ring|]. rewrite IH. ring. Qed.

Lemma lsum_perm f l1 l2 : Permutation l1 l2 -> lsum f l1 = lsum f l2.
Proof. induction 1; cbn in *; lra. Qed.

Lemma lsum_seq f n : lsum f (seq 0 n) = Rsum n f.
Proof.
  induction n as [|n IH]; [reflexivity|].
  rewrite seq_S, lsum_app, IH. cbn. ring.
Qed.

Lemma lsum_sums f n h t : sums n h t -> lsum f (leaves t) = Rsum n f.
Proof. intros [H _]. rewrite (lsum_perm _ _ _ H). apply lsum_seq. Qed.

Lemma sums_length n h t : sums n h t -> length (leaves t) = n.
Proof. intros [H _]. rewrite (Permutation_length H), seq_length. reflexivity. Qed.

Lemma sums_in n h t i : sums n h t -> In i (leaves t) -> (i < n)%nat.
Proof. intros [H _] Hi. apply (Permutation_in _ H), in_seq in Hi. lia. Qed.

Lemma lsum_abs f l : Rabs (lsum f l) <= lsum (fun i => Rabs (f i)) l.
Proof.
  induction l as [|i l IH]; cbn; [rewrite Rabs_R0; lra|].
  eapply Rle_trans; [apply Rabs_triang|]. lra.
Qed.

Lemma abs_le_iff a b : Rabs a <= b <-> - b <= a <= b.
Proof. unfold Rabs. destruct Rcase_abs; split; lra. Qed.

Section Error.
  Variables (fl : R -> R) (u eta : R).
  Hypothesis Hu : 0 <= u.
  Hypothesis Heta : 0 <= eta.
  Hypothesis Hfl : forall z, Rabs (fl z - z) <= u * Rabs z + eta.
  Hypothesis Hpos : forall z, 0 <= z -> 0 <= fl z.

  Lemma pow_ge1 k : 1 <= (1 + u) ^ k.
  Proof. apply pow_R1_Rle. lra. Qed.

  Lemma pow_mono k m : (k <= m)%nat -> (1 + u) ^ k <= (1 + u) ^ m.
  Proof. intros H. apply Rle_pow; [lra|exact H]. Qed.

  (** Additions only. *)
  Lemma fsum_error f t h : (depth t <= h)%nat ->
    Rabs (fsum fl f t - lsum f (leaves t)) <=
    ((1 + u) ^ h - 1) * lsum (fun i => Rabs (f i)) (leaves t)
      + (INR (length (leaves t)) - 1) * (1 + u) ^ h * eta.
  Proof.
    revert h. induction t as [i|l IHl r IHr]; intros h Hd.
    - cbn. replace (f i - (f i + 0)) with 0 by ring. rewrite Rabs_R0.
      pose proof (pow_ge1 h). pose proof (Rabs_pos (f i)).
      replace ((1 - 1) * (1 + u) ^ h * eta) with 0 by ring.
      assert (0 <= ((1 + u) ^ h - 1) * (Rabs (f i) + 0)) by (apply Rmult_le_pos; lra). lra.
    - destruct h as [|h]; [cbn in Hd; lia|]. cbn in Hd.
      specialize (IHl h ltac:(lia)). specialize (IHr h ltac:(lia)).
      cbn [fsum leaves]. rewrite !lsum_app, app_length, plus_INR.
      set (A := lsum f (leaves l)) in *. set (B := lsum f (leaves r)) in *.
      set (A' := fsum fl f l) in *. set (B' := fsum fl f r) in *.
      set (a := lsum (fun i => Rabs (f i)) (leaves l)) in *.
      set (b := lsum (fun i => Rabs (f i)) (leaves r)) in *.
      assert (HA : Rabs A <= a) by apply lsum_abs. assert (HB : Rabs B <= b) by apply lsum_abs.
      pose proof (Hfl (A' + B')) as HF.
      assert (HS : Rabs (A' + B') <= a + b + (Rabs (A' - A) + Rabs (B' - B))).
      { replace (A' + B') with ((A + B) + ((A' - A) + (B' - B))) by ring.
        eapply Rle_trans; [apply Rabs_triang|].
        pose proof (Rabs_triang A B). pose proof (Rabs_triang (A' - A) (B' - B)). lra. }
      replace (fl (A' + B') - (A + B)) with ((fl (A' + B') - (A' + B')) + ((A' - A) + (B' - B))) by ring.
      eapply Rle_trans; [apply Rabs_triang|].
      pose proof (Rabs_triang (A' - A) (B' - B)).
      set (p := (1 + u) ^ h) in *. assert (Hp : 1 <= p) by apply pow_ge1.
      change ((1 + u) ^ S h) with ((1 + u) * p).
      set (nl := INR (length (leaves l))) in *. set (nr := INR (length (leaves r))) in *.
      set (ea := Rabs (A' - A)) in *. set (eb := Rabs (B' - B)) in *.
      assert (H1 : u * Rabs (A' + B') <= u * (a + b + (ea + eb))) by (apply Rmult_le_compat_l; lra).
      assert (H2 : (1 + u) * (ea + eb) <=
        (1 + u) * ((p - 1) * a + (nl - 1) * p * eta + ((p - 1) * b + (nr - 1) * p * eta)))
        by (apply Rmult_le_compat_l; lra).
      assert (H3 : eta <= (1 + u) * p * eta).
      { rewrite <- (Rmult_1_l eta) at 1. apply Rmult_le_compat_r; [lra|]. nra. }
      nra.
  Qed.

  Lemma lsum_le f g l : (forall i, In i l -> f i <= g i) -> lsum f l <= lsum g l.
  Proof.
    induction l as [|i l IH]; intros H; cbn; [lra|].
    pose proof (H i (or_introl eq_refl)). assert (lsum f l <= lsum g l) by (apply IH; intros; apply H; now right).
    lra.
  Qed.

  (** Sums of products, the products rounded or not. *)
  Definition P (h : nat) : R := (1 + u) ^ (h + 1).

  Lemma P_ge1 h : 1 <= P h.
  Proof. apply pow_ge1. Qed.

  Lemma fdot_error fma t n h x y : sums n h t ->
    Rabs (fdot fl fma t x y - Rsum n (fun i => x i * y i)) <=
    (P h - 1) * Rsum n (fun i => Rabs (x i * y i)) + 2 * INR n * P h * eta.
  Proof.
    intros Ht. set (f := fun i => x i * y i).
    set (g := fun i => if fma i then x i * y i else fl (x i * y i)).
    assert (Hg : forall i, Rabs (g i - f i) <= u * Rabs (f i) + eta).
    { intros i. unfold g, f. destruct (fma i); [|apply Hfl].
      rewrite Rminus_diag_eq, Rabs_R0 by reflexivity.
      pose proof (Rmult_le_pos _ _ Hu (Rabs_pos (x i * y i))). lra. }
    pose proof (fsum_error g t h (proj2 Ht)) as HE.
    unfold fdot. change (fsum fl _ t) with (fsum fl g t).
    rewrite (lsum_sums _ _ _ _ Ht), (lsum_sums _ _ _ _ Ht), (sums_length _ _ _ Ht) in HE.
    set (F := Rsum n (fun i => Rabs (f i))).
    assert (H0 : 0 <= F) by (apply Rsum_nonneg; intros; apply Rabs_pos).
    assert (HG : Rsum n (fun i => Rabs (g i)) <= (1 + u) * F + INR n * eta).
    { unfold F. rewrite <- Rsum_scal_l, <- Rsum_const, <- Rsum_plus. apply Rsum_le. intros i _.
      pose proof (Hg i). pose proof (Rabs_triang (g i - f i) (f i)) as Q.
      replace (g i - f i + f i) with (g i) in Q by ring. lra. }
    assert (HD : Rabs (Rsum n g - Rsum n f) <= u * F + INR n * eta).
    { rewrite <- Rsum_minus, <- lsum_seq. eapply Rle_trans; [apply lsum_abs|]. rewrite lsum_seq.
      unfold F. rewrite <- Rsum_scal_l, <- Rsum_const, <- Rsum_plus. apply Rsum_le. intros i _. apply Hg. }
    replace (fsum fl g t - Rsum n f) with ((fsum fl g t - Rsum n g) + (Rsum n g - Rsum n f)) by ring.
    eapply Rle_trans; [apply Rabs_triang|].
    unfold P. rewrite Nat.add_1_r. change ((1 + u) ^ S h) with ((1 + u) * (1 + u) ^ h).
    set (p := (1 + u) ^ h) in *. assert (Hp : 1 <= p) by apply pow_ge1.
    pose proof (pos_INR n) as Hn. set (N := INR n) in *.
    assert (H1 : (p - 1) * Rsum n (fun i => Rabs (g i)) <= (p - 1) * ((1 + u) * F + N * eta))
      by (apply Rmult_le_compat_l; lra).
    assert (H2 : 0 <= p * eta) by (apply Rmult_le_pos; lra).
    assert (H3 : 0 <= N * (p * eta)) by (apply Rmult_le_pos; lra).
    assert (H4 : 0 <= u * (N * (p * eta))) by (apply Rmult_le_pos; lra).
    change (Rsum n (fun i => Rabs (x i * y i))) with F. lra.
  Qed.

  Lemma fdot_self_nonneg fma t x : 0 <= fdot fl fma t x x.
  Proof.
    unfold fdot. induction t as [i|l IHl r IHr]; cbn.
    - destruct (fma i); [|apply Hpos]; nra.
    - apply Hpos. lra.
  Qed.

  (** ** The norm *)
  Definition den (n : nat) (x : nat -> R) : R := Rmax (sqrt (Rsum n (fun i => x i * x i))) norm_eps.

  Definition kappa (n h : nat) : R := (P h - 1) + 2 * INR n * P h * eta / (norm_eps * norm_eps).
  Definition rho (n h : nat) : R := kappa n h + u * (1 + kappa n h) + eta / norm_eps.

  Lemma kappa_nonneg n h : 0 <= kappa n h.
  Proof.
    unfold kappa. pose proof (P_ge1 h). pose proof (pos_INR n). pose proof eps_pos.
    assert (0 <= 2 * INR n * P h * eta) by (repeat apply Rmult_le_pos; lra).
    assert (0 <= 2 * INR n * P h * eta / (norm_eps * norm_eps)).
    { apply Rmult_le_pos; [assumption|]. apply Rlt_le, Rinv_0_lt_compat. nra. }
    lra.
  Qed.

  Lemma rho_nonneg n h : 0 <= rho n h.
  Proof.
    unfold rho. pose proof (kappa_nonneg n h). pose proof eps_pos.
    assert (0 <= eta / norm_eps) by (apply Rmult_le_pos; [lra|apply Rlt_le, Rinv_0_lt_compat; lra]).
    assert (0 <= u * (1 + kappa n h)) by (apply Rmult_le_pos; lra). lra.
  Qed.

  Lemma Rmax_lip a b c : Rabs (Rmax a c - Rmax b c) <= Rabs (a - b).
  Proof. unfold Rmax. repeat destruct Rle_dec; unfold Rabs; repeat destruct Rcase_abs; lra. Qed.

  Lemma den_pos n x : 0 < den n x.
  Proof. unfold den. pose proof eps_pos. pose proof (Rmax_r (sqrt (Rsum n (fun i => x i * x i))) norm_eps). lra. Qed.

  Lemma max_sqrt s : 0 <= s -> Rmax (sqrt s) norm_eps * Rmax (sqrt s) norm_eps = Rmax s (norm_eps * norm_eps).
  Proof.
    intros H. pose proof eps_pos. pose proof (sqrt_sqrt s H). pose proof (sqrt_pos s).
    unfold Rmax. repeat destruct Rle_dec; nra.
  Qed.

  Lemma fden_error fma t n h x : sums n h t ->
    Rabs (fden fl fma t x - den n x) <= rho n h * den n x.
  Proof.
    intros Ht. pose proof eps_pos as He. unfold fden.
    set (s' := fdot fl fma t x x). assert (Hs' : 0 <= s') by apply fdot_self_nonneg.
    set (s := Rsum n (fun i => x i * x i)).
    assert (Hs : 0 <= s) by (apply Rsum_nonneg; intros; nra).
    pose proof (fdot_error fma t n h x x Ht) as HE. fold s' s in HE.
    rewrite (Rsum_ext n (fun i => Rabs (x i * x i)) (fun i => x i * x i)) in HE
      by (intros; apply Rabs_right; nra). fold s in HE.
    set (d := den n x). assert (Hd : 0 < d) by apply den_pos.
    set (d0 := Rmax (sqrt s') norm_eps).
    assert (Hd0 : 0 < d0) by (unfold d0; pose proof (Rmax_r (sqrt s') norm_eps); lra).
    assert (Hdd : d * d = Rmax s (norm_eps * norm_eps)) by (apply max_sqrt, Hs).
    assert (Hd0d0 : d0 * d0 = Rmax s' (norm_eps * norm_eps)) by (apply max_sqrt, Hs').
    pose proof (kappa_nonneg n h) as Hk.
    (* squares *)
    assert (H1 : Rabs (d0 * d0 - d * d) <= kappa n h * (d * d)).
    { rewrite Hd0d0, Hdd. eapply Rle_trans; [apply Rmax_lip|]. eapply Rle_trans; [exact HE|].
      rewrite <- Hdd. unfold kappa.
      assert (Hsd : s <= d * d) by (rewrite Hdd; apply Rmax_l).
      assert (Hed : norm_eps * norm_eps <= d * d) by (rewrite Hdd; apply Rmax_r).
      pose proof (P_ge1 h). pose proof (pos_INR n).
      assert (Hq : 0 <= 2 * INR n * P h * eta) by (repeat apply Rmult_le_pos; lra).
      set (q := 2 * INR n * P h * eta) in *.
      assert (Hq2 : q <= q / (norm_eps * norm_eps) * (d * d)).
      { replace q with (q / (norm_eps * norm_eps) * (norm_eps * norm_eps)) at 1
          by (field; lra).
        apply Rmult_le_compat_l; [|exact Hed].
        apply Rmult_le_pos; [exact Hq|]. apply Rlt_le, Rinv_0_lt_compat. nra. }
      assert ((P h - 1) * s <= (P h - 1) * (d * d)) by (apply Rmult_le_compat_l; lra).
      lra. }
    assert (H2 : Rabs (d0 - d) <= kappa n h * d).
    { replace (d0 * d0 - d * d) with ((d0 - d) * (d0 + d)) in H1 by ring.
      rewrite Rabs_mult, (Rabs_right (d0 + d)) in H1 by lra.
      pose proof (Rabs_pos (d0 - d)).
      apply Rmult_le_reg_r with d; [exact Hd|]. nra. }
    (* rounding of the square root and of the constant *)
    assert (H3 : Rabs (Rmax (fl (sqrt s')) (fl norm_eps) - d0) <= u * d0 + eta).
    { pose proof (Hfl (sqrt s')) as F1. pose proof (Hfl norm_eps) as F2.
      rewrite (Rabs_right (sqrt s')) in F1 by (apply Rle_ge, sqrt_pos). rewrite (Rabs_right norm_eps) in F2 by lra.
      pose proof (sqrt_pos s'). apply abs_le_iff in F1. apply abs_le_iff in F2.
      assert (G1 : sqrt s' <= d0) by apply Rmax_l. assert (G2 : norm_eps <= d0) by apply Rmax_r.
      assert (u * sqrt s' <= u * d0) by (apply Rmult_le_compat_l; lra).
      assert (u * norm_eps <= u * d0) by (apply Rmult_le_compat_l; lra).
      apply abs_le_iff. 
      assert (G3 : d0 = sqrt s' \/ d0 = norm_eps) by (unfold d0, Rmax; destruct Rle_dec; auto).
      pose proof (Rmax_l (fl (sqrt s')) (fl norm_eps)). pose proof (Rmax_r (fl (sqrt s')) (fl norm_eps)).
      assert (G4 : Rmax (fl (sqrt s')) (fl norm_eps) <= d0 + (u * d0 + eta)) by (apply Rmax_lub; lra).
      destruct G3 as [G3|G3]; lra. }
    assert (H4 : d0 <= (1 + kappa n h) * d) by (apply abs_le_iff in H2; lra).
    replace (Rmax (fl (sqrt s')) (fl norm_eps) - d)
      with ((Rmax (fl (sqrt s')) (fl norm_eps) - d0) + (d0 - d)) by ring.
    eapply Rle_trans; [apply Rabs_triang|]. unfold rho.
    assert (H5 : eta <= eta / norm_eps * d).
    { replace eta with (eta / norm_eps * norm_eps) at 1 by (field; lra).
      apply Rmult_le_compat_l; [apply Rmult_le_pos; [lra|apply Rlt_le, Rinv_0_lt_compat; lra]|].
      apply Rmax_r. }
    assert (u * d0 <= u * ((1 + kappa n h) * d)) by (apply Rmult_le_compat_l; lra).
    lra.
  Qed.

  (** ** Normalized samples *)
  Definition sigma (n h : nat) : R :=
    rho n h / (1 - rho n h) + u * (1 + rho n h / (1 - rho n h)).

  Lemma sigma_nonneg n h : rho n h < 1 -> 0 <= sigma n h.
  Proof.
    intros H. unfold sigma. pose proof (rho_nonneg n h).
    assert (0 <= rho n h / (1 - rho n h)).
    { apply Rmult_le_pos; [assumption|]. apply Rlt_le, Rinv_0_lt_compat. lra. }
    assert (0 <= u * (1 + rho n h / (1 - rho n h))) by (apply Rmult_le_pos; lra). lra.
  Qed.

  Lemma fnormalize_error fma t n h x i : sums n h t -> rho n h < 1 ->
    Rabs (fnormalize fl fma t x i - x i / den n x) <= sigma n h * Rabs (x i / den n x) + eta.
  Proof.
    intros Ht Hr. unfold fnormalize. pose proof (fden_error fma t n h x Ht) as HE.
    set (d' := fden fl fma t x) in *. set (d := den n x) in *.
    assert (Hd : 0 < d) by apply den_pos. pose proof (rho_nonneg n h) as H0.
    set (r := rho n h) in *. set (a := x i / d).
    assert (Hd' : (1 - r) * d <= d') by (apply abs_le_iff in HE; lra).
    assert (Hd'0 : 0 < d') by nra.
    set (q := r / (1 - r)).
    assert (Hq : 0 <= q) by (apply Rmult_le_pos; [lra|apply Rlt_le, Rinv_0_lt_compat; lra]).
    assert (H1 : Rabs (x i / d' - a) <= q * Rabs a).
    { replace (x i / d' - a) with (a * ((d - d') / d')) by (unfold a; field; lra).
      rewrite Rabs_mult, Rmult_comm. apply Rmult_le_compat_r; [apply Rabs_pos|].
      unfold Rdiv. rewrite Rabs_mult, (Rabs_right (/ d')) by (apply Rle_ge, Rlt_le, Rinv_0_lt_compat, Hd'0).
      apply Rmult_le_reg_r with d'; [exact Hd'0|].
      rewrite Rmult_assoc, Rinv_l, Rmult_1_r by lra.
      rewrite Rabs_minus_sym. eapply Rle_trans; [exact HE|].
      replace (r * d) with (q * ((1 - r) * d)) by (unfold q; field; lra).
      apply Rmult_le_compat_l; assumption. }
    pose proof (Hfl (x i / d')) as HF.
    assert (H2 : Rabs (x i / d') <= (1 + q) * Rabs a).
    { replace (x i / d') with ((x i / d' - a) + a) by ring.
      eapply Rle_trans; [apply Rabs_triang|]. lra. }
    replace (fl (x i / d') - a) with ((fl (x i / d') - x i / d') + (x i / d' - a)) by ring.
    eapply Rle_trans; [apply Rabs_triang|].
    assert (u * Rabs (x i / d') <= u * ((1 + q) * Rabs a)) by (apply Rmult_le_compat_l; lra).
    unfold sigma. fold r. fold q. lra.
  Qed.

  Lemma unit_energy n x : Rsum n (fun i => (x i / den n x) * (x i / den n x)) <= 1.
  Proof.
    set (s := Rsum n (fun i => x i * x i)).
    assert (Hs : 0 <= s) by (apply Rsum_nonneg; intros; nra).
    pose proof (den_pos n x) as Hd. set (d := den n x) in *.
    assert (Hdd : d * d = Rmax s (norm_eps * norm_eps)) by (apply max_sqrt, Hs).
    rewrite (Rsum_ext _ _ (fun i => / (d * d) * (x i * x i))) by (intros; field; lra).
    rewrite Rsum_scal_l. fold s.
    apply Rmult_le_reg_l with (d * d); [nra|]. rewrite <- Rmult_assoc, Rinv_r by nra.
    rewrite Rmult_1_l, Rmult_1_r, Hdd. apply Rmax_l.
  Qed.

  Lemma unit_sample n x i : (i < n)%nat -> Rabs (x i / den n x) <= 1.
  Proof.
    intros Hi. pose proof (unit_energy n x) as H.
    assert (H1 : (x i / den n x) * (x i / den n x) <= 1).
    { eapply Rle_trans; [|exact H].
      rewrite <- (Rsum_delta n i (fun i => (x i / den n x) * (x i / den n x)) Hi).
      apply Rsum_le. intros j _. destruct (Nat.eqb j i); nra. }
    unfold Rabs. destruct Rcase_abs; nra.
  Qed.

  (** ** The coherence *)
  Definition d1 (n h : nat) : R :=
    2 * sigma n h + sigma n h ^ 2 + INR n * (2 * eta * (1 + sigma n h) + eta ^ 2).
  Definition d2 (n h : nat) : R :=
    d1 n h + (P h - 1) * (1 + d1 n h) + 2 * INR n * P h * eta.
  Definition coh_bound (n h : nat) : R := (2 * d2 n h + d2 n h ^ 2) * (1 + u) + u + eta.

  Lemma inner_error fx fy fxy tx ty txy n h x y :
    sums n h tx -> sums n h ty -> sums n h txy -> rho n h < 1 ->
    Rabs (fdot fl fxy txy (fnormalize fl fx tx x) (fnormalize fl fy ty y)
          - Rsum n (fun i => (x i / den n x) * (y i / den n y))) <= d2 n h /\
    Rabs (Rsum n (fun i => (x i / den n x) * (y i / den n y))) <= 1.
  Proof.
    intros Hx Hy Hxy Hr.
    set (a := fun i => x i / den n x). set (b := fun i => y i / den n y).
    set (a' := fnormalize fl fx tx x). set (b' := fnormalize fl fy ty y).
    pose proof (sigma_nonneg n h Hr) as Hs. set (sg := sigma n h) in *.
    assert (Ha : forall i, Rabs (a' i - a i) <= sg * Rabs (a i) + eta)
      by (intros; now apply fnormalize_error).
    assert (Hb : forall i, Rabs (b' i - b i) <= sg * Rabs (b i) + eta)
      by (intros; now apply fnormalize_error).
    assert (Hab : Rsum n (fun i => Rabs (a i * b i)) <= 1).
    { apply Rle_trans with (Rsum n (fun i => / 2 * (a i * a i) + / 2 * (b i * b i))).
      - apply Rsum_le. intros i _. rewrite Rabs_mult.
        pose proof (Rabs_pos (a i)). pose proof (Rabs_pos (b i)).
        assert (H1 : a i * a i = Rabs (a i) * Rabs (a i)) by (rewrite <- Rabs_mult; symmetry; apply Rabs_right; nra).
        assert (H2 : b i * b i = Rabs (b i) * Rabs (b i)) by (rewrite <- Rabs_mult; symmetry; apply Rabs_right; nra).
        pose proof (pow2_ge_0 (Rabs (a i) - Rabs (b i))). rewrite H1, H2. nra.
      - rewrite Rsum_plus, !Rsum_scal_l. pose proof (unit_energy n x). pose proof (unit_energy n y).
        unfold a, b. lra. }
    assert (Hprod : forall i, (i < n)%nat -> Rabs (a' i * b' i - a i * b i) <=
      (2 * sg + sg ^ 2) * Rabs (a i * b i) + (2 * eta * (1 + sg) + eta ^ 2)).
    { intros i Hi. pose proof (unit_sample n x i Hi) as Ua. pose proof (unit_sample n y i Hi) as Ub.
      fold (a i) in Ua. fold (b i) in Ub. pose proof (Ha i) as Ea. pose proof (Hb i) as Eb.
      replace (a' i * b' i - a i * b i)
        with ((a' i - a i) * (b' i - b i) + (a' i - a i) * b i + a i * (b' i - b i)) by ring.
      eapply Rle_trans; [apply Rabs_triang|].
      eapply Rle_trans; [apply Rplus_le_compat_r, Rabs_triang|]. rewrite !Rabs_mult.
      pose proof (Rabs_pos (a i)) as Pa. pose proof (Rabs_pos (b i)) as Pb.
      pose proof (Rabs_pos (a' i - a i)) as Pa'. pose proof (Rabs_pos (b' i - b i)) as Pb'.
      set (A := Rabs (a i)) in *. set (B := Rabs (b i)) in *.
      set (X := Rabs (a' i - a i)) in *. set (Y := Rabs (b' i - b i)) in *.
      assert (X * Y <= (sg * A + eta) * (sg * B + eta)) by (apply Rmult_le_compat; lra).
      assert (X * B <= (sg * A + eta) * B) by (apply Rmult_le_compat_r; lra).
      assert (A * Y <= A * (sg * B + eta)) by (apply Rmult_le_compat_l; lra).
      assert (Q1 : sg * eta * A <= sg * eta * 1) by (apply Rmult_le_compat_l; [apply Rmult_le_pos; lra|lra]).
      assert (Q2 : sg * eta * B <= sg * eta * 1) by (apply Rmult_le_compat_l; [apply Rmult_le_pos; lra|lra]).
      assert (Q3 : eta * A <= eta * 1) by (apply Rmult_le_compat_l; lra).
      assert (Q4 : eta * B <= eta * 1) by (apply Rmult_le_compat_l; lra).
      nra. }
    set (F' := Rsum n (fun i => a' i * b' i)). set (F := Rsum n (fun i => a i * b i)).
    assert (Hc : 0 <= 2 * eta * (1 + sg) + eta ^ 2).
    { assert (0 <= eta * (1 + sg)) by (apply Rmult_le_pos; lra).
      assert (0 <= eta ^ 2) by (apply pow2_ge_0). lra. }
    assert (D1 : Rsum n (fun i => Rabs (a' i * b' i - a i * b i)) <= d1 n h).
    { apply Rle_trans with (Rsum n (fun i => (2 * sg + sg ^ 2) * Rabs (a i * b i) + (2 * eta * (1 + sg) + eta ^ 2))).
      - apply Rsum_le. exact Hprod.
      - rewrite Rsum_plus, Rsum_scal_l, Rsum_const. unfold d1. fold sg.
        assert ((2 * sg + sg ^ 2) * Rsum n (fun i => Rabs (a i * b i)) <= (2 * sg + sg ^ 2) * 1)
          by (apply Rmult_le_compat_l; [pose proof (pow2_ge_0 sg); lra|exact Hab]).
        lra. }
    assert (D1' : Rabs (F' - F) <= d1 n h).
    { unfold F', F. rewrite <- Rsum_minus, <- lsum_seq. eapply Rle_trans; [apply lsum_abs|].
      rewrite lsum_seq. exact D1. }
    assert (HF' : Rsum n (fun i => Rabs (a' i * b' i)) <= 1 + d1 n h).
    { apply Rle_trans with (Rsum n (fun i => Rabs (a i * b i) + Rabs (a' i * b' i - a i * b i))).
      - apply Rsum_le. intros i _.
        replace (a' i * b' i) with (a i * b i + (a' i * b' i - a i * b i)) at 1 by ring. apply Rabs_triang.
      - rewrite Rsum_plus. lra. }
    pose proof (fdot_error fxy txy n h a' b' Hxy) as HE. fold F' in HE.
    split.
    - change (Rsum n (fun i => x i / den n x * (y i / den n y))) with F.
      replace (fdot fl fxy txy a' b' - F) with ((fdot fl fxy txy a' b' - F') + (F' - F)) by ring.
      eapply Rle_trans; [apply Rabs_triang|]. unfold d2. pose proof (P_ge1 h).
      assert ((P h - 1) * Rsum n (fun i => Rabs (a' i * b' i)) <= (P h - 1) * (1 + d1 n h))
        by (apply Rmult_le_compat_l; lra).
      lra.
    - rewrite <- lsum_seq. eapply Rle_trans; [apply lsum_abs|]. rewrite lsum_seq. exact Hab.
  Qed.

  Theorem fcoh_error fx fy fxy tx ty txy n h x y :
    sums n h tx -> sums n h ty -> sums n h txy -> rho n h < 1 ->
    Rabs (fcoh fl fx fy fxy tx ty txy x y
          - Rsum n (fun i => (x i / den n x) * (y i / den n y)) ^ 2) <= coh_bound n h.
  Proof.
    intros Hx Hy Hxy Hr.
    destruct (inner_error fx fy fxy tx ty txy n h x y Hx Hy Hxy Hr) as [HE H1].
    unfold fcoh. set (s' := fdot fl fxy txy _ _) in *. set (s := Rsum n _) in *.
    pose proof (Hfl (s' * s')) as HF. set (e := d2 n h) in *.
    assert (He : 0 <= e) by (eapply Rle_trans; [apply Rabs_pos|exact HE]).
    assert (H2 : Rabs (s' * s' - s ^ 2) <= 2 * e + e ^ 2).
    { replace (s' * s' - s ^ 2) with ((s' - s) * (s' - s) + 2 * s * (s' - s)) by ring.
      eapply Rle_trans; [apply Rabs_triang|]. rewrite !Rabs_mult, (Rabs_right 2) by lra.
      pose proof (Rabs_pos (s' - s)). pose proof (Rabs_pos s).
      assert (Rabs (s' - s) * Rabs (s' - s) <= e * e) by (apply Rmult_le_compat; lra).
      assert (Rabs s * Rabs (s' - s) <= 1 * e) by (apply Rmult_le_compat; lra). nra. }
    assert (H3 : s ^ 2 <= 1) by (apply abs_le_iff in H1; nra).
    assert (H4 : Rabs (s' * s') <= 1 + (2 * e + e ^ 2)).
    { replace (s' * s') with ((s' * s' - s ^ 2) + s ^ 2) by ring.
      eapply Rle_trans; [apply Rabs_triang|]. rewrite (Rabs_right (s ^ 2)) by (apply Rle_ge, pow2_ge_0). lra. }
    replace (fl (s' * s') - s ^ 2) with ((fl (s' * s') - s' * s') + (s' * s' - s ^ 2)) by ring.
    eapply Rle_trans; [apply Rabs_triang|]. unfold coh_bound. fold e.
    assert (u * Rabs (s' * s') <= u * (1 + (2 * e + e ^ 2))) by (apply Rmult_le_compat_l; lra).
    lra.
  Qed.
End Error.

(** ** A simple form of the bound *)
Lemma pow_bernoulli u k : 0 <= u -> (1 + u) ^ k * (1 - INR k * u) <= 1.
Proof.
  intros Hu. induction k as [|k IH]; [cbn; lra|].
  rewrite S_INR. cbn [pow]. pose proof (pow_R1_Rle (1 + u) k ltac:(lra)).
  set (p := (1 + u) ^ k) in *. pose proof (pos_INR k). set (m := INR k) in *.
  replace ((1 + u) * p * (1 - (m + 1) * u)) with (p * (1 - m * u) - p * (u * u) * (m + 1)) by ring.
  assert (0 <= p * (u * u) * (m + 1)) by (repeat apply Rmult_le_pos; lra). lra.
Qed.

Lemma P_small u h : 0 <= u -> INR (h + 1) * u <= / 100 -> P u h - 1 <= 1.02 * (INR (h + 1) * u).
Proof.
  intros Hu Hw. unfold P. pose proof (pow_bernoulli u (h + 1) Hu) as HB.
  pose proof (pow_R1_Rle (1 + u) (h + 1) ltac:(lra)).
  set (p := (1 + u) ^ (h + 1)) in *. set (w := INR (h + 1) * u) in *.
  assert (Hw0 : 0 <= w) by (apply Rmult_le_pos; [apply pos_INR|lra]).
  assert (p <= / (1 - w)).
  { apply Rmult_le_reg_r with (1 - w); [lra|]. rewrite Rinv_l by lra. exact HB. }
  assert (/ (1 - w) <= 1 + 1.02 * w).
  { apply Rmult_le_reg_r with (1 - w); [lra|]. rewrite Rinv_l by lra. nra. }
  lra.
Qed.

Lemma coh_bound_simple u eta n h :
  0 <= u -> 0 <= eta -> (0 < n)%nat -> INR (h + 1) * u <= / 100 ->
  2 * INR n * P u h * eta / (norm_eps * norm_eps) <= u ->
  rho u eta n h < 1 /\ coh_bound u eta n h <= (8 * INR h + 40) * u.
Proof.
  intros Hu Heta Hn Hw Hq.
  pose proof (P_small u h Hu Hw) as HA. pose proof (pow_R1_Rle (1 + u) (h + 1) ltac:(lra)) as HP.
  fold (P u h) in HP. set (p := P u h) in *.
  assert (Hw' : INR (h + 1) * u = INR h * u + u) by (rewrite plus_INR; cbn; ring).
  set (w := INR (h + 1) * u) in *.
  assert (Hhu : 0 <= INR h * u) by (apply Rmult_le_pos; [apply pos_INR|lra]).
  assert (Hn1 : 1 <= INR n) by (apply (le_INR 1); lia).
  pose proof eps_pos as He.
  assert (He1 : norm_eps <= 1).
  { unfold norm_eps. rewrite <- Rinv_1. apply Rinv_le_contravar; [lra|]. apply pow_R1_Rle. lra. }
  (* the absolute terms *)
  set (q := 2 * INR n * p * eta) in *.
  assert (Hq0 : 0 <= q) by (unfold q; repeat apply Rmult_le_pos; lra).
  assert (Hee : 0 < norm_eps * norm_eps) by nra.
  assert (Hq1 : q <= u * (norm_eps * norm_eps)).
  { apply Rmult_le_reg_r with (/ (norm_eps * norm_eps)); [now apply Rinv_0_lt_compat|].
    rewrite Rmult_assoc, Rinv_r by lra. unfold Rdiv in Hq. lra. }
  assert (Hq2 : q <= u * norm_eps).
  { eapply Rle_trans; [exact Hq1|]. apply Rmult_le_compat_l; [lra|]. nra. }
  assert (Hq3 : q <= u).
  { eapply Rle_trans; [exact Hq2|]. rewrite <- (Rmult_1_r u) at 2. apply Rmult_le_compat_l; lra. }
  assert (Hne : 2 * (INR n * eta) <= q).
  { unfold q. assert (0 <= INR n * eta) by (apply Rmult_le_pos; lra).
    assert (1 * (INR n * eta) <= p * (INR n * eta)) by (apply Rmult_le_compat_r; lra). lra. }
  assert (He2 : 2 * eta <= q).
  { assert (1 * eta <= INR n * eta) by (apply Rmult_le_compat_r; lra). lra. }
  assert (Heps : eta / norm_eps <= u).
  { apply Rmult_le_reg_r with norm_eps; [exact He|]. unfold Rdiv. rewrite Rmult_assoc, Rinv_l by lra. lra. }
  assert (Huw : u <= w) by lra.
  (* kappa, rho *)
  assert (K0 : 0 <= kappa u eta n h) by now apply kappa_nonneg.
  assert (K : kappa u eta n h <= 1.02 * w + u) by (unfold kappa; fold p; fold q; lra).
  assert (R0 : 0 <= rho u eta n h) by now apply rho_nonneg.
  assert (Rr : rho u eta n h <= 1.02 * w + 3.03 * u).
  { unfold rho. assert (u * (1 + kappa u eta n h) <= u * 1.0203) by (apply Rmult_le_compat_l; lra). lra. }
  assert (R1 : rho u eta n h < 1) by lra. split; [exact R1|].
  set (r := rho u eta n h) in *. set (r' := r / (1 - r)).
  assert (Hr' : 0 <= r' <= 1.043 * r).
  { unfold r'. split; [apply Rmult_le_pos; [lra|apply Rlt_le, Rinv_0_lt_compat; lra]|].
    apply Rmult_le_reg_r with (1 - r); [lra|]. unfold Rdiv. rewrite Rmult_assoc, Rinv_l by lra. nra. }
  assert (S0 : 0 <= sigma u eta n h) by now apply sigma_nonneg.
  assert (S1 : sigma u eta n h <= 1.064 * w + 4.22 * u).
  { unfold sigma. fold r. fold r'. assert (u * (1 + r') <= u * 1.0426) by (apply Rmult_le_compat_l; lra). lra. }
  set (sg := sigma u eta n h) in *.
  assert (Sq : sg ^ 2 <= 0.053 * sg) by (cbn; rewrite Rmult_1_r; apply Rmult_le_compat_r; lra).
  assert (D1 : d1 u eta n h <= 2.185 * w + 10.67 * u).
  { unfold d1. fold sg.
    assert (INR n * (2 * eta * (1 + sg)) <= q * 1.053).
    { replace (INR n * (2 * eta * (1 + sg))) with (2 * (INR n * eta) * (1 + sg)) by ring.
      apply Rmult_le_compat; try lra. assert (0 <= INR n * eta) by (apply Rmult_le_pos; lra). lra. }
    assert (INR n * eta ^ 2 <= q * 0.01).
    { replace (INR n * eta ^ 2) with ((INR n * eta) * eta) by ring.
      assert (0 <= INR n * eta) by (apply Rmult_le_pos; lra). apply Rmult_le_compat; lra. }
    lra. }
  assert (D10 : 0 <= d1 u eta n h).
  { unfold d1. fold sg.
    assert (0 <= INR n * (2 * eta * (1 + sg) + eta ^ 2)).
    { apply Rmult_le_pos; [lra|]. pose proof (pow2_ge_0 eta).
      assert (0 <= 2 * eta * (1 + sg)) by (repeat apply Rmult_le_pos; lra). lra. }
    pose proof (pow2_ge_0 sg). lra. }
  set (e1 := d1 u eta n h) in *.
  assert (D2 : d2 u eta n h <= 3.34 * w + 11.67 * u).
  { unfold d2. fold e1. fold p. fold q.
    assert ((p - 1) * (1 + e1) <= (1.02 * w) * 1.1286) by (apply Rmult_le_compat; lra). lra. }
  assert (D20 : 0 <= d2 u eta n h).
  { unfold d2. fold e1. fold p. fold q.
    assert (0 <= (p - 1) * (1 + e1)) by (apply Rmult_le_pos; lra). lra. }
  set (e2 := d2 u eta n h) in *.
  unfold coh_bound. fold e2.
  assert (Q2 : e2 ^ 2 <= 0.151 * e2) by (cbn; rewrite Rmult_1_r; apply Rmult_le_compat_r; lra).
  assert (Q3 : (2 * e2 + e2 ^ 2) * (1 + u) <= (2.151 * e2) * 1.01).
  { pose proof (pow2_ge_0 e2). apply Rmult_le_compat; lra. }
  replace ((8 * INR h + 40) * u) with (8 * (INR h * u) + 40 * u) by ring. lra.
Qed.
