(** * Error of the scale-invariant coherence with rounded mean removal (C94) *)
From Coq Require Import Reals Lra Psatz Permutation.
From Verif Require Import Prelude ExtReal Spec Sums Helpers Metrics SpecSig LeastSq PrepProofs MetricsProofs DbProofs
  ProjTheorems Sensitivity SigExamples Witness SiRound SiRoundProofs SiRoundFlt SiMean.
From Flocq Require Import Core Relative.
Local Open Scope R_scope.

Lemma sum_abs_nrm n x : Rsum n (fun i => Rabs (x i)) <= sqrt (INR n) * nrm n x.
Proof.
  pose proof (dot_le_nrm n (fun _ => 1) (fun i => Rabs (x i))) as H.
  replace (dot n (fun _ => 1) (fun i => Rabs (x i))) with (Rsum n (fun i => Rabs (x i))) in H
    by (apply Rsum_ext; intros; ring).
  replace (nrm n (fun _ => 1)) with (sqrt (INR n)) in H
    by (unfold nrm, energy, dot; rewrite Rsum_const; f_equal; ring).
  replace (nrm n (fun i => Rabs (x i))) with (nrm n x) in H.
  - eapply Rle_trans; [apply Rle_abs|exact H].
  - unfold nrm, energy, dot. f_equal. apply Rsum_ext. intros i _. rewrite <- Rabs_mult. symmetry. apply Rabs_pos_eq. nra.
Qed.
Lemma nrm_le n u v : (forall i, (i < n)%nat -> Rabs (u i) <= v i) -> nrm n u <= nrm n v.
Proof.
  intros H. unfold nrm. apply sqrt_le_1_alt. apply Rsum_le. intros i Hi. specialize (H i Hi).
  pose proof (Rabs_pos (u i)). replace (u i * u i) with (Rabs (u i) * Rabs (u i)).
  - nra.
  - rewrite <- Rabs_mult. apply Rabs_pos_eq. nra.
Qed.
Lemma nrm_const n c : 0 <= c -> nrm n (fun _ => c) = sqrt (INR n) * c.
Proof.
  intros Hc. unfold nrm, energy, dot. rewrite Rsum_const. rewrite sqrt_mult; [|apply pos_INR|nra].
  f_equal. apply sqrt_square. auto.
Qed.

Section Error.
  Variables (fl : R -> R) (u eta : R).
  Hypothesis Hu : 0 <= u.
  Hypothesis Heta : 0 <= eta.
  Hypothesis Hfl : forall z, Rabs (fl z - z) <= u * Rabs z + eta.

  Lemma fmean_error n h t x : (0 < n)%nat -> sums n h t ->
    Rabs (fmean fl n t x - Rsum n x / INR n) <=
    (P u h - 1) * (Rsum n (fun i => Rabs (x i)) / INR n) + (1 + P u h) * eta.
  Proof.
    intros Hn Ht. pose proof (fsum_error fl u eta Hu Heta Hfl x t h (proj2 Ht)) as HE.
    rewrite (lsum_sums _ _ _ _ Ht), (lsum_sums _ _ _ _ Ht), (sums_length _ _ _ Ht) in HE.
    unfold fmean. set (S' := fsum fl x t) in *. set (S := Rsum n x) in *.
    pose proof (Hfl (S' / INR n)) as HF.
    assert (HN : 1 <= INR n) by (change 1 with (INR 1); apply le_INR; lia).
    assert (HA : Rabs S <= Rsum n (fun i => Rabs (x i))).
    { unfold S. rewrite <- !lsum_seq. apply lsum_abs. }
    unfold P. rewrite Nat.add_1_r. change ((1 + u) ^ Datatypes.S h) with ((1 + u) * (1 + u) ^ h).
    set (p := (1 + u) ^ h) in *. assert (Hp : 1 <= p) by (apply pow_R1_Rle; lra).
    set (A := Rsum n (fun i => Rabs (x i))) in *. set (N := INR n) in *.
    assert (Hi : 0 < / N) by (apply Rinv_0_lt_compat; lra).
    assert (E1 : Rabs (S' / N - S / N) <= (p - 1) * (A / N) + p * eta).
    { replace (S' / N - S / N) with ((S' - S) * / N) by (field; lra).
      rewrite Rabs_mult, (Rabs_pos_eq (/ N)) by lra.
      apply (Rmult_le_compat_r (/ N)) in HE; [|lra]. eapply Rle_trans; [exact HE|].
      assert (Hpe : 0 <= p * eta) by (apply Rmult_le_pos; lra).
      assert (H2 : (N - 1) * p * eta * / N <= p * eta).
      { apply (Rmult_le_reg_r N); [lra|]. rewrite Rmult_assoc, Rinv_l, Rmult_1_r by lra. nra. }
      unfold Rdiv. lra. }
    assert (E2 : Rabs (S' / N) <= p * (A / N) + p * eta).
    { replace (S' / N) with ((S' / N - S / N) + S / N) by ring. eapply Rle_trans; [apply Rabs_triang|].
      assert (Rabs (S / N) <= A / N).
      { unfold Rdiv. rewrite Rabs_mult, (Rabs_pos_eq (/ N)) by lra. apply Rmult_le_compat_r; lra. }
      lra. }
    replace (fl (S' / N) - S / N) with ((fl (S' / N) - S' / N) + (S' / N - S / N)) by ring.
    eapply Rle_trans; [apply Rabs_triang|].
    assert (u * Rabs (S' / N) <= u * (p * (A / N) + p * eta)) by (apply Rmult_le_compat_l; lra).
    lra.
  Qed.

  Lemma fcenter_error n h t x : (0 < n)%nat -> sums n h t ->
    nrm n (fun i => fcenter fl n t x i - (x i - Rsum n x / INR n)) <=
    (u + (1 + u) * (P u h - 1)) * nrm n x + sqrt (INR n) * (((1 + u) * (1 + P u h) + 1) * eta).
  Proof.
    intros Hn Ht. pose proof (fmean_error n h t x Hn Ht) as HM.
    set (m := Rsum n x / INR n) in *. set (m' := fmean fl n t x) in *.
    set (e := Rabs (m' - m)) in *.
    assert (He : 0 <= e) by apply Rabs_pos.
    pose proof (P_ge1 u Hu h) as HP.
    assert (H1 : nrm n (fun i => fcenter fl n t x i - (x i - m)) <=
       nrm n (fun i => u * Rabs (x i - m) + ((1 + u) * e + eta))).
    { apply nrm_le. intros i Hi. unfold fcenter. fold m'.
      pose proof (Hfl (x i - m')) as HF.
      replace (fl (x i - m') - (x i - m)) with ((fl (x i - m') - (x i - m')) + (m - m')) by ring.
      eapply Rle_trans; [apply Rabs_triang|].
      assert (Rabs (m - m') = e) by (unfold e; apply Rabs_minus_sym).
      assert (Rabs (x i - m') <= Rabs (x i - m) + e).
      { replace (x i - m') with ((x i - m) + (m - m')) by ring. eapply Rle_trans; [apply Rabs_triang|]. lra. }
      assert (u * Rabs (x i - m') <= u * (Rabs (x i - m) + e)) by (apply Rmult_le_compat_l; lra). lra. }
    eapply Rle_trans; [exact H1|]. clear H1.
    eapply Rle_trans; [apply (nrm_add n (fun i => u * Rabs (x i - m)) (fun _ => (1 + u) * e + eta))|].
    rewrite (nrm_scal n (fun i => Rabs (x i - m)) u), (Rabs_pos_eq u Hu), nrm_const by (assert (0 <= (1 + u) * e) by (apply Rmult_le_pos; lra); lra).
    assert (H2 : nrm n (fun i => Rabs (x i - m)) <= nrm n x).
    { unfold nrm. apply sqrt_le_1_alt. eapply Rle_trans; [|exact (center_contract n x Hn)].
      fold m. apply Req_le. unfold energy, dot. apply Rsum_ext. intros i _. rewrite <- Rabs_mult. apply Rabs_pos_eq, Rle_0_sqr. }
    set (X := nrm n x) in *. set (s := sqrt (INR n)).
    assert (HX : 0 <= X) by apply nrm_pos.
    assert (HN : 0 < INR n) by (apply lt_0_INR; auto).
    assert (Hs : 0 < s) by (apply sqrt_lt_R0; auto).
    assert (H3 : s * e <= (P u h - 1) * X + s * ((1 + P u h) * eta)).
    { apply (Rmult_le_compat_l s) in HM; [|lra]. eapply Rle_trans; [exact HM|].
      pose proof (sum_abs_nrm n x) as HA. fold X s in HA.
      assert (Es : s * s = INR n) by (apply sqrt_sqrt; lra).
      assert (H4 : s * (Rsum n (fun i => Rabs (x i)) / INR n) <= X).
      { apply (Rmult_le_reg_r (INR n)); auto. unfold Rdiv.
        replace (s * (Rsum n (fun i => Rabs (x i)) * / INR n) * INR n) with (s * Rsum n (fun i => Rabs (x i))) by (field; lra).
        replace (X * INR n) with (s * (s * X)) by (rewrite <- Es; ring). apply Rmult_le_compat_l; lra. }
      assert ((P u h - 1) * (s * (Rsum n (fun i => Rabs (x i)) / INR n)) <= (P u h - 1) * X) by (apply Rmult_le_compat_l; lra).
      lra. }
    assert (H5 : (1 + u) * (s * e) <= (1 + u) * ((P u h - 1) * X + s * ((1 + P u h) * eta))) by (apply Rmult_le_compat_l; lra).
    assert (H6 : u * nrm n (fun i => Rabs (x i - m)) <= u * X) by (apply Rmult_le_compat_l; lra).
    lra.
  Qed.
End Error.

Lemma smp_tab n f i : (i < n)%nat -> smp (tab n f) i = f i.
Proof. intros H. unfold smp. apply nth_tab. exact H. Qed.
Lemma centered_fun x i : (i < length x)%nat -> smp (centered x) i = smp x i - Rsum (length x) (smp x) / INR (length x).
Proof. intros H. rewrite smp_cent by auto. reflexivity. Qed.

(** How much mean removal shrinks a signal. *)
Definition shrink (x : list R) : R := norm2 x / Rmax (norm2 (centered x)) norm_eps.
Lemma shrink_nonneg x : 0 <= shrink x.
Proof. apply Rmult_le_pos; [apply sqrt_pos|]. left. apply Rinv_0_lt_compat, gain_den. Qed.

Lemma ip_sq_lip n a b a' b' : nrm n a <= 1 -> nrm n b <= 1 -> nrm n a' <= 1 -> nrm n b' <= 1 ->
  Rabs (dot n a' b' ^ 2 - dot n a b ^ 2) <= 2 * (nrm n (fun t => a t - a' t) + nrm n (fun t => b t - b' t)).
Proof.
  intros Ha Hb Ha' Hb'.
  pose proof (dot_le_nrm n a b) as D1. pose proof (dot_le_nrm n a' b') as D2.
  pose proof (nrm_pos n a). pose proof (nrm_pos n b). pose proof (nrm_pos n a'). pose proof (nrm_pos n b').
  assert (D1' : Rabs (dot n a b) <= 1) by nra. assert (D2' : Rabs (dot n a' b') <= 1) by nra.
  set (da := fun t => a t - a' t). set (db := fun t => b t - b' t).
  assert (E : dot n a b - dot n a' b' = dot n da b + dot n a' db).
  { unfold dot, da, db. rewrite <- Rsum_minus, <- Rsum_plus. apply Rsum_ext. intros. ring. }
  pose proof (dot_le_nrm n da b) as D3. pose proof (dot_le_nrm n a' db) as D4.
  pose proof (nrm_pos n da). pose proof (nrm_pos n db).
  assert (D5 : Rabs (dot n a b - dot n a' b') <= nrm n da + nrm n db).
  { rewrite E. eapply Rle_trans; [apply Rabs_triang|]. nra. }
  replace (dot n a' b' ^ 2 - dot n a b ^ 2) with (- (dot n a b - dot n a' b') * (dot n a b + dot n a' b')) by ring.
  rewrite Rabs_mult, Rabs_Ropp.
  assert (D6 : Rabs (dot n a b + dot n a' b') <= 2) by (eapply Rle_trans; [apply Rabs_triang|]; lra).
  pose proof (Rabs_pos (dot n a b - dot n a' b')). pose proof (Rabs_pos (dot n a b + dot n a' b')). nra.
Qed.
Lemma nrm_unit n v : (length v <= n)%nat -> nrm n (smp (unit_of v)) <= 1.
Proof. intros H. unfold nrm. rewrite <- sqrt_1. apply sqrt_le_1_alt. apply energy_unit_le1. exact H. Qed.

Section Flt.
  Variables (emin prec k : Z) (choice : Z -> bool) (n h : nat).
  Hypotheses (Hp : (0 < prec)%Z) (Hn : (0 < n)%nat)
    (Hs : INR (h + 1) * uro prec <= / 100) (Hk : INR n <= bpow radix2 k) (Hke : (k + emin + prec + 41 <= 0)%Z).
  Let fl := rnd emin prec choice.
  Let u := uro prec.

  (** the normalised signal moves by a multiple of the unit roundoff *)
  Lemma unit_moved t x : sums n h t -> length x = n ->
    nrm n (fun i => smp (unit_of (centered x)) i - smp (unit_of (tab n (fcenter fl n t (smp x)))) i)
    <= ((2.1 * INR h + 4.2) * shrink x + / 10) * u.
  Proof.
    intros Ht Hx. assert (Hu : 0 <= u) by apply bpow_ge_0. assert (He : 0 <= tiny emin) by apply bpow_ge_0.
    pose proof (unit_lipschitz n (centered x) (tab n (fcenter fl n t (smp x)))) as H.
    assert (Lc : length (centered x) = n) by (unfold centered; rewrite map_length; auto).
    rewrite length_tab, Lc in H. specialize (H eq_refl (Nat.le_refl _)). eapply Rle_trans; [exact H|]. clear H.
    pose proof (fcenter_error fl u (tiny emin) Hu He (fun z => rnd_error emin prec choice z Hp) n h t (smp x) Hn Ht) as H.
    assert (E : nrm n (fun i => smp (centered x) i - smp (tab n (fcenter fl n t (smp x))) i) =
                nrm n (fun i => fcenter fl n t (smp x) i - (smp x i - Rsum n (smp x) / INR n))).
    { unfold nrm. f_equal. apply Rsum_ext. intros i Hi. rewrite smp_tab, centered_fun by lia. rewrite Hx. ring. }
    rewrite E. clear E. rewrite (nrm_norm2 n x) in H by lia.
    set (d := Rmax (norm2 (centered x)) norm_eps). assert (Hd : 0 < d) by apply gain_den.
    assert (Hde : norm_eps <= d) by apply Rmax_r. pose proof eps_pos as Hep.
    pose proof (P_small u h Hu Hs) as HP. pose proof (P_ge1 u Hu h) as HP1.
    pose proof (tiny_enough emin prec n h k Hs Hk Hke) as HT.
    set (Q := P u h) in *. set (w := INR (h + 1) * u) in *.
    assert (Ew : w = (INR h + 1) * u) by (unfold w; rewrite plus_INR; reflexivity).
    pose proof (pos_INR h) as Hh.
    assert (Hw : 0 <= w) by (rewrite Ew; apply Rmult_le_pos; lra).
    assert (Hw1 : w <= / 100) by exact Hs.
    assert (Hu1 : u <= / 100) by (rewrite Ew in Hw1; nra).
    assert (C1 : u + (1 + u) * (Q - 1) <= 1.05 * w + u).
    { assert ((1 + u) * (Q - 1) <= 1.01 * (1.02 * w)) by (apply Rmult_le_compat; lra). lra. }
    (* the underflow term *)
    assert (HN : 1 <= INR n) by (change 1 with (INR 1); apply le_INR; lia).
    assert (HsN : sqrt (INR n) <= INR n).
    { rewrite <- (sqrt_square (INR n)) at 2 by lra. apply sqrt_le_1_alt. nra. }
    assert (C2 : sqrt (INR n) * (((1 + u) * (1 + Q) + 1) * tiny emin) / d <= / 100 * u).
    { assert (Hq2 : (1 + u) * (1 + Q) + 1 <= 4) by nra.
      assert (Hne : 0 <= INR n * tiny emin) by (apply Rmult_le_pos; lra).
      assert (F1 : sqrt (INR n) * (((1 + u) * (1 + Q) + 1) * tiny emin) <= 4 * (INR n * tiny emin)).
      { replace (4 * (INR n * tiny emin)) with (INR n * (4 * tiny emin)) by ring.
        apply Rmult_le_compat; [apply sqrt_pos| |exact HsN|].
        - apply Rmult_le_pos; nra.
        - apply Rmult_le_compat_r; lra. }
      assert (F2 : 2 * (INR n * tiny emin) <= u * (norm_eps * norm_eps)).
      { apply (Rmult_le_compat_r (norm_eps * norm_eps)) in HT; [|nra].
        unfold Rdiv in HT. rewrite Rmult_assoc, Rinv_l, Rmult_1_r in HT by nra. fold u Q in HT. nra. }
      apply (Rmult_le_reg_r d); auto. unfold Rdiv. rewrite Rmult_assoc, Rinv_l, Rmult_1_r by lra.
      assert (F3 : norm_eps <= / 1000) by (unfold norm_eps; apply Rinv_le_contravar; lra).
      assert (F4 : u * (norm_eps * norm_eps) <= u * (norm_eps * / 1000)) by (apply Rmult_le_compat_l; nra).
      assert (F5 : u * norm_eps <= u * d) by (apply Rmult_le_compat_l; lra). nra. }
    unfold shrink. fold d. pose proof (sqrt_pos (Rsum (length x) (fun t0 => smp x t0 ^ 2))) as HX. fold (norm2 x) in HX.
    assert (C3 : (u + (1 + u) * (Q - 1)) * norm2 x / d <= (1.05 * w + u) * (norm2 x / d)).
    { unfold Rdiv. rewrite Rmult_assoc. apply Rmult_le_compat_r; auto.
      apply Rmult_le_pos; auto. left. apply Rinv_0_lt_compat. auto. }
    assert (C4 : nrm n (fun i => fcenter fl n t (smp x) i - (smp x i - Rsum n (smp x) / INR n)) / d
                 <= (1.05 * w + u) * (norm2 x / d) + / 100 * u).
    { eapply Rle_trans; [apply Rmult_le_compat_r; [left; apply Rinv_0_lt_compat; auto|exact H]|].
      rewrite Rmult_plus_distr_r. unfold Rdiv in C2, C3 |- *. lra. }
    assert (HK : 0 <= norm2 x / d) by (apply Rmult_le_pos; auto; left; apply Rinv_0_lt_compat; auto).
    replace (2 * nrm n (fun i => fcenter fl n t (smp x) i - (smp x i - Rsum n (smp x) / INR n)) / d)
      with (2 * (nrm n (fun i => fcenter fl n t (smp x) i - (smp x i - Rsum n (smp x) / INR n)) / d)) by (field; lra).
    rewrite Ew in C4. assert (0 <= u * (norm2 x / d)) by (apply Rmult_le_pos; auto). nra.
  Qed.

  Lemma fcoh_fun_flt fx fy fxy tx ty txy x' y' : sums n h tx -> sums n h ty -> sums n h txy ->
    Rabs (fcoh fl fx fy fxy tx ty txy x' y' - ip n (unit_of (tab n x')) (unit_of (tab n y')) ^ 2) <= (8 * INR h + 40) * u.
  Proof.
    intros Sx Sy Sxy. assert (Hu : 0 <= u) by apply bpow_ge_0.
    assert (Ht : 0 <= tiny emin) by apply bpow_ge_0.
    destruct (coh_bound_simple (uro prec) (tiny emin) n h Hu Ht Hn Hs (tiny_enough emin prec n h k Hs Hk Hke)) as [H1 H2].
    rewrite <- (exact_ip (tab n x') (tab n y') n) by apply length_tab.
    eapply Rle_trans; [|exact H2].
    assert (ED : forall z, den n (smp (tab n z)) = den n z).
    { intros z. unfold den. do 2 f_equal. apply Rsum_ext. intros i Hi. rewrite smp_tab by auto. reflexivity. }
    rewrite !ED.
    rewrite (Rsum_ext n _ (fun i => x' i / den n x' * (y' i / den n y'))) by (intros i Hi; rewrite !smp_tab by auto; reflexivity).
    apply fcoh_error; auto.
    - intros z. now apply rnd_error.
    - intros z. now apply rnd_pos.
  Qed.

  Theorem fcoh_zm_flt fx fy fxy mx my tx ty txy v w : length v = n -> length w = n ->
    sums n h mx -> sums n h my -> sums n h tx -> sums n h ty -> sums n h txy ->
    Rabs (fcoh_zm fl n fx fy fxy mx my tx ty txy (smp v) (smp w) - ip n (unit_of (centered v)) (unit_of (centered w)) ^ 2)
    <= (8 * INR h + 41 + (5 * INR h + 9) * (shrink v + shrink w)) * u.
  Proof.
    intros Hv Hw Smx Smy Sx Sy Sxy.
    set (x' := fcenter fl n mx (smp v)). set (y' := fcenter fl n my (smp w)).
    assert (Hu : 0 <= u) by apply bpow_ge_0.
    assert (F : Rabs (fcoh_zm fl n fx fy fxy mx my tx ty txy (smp v) (smp w) - ip n (unit_of (tab n x')) (unit_of (tab n y')) ^ 2)
       <= (8 * INR h + 40) * u).
    { apply fcoh_fun_flt; auto. }
    pose proof (unit_moved mx v Smx Hv) as M1. pose proof (unit_moved my w Smy Hw) as M2. fold x' in M1. fold y' in M2.
    assert (Lv : length (centered v) = n) by (unfold centered; rewrite map_length; auto).
    assert (Lw : length (centered w) = n) by (unfold centered; rewrite map_length; auto).
    pose proof (ip_sq_lip n (smp (unit_of (centered v))) (smp (unit_of (centered w))) (smp (unit_of (tab n x'))) (smp (unit_of (tab n y')))
      (nrm_unit n (centered v) ltac:(lia)) (nrm_unit n (centered w) ltac:(lia)) (nrm_unit n (tab n x') ltac:(rewrite length_tab; lia)) (nrm_unit n (tab n y') ltac:(rewrite length_tab; lia))) as G.
    rewrite (ip_dot n (unit_of (tab n x'))) in F by (rewrite length_unit_of, length_tab; auto).
    rewrite (ip_dot n (unit_of (centered v))) by (rewrite length_unit_of; auto).
    set (A := fcoh_zm fl n fx fy fxy mx my tx ty txy (smp v) (smp w)) in *.
    set (B := dot n (smp (unit_of (tab n x'))) (smp (unit_of (tab n y'))) ^ 2) in *.
    replace (A - dot n (smp (unit_of (centered v))) (smp (unit_of (centered w))) ^ 2)
      with ((A - B) + (B - dot n (smp (unit_of (centered v))) (smp (unit_of (centered w))) ^ 2)) by ring.
    eapply Rle_trans; [apply Rabs_triang|]. pose proof (pos_INR h) as Hh.
    pose proof (shrink_nonneg v) as K1. pose proof (shrink_nonneg w) as K2. 
    assert (0 <= u * shrink v) by (apply Rmult_le_pos; auto). assert (0 <= u * shrink w) by (apply Rmult_le_pos; auto).
    assert (0 <= INR h * (u * shrink v)) by (apply Rmult_le_pos; auto). assert (0 <= INR h * (u * shrink w)) by (apply Rmult_le_pos; auto).
    lra.
  Qed.
End Flt.

Section Top.
  Variables (b : backend) (o : opts) (ref est : arr) (m : list (list xr)) (c d : nat) (v w : list R).
  Hypotheses (Hr : wf ref) (He : wf est) (Hl : a_len ref = a_len est)
    (Hm : sdr_coh b o ref est = Ok m) (HL : filter_length o = 1%nat) (Hz : zero_mean o = true)
    (Hc : has_chan ref c v) (Hd : has_chan est d w).
  Variables (choice : Z -> bool) (fx fy fxy : nat -> bool) (mx my tx ty txy : stree).

  Theorem coh_zm_error emin prec h :
    (7 <= prec)%Z -> (emin + 2 * prec + 34 <= 0)%Z ->
    (Z.of_nat (a_len ref) <= 2 ^ (prec - 7))%Z -> (Z.of_nat h < 2 ^ (prec - 7))%Z ->
    sums (a_len ref) h mx -> sums (a_len ref) h my ->
    sums (a_len ref) h tx -> sums (a_len ref) h ty -> sums (a_len ref) h txy ->
    exists q, mat_of m c d = Fin q /\
      Rabs (fcoh_zm (rnd emin prec choice) (a_len ref) fx fy fxy mx my tx ty txy (smp v) (smp w) - q)
        <= (8 * INR h + 41 + (5 * INR h + 9) * (shrink v + shrink w)) * uro prec.
  Proof.
    intros Hp Hq Hn Hh S1 S2 S3 S4 S5.
    destruct Hc as [Ic Ev]. destruct Hd as [Id Ew].
    destruct (pchan_fin true ref c v Hr Ic Ev) as [Px Lv].
    destruct (pchan_fin true est d w He Id Ew) as [Py Lw].
    rewrite <- Hz in Px, Py.
    pose proof (sdr_entry1 b o ref est m c d _ _ Hr He Hm HL Hl Px Py) as E.
    eexists. split; [exact E|]. rewrite Hz. cbn [pre].
    rewrite <- ip_dot by (rewrite length_unit_of; unfold centered; rewrite map_length; congruence).
    apply (fcoh_zm_flt emin prec (prec - 7)); auto; try congruence; try lia.
    - apply Hr.
    - now apply small_depth.
    - apply bpow_INR; lia.
  Qed.
End Top.

(** ** Two samples with a large offset: binary64 *)
Definition off_x : list R := [IZR (2 ^ 53); IZR (2 ^ 53 + 2)].
Definition off_y : list R := [1; -1].
Definition two : stree := SNode (SLeaf 0) (SLeaf 1).
Lemma two_sums : sums 2 1 two.
Proof. split; [apply Permutation_refl|cbn; lia]. Qed.

Section Offset.
  Variable choice : Z -> bool.
  Let fl := rnd (-1074) 53 choice.
  Lemma fl_exact (z e : Z) : (Z.abs z < 2 ^ 53)%Z -> (-1074 <= e)%Z -> fl (IZR z * bpow radix2 e) = IZR z * bpow radix2 e.
  Proof.
    intros Hz He. unfold fl, rnd. apply round_generic; [apply valid_rnd_N|].
    apply generic_format_FLT. exists (Float radix2 z e); auto.
  Qed.
  Lemma fl_int z : (Z.abs z < 2 ^ 53)%Z -> fl (IZR z) = IZR z.
  Proof. intros H. pose proof (fl_exact z 0 H ltac:(lia)) as E. simpl in E. rewrite Rmult_1_r in E. exact E. Qed.
  Lemma fl_even z : (Z.abs z < 2 ^ 53)%Z -> fl (IZR (2 * z)) = IZR (2 * z).
  Proof.
    intros H. pose proof (fl_exact z 1 H ltac:(lia)) as E.
    replace (IZR z * bpow radix2 1) with (IZR (2 * z)) in E; [exact E|]. change (bpow radix2 1) with (IZR 2). rewrite mult_IZR. apply Rmult_comm.
  Qed.
  Lemma fl_tie : fl (IZR (2 ^ 54 + 2)) = IZR (2 ^ 54) \/ fl (IZR (2 ^ 54 + 2)) = IZR (2 ^ 54 + 4).
  Proof.
    unfold fl, rnd, round. set (x := IZR (2 ^ 54 + 2)).
    assert (Em : mag radix2 x = 55%Z :> Z).
    { apply mag_unique_pos. unfold x. rewrite <- !(IZR_Zpower radix2) by lia.
      split; [apply IZR_le|apply IZR_lt]; vm_compute; congruence. }
    assert (Ec : cexp radix2 (FLT_exp (-1074) 53) x = 2%Z) by (unfold cexp; rewrite Em; reflexivity).
    unfold scaled_mantissa. rewrite Ec.
    assert (Es : x * bpow radix2 (- (2)) = IZR (2 ^ 52) + / 2).
    { unfold x. replace (IZR (2 ^ 54 + 2)) with (4 * IZR (2 ^ 52) + 2) by (rewrite <- mult_IZR, <- plus_IZR; reflexivity).
      simpl. lra. }
    rewrite Es.
    assert (Hf : Zfloor (IZR (2 ^ 52) + / 2) = (2 ^ 52)%Z).
    { apply Zfloor_imp. rewrite plus_IZR. lra. }
    assert (Hcl : Zceil (IZR (2 ^ 52) + / 2) = (2 ^ 52 + 1)%Z).
    { apply Zceil_imp. rewrite minus_IZR, plus_IZR. lra. }
    unfold Znearest. rewrite Hf, Hcl. rewrite Rcompare_Eq by lra.
    destruct (choice (2 ^ 52)); unfold F2R; cbn [Fnum Fexp].
    - right. change (bpow radix2 2) with (IZR 4). rewrite <- mult_IZR. reflexivity.
    - left. change (bpow radix2 2) with (IZR 4). rewrite <- mult_IZR. reflexivity.
  Qed.
  Lemma center_y : tab 2 (fcenter fl 2 two (smp off_y)) = [1; -1].
  Proof.
    assert (E : fmean fl 2 two (smp off_y) = 0).
    { unfold fmean, two. cbn [fsum]. unfold smp, off_y. cbn [nth].
      replace (1 + -1) with (IZR 0) by ring. rewrite fl_int by lia.
      replace (IZR 0 / INR 2) with (IZR 0) by (simpl; field). apply fl_int. lia. }
    unfold tab, fcenter. rewrite E. cbn [map seq]. unfold smp, off_y. cbn [nth]. rewrite !Rminus_0_r.
    rewrite (fl_int 1), (fl_int (-1)) by lia. reflexivity.
  Qed.
  Lemma center_x : tab 2 (fcenter fl 2 two (smp off_x)) = [0; 2] \/ tab 2 (fcenter fl 2 two (smp off_x)) = [-2; 0].
  Proof.
    assert (S : fsum fl (smp off_x) two = fl (IZR (2 ^ 54 + 2))).
    { unfold two. cbn [fsum]. unfold smp, off_x. cbn [nth]. rewrite <- plus_IZR. reflexivity. }
    assert (T : forall z, (Z.abs z < 2 ^ 53)%Z -> fsum fl (smp off_x) two = IZR (4 * z) -> fmean fl 2 two (smp off_x) = IZR (2 * z)).
    { intros z Hz Ez. unfold fmean. rewrite Ez. replace (IZR (4 * z) / INR 2) with (IZR (2 * z)).
      - apply fl_even. auto.
      - rewrite !mult_IZR. simpl. field. }
    destruct fl_tie as [F|F]; rewrite F in S.
    - left. assert (E : fmean fl 2 two (smp off_x) = IZR (2 * 2 ^ 52)) by (apply T; [lia|rewrite S; reflexivity]).
      unfold tab, fcenter. rewrite E. cbn [map seq]. unfold smp, off_x. cbn [nth]. rewrite <- !minus_IZR.
      rewrite !fl_int by lia. reflexivity.
    - right. assert (E : fmean fl 2 two (smp off_x) = IZR (2 * (2 ^ 52 + 1))) by (apply T; [lia|rewrite S; reflexivity]).
      unfold tab, fcenter. rewrite E. cbn [map seq]. unfold smp, off_x. cbn [nth]. rewrite <- !minus_IZR.
      rewrite !fl_int by lia. reflexivity.
  Qed.
End Offset.

Lemma gain_root a c : 1 <= a -> norm2 c = sqrt a -> gain c * gain c = / a.
Proof.
  intros Ha E. unfold gain. rewrite E. rewrite Rmax_left.
  - rewrite <- Rinv_mult, sqrt_sqrt by lra. reflexivity.
  - apply Rle_trans with 1.
    + unfold norm_eps. rewrite <- Rinv_1. apply Rinv_le_contravar; lra.
    + rewrite <- sqrt_1. apply sqrt_le_1_alt. auto.
Qed.
Lemma ip2 a0 a1 b0 b1 A B : 1 <= A -> 1 <= B -> a0 ^ 2 + a1 ^ 2 = A -> b0 ^ 2 + b1 ^ 2 = B ->
  dot 2 (smp (unit_of [a0; a1])) (smp (unit_of [b0; b1])) ^ 2 = (a0 * b0 + a1 * b1) ^ 2 / (A * B).
Proof.
  intros HA HB EA EB.
  pose proof (gain_root A [a0; a1] HA ltac:(unfold norm2; f_equal; simpl; unfold smp; simpl; rewrite <- EA; ring)) as GA.
  pose proof (gain_root B [b0; b1] HB ltac:(unfold norm2; f_equal; simpl; unfold smp; simpl; rewrite <- EB; ring)) as GB.
  set (ga := gain [a0; a1]) in *. set (gb := gain [b0; b1]) in *.
  replace (dot 2 (smp (unit_of [a0; a1])) (smp (unit_of [b0; b1]))) with (ga * gb * (a0 * b0 + a1 * b1)).
  - replace ((ga * gb * (a0 * b0 + a1 * b1)) ^ 2) with ((ga * ga) * (gb * gb) * (a0 * b0 + a1 * b1) ^ 2) by ring.
    rewrite GA, GB. field. lra.
  - unfold dot. simpl. rewrite !smp_unit_of. fold ga gb. unfold smp. simpl. ring.
Qed.
Definition off_ref : arr := rarr 2 [off_x].
Definition off_est : arr := rarr 2 [off_y].
Lemma off_centered : centered off_x = [-1; 1] /\ centered off_y = [1; -1].
Proof.
  unfold centered, mean, off_x, off_y. rewrite plus_IZR. cbn [length map]. set (a := IZR (2 ^ 53)). unfold smp. simpl.
  split; (f_equal; [field|f_equal; field]).
Qed.

Theorem offset_refuted b choice fx fy fxy : exists m,
  sdr_coh b (Opts 1 None true None None) off_ref off_est = Ok m /\ mat_of m 0 0 = Fin 1 /\
  fcoh_zm (rnd (-1074) 53 choice) 2 fx fy fxy two two two two two (smp off_x) (smp off_y) <= 51 / 100.
Proof.
  destruct (sdr_coh b (Opts 1 None true None None) off_ref off_est) as [m|e] eqn:E; [|discriminate E].
  exists m. split; [reflexivity|]. 
  assert (Wr : wf off_ref) by (apply rarr_wf; [lia|repeat constructor]).
  assert (We : wf off_est) by (apply rarr_wf; [lia|repeat constructor]).
  destruct off_centered as [Ex Ey]. split.
  - destruct (pchan_fin true off_ref 0 off_x Wr ltac:(cbv; lia) eq_refl) as [Px _].
    destruct (pchan_fin true off_est 0 off_y We ltac:(cbv; lia) eq_refl) as [Py _].
    rewrite (sdr_entry1 b _ _ _ _ 0 0 _ _ Wr We E eq_refl eq_refl Px Py). cbn [pre zero_mean]. rewrite Ex, Ey.
    change (a_len off_ref) with 2%nat. rewrite (ip2 (-1) 1 1 (-1) 2 2) by lra. f_equal. field.
  - unfold fcoh_zm.
    pose proof (fcoh_fun_flt (-1074) 53 46 choice 2 1 ltac:(lia) ltac:(lia) (small_depth 1 53 ltac:(lia) ltac:(lia))
      (bpow_INR 2 46 ltac:(lia) ltac:(lia)) ltac:(lia) fx fy fxy two two two
      (fcenter (rnd (-1074) 53 choice) 2 two (smp off_x)) (fcenter (rnd (-1074) 53 choice) 2 two (smp off_y)) two_sums two_sums two_sums) as H.
    rewrite center_y in H.
    assert (Hv : ip 2 (unit_of (tab 2 (fcenter (rnd (-1074) 53 choice) 2 two (smp off_x)))) (unit_of [1; -1]) ^ 2 = / 2).
    { rewrite ip_dot by (rewrite length_unit_of; reflexivity).
      destruct (center_x choice) as [-> | ->]; [rewrite (ip2 0 2 1 (-1) 4 2)|rewrite (ip2 (-2) 0 1 (-1) 4 2)]; lra. }
    rewrite Hv in H. apply Rabs_def2b in H || apply Rabs_le_between in H || idtac.
    assert (Hb : uro 53 <= / 10000).
    { unfold uro. apply Rle_trans with (bpow radix2 (-14)); [apply bpow_le; lia|]. simpl. apply Rinv_le_contravar; lra. }
    assert (H0 : 0 <= uro 53) by apply bpow_ge_0.
    pose proof (Rle_abs (fcoh (rnd (-1074) 53 choice) fx fy fxy two two two
      (fcenter (rnd (-1074) 53 choice) 2 two (smp off_x)) (fcenter (rnd (-1074) 53 choice) 2 two (smp off_y)) - / 2)).
    simpl INR in H. lra.
Qed.

Lemma shrink_flat v : mean v = 0 -> norm_eps <= norm2 v -> shrink v = 1.
Proof.
  intros Hm Hn. unfold shrink. replace (centered v) with v.
  - rewrite Rmax_left by auto. pose proof eps_pos. apply Rinv_r. lra.
  - unfold centered. rewrite Hm. rewrite <- (map_id v) at 1. apply map_ext. intros x. lra.
Qed.
Section TopDb.
  Variables (b : backend) (o : opts) (ref est : arr) (m : list (list xr)) (c d : nat) (v w : list R).
  Hypotheses (Hr : wf ref) (He : wf est) (Hl : a_len ref = a_len est)
    (Hm : sdr_coh b o ref est = Ok m) (HL : filter_length o = 1%nat) (Hz : zero_mean o = true)
    (Hc : has_chan ref c v) (Hd : has_chan est d w).
  Variables (choice : Z -> bool) (fx fy fxy : nat -> bool) (mx my tx ty txy : stree).
  Theorem db_zm_error emin prec h D :
    (7 <= prec)%Z -> (emin + 2 * prec + 34 <= 0)%Z ->
    (Z.of_nat (a_len ref) <= 2 ^ (prec - 7))%Z -> (Z.of_nat h < 2 ^ (prec - 7))%Z ->
    sums (a_len ref) h mx -> sums (a_len ref) h my ->
    sums (a_len ref) h tx -> sums (a_len ref) h ty -> sums (a_len ref) h txy -> 0 <= D ->
    let eps := db_clamp_eps D in
    exists p q, coherence_to_neg_sdr (Some D) (mat_of m c d) = Fin q /\
      coherence_to_neg_sdr (Some D)
        (Fin (fcoh_zm (rnd emin prec choice) (a_len ref) fx fy fxy mx my tx ty txy (smp v) (smp w))) = Fin p /\
      Rabs (p - q) <= 10 / (ln 10 * (eps * (1 - eps))) *
         ((8 * INR h + 41 + (5 * INR h + 9) * (shrink v + shrink w)) * uro prec).
  Proof.
    intros Hp Hq Hn Hh S1 S2 Hx Hy Hxy HD eps.
    destruct (coh_zm_error b o ref est m c d v w Hr He Hl Hm HL Hz Hc Hd choice fx fy fxy mx my tx ty txy emin prec h Hp Hq Hn Hh S1 S2 Hx Hy Hxy) as (q & E & H).
    set (r := fcoh_zm _ _ _ _ _ _ _ _ _ _ _ _) in *.
    destruct (clamped_lip D q r HD) as (a & b' & E1 & E2 & H2).
    exists b', a. rewrite E. split; [exact E1|]. split; [exact E2|].
    eapply Rle_trans; [exact H2|]. fold eps.
    pose proof (eps_bounds D) as Hb. fold eps in Hb.
    apply Rmult_le_compat_l; [|exact H].
    apply Rlt_le, Rdiv_lt_0_compat; [lra|]. apply Rmult_lt_0_compat; [apply ln10_pos|].
    apply Rmult_lt_0_compat; lra.
  Qed.
End TopDb.
