(** * Sensitivity of the coherences and of the dB values to the estimate *)
From Coq Require Import Reals Lra.
From Verif Require Import Prelude ExtReal Spec SpecSig Sums Helpers Linalg LinalgProofs Metrics StatsProofs LeastSq
  PrepProofs DbProofs MetricsProofs SarProofs ProjTheorems MetricTheorems.
Local Open Scope nat_scope.

(** ** Euclidean norms of functions on 0 .. M-1 *)
Definition nrm (M : nat) (u : nat -> R) : R := sqrt (energy M u).
Lemma nrm_pos M u : (0 <= nrm M u)%R.
Proof. apply sqrt_pos. Qed.
Lemma nrm_sq M u : (nrm M u * nrm M u = energy M u)%R.
Proof. apply sqrt_sqrt, energy_nonneg. Qed.
Lemma cauchy M u v : (dot M u v ^ 2 <= energy M u * energy M v)%R.
Proof.
  destruct (Req_dec (energy M v) 0) as [E|N].
  - assert (Z : dot M u v = 0%R).
    { apply Rsum_zero. intros t Ht. rewrite (energy_zero M v E t Ht). ring. }
    rewrite Z, E. lra.
  - pose proof (energy_nonneg M v) as Pv.
    pose proof (energy_nonneg M (fun t => u t - (dot M u v / energy M v) * v t)%R) as P.
    rewrite energy_sub, dot_scal_r, energy_scal in P.
    set (c := dot M u v) in *. set (w := energy M v) in *.
    assert (E : (energy M u - 2 * (c / w * c) + (c / w) ^ 2 * w = (energy M u * w - c ^ 2) / w)%R) by (field; auto).
    rewrite E in P. assert (Hw : (0 < w)%R) by lra.
    apply (Rmult_le_compat_r w) in P; [|lra]. rewrite Rmult_0_l in P.
    replace ((energy M u * w - c ^ 2) / w * w)%R with (energy M u * w - c ^ 2)%R in P by (field; auto). lra.
Qed.
Lemma dot_le_nrm M u v : (Rabs (dot M u v) <= nrm M u * nrm M v)%R.
Proof.
  apply Rsqr_incr_0_var; [|apply Rmult_le_pos; apply nrm_pos].
  rewrite <- Rsqr_abs. unfold Rsqr. pose proof (cauchy M u v).
  replace (nrm M u * nrm M v * (nrm M u * nrm M v))%R with ((nrm M u * nrm M u) * (nrm M v * nrm M v))%R by ring.
  rewrite !nrm_sq. lra.
Qed.
Lemma nrm_sub M u v : (Rabs (nrm M u - nrm M v) <= nrm M (fun t => u t - v t)%R)%R.
Proof.
  apply Rsqr_incr_0_var; [|apply nrm_pos]. rewrite <- Rsqr_abs. unfold Rsqr.
  rewrite nrm_sq, energy_sub.
  pose proof (dot_le_nrm M u v) as H. apply Rabs_def2b in H || (apply Rabs_le_between in H || idtac).
  pose proof (Rle_abs (dot M u v)). pose proof (nrm_sq M u). pose proof (nrm_sq M v). nra.
Qed.
Lemma nrm_add M u v : (nrm M (fun t => u t + v t) <= nrm M u + nrm M v)%R.
Proof.
  pose proof (nrm_sub M (fun t => u t + v t)%R u) as H.
  assert (E : nrm M (fun t => u t + v t - u t)%R = nrm M v).
  { unfold nrm. f_equal. apply energy_ext. intros; ring. }
  assert (H' : (Rabs (nrm M (fun t => u t + v t) - nrm M u) <= nrm M (fun t => u t + v t - u t))%R) by exact H.
  rewrite E in H'. pose proof (Rle_abs (nrm M (fun t => u t + v t) - nrm M u)%R). lra.
Qed.
Lemma nrm_scal M u c : nrm M (fun t => c * u t)%R = (Rabs c * nrm M u)%R.
Proof.
  unfold nrm. rewrite energy_scal, sqrt_mult.
  - f_equal. rewrite <- (sqrt_Rsqr_abs c). f_equal. unfold Rsqr. ring.
  - apply pow2_ge_0.
  - apply energy_nonneg.
Qed.
Lemma nrm_sym M u v : nrm M (fun t => u t - v t)%R = nrm M (fun t => v t - u t)%R.
Proof. unfold nrm. f_equal. unfold energy, dot. apply Rsum_ext. intros; ring. Qed.
Lemma nrm_ext M u v : (forall t, t < M -> u t = v t) -> nrm M u = nrm M v.
Proof. intros H. unfold nrm. f_equal. apply energy_ext; auto. Qed.

(** ** The square root of the least-squares value is 1-Lipschitz in the target *)
(** loading as M + K samples *)
Definition ext_comb (K M : nat) (a : nat -> nat -> R) (lam : R) (h : nat -> R) (t : nat) : R :=
  if t <? M then comb K a h t else (sqrt lam * h (t - M)%nat)%R.
Lemma ext_dot K M a lam h g : (0 <= lam)%R ->
  dot (M + K) (ext_comb K M a lam h) (ext_comb K M a lam g) =
  (dot M (comb K a h) (comb K a g) + lam * Rsum K (fun i => h i * g i))%R.
Proof.
  intros Hl. unfold dot at 1. rewrite Rsum_add. f_equal.
  - apply Rsum_ext. intros t Ht. unfold ext_comb. replace (t <? M) with true by (symmetry; apply Nat.ltb_lt; auto).
    reflexivity.
  - rewrite <- Rsum_scal_l. apply Rsum_ext. intros t Ht. unfold ext_comb.
    replace (M + t <? M) with false by (symmetry; apply Nat.ltb_ge; lia).
    replace (M + t - M) with t by lia. pose proof (sqrt_sqrt lam Hl) as E.
    transitivity ((sqrt lam * sqrt lam) * (h t * g t))%R; [ring|rewrite E; ring].
Qed.
Lemma normal_eq_sub K M a lam y y' h h' : normal_eq K M a lam y h -> normal_eq K M a lam y' h' ->
  normal_eq K M a lam (fun t => y t - y' t)%R (fun k => h k - h' k)%R.
Proof.
  intros H H' i Hi. rewrite dot_sub_r, <- (H i Hi), <- (H' i Hi). unfold mulmv.
  rewrite <- Rsum_minus. apply Rsum_ext. intros; ring.
Qed.
Theorem lsq_lipschitz K M a lam y y' q q' : (0 <= lam)%R ->
  lsq K M a lam y q -> lsq K M a lam y' q' ->
  (Rabs (sqrt q - sqrt q') <= nrm M (fun t => y t - y' t))%R.
Proof.
  intros Hl (h & N & ->) (h' & N' & ->).
  pose proof (normal_eq_sub _ _ _ _ _ _ _ _ N N') as D.
  assert (E : forall y h, normal_eq K M a lam y h -> sqrt (qval K M a y h) = nrm (M + K) (ext_comb K M a lam h)).
  { intros y0 h0 H0. unfold nrm, energy. rewrite ext_dot by auto. f_equal. apply (q_energy _ _ _ _ _ _ H0). }
  rewrite (E _ _ N), (E _ _ N'). eapply Rle_trans; [apply nrm_sub|].
  pose proof (q_bounds _ _ _ _ _ _ Hl D) as [_ B].
  pose proof (E _ _ D) as F.
  rewrite (nrm_ext (M + K) _ (ext_comb K M a lam (fun k => h k - h' k)%R)).
  - rewrite <- F. apply sqrt_le_1_alt. exact B.
  - intros t Ht. unfold ext_comb. destruct (t <? M); [|ring]. unfold comb. rewrite <- Rsum_minus.
    apply Rsum_ext. intros; ring.
Qed.

(** ** Preprocessing is Lipschitz *)
Lemma nrm_long M (y y' : list R) : length y' = length y -> length y <= M ->
  nrm M (fun t => smp y t - smp y' t)%R = nrm (length y) (fun t => smp y t - smp y' t)%R.
Proof.
  intros Hl HM. unfold nrm, energy, dot. f_equal. apply Rsum_trunc; auto.
  intros t Ht _. unfold smp. rewrite !nth_overflow by lia. ring.
Qed.
Lemma nrm_norm2 M y : length y <= M -> nrm M (smp y) = norm2 y.
Proof.
  intros H. unfold nrm, norm2. f_equal. unfold energy, dot.
  rewrite (Rsum_trunc M (length y)); auto.
  - apply Rsum_ext. intros; ring.
  - intros t Ht _. unfold smp. rewrite nth_overflow by lia. ring.
Qed.
Lemma smp_cent v k : k < length v -> smp (centered v) k = (smp v k - mean v)%R.
Proof. intros H. unfold smp, centered. rewrite nth_map_R by auto. reflexivity. Qed.
Lemma center_contract n (u : nat -> R) : 0 < n ->
  (energy n (fun t => u t - Rsum n u / INR n) <= energy n u)%R.
Proof.
  intros Hn. assert (H0 : (0 < INR n)%R) by (apply lt_0_INR; auto).
  rewrite (energy_sub n u (fun _ => Rsum n u / INR n)%R). unfold energy at 2, dot.
  rewrite Rsum_const, Rsum_scal_r. set (s := Rsum n u).
  replace (INR n * (s / INR n * (s / INR n)))%R with (s ^ 2 / INR n)%R by (field; lra).
  replace (2 * (s * (s / INR n)))%R with (2 * (s ^ 2 / INR n))%R by (field; lra).
  assert (0 <= s ^ 2 / INR n)%R.
  { apply Rmult_le_pos; [apply pow2_ge_0|]. left. apply Rinv_0_lt_compat. auto. }
  lra.
Qed.
Lemma pre_contract zm M y y' : 0 < length y -> length y' = length y -> length y <= M ->
  (nrm M (fun t => smp (pre zm y) t - smp (pre zm y') t) <= nrm (length y) (fun t => smp y t - smp y' t))%R.
Proof.
  intros H0 Hl HM. rewrite (nrm_long M (pre zm y) (pre zm y')) by (rewrite ?length_pre; auto).
  rewrite length_pre. destruct zm; [|apply Rle_refl]. simpl pre.
  pose proof (center_contract (length y) (fun t => smp y t - smp y' t)%R H0) as H.
  unfold nrm. apply sqrt_le_1_alt. eapply Rle_trans; [|exact H]. apply Req_le.
  apply energy_ext. intros t Ht. rewrite !smp_cent by lia. unfold mean. rewrite Hl, Rsum_minus.
  field. apply not_0_INR. lia.
Qed.
Lemma Rmax_lip a b e : (Rabs (Rmax a e - Rmax b e) <= Rabs (a - b))%R.
Proof. unfold Rmax. destruct (Rle_dec a e), (Rle_dec b e); unfold Rabs; repeat destruct (Rcase_abs _); lra. Qed.
Lemma unit_lipschitz M y y' : length y' = length y -> length y <= M ->
  (nrm M (fun t => smp (unit_of y) t - smp (unit_of y') t)
   <= 2 * nrm M (fun t => smp y t - smp y' t) / Rmax (norm2 y) norm_eps)%R.
Proof.
  intros Hl HM. set (m := Rmax (norm2 y) norm_eps). set (m' := Rmax (norm2 y') norm_eps).
  assert (Hm : (0 < m)%R) by apply gain_den. assert (Hm' : (0 < m')%R) by apply gain_den.
  assert (H1 : (nrm M (fun t => smp (unit_of y) t - smp (unit_of y') t) <=
    nrm M (fun t => / m * (smp y t - smp y' t)) + nrm M (fun t => (/ m - / m') * smp y' t))%R).
  { eapply Rle_trans; [|apply nrm_add]. apply Req_le. apply nrm_ext. intros t Ht.
    rewrite !smp_unit_of. unfold gain. fold m m'. ring. }
  rewrite !nrm_scal in H1. rewrite (nrm_norm2 M y') in H1 by lia.
  assert (H2 : (Rabs (norm2 y - norm2 y') <= nrm M (fun t => smp y t - smp y' t))%R).
  { rewrite <- (nrm_norm2 M y), <- (nrm_norm2 M y') by lia. apply nrm_sub. }
  pose proof (Rmax_lip (norm2 y) (norm2 y') norm_eps) as H3. fold m m' in H3.
  assert (Hn : (0 <= norm2 y' <= m')%R).
  { split; [apply sqrt_pos|apply Rmax_l]. }
  set (D := nrm M (fun t => smp y t - smp y' t)%R) in *.
  assert (Hi : (0 < / m)%R) by (apply Rinv_0_lt_compat; auto).
  assert (Hi' : (0 < / m')%R) by (apply Rinv_0_lt_compat; auto).
  rewrite (Rabs_pos_eq (/ m)) in H1 by lra.
  assert (E : (/ m - / m' = (m' - m) * (/ m * / m'))%R) by (field; lra).
  rewrite E, Rabs_mult, (Rabs_pos_eq (/ m * / m')) in H1 by (apply Rmult_le_pos; lra).
  assert (H4 : (Rabs (m' - m) <= D)%R) by (rewrite Rabs_minus_sym; lra).
  assert (H5 : (/ m' * norm2 y' <= 1)%R).
  { apply (Rmult_le_reg_l m'); auto. rewrite <- Rmult_assoc, Rinv_r by lra. lra. }
  assert (H6 : (0 <= / m' * norm2 y')%R) by (apply Rmult_le_pos; lra).
  assert (H7 : (Rabs (m' - m) * (/ m * / m') * norm2 y' <= D * / m)%R).
  { replace (Rabs (m' - m) * (/ m * / m') * norm2 y')%R with ((Rabs (m' - m) * / m) * (/ m' * norm2 y'))%R by ring.
    pose proof (Rabs_pos (m' - m)).
    assert (Rabs (m' - m) * / m <= D * / m)%R by (apply Rmult_le_compat_r; lra).
    assert (0 <= Rabs (m' - m) * / m)%R by (apply Rmult_le_pos; lra). nra. }
  unfold Rdiv. lra.
Qed.
Lemma prep_lipschitz zm M y y' : 0 < length y -> length y' = length y -> length y <= M ->
  (nrm M (fun t => smp (unit_of (pre zm y)) t - smp (unit_of (pre zm y')) t)
   <= 2 * nrm (length y) (fun t => smp y t - smp y' t) / Rmax (norm2 (pre zm y)) norm_eps)%R.
Proof.
  intros H0 Hl HM. eapply Rle_trans; [apply unit_lipschitz; rewrite ?length_pre; auto|].
  unfold Rdiv. apply Rmult_le_compat_r.
  - left. apply Rinv_0_lt_compat, gain_den.
  - pose proof (pre_contract zm M y y' H0 Hl HM). lra.
Qed.

(** ** The coherences *)
Theorem sdr_stable b o ref est est' m m' c d d' x y y' : wf ref -> wf est -> wf est' ->
  use_cg_iter o = None -> (0 <= loadv (load_diag o))%R ->
  (filter_length o = 1 -> a_len ref = a_len est) -> a_len est' = a_len est ->
  has_chan ref c x -> has_chan est d y -> has_chan est' d' y' ->
  sdr_coh b o ref est = Ok m -> sdr_coh b o ref est' = Ok m' ->
  exists q q', mat_of m c d = Fin q /\ mat_of m' c d' = Fin q' /\
    (Rabs (sqrt q - sqrt q') <= 2 * sqrt (energy (length y) (fun t => smp y t - smp y' t))
                                / Rmax (norm2 (pre (zero_mean o) y)) norm_eps)%R.
Proof.
  intros Hwr Hwe Hwe' Hcg Hld HL1 Hle Hx Hy Hy' H H'.
  destruct (has_chan_pchan (zero_mean o) ref c x Hwr Hx) as [Px Lx].
  destruct (has_chan_pchan (zero_mean o) est d y Hwe Hy) as [Py Ly].
  destruct (has_chan_pchan (zero_mean o) est' d' y' Hwe' Hy') as [Py' Ly'].
  assert (H0 : 0 < a_len ref) by apply Hwr. assert (He0 : 0 < a_len est) by apply Hwe.
  fold (nrm (length y) (fun t => smp y t - smp y' t)%R).
  destruct (Nat.eq_dec (filter_length o) 1) as [E1|N1].
  - do 2 eexists. split; [apply (sdr_entry1 b o ref est m c d _ _ Hwr Hwe H E1 (HL1 E1) Px Py)|].
    split; [apply (sdr_entry1 b o ref est' m' c d' _ _ Hwr Hwe' H' E1 ltac:(rewrite Hle; auto) Px Py')|].
    eapply Rle_trans; [|apply (prep_lipschitz (zero_mean o) (a_len ref)); try lia].
    rewrite <- !Rsqr_pow2, !sqrt_Rsqr_abs. eapply Rle_trans; [apply Rabs_triang_inv2|].
    rewrite <- dot_sub_r. eapply Rle_trans; [apply dot_le_nrm|].
    assert (nrm (a_len ref) (smp (unit_of (pre (zero_mean o) x))) <= 1)%R.
    { unfold nrm. rewrite <- sqrt_1. apply sqrt_le_1_alt. apply (pchan_energy_le1 _ _ _ _ _ Hwr Px). lia. }
    pose proof (nrm_pos (a_len ref) (fun t => smp (unit_of (pre (zero_mean o) y)) t - smp (unit_of (pre (zero_mean o) y')) t)%R).
    pose proof (nrm_pos (a_len ref) (smp (unit_of (pre (zero_mean o) x)))). nra.
  - destruct (sdr_entry b o ref est m c d _ _ H Hcg N1 (proj1 Hx) (proj1 Hy) Px Py) as (q & Hq & Eq).
    destruct (sdr_entry b o ref est' m' c d' _ _ H' Hcg N1 (proj1 Hx) (proj1 Hy') Px Py') as (q' & Hq' & Eq').
    rewrite Hle in Hq'. exists q, q'. split; auto. split; auto.
    eapply Rle_trans; [apply (lsq_lipschitz _ _ _ _ _ _ _ _ Hld Hq Hq')|].
    apply prep_lipschitz; try lia. rewrite Ly. apply nf_ge_est; auto.
Qed.
Theorem sar_stable b o ref est est' m m' sar sar' d d' xs y y' : wf ref -> wf est -> wf est' ->
  use_cg_iter o = None -> (0 <= loadv (load_diag o))%R -> 1 <= filter_length o ->
  (filter_length o = 1 -> a_len ref = a_len est) -> a_len est' = a_len est ->
  has_chans ref xs -> has_chan est d y -> has_chan est' d' y' ->
  sq_cos b o ref est = Ok (m, sar) -> sq_cos b o ref est' = Ok (m', sar') ->
  exists q q', nth d sar NaN = Fin q /\ nth d' sar' NaN = Fin q' /\
    (Rabs (sqrt q - sqrt q') <= 2 * sqrt (energy (length y) (fun t => smp y t - smp y' t))
                                / Rmax (norm2 (pre (zero_mean o) y)) norm_eps)%R.
Proof.
  intros Hwr Hwe Hwe' Hcg Hld HL HL1 Hle Hx Hy Hy' H H'.
  destruct (has_chan_pchan (zero_mean o) est d y Hwe Hy) as [Py Ly].
  destruct (has_chan_pchan (zero_mean o) est' d' y' Hwe' Hy') as [Py' Ly'].
  assert (H0 : 0 < a_len ref) by apply Hwr. assert (He0 : 0 < a_len est) by apply Hwe.
  pose proof (has_chans_clean (zero_mean o) ref xs Hwr Hx) as Hcl.
  fold (nrm (length y) (fun t => smp y t - smp y' t)%R).
  destruct (Nat.eq_dec (filter_length o) 1) as [E1|N1].
  - destruct (sar_entry1 b o ref est m sar d _ Hwr Hwe H E1 (HL1 E1) Hcl (proj1 Hy) Py) as (q & Hq & Eq).
    destruct (sar_entry1 b o ref est' m' sar' d' _ Hwr Hwe' H' E1 ltac:(rewrite Hle; auto) Hcl (proj1 Hy') Py') as (q' & Hq' & Eq').
    exists q, q'. split; auto. split; auto.
    eapply Rle_trans; [apply (lsq_lipschitz _ _ _ _ _ _ _ _ Hld Hq Hq')|].
    apply prep_lipschitz; try lia.
  - destruct (sar_entry b o ref est m sar d _ H Hcg ltac:(lia) Hcl (proj1 Hy) Py) as (_ & q & Hq & Eq).
    destruct (sar_entry b o ref est' m' sar' d' _ H' Hcg ltac:(lia) Hcl (proj1 Hy') Py') as (_ & q' & Hq' & Eq').
    rewrite Hle in Hq'. exists q, q'. split; auto. split; auto.
    eapply Rle_trans; [apply (lsq_lipschitz _ _ _ _ _ _ _ _ Hld Hq Hq')|].
    apply prep_lipschitz; try lia. rewrite Ly. apply nf_ge_est; auto.
Qed.
