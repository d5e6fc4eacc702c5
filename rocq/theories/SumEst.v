(** * Weighted sums of estimates, and reordered samples: one tap against several *)
From Coq Require Import Reals Lra.
From Verif Require Import Prelude ExtReal Spec SpecSig Sums Helpers Linalg LinalgProofs Metrics StatsProofs LeastSq
  PrepProofs DbProofs MetricsProofs SarProofs ProjTheorems MetricTheorems Symmetry Edge Solvability Witness SigExamples
  Sensitivity SiGram.
From Verif Require Gradient.
Local Open Scope nat_scope.
Local Notation ray := Gradient.ray.

Lemma unit_dot_pos n x y : length y <= n -> (norm_eps <= norm2 y)%R ->
  dot n (smp x) (smp (unit_of y)) = (dot n (smp x) (smp y) / nrm n (smp y))%R.
Proof.
  intros Hl Hn. rewrite nrm_norm2 by auto. unfold dot, Rdiv. rewrite <- Rsum_scal_r. apply Rsum_ext.
  intros t _. rewrite smp_unit_of. unfold gain. rewrite Rmax_left by auto. ring.
Qed.
Lemma mediant n (x y1 y2 : nat -> R) t k : (0 <= t)%R -> (0 <= k)%R ->
  (k * nrm n y1 <= dot n x y1)%R -> (k * nrm n y2 <= dot n x y2)%R ->
  (k * nrm n (fun i => y1 i + t * y2 i) <= dot n x (fun i => y1 i + t * y2 i))%R.
Proof.
  intros Ht Hk H1 H2.
  assert (E : dot n x (fun i => y1 i + t * y2 i)%R = (dot n x y1 + t * dot n x y2)%R).
  { unfold dot. rewrite <- Rsum_scal_l, <- Rsum_plus. apply Rsum_ext. intros; ring. }
  pose proof (nrm_add n y1 (fun i => t * y2 i)%R) as T. rewrite nrm_scal, (Rabs_pos_eq t) in T by auto.
  rewrite E. apply (Rmult_le_compat_l k) in T; auto.
  apply (Rmult_le_compat_l t) in H2; auto. lra.
Qed.

(** one tap: adding, with any weight t >= 0, a second estimate that correlates with the reference with the
    same sign never gives less than the worse of the two *)
Theorem si_sum b o ref est est' m m' c d1 d2 d' x y1 y2 t : wf ref -> wf est -> wf est' ->
  filter_length o = 1 -> a_len ref = a_len est -> a_len est' = a_len est ->
  has_chan ref c x -> has_chan est d1 y1 -> has_chan est d2 y2 -> has_chan est' d' (ray y1 y2 t) -> (0 <= t)%R ->
  (norm_eps <= norm2 (pre (zero_mean o) y1))%R -> (norm_eps <= norm2 (pre (zero_mean o) y2))%R ->
  (norm_eps <= norm2 (pre (zero_mean o) (ray y1 y2 t)))%R ->
  (0 <= dot (a_len ref) (smp (pre (zero_mean o) x)) (smp (pre (zero_mean o) y1)))%R ->
  (0 <= dot (a_len ref) (smp (pre (zero_mean o) x)) (smp (pre (zero_mean o) y2)))%R ->
  pairwise_sdr_loss b o est ref = Ok m -> pairwise_sdr_loss b o est' ref = Ok m' ->
  xle (mat_of m' c d') (mat_of m c d1) \/ xle (mat_of m' c d') (mat_of m c d2).
Proof.
  intros Hwr Hwe Hwe' HL Hlen Hlen' Hx Hy1 Hy2 Hs Ht N1 N2 Ns P1 P2 H H'.
  destruct (loss_inv _ _ _ _ _ H) as (q & Eq & ->). destruct (loss_inv _ _ _ _ _ H') as (q' & Eq' & ->).
  rewrite !to_db_entry.
  destruct (has_chan_pchan (zero_mean o) ref c x Hwr Hx) as [Px Lx].
  destruct (has_chan_pchan (zero_mean o) est d1 y1 Hwe Hy1) as [Py1 Ly1].
  destruct (has_chan_pchan (zero_mean o) est d2 y2 Hwe Hy2) as [Py2 Ly2].
  destruct (has_chan_pchan (zero_mean o) est' d' _ Hwe' Hs) as [Ps Ls].
  assert (H0 : 0 < a_len ref) by apply Hwr.
  set (n := a_len ref) in *. set (z := zero_mean o) in *. set (ux := unit_of (pre z x)) in *.
  rewrite (sdr_entry1 b o ref est q c d1 _ _ Hwr Hwe Eq HL Hlen Px Py1).
  rewrite (sdr_entry1 b o ref est q c d2 _ _ Hwr Hwe Eq HL Hlen Px Py2).
  rewrite (sdr_entry1 b o ref est' q' c d' _ _ Hwr Hwe' Eq' HL (eq_trans Hlen (eq_sym Hlen')) Px Ps).
  fold n. set (k1 := dot n (smp ux) (smp (unit_of (pre z y1)))). set (k2 := dot n (smp ux) (smp (unit_of (pre z y2)))).
  set (k' := dot n (smp ux) (smp (unit_of (pre z (ray y1 y2 t))))).
  assert (Lp : forall v, length v = a_len est -> length (pre z v) <= n) by (intros v Hv; rewrite length_pre; unfold n; lia).
  assert (Nz : forall v, length v = a_len est -> (norm_eps <= norm2 (pre z v))%R -> (0 < nrm n (smp (pre z v)))%R).
  { intros v Hv Hn. rewrite nrm_norm2 by auto. pose proof eps_pos. lra. }
  assert (D : forall v, length v = a_len est -> (norm_eps <= norm2 (pre z v))%R ->
    (dot n (smp ux) (smp (unit_of (pre z v))) * nrm n (smp (pre z v)) = dot n (smp ux) (smp (pre z v)))%R).
  { intros v Hv Hn. rewrite unit_dot_pos by auto. field. pose proof (Nz v Hv Hn). lra. }
  assert (K0 : forall v, length v = a_len est -> (norm_eps <= norm2 (pre z v))%R ->
    (0 <= dot n (smp (pre z x)) (smp (pre z v)))%R -> (0 <= dot n (smp ux) (smp (unit_of (pre z v))))%R).
  { intros v Hv Hn Hp. rewrite unit_dot_pos by auto. apply Rmult_le_pos.
    - rewrite (dot_ext n (smp ux) (fun i => gain (pre z x) * smp (pre z x) i)%R _ (smp (pre z v))); auto.
      + rewrite dot_scal_l. apply Rmult_le_pos; auto. left. apply gain_pos.
      + intros i _. apply smp_unit_of.
    - left. apply Rinv_0_lt_compat. auto. }
  pose proof (K0 y1 Ly1 N1 P1) as Z1. pose proof (K0 y2 Ly2 N2 P2) as Z2. fold k1 in Z1. fold k2 in Z2.
  pose proof (D y1 Ly1 N1) as D1. pose proof (D y2 Ly2 N2) as D2. fold k1 in D1. fold k2 in D2.
  pose proof (D _ (eq_trans Ls Hlen') Ns) as D'. fold k' in D'. pose proof (Nz _ (eq_trans Ls Hlen') Ns) as Nz'.
  assert (R : forall k, (0 <= k)%R -> (k <= k1)%R -> (k <= k2)%R -> (k <= k')%R).
  { intros k Hk L1 L2. apply (Rmult_le_reg_r (nrm n (smp (pre z (ray y1 y2 t))))); auto. rewrite D'.
    assert (ER : forall i, smp (pre z (ray y1 y2 t)) i = (smp (pre z y1) i + t * smp (pre z y2) i)%R).
    { intros i. rewrite Gradient.pre_ray by lia. apply Gradient.smp_ray. rewrite !length_pre. lia. }
    rewrite (nrm_ext n _ (fun i => smp (pre z y1) i + t * smp (pre z y2) i)%R) by auto.
    rewrite (dot_ext n _ (smp ux) _ (fun i => smp (pre z y1) i + t * smp (pre z y2) i)%R) by auto.
    apply mediant; auto.
    - rewrite <- D1. apply Rmult_le_compat_r; auto. apply nrm_pos.
    - rewrite <- D2. apply Rmult_le_compat_r; auto. apply nrm_pos. }
  assert (Hk1 : (k' ^ 2 <= 1)%R).
  { eapply Rle_trans; [apply dot_sq_le|].
    - apply (pchan_energy_le1 z ref c ux n Hwr Px). unfold n. lia.
    - apply (pchan_energy_le1 z est' d' _ n Hwe' Ps). unfold n. lia. }
  destruct (Rle_dec k1 k2) as [L|L].
  - left. apply neg_sdr_mono; auto; [apply pow2_ge_0|]. apply pow_incr. split; auto. apply R; auto. lra.
  - right. apply neg_sdr_mono; auto; [apply pow2_ge_0|]. apply pow_incr. split; auto. apply R; auto; lra.
Qed.

(** with two taps that fails: both estimates are half explained, their sum almost not at all *)
Definition sum_ref : arr := rarr 3 [[1; 0; 0]]%R.
Definition sum_y1 : list R := [1 / 10; 1; 1]%R.
Definition sum_y2 : list R := [1 / 10; - 1; 1]%R.
Definition sum_est : arr := rarr 3 [sum_y1; sum_y2].
Definition sum_est' : arr := rarr 3 [ray sum_y1 sum_y2 1].
Lemma sum_ref_wf : wf sum_ref. Proof. apply rarr_wf; [lia|repeat constructor]. Qed.
Lemma sum_est_wf : wf sum_est. Proof. apply rarr_wf; [lia|repeat constructor]. Qed.
Lemma sum_est'_wf : wf sum_est'. Proof. apply rarr_wf; [lia|repeat constructor]. Qed.
Lemma sum_ok b est : is_ok (pairwise_sdr_loss b (plain_opts 2) est sum_ref).
Proof.
  unfold pairwise_sdr_loss.
  destruct (sdr_coh b (plain_opts 2) sum_ref est) as [m|e] eqn:E; [eexists; reflexivity|exfalso].
  destruct (sdr_raises_iff b (plain_opts 2) sum_ref est sum_ref_wf eq_refl ltac:(simpl; lra) ltac:(change (a_len sum_ref) with 3; cbn [filter_length plain_opts]; lia)) as [_ [H _]].
  destruct H as (_ & c & x & [Hc Hx] & Hs); [eexists; eassumption|]. change (c < 1) in Hc. assert (c = 0) as -> by lia.
  destruct x as [|v x]; [discriminate|]. simpl in Hx. injection Hx as Hv _. specialize (Hs 0).
  unfold smp in Hs. simpl in Hs. lra.
Qed.
Lemma sum_proj y p : length y = 3 -> (forall t, t < 2 -> p t = smp y t) -> (forall t, 2 <= t -> p t = 0%R) ->
  is_projection 2 4 (delays [1; 0; 0]%R) (smp y) p.
Proof.
  intros Hy H1 H2. split.
  - exists (smp y). intros t Ht. destruct t as [|[|t]].
    + rewrite H1 by lia. unfold delays, delayed, smp. simpl. ring.
    + rewrite H1 by lia. unfold delays, delayed, smp. simpl. ring.
    + rewrite H2 by lia. destruct t as [|[|t]]; [| |lia]; unfold delays, delayed, smp; simpl; ring.
  - intros k Hk. unfold dot. simpl. rewrite (H2 2), (H2 3), (H1 0), (H1 1) by lia. 
    destruct k as [|[|k]]; [| |lia]; unfold delays, delayed, smp; simpl; ring.
Qed.
Definition head2 (y : list R) (t : nat) : R := if t <? 2 then smp y t else 0%R.
Lemma sum_value b m est d y : wf est -> a_len est = 3 -> has_chan est d y -> (norm_eps <= norm2 y)%R ->
  pairwise_sdr_loss b (plain_opts 2) est sum_ref = Ok m ->
  mat_of m 0 d = dB (energy 4 (fun t => smp y t - head2 y t)%R) (energy 4 (head2 y)).
Proof.
  intros We Le Hy Hn H.
  destruct (has_chan_pchan false est d y We Hy) as [_ Ly].
  assert (P : is_projection 2 4 (delays [1; 0; 0]%R) (smp y) (head2 y)).
  { apply sum_proj; [congruence| |]; intros t Ht; unfold head2.
    - replace (t <? 2) with true by (symmetry; apply Nat.ltb_lt; auto). reflexivity.
    - replace (t <? 2) with false by (symmetry; apply Nat.ltb_ge; auto). reflexivity. }
  apply (sdr_projection b (plain_opts 2) sum_ref est m 0 d [1; 0; 0]%R y 4 (head2 y) sum_ref_wf We eq_refl eq_refl eq_refl
    ltac:(rewrite Le; simpl; lia) ltac:(simpl; discriminate) ltac:(split; [cbv; lia|reflexivity]) Hy Hn
    ltac:(simpl; lia) ltac:(rewrite Le; lia) P H).
Qed.
Theorem sum_refuted b : exists m m', 
  pairwise_sdr_loss b (plain_opts 2) sum_est sum_ref = Ok m /\ pairwise_sdr_loss b (plain_opts 2) sum_est' sum_ref = Ok m' /\
  mat_of m 0 0 = Fin (10 * log10 (100 / 101)) /\ mat_of m 0 1 = Fin (10 * log10 (100 / 101)) /\
  mat_of m' 0 0 = Fin (10 * log10 100).
Proof.
  destruct (sum_ok b sum_est) as [m Hm]. destruct (sum_ok b sum_est') as [m' Hm']. exists m, m'.
  split; [exact Hm|]. split; [exact Hm'|].
  assert (C1 : has_chan sum_est 0 sum_y1) by (split; [cbv; lia|reflexivity]).
  assert (C2 : has_chan sum_est 1 sum_y2) by (split; [cbv; lia|reflexivity]).
  assert (C3 : has_chan sum_est' 0 (ray sum_y1 sum_y2 1)) by (split; [cbv; lia|reflexivity]).
  rewrite (sum_value b m sum_est 0 sum_y1 sum_est_wf eq_refl C1) by (auto; apply norm2_big; unfold smp, sum_y1, sum_y2, Gradient.ray, smp; simpl; lra).
  rewrite (sum_value b m sum_est 1 sum_y2 sum_est_wf eq_refl C2) by (auto; apply norm2_big; unfold smp, sum_y1, sum_y2, Gradient.ray, smp; simpl; lra).
  rewrite (sum_value b m' sum_est' 0 _ sum_est'_wf eq_refl C3) by (auto; apply norm2_big; unfold smp, sum_y1, sum_y2, Gradient.ray, smp; simpl; lra).
  unfold energy, dot, head2, smp, sum_y1, sum_y2, Gradient.ray, smp. simpl. repeat split.
  - rewrite dB_pos by lra. do 3 f_equal. field.
  - rewrite dB_pos by lra. do 3 f_equal. field.
  - rewrite dB_pos by lra. do 3 f_equal. field.
Qed.

(** reversed time with two taps: an estimate that is the delayed reference, then one that is ahead of it *)
Definition rev_ref : arr := rarr 3 [[1; 0; 0]]%R.
Definition rev_est : arr := rarr 3 [[0; 1; 0]]%R.
Definition flip_time (t : nat) : nat := 2 - t.
Definition rev_ref' : arr := on_chans 3 (reorder 3 flip_time) 1 (fun _ => [1; 0; 0]%R).
Definition rev_est' : arr := on_chans 3 (reorder 3 flip_time) 1 (fun _ => [0; 1; 0]%R).
Lemma flip_time_perm : perm_of 3 flip_time.
Proof. unfold flip_time. split; intros; lia. Qed.
Lemma rev_ref'_eq : rev_ref' = rarr 3 [[0; 0; 1]]%R. Proof. reflexivity. Qed.
Lemma rev_est'_eq : rev_est' = rarr 3 [[0; 1; 0]]%R. Proof. reflexivity. Qed.
Theorem reorder_refuted b : exists m m',
  pairwise_sdr_loss b (plain_opts 2) rev_est rev_ref = Ok m /\ pairwise_sdr_loss b (plain_opts 2) rev_est' rev_ref' = Ok m' /\
  mat_of m 0 0 = NInf /\ mat_of m' 0 0 = PInf.
Proof.
  destruct (sum_ok b rev_est) as [m Hm]. 
  assert (W : wf (rarr 3 [[0; 0; 1]]%R)) by (apply rarr_wf; [lia|repeat constructor]).
  assert (We : wf (rarr 3 [[0; 1; 0]]%R)) by (apply rarr_wf; [lia|repeat constructor]).
  assert (Hn : (norm_eps <= norm2 [0; 1; 0]%R)%R) by (apply norm2_big; unfold smp; simpl; lra).
  assert (Ok' : is_ok (pairwise_sdr_loss b (plain_opts 2) rev_est' rev_ref')).
  { rewrite rev_ref'_eq. unfold pairwise_sdr_loss.
    destruct (sdr_coh b (plain_opts 2) (rarr 3 [[0; 0; 1]]%R) rev_est') as [m0|e] eqn:E; [eexists; reflexivity|exfalso].
    destruct (sdr_raises_iff b (plain_opts 2) _ rev_est' W eq_refl ltac:(simpl; lra) ltac:(simpl; lia)) as [_ [H _]].
    destruct H as (_ & c & x & [Hc Hx] & Hs); [eexists; eassumption|]. change (c < 1) in Hc. assert (c = 0) as -> by lia.
    destruct x as [|v0 [|v1 [|v2 x]]]; try discriminate. simpl in Hx. injection Hx as _ _ Hv _. specialize (Hs 2).
    unfold smp in Hs. simpl in Hs. lra. }
  destruct Ok' as [m' Hm']. exists m, m'. split; [exact Hm|]. split; [exact Hm'|].
  rewrite rev_ref'_eq, rev_est'_eq in Hm'. split.
  - assert (C : has_chan rev_est 0 [0; 1; 0]%R) by (split; [cbv; lia|reflexivity]).
    rewrite (sum_value b m rev_est 0 [0; 1; 0]%R We eq_refl C Hn Hm).
    unfold dB. destruct (Req_EM_T _ 0) as [E|E]; [revert E; unfold energy, dot, head2, smp; simpl; lra|].
    destruct (Req_EM_T _ 0) as [F|F]; [reflexivity|exfalso; apply F; unfold energy, dot, head2, smp; simpl; ring].
  - assert (P : is_projection 2 4 (delays [0; 0; 1]%R) (smp [0; 1; 0]%R) (fun _ => 0%R)).
    { split; [exists (fun _ => 0%R); intros; simpl; ring|]. intros k Hk. unfold dot, delays, delayed, smp. simpl.
      destruct k as [|[|k]]; [| |simpl in Hk; lia]; simpl; ring. }
    rewrite (sdr_projection b (plain_opts 2) (rarr 3 [[0; 0; 1]]%R) (rarr 3 [[0; 1; 0]]%R) m' 0 0 [0; 0; 1]%R [0; 1; 0]%R 4
      (fun _ => 0%R) W We eq_refl eq_refl eq_refl
      ltac:(simpl; lia) ltac:(simpl; discriminate) ltac:(split; [cbv; lia|reflexivity]) ltac:(split; [cbv; lia|reflexivity]) Hn
      ltac:(simpl; lia) ltac:(simpl; lia) P Hm').
    unfold dB. destruct (Req_EM_T _ 0) as [E|E]; [reflexivity|exfalso; apply E; unfold energy, dot; simpl; ring].
Qed.
