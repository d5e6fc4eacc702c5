(** * Bounds in decibels on the effect of changing the estimate *)
From Coq Require Import Reals Lra.
From Verif Require Import Prelude ExtReal Spec SpecSig Sums Helpers Linalg LinalgProofs Metrics StatsProofs LeastSq
  PrepProofs DbProofs MetricsProofs SarProofs ProjTheorems MetricTheorems Sensitivity.
From Verif Require Gradient.
Local Open Scope nat_scope.

(** the values 20 log10(r' / s') (a loss: noise amplitude over signal amplitude) that are possible when the
    amplitudes r', s' >= 0 differ from r, s by at most e *)
Definition dB_within (e r s : R) (v : xr) : Prop :=
  xle (dB (Rmax (r - e) 0 ^ 2) ((s + e) ^ 2)) v /\ xle v (dB ((r + e) ^ 2) (Rmax (s - e) 0 ^ 2)).

Lemma log10_le x y : (0 < x)%R -> (x <= y)%R -> (log10 x <= log10 y)%R.
Proof.
  intros H0 H. unfold log10. apply Rmult_le_compat_r.
  - left. apply Rinv_0_lt_compat. rewrite <- ln_1. apply ln_increasing; lra.
  - destruct (Req_dec x y) as [->|N]; [lra|]. left. apply ln_increasing; lra.
Qed.
Lemma dB_mono a b a' b' : (0 <= a <= a')%R -> (0 <= b' <= b)%R -> xle (dB a b) (dB a' b').
Proof.
  intros Ha Hb. unfold dB. destruct (Req_EM_T b' 0) as [Z'|N'].
  - destruct (Req_EM_T b 0); [reflexivity|]. destruct (Req_EM_T a 0); reflexivity.
  - destruct (Req_EM_T b 0); [lra|]. destruct (Req_EM_T a' 0) as [Za'|Na'].
    + destruct (Req_EM_T a 0); [reflexivity|lra].
    + destruct (Req_EM_T a 0); [reflexivity|]. apply xle_fin. apply Rmult_le_compat_l; [lra|].
      apply log10_le.
      * apply Rdiv_lt_0_compat; lra.
      * unfold Rdiv. apply Rmult_le_compat; try lra.
        -- left. apply Rinv_0_lt_compat. lra.
        -- apply Rinv_le_contravar; lra.
Qed.
Lemma dB_within_intro e r s r' s' : (0 <= r')%R -> (0 <= s')%R ->
  (Rabs (r - r') <= e)%R -> (Rabs (s - s') <= e)%R -> dB_within e r s (dB (r' ^ 2) (s' ^ 2)).
Proof.
  intros Hr Hs Er Es. apply Rabs_def2b in Er || idtac.
  assert (B : forall u v, (Rabs (u - v) <= e)%R -> (u - e <= v <= u + e)%R).
  { intros u v. unfold Rabs. destruct (Rcase_abs _); lra. }
  apply B in Es. assert (Er' : (r - e <= r' <= r + e)%R) by (apply B; auto || lra).
  pose proof (Rmax_l (r - e) 0). pose proof (Rmax_r (r - e) 0).
  pose proof (Rmax_l (s - e) 0). pose proof (Rmax_r (s - e) 0).
  assert (Rmax (r - e) 0 <= r')%R by (apply Rmax_lub; lra).
  assert (Rmax (s - e) 0 <= s')%R by (apply Rmax_lub; lra).
  split; apply dB_mono; split; try apply pow2_ge_0; apply pow_incr; lra.
Qed.
Lemma energy_nrm M u : energy M u = (nrm M u ^ 2)%R.
Proof. rewrite <- nrm_sq. ring. Qed.

(** ** Projections of a difference *)
Lemma proj_sub K M a y y' p p' : is_projection K M a y p -> is_projection K M a y' p' ->
  is_projection K M a (fun t => y t - y' t)%R (fun t => p t - p' t)%R.
Proof.
  intros [[g G] O] [[g' G'] O']. split.
  - exists (fun k => g k - g' k)%R. intros t Ht. rewrite G, G' by auto. rewrite <- Rsum_minus.
    apply Rsum_ext. intros; ring.
  - intros k Hk. rewrite (dot_ext M _ (a k) _ (fun t => (y t - p t) - (y' t - p' t))%R); auto.
    + rewrite dot_sub_r, O, O' by auto. ring.
    + intros t Ht. ring.
Qed.
Lemma nrm_le_sum M u v w : energy M u = (energy M v + energy M w)%R -> (nrm M v <= nrm M u)%R /\ (nrm M w <= nrm M u)%R.
Proof.
  intros E. pose proof (energy_nonneg M v). pose proof (energy_nonneg M w). unfold nrm.
  split; apply sqrt_le_1_alt; lra.
Qed.
Lemma proj_close K M a y y' p p' e : is_projection K M a y p -> is_projection K M a y' p' ->
  (nrm M (fun t => y t - y' t) <= e)%R ->
  (Rabs (nrm M p - nrm M p') <= e)%R /\
  (Rabs (nrm M (fun t => y t - p t)%R - nrm M (fun t => y' t - p' t)%R) <= e)%R.
Proof.
  intros P P' He. pose proof (proj_pythagoras _ _ _ _ _ (proj_sub _ _ _ _ _ _ _ P P')) as E.
  destruct (nrm_le_sum _ _ _ _ E) as [A B]. split.
  - eapply Rle_trans; [apply nrm_sub|]. lra.
  - eapply Rle_trans; [apply nrm_sub|].
    rewrite (nrm_ext M _ (fun t => y t - y' t - (p t - p' t))%R) by (intros; ring). lra.
Qed.
Lemma nested_close K K' M a a' y y' p p' pk pk' e (sg : nat -> nat) :
  (forall k, k < K' -> sg k < K) -> (forall k t, k < K' -> t < M -> a' k t = a (sg k) t) ->
  is_projection K M a y p -> is_projection K' M a' y pk ->
  is_projection K M a y' p' -> is_projection K' M a' y' pk' ->
  (nrm M (fun t => y t - y' t) <= e)%R ->
  (Rabs (nrm M (fun t => p t - pk t)%R - nrm M (fun t => p' t - pk' t)%R) <= e)%R.
Proof.
  intros Hs Ha P Pk P' Pk' He.
  pose proof (proj_sub _ _ _ _ _ _ _ P P') as D. pose proof (proj_sub _ _ _ _ _ _ _ Pk Pk') as Dk.
  pose proof (proj_pythagoras _ _ _ _ _ D) as E.
  pose proof (proj_nested _ _ _ _ _ _ _ _ sg Hs Ha D Dk) as N.
  destruct (nrm_le_sum _ _ _ _ E) as [A _]. destruct (nrm_le_sum _ _ _ _ N) as [_ B].
  eapply Rle_trans; [apply nrm_sub|].
  rewrite (nrm_ext M _ (fun t => p t - p' t - (pk t - pk' t))%R) by (intros; ring). lra.
Qed.

(** ** The SDR matrix *)
Theorem sdr_stable_dB b o ref est' m' c d' x y y' M p : wf ref -> wf est' ->
  use_cg_iter o = None -> load_diag o = None -> clamp_db o = None ->
  1 <= filter_length o <= Nat.max (a_len ref) (a_len est') ->
  (filter_length o = 1 ->
     a_len ref = a_len est' /\ (norm_eps <= norm2 (pre (zero_mean o) x))%R) ->
  has_chan ref c x -> has_chan est' d' y' -> length y = a_len est' ->
  (norm_eps <= norm2 (pre (zero_mean o) y'))%R ->
  a_len ref + filter_length o - 1 <= M -> a_len est' <= M ->
  is_projection (filter_length o) M (delays (pre (zero_mean o) x)) (smp (pre (zero_mean o) y)) p ->
  pairwise_sdr_loss b o est' ref = Ok m' ->
  dB_within (sqrt (energy (length y) (fun t => smp y t - smp y' t)%R))
    (sqrt (energy M (fun t => smp (pre (zero_mean o) y) t - p t)%R)) (sqrt (energy M p)) (mat_of m' c d').
Proof.
  intros Hwr Hwe Hcg Hld Hcl HL HL1 Hx Hy' Ly Hny HM1 HM2 Hp H.
  destruct (Gradient.projection_exists M (delays (pre (zero_mean o) x)) (filter_length o)
    (smp (pre (zero_mean o) y'))) as [p' Hp'].
  rewrite (sdr_projection b o ref est' m' c d' x y' M p'); auto.
  destruct (has_chan_pchan (zero_mean o) est' d' y' Hwe Hy') as [_ Ly'].
  assert (He0 : 0 < a_len est') by apply Hwe.
  pose proof (pre_contract (zero_mean o) M y y' ltac:(lia) ltac:(lia) ltac:(lia)) as C.
  destruct (proj_close _ _ _ _ _ _ _ _ Hp Hp' C) as [A B].
  rewrite (energy_nrm M p'), (energy_nrm M (fun t => _ - p' t)%R).
  apply dB_within_intro; auto; apply nrm_pos.
Qed.

(** ** The SDR, SIR and SAR matrices of bss_eval *)
Theorem bss_stable_dB b o ref est' m' sar' c d' xs y y' M p pk : wf ref -> wf est' ->
  use_cg_iter o = None -> load_diag o = None -> clamp_db o = None ->
  1 <= filter_length o <= Nat.max (a_len ref) (a_len est') ->
  (filter_length o = 1 ->
     a_len ref = a_len est' /\ (norm_eps <= norm2 (pre (zero_mean o) (xs c)))%R) ->
  has_chans ref xs -> c < n_chan ref -> has_chan est' d' y' -> length y = a_len est' ->
  (norm_eps <= norm2 (pre (zero_mean o) y'))%R ->
  a_len ref + filter_length o - 1 <= M -> a_len est' <= M ->
  is_projection (filter_length o * n_chan ref) M
     (all_delays (n_chan ref) (fun c => pre (zero_mean o) (xs c))) (smp (pre (zero_mean o) y)) p ->
  is_projection (filter_length o) M (delays (pre (zero_mean o) (xs c))) (smp (pre (zero_mean o) y)) pk ->
  sq_cos b o ref est' = Ok (m', sar') ->
  let e := sqrt (energy (length y) (fun t => smp y t - smp y' t)%R) in
  let '(nsdr, nsir, nsar) := bss_mats o (m', sar') in
  dB_within e (sqrt (energy M (fun t => smp (pre (zero_mean o) y) t - pk t)%R)) (sqrt (energy M pk)) (nsdr c d') /\
  dB_within e (sqrt (energy M (fun t => smp (pre (zero_mean o) y) t - p t)%R)) (sqrt (energy M p)) (nsar c d') /\
  ((e < sqrt (energy M p))%R ->
   dB_within e (sqrt (energy M (fun t => p t - pk t)%R)) (sqrt (energy M pk)) (nsir c d')).
Proof.
  intros Hwr Hwe Hcg Hld Hcl HL HL1 Hx Hc Hy' Ly Hny HM1 HM2 Hp Hpk H e.
  destruct (Gradient.projection_exists M (all_delays (n_chan ref) (fun c => pre (zero_mean o) (xs c)))
    (filter_length o * n_chan ref) (smp (pre (zero_mean o) y'))) as [p' Hp'].
  destruct (Gradient.projection_exists M (delays (pre (zero_mean o) (xs c))) (filter_length o)
    (smp (pre (zero_mean o) y'))) as [pk' Hpk'].
  pose proof (sir_sar_projection b o ref est' m' sar' c d' xs y' M p' pk' Hwr Hwe Hcg Hld Hcl HL HL1 Hx Hc Hy'
    Hny HM1 HM2 Hp' Hpk' H) as V.
  destruct (bss_mats o (m', sar')) as [[nsdr nsir] nsar]. destruct V as (V1 & V2 & V3 & _).
  destruct (has_chan_pchan (zero_mean o) est' d' y' Hwe Hy') as [_ Ly'].
  assert (He0 : 0 < a_len est') by apply Hwe.
  pose proof (pre_contract (zero_mean o) M y y' ltac:(lia) ltac:(lia) ltac:(lia)) as C.
  change (nrm (length y) (fun t => smp y t - smp y' t)%R) with e in C.
  destruct (proj_close _ _ _ _ _ _ _ _ Hp Hp' C) as [A B].
  destruct (proj_close _ _ _ _ _ _ _ _ Hpk Hpk' C) as [Ak Bk].
  rewrite V1, V2. split; [|split].
  - rewrite (energy_nrm M pk'), (energy_nrm M (fun t => _ - pk' t)%R). apply dB_within_intro; auto; apply nrm_pos.
  - rewrite (energy_nrm M p'), (energy_nrm M (fun t => _ - p' t)%R). apply dB_within_intro; auto; apply nrm_pos.
  - intros Hlt. fold (nrm M p) in Hlt. rewrite V3.
    2:{ intros Z. assert (Zn : nrm M p' = 0%R) by (unfold nrm; rewrite Z; apply sqrt_0).
        rewrite Zn, Rminus_0_r in A. pose proof (Rle_abs (nrm M p)). lra. }
    rewrite (energy_nrm M pk'), (energy_nrm M (fun t => p' t - pk' t)%R).
    apply dB_within_intro; auto; try apply nrm_pos.
    apply (nested_close (filter_length o * n_chan ref) (filter_length o) M
      (all_delays (n_chan ref) (fun c => pre (zero_mean o) (xs c))) (delays (pre (zero_mean o) (xs c)))
      (smp (pre (zero_mean o) y)) (smp (pre (zero_mean o) y')) p p' pk pk' e (fun l => l * n_chan ref + c)); auto.
    + intros l Hl'. cbv beta. apply Nat.lt_le_trans with (S l * n_chan ref); [simpl; lia|].
      apply Nat.mul_le_mono_r. lia.
    + intros l t Hl' Ht. unfold all_delays. rewrite lag_div, lag_mod by auto. reflexivity.
Qed.
