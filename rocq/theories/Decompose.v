(** * The BSS Eval decomposition of an estimate (C70) *)
From Coq Require Import Reals Lra.
From Verif Require Import Prelude ExtReal Slice Sums Spec SpecSig Fft FftProofs Helpers HelpersProofs
  PermProofs DbProofs Linalg LinalgProofs Cgd Metrics StatsProofs LeastSq PrepProofs MetricsProofs SarProofs
  ProjTheorems MetricTheorems Outputs Solvability Remix.
Local Open Scope nat_scope.

(** y = s + i + a: s is reference c filtered by L taps, s + i all references filtered by L taps each,
    i is orthogonal to the delays of reference c and a to those of all references. *)
Definition decomposition (K L M : nat) (xs : nat -> list R) (c : nat) (y s i a : nat -> R) : Prop :=
  (forall t, t < M -> y t = (s t + i t + a t)%R) /\
  in_span L M (delays (xs c)) s /\
  in_span (L * K) M (all_delays K xs) (fun t => s t + i t)%R /\
  (forall k, k < L -> dot M (delays (xs c) k) i = 0%R) /\
  (forall k, k < L * K -> dot M (all_delays K xs k) a = 0%R).

Lemma delays_all K xs c k t : c < K -> delays (xs c) k t = all_delays K xs (k * K + c) t.
Proof. intros H. unfold delays, all_delays. rewrite lag_div, lag_mod by auto. reflexivity. Qed.
Lemma delays_span K L M xs c k : c < K -> k < L -> in_span (L * K) M (all_delays K xs) (delays (xs c) k).
Proof.
  intros Hc Hk. eapply in_span_ext; [|apply (in_span_basis (L * K) M (all_delays K xs) (k * K + c))].
  - intros t _. symmetry. apply delays_all. auto.
  - nia.
Qed.
Lemma dot_plus_r M u v w : dot M u (fun t => v t + w t)%R = (dot M u v + dot M u w)%R.
Proof. unfold dot. rewrite <- Rsum_plus. apply Rsum_ext. intros; ring. Qed.

Lemma decomposition_proj K L M xs c y s i a : c < K -> decomposition K L M xs c y s i a ->
  is_projection (L * K) M (all_delays K xs) y (fun t => s t + i t)%R /\
  is_projection L M (delays (xs c)) y s.
Proof.
  intros Hc (E & S1 & S2 & O1 & O2). split; split; auto; intros k Hk.
  - rewrite (dot_ext M _ (all_delays K xs k) _ a); auto. intros t Ht. rewrite E by auto. ring.
  - rewrite (dot_ext M _ (delays (xs c) k) _ (fun t => i t + a t)%R); auto.
    + rewrite dot_plus_r, O1 by auto.
      rewrite (span_orth (L * K) M (all_delays K xs) (delays (xs c) k) a) by (auto using delays_span). ring.
    + intros t Ht. rewrite E by auto. ring.
Qed.
Lemma proj_decomposition K L M xs c y p pk : c < K ->
  is_projection (L * K) M (all_delays K xs) y p -> is_projection L M (delays (xs c)) y pk ->
  decomposition K L M xs c y pk (fun t => p t - pk t)%R (fun t => y t - p t)%R.
Proof.
  intros Hc [S O] [S' O']. split; [intros; ring|]. split; auto. split; [|split; auto].
  - eapply in_span_ext; [|exact S]. intros; ring.
  - intros k Hk.
    rewrite (dot_ext M _ (delays (xs c) k) _ (fun t => (y t - pk t) + (-1) * (y t - p t))%R) by (auto; intros; ring).
    rewrite dot_plus_r, O' by auto.
    pose proof (span_orth (L * K) M (all_delays K xs) _ _ (delays_span K L M xs c k Hc Hk) O) as Z.
    unfold dot in *. rewrite (Rsum_ext M _ (fun t => (-1) * (delays (xs c) k t * (y t - p t)))%R) by (intros; ring).
    rewrite Rsum_scal_l, Z. ring.
Qed.
Lemma decomposition_unique K L M xs c y s i a s' i' a' : c < K ->
  decomposition K L M xs c y s i a -> decomposition K L M xs c y s' i' a' ->
  forall t, t < M -> s t = s' t /\ i t = i' t /\ a t = a' t.
Proof.
  intros Hc D D' t Ht.
  destruct (decomposition_proj _ _ _ _ _ _ _ _ _ Hc D) as [P Q].
  destruct (decomposition_proj _ _ _ _ _ _ _ _ _ Hc D') as [P' Q'].
  pose proof (projection_unique _ _ _ _ _ _ P P' t Ht) as E1.
  pose proof (projection_unique _ _ _ _ _ _ Q Q' t Ht) as E2. cbv beta in E1.
  destruct D as [E _]. destruct D' as [E' _]. specialize (E t Ht). specialize (E' t Ht). repeat split; lra.
Qed.
(** the three parts are orthogonal, so their energies add up *)
Lemma decomposition_energy K L M xs c y s i a : c < K -> decomposition K L M xs c y s i a ->
  energy M y = (energy M s + energy M i + energy M a)%R /\
  energy M (fun t => i t + a t)%R = (energy M i + energy M a)%R /\
  energy M (fun t => s t + i t)%R = (energy M s + energy M i)%R.
Proof.
  intros Hc D. destruct D as (E & S1 & S2 & O1 & O2).
  assert (Osi : dot M s i = 0%R) by (apply (span_orth L M (delays (xs c))); auto).
  assert (Osa : dot M s a = 0%R).
  { apply (span_orth L M (delays (xs c))); auto. intros k Hk.
    apply (span_orth (L * K) M (all_delays K xs)); auto using delays_span. }
  assert (Oa : dot M (fun t => s t + i t)%R a = 0%R) by (apply (span_orth (L * K) M (all_delays K xs)); auto).
  assert (Q : forall u v, energy M (fun t => u t + v t)%R = (energy M u + 2 * dot M u v + energy M v)%R).
  { intros u v. unfold energy, dot. rewrite <- Rsum_scal_l, <- !Rsum_plus. apply Rsum_ext. intros; ring. }
  assert (Oia : dot M i a = 0%R).
  { rewrite dot_comm in Oa. rewrite dot_plus_r in Oa. rewrite (dot_comm M a s), (dot_comm M a i) in Oa. lra. }
  split; [|split].
  - rewrite (energy_ext M y (fun t => (s t + i t) + a t)%R) by auto.
    rewrite (Q (fun t => s t + i t)%R a), Oa, Q, Osi. ring.
  - rewrite Q, Oia. ring.
  - rewrite Q, Osi. ring.
Qed.

Lemma xneg_dB r a : (0 <= a)%R -> (0 <= r)%R -> (0 < a + r)%R -> xneg (dB r a) = dB a r.
Proof.
  intros Ha Hr H. unfold dB. destruct (Req_EM_T a 0) as [Ea|Na], (Req_EM_T r 0) as [Er|Nr]; auto; try lra.
  simpl. f_equal. replace (r / a)%R with (/ (a / r))%R by (field; auto).
  rewrite log10_inv by (apply Rdiv_lt_0_compat; lra). ring.
Qed.

Theorem bss_is_decomposition b sp o ref est xs ys S I A perm k c d M : lsa_contract sp -> wf ref -> wf est ->
  use_cg_iter o = None -> load_diag o = None -> clamp_db o = None ->
  1 <= filter_length o <= Nat.max (a_len ref) (a_len est) ->
  (filter_length o = 1 -> a_len ref = a_len est /\ (norm_eps <= norm2 (pre (zero_mean o) (xs c)))%R) ->
  has_chans ref xs -> has_chans est ys -> (norm_eps <= norm2 (pre (zero_mean o) (ys d)))%R ->
  a_len ref + filter_length o - 1 <= M -> a_len est <= M ->
  bss_eval_sources b sp o ref est = Ok (S, I, A, perm) ->
  k < length S -> nth k (matching (n_chan ref) (n_chan est) perm) (0, 0) = (c, d) ->
  let D := decomposition (n_chan ref) (filter_length o) M (fun c => pre (zero_mean o) (xs c)) c
             (smp (pre (zero_mean o) (ys d))) in
  (exists s i a, D s i a) /\
  forall s i a, D s i a ->
    nth k S NaN = dB (energy M s) (energy M (fun t => i t + a t)%R) /\
    nth k I NaN = dB (energy M s) (energy M i) /\
    nth k A NaN = dB (energy M (fun t => s t + i t)%R) (energy M a).
Proof.
  intros Hsp Hwr Hwe Hcg Hld Hcl HL HL1 Hx Hy Hny HM1 HM2 H Hk Ek D.
  destruct (bss_at _ _ _ _ _ _ _ _ _ _ Hsp H Hk) as (m & sar & c0 & d0 & Q & E & Hc & Hd & Hn & V).
  rewrite Ek in E. injection E as <- <-.
  assert (Hs : sdr_coh b o ref est = Ok m) by (apply (sq_cos_sdr' b o ref est m sar); auto; lia).
  set (x0 := fun c => pre (zero_mean o) (xs c)) in *. set (y0 := pre (zero_mean o) (ys d)) in *.
  set (K := n_chan ref) in *. set (L := filter_length o) in *.
  assert (U : same_span M (L * K) (all_delays K (fun c => unit_of (x0 c))) (L * K) (all_delays K x0)) by (apply unit_span; lia).
  split.
  - destruct (sar_entry_plain b o ref est m sar d xs (ys d) M) as (q & _ & Hq); auto.
    { intros H1. apply HL1; auto. } { apply has_chans_at; auto. }
    destruct (sdr_entry_plain b o ref est m c d (xs c) (ys d) M) as (q1 & _ & Hq1); auto.
    { intros H1. apply HL1; auto. } { intros H1. apply HL1; auto. }
    destruct (lsq_has_proj _ _ _ _ _ Hq) as [p P]. destruct (lsq_has_proj _ _ _ _ _ Hq1) as [p1 P1].
    fold K L y0 in P, P1.
    apply (projection_span M _ _ _ _ _ _ U) in P.
    assert (U1 : same_span M L (delays (unit_of (x0 c))) L (delays (x0 c))).
    { pose proof (unit_span L M 1 (fun _ => x0 c) ltac:(lia)) as W. rewrite Nat.mul_1_r in W.
      unfold all_delays in W. destruct W as [W1 W2].
      assert (G : forall x k, delays x k = delayed x (k / 1)) by (intros; rewrite Nat.div_1_r; reflexivity).
      split; intros j Hj; [specialize (W1 j Hj); destruct W1 as [g Hg]|specialize (W2 j Hj); destruct W2 as [g Hg]];
        exists g; intros t Ht; rewrite (G _ j), Hg by auto; apply Rsum_ext; intros i Hi; rewrite Nat.div_1_r; reflexivity. }
    apply (projection_span M _ _ _ _ _ _ U1) in P1.
    set (g := gain y0). assert (Hg : (g <> 0)%R) by (pose proof (gain_pos y0); unfold g; lra).
    assert (SC : forall n a q, is_projection n M a (smp (unit_of y0)) q -> is_projection n M a (smp y0) (fun t => / g * q t)%R).
    { intros n a0 q0 P0. pose proof (projection_scale n M a0 _ q0 (fun _ => 1%R) (/ g) ltac:(intros; lra) P0) as Z.
      eapply projection_ext; [| | |exact Z].
      - intros; cbv beta; ring.
      - intros t _. cbv beta. rewrite smp_unit_of. fold g. field. auto.
      - reflexivity. }
    eexists _, _, _. apply proj_decomposition; [exact Hc|apply SC; exact P|apply SC; exact P1].
  - intros s i a HD. destruct (decomposition_proj _ _ _ _ _ _ _ _ _ Hc HD) as [P1 P2].
    destruct (decomposition_energy _ _ _ _ _ _ _ _ _ Hc HD) as (Ey & Eia & Esi).
    pose proof (sir_sar_projection b o ref est m sar c d xs (ys d) M (fun t => s t + i t)%R s Hwr Hwe Hcg Hld Hcl HL
      HL1 Hx Hc (has_chans_at _ _ _ Hy Hd) Hny HM1 HM2 P1 P2 Q) as R.
    unfold bss_mats in R. cbv beta iota zeta in R. destruct R as (R1 & R2 & R3 & R4).
    destruct HD as (E & _).
    assert (Ny : (0 < energy M (smp y0))%R).
    { rewrite energy_smp.
      - pose proof eps_pos. apply pow_lt. lra.
      - unfold y0. rewrite length_pre. destruct (has_chan_pchan (zero_mean o) est d (ys d) Hwe (has_chans_at _ _ _ Hy Hd)) as [_ Hl].
        lia. }
    pose proof (energy_nonneg M s) as N1. pose proof (energy_nonneg M i) as N2. pose proof (energy_nonneg M a) as N3.
    assert (Np : energy M (fun t => s t + i t)%R <> 0%R) by (intros Z; apply Hn; rewrite R4 by auto; reflexivity).
    specialize (R3 Np). fold y0 in R1, R2.
    rewrite (energy_ext M (fun t => smp y0 t - s t)%R (fun t => i t + a t)%R) in R1 by (intros t Ht; rewrite E by auto; ring).
    rewrite (energy_ext M (fun t => smp y0 t - (s t + i t))%R a) in R2 by (intros t Ht; rewrite E by auto; ring).
    rewrite (energy_ext M (fun t => s t + i t - s t)%R i) in R3 by (intros; ring).
    unfold base_metrics in *. cbn [fst snd] in *. injection V as -> -> ->.
    rewrite R1, R2, R3. rewrite !xneg_dB; auto using energy_nonneg; lra.
Qed.
