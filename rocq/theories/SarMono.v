(** * SAR and SIR under longer filters and larger loads *)
From Coq Require Import Reals Lra.
From Verif Require Import Prelude ExtReal Spec SpecSig Sums Helpers DbProofs Linalg LinalgProofs Metrics StatsProofs LeastSq
  PrepProofs MetricsProofs SarProofs ProjTheorems MetricTheorems Diag Witness SigExamples InexactExamples.
Local Open Scope nat_scope.

Lemma sar_entry_any b o ref est m sar d y : wf ref -> wf est ->
  sq_cos b o ref est = Ok (m, sar) -> use_cg_iter o = None -> 1 <= filter_length o ->
  (filter_length o = 1 -> a_len ref = a_len est) ->
  clean (zero_mean o) ref -> d < n_chan est -> pchan (zero_mean o) est d = Some y ->
  let nf := n_fft (a_len ref) (a_len est) in
  exists q, nth d sar NaN = Fin q /\
    lsq (filter_length o * n_chan ref) nf (all_cdelays nf (n_chan ref) (pc (zero_mean o) ref)) (loadv (load_diag o)) (smp y) q.
Proof.
  intros Hwr Hwe H Hcg HL HL1 Hcl Hd Py nf.
  destruct (Nat.eq_dec (filter_length o) 1) as [E1|N1].
  - destruct (sar_entry1 b o ref est m sar d _ Hwr Hwe H E1 (HL1 E1) Hcl Hd Py) as (q & Hq & Eq).
    exists q. split; auto. rewrite E1, Nat.mul_1_l.
    pose proof (nf_ge_ref (a_len ref) (a_len est) (proj1 Hwr)) as Hnf. fold nf in Hnf.
    assert (Hat : forall c t, c < n_chan ref -> t < nf -> all_cdelays nf (n_chan ref) (pc (zero_mean o) ref) c t = smp (pc (zero_mean o) ref c) t).
    { intros c t Hc Ht. pose proof (all_cdelays_at nf (n_chan ref) (pc (zero_mean o) ref) 0 c Hc) as E. rewrite Nat.mul_0_l, Nat.add_0_l in E.
      rewrite E. apply cdelayed_0. auto. }
    assert (Htr : forall c (v : nat -> R), c < n_chan ref ->
      dot (a_len ref) (smp (pc (zero_mean o) ref c)) v = dot nf (all_cdelays nf (n_chan ref) (pc (zero_mean o) ref) c) v).
    { intros c v Hc. rewrite (dot_ext nf _ (smp (pc (zero_mean o) ref c)) _ v) by auto.
      unfold dot. symmetry. apply Rsum_trunc; [lia|]. intros t Ht _. unfold smp at 1.
      rewrite nth_overflow by (rewrite (pchan_length (zero_mean o) ref c _ Hwr (clean_pc _ _ _ Hcl Hc)); auto). ring. }
    eapply lsq_ext; [| |exact Hq].
    + intros i j Hi Hj. cbv beta. rewrite Htr by auto. apply dot_ext; auto. intros t Ht. symmetry. apply Hat; auto.
    + intros i Hi. cbv beta. apply Htr; auto.
  - destruct (sar_entry b o ref est m sar d _ H Hcg ltac:(lia) Hcl Hd Py) as (_ & q & Hq & Eq). exists q. auto.
Qed.

(** more taps, less load: the SAR coherence does not decrease *)
Theorem sar_mono b o o' ref est m sar m' sar' d xs y : wf ref -> wf est ->
  use_cg_iter o = None -> use_cg_iter o' = None -> zero_mean o' = zero_mean o -> clamp_db o' = clamp_db o ->
  1 <= filter_length o <= filter_length o' -> (0 <= loadv (load_diag o') <= loadv (load_diag o))%R ->
  (filter_length o = 1 -> a_len ref = a_len est) ->
  has_chans ref xs -> has_chan est d y ->
  sq_cos b o ref est = Ok (m, sar) -> sq_cos b o' ref est = Ok (m', sar') ->
  (exists q q', nth d sar NaN = Fin q /\ nth d sar' NaN = Fin q' /\ (q <= q')%R) /\
  forall c, let '(_, _, nsar) := bss_mats o (m, sar) in let '(_, _, nsar') := bss_mats o' (m', sar') in
    xle (nsar' c d) (nsar c d).
Proof.
  intros Hwr Hwe Hcg Hcg' Hzm Hcd HL Hld HL1 Hx Hy H H'.
  destruct (has_chan_pchan (zero_mean o) est d y Hwe Hy) as [Py Ly].
  pose proof (has_chans_clean (zero_mean o) ref xs Hwr Hx) as Hcl.
  destruct (sar_entry_any b o ref est m sar d _ Hwr Hwe H Hcg ltac:(lia) HL1 Hcl (proj1 Hy) Py) as (q & Eq & Hq).
  assert (Hcl' : clean (zero_mean o') ref) by (rewrite Hzm; auto).
  assert (Py' : pchan (zero_mean o') est d = Some (unit_of (pre (zero_mean o) y))) by (rewrite Hzm; auto).
  destruct (sar_entry_any b o' ref est m' sar' d _ Hwr Hwe H' Hcg' ltac:(lia) ltac:(intros; apply HL1; lia) Hcl' (proj1 Hy) Py') as (q' & Eq' & Hq').
  rewrite Hzm in Hq'.
  assert (Hle : (q <= q')%R).
  { eapply (lsq_mono _ _ _ _ _ _ _ _ _ _ (fun k => k)); [exact Hld| | | |exact Hq|exact Hq']; auto.
    intros k Hk. cbv beta. pose proof (Nat.mul_le_mono_r _ _ (n_chan ref) (proj2 HL)). lia. }
  split; [exists q, q'; auto|]. intros c. cbn [bss_mats base_metrics snd]. rewrite Eq, Eq', Hcd.
  assert (B : (0 <= q)%R) by (apply lsq_bounds in Hq; [apply Hq|lra]).
  assert (B' : (q' <= 1)%R).
  { destruct (sar_coh_unit_range b o' ref est m' sar' d y xs) as (q2 & E2 & R2); auto; try lra; try lia.
    rewrite Eq' in E2. injection E2 as <-. lra. }
  apply neg_sdr_mono; lra.
Qed.

(** ** The SIR can move either way *)
Definition way_y : list R := [1 / 2; 0; 1 / 2; 1 / 2; 1 / 2]%R.
Definition way_est : arr := rarr 5 [way_y; way_y].
Lemma way_wf : wf way_est. Proof. apply rarr_wf; [lia|repeat constructor]. Qed.
Lemma way_chan d : d < 2 -> has_chan way_est d way_y.
Proof. intros Hd. pose proof (rarr_chan 5 [way_y; way_y] d Hd) as H. destruct d as [|[|d]]; try lia; exact H. Qed.
Lemma way_unit : unit_of way_y = way_y. Proof. apply unit_norm1. unfold smp. simpl. lra. Qed.
Lemma exr_unit c : c < 2 -> unit_of (exr c) = exr c.
Proof. intros Hc. apply unit_norm1. destruct c as [|[|c]]; try lia; unfold smp; simpl; lra. Qed.

(** orthonormal vectors *)
Lemma lsq_orthonormal K M a y : (forall i j, i < K -> j < K -> dot M (a i) (a j) = if Nat.eqb i j then 1%R else 0%R) ->
  lsq K M a 0 y (Rsum K (fun k => dot M (a k) y ^ 2))%R.
Proof.
  intros H. exists (fun k => dot M (a k) y). split.
  - intros i Hi. unfold mulmv, gram. rewrite (Rsum_ext K _ (fun j => if Nat.eqb j i then dot M (a j) y else 0%R)).
    + apply (Rsum_delta K i (fun j => dot M (a j) y)). auto.
    + intros j Hj. rewrite H by auto. rewrite (Nat.eqb_sym i j). destruct (Nat.eqb_spec j i) as [->|]; ring.
  - unfold qval. apply Rsum_ext. intros. ring.
Qed.

Lemma way_ok b L : 1 <= L <= 2 -> exists m sar, sq_cos b (plain_opts L) ex_ref way_est = Ok (m, sar).
Proof.
  intros HL. assert (H : is_ok (sq_cos b (plain_opts L) ex_ref way_est)); [|destruct H as [[m sar] H]; eauto].
  apply (Solvability.bss_solvable_iff b (plain_opts L) ex_ref way_est exr ex_ref_wf way_wf eq_refl eq_refl ltac:(simpl; lia)
    ltac:(simpl; lia) ex_ref_chans).
  intros g Hg k Hk. change (n_chan ex_ref) with 2 in *. change (a_len ex_ref) with 5 in *. cbn [plain_opts filter_length] in *.
  assert (E : L = 1 \/ L = 2) by lia. destruct E as [-> | ->].
  - pose proof (Hg 0 ltac:(lia)) as H0. pose proof (Hg 2 ltac:(lia)) as H2.
    unfold comb, all_delays, delayed, smp in H0, H2. simpl in H0, H2.
    assert (Hk' : k = 0 \/ k = 1) by lia. destruct Hk' as [-> | ->]; lra.
  - pose proof (Hg 0 ltac:(lia)) as H0. pose proof (Hg 1 ltac:(lia)) as H1. pose proof (Hg 2 ltac:(lia)) as H2. pose proof (Hg 3 ltac:(lia)) as H3.
    unfold comb, all_delays, delayed, smp in H0, H1, H2, H3. simpl in H0, H1, H2, H3.
    assert (Hk' : k = 0 \/ k = 1 \/ k = 2 \/ k = 3) by lia. destruct Hk' as [-> | [-> | [-> | ->]]]; lra.
Qed.
Lemma way_values b L m sar : 1 <= L <= 2 -> sq_cos b (plain_opts L) ex_ref way_est = Ok (m, sar) ->
  mat_of m 0 0 = Fin (1 / 4) /\ mat_of m 1 1 = Fin (INR L / 4) /\
  nth 0 sar NaN = Fin ((INR L + 1) / 4) /\ nth 1 sar NaN = Fin ((INR L + 1) / 4).
Proof.
  intros HL H. pose proof (sq_cos_sdr' b (plain_opts L) ex_ref way_est m sar ltac:(simpl; lia) H) as Hs.
  assert (HS : forall c, c < 2 -> mat_of m c c = Fin (Rsum L (fun k => dot 7 (delays (exr c) k) (smp way_y) ^ 2)%R)).
  { intros c Hc. pose proof (way_chan c Hc) as Hy.
    destruct (sdr_entry_plain b (plain_opts L) ex_ref way_est m c c (exr c) way_y 7 ex_ref_wf way_wf Hs eq_refl eq_refl) as (q & E & Hq);
      auto; try (simpl; lia); try apply Hy.
    - apply ex_ref_chans. auto.
    - intros _. apply ex_ref_norm; auto.
    - cbn [plain_opts filter_length zero_mean pre] in Hq. rewrite exr_unit, way_unit in Hq by auto. rewrite E. f_equal.
      apply (lsq_unique _ _ _ _ _ _ _ (Rle_refl 0) Hq). apply lsq_orthonormal.
      intros i j Hi Hj. assert (i = 0 \/ i = 1) as [-> | ->] by lia; assert (j = 0 \/ j = 1) as [-> | ->] by lia;
      destruct c as [|[|c]]; try lia; unfold dot, delays, delayed, smp; simpl; lra. }
  assert (HA : forall d, d < 2 -> nth d sar NaN = Fin (Rsum (L * 2) (fun k => dot 7 (all_delays 2 exr k) (smp way_y) ^ 2)%R)).
  { intros d Hd. pose proof (way_chan d Hd) as Hy.
    destruct (sar_entry_plain b (plain_opts L) ex_ref way_est m sar d exr way_y 7 ex_ref_wf way_wf H eq_refl eq_refl) as (q & E & Hq);
      auto; try (simpl; lia); try apply ex_ref_chans.
    cbn [plain_opts filter_length zero_mean pre] in Hq. rewrite way_unit in Hq. change (n_chan ex_ref) with 2 in Hq. rewrite E. f_equal.
    assert (Hq' : lsq (L * 2) 7 (all_delays 2 exr) 0 (smp way_y) q).
    { eapply lsq_ext; [| |exact Hq]; intros; unfold all_delays; rewrite ?exr_unit by (apply Nat.mod_upper_bound; lia); reflexivity. }
    apply (lsq_unique _ _ _ _ _ _ _ (Rle_refl 0) Hq'). apply lsq_orthonormal.
    intros i j Hi Hj. assert (i = 0 \/ i = 1 \/ i = 2 \/ i = 3) as [-> | [-> | [-> | ->]]] by lia;
      assert (j = 0 \/ j = 1 \/ j = 2 \/ j = 3) as [-> | [-> | [-> | ->]]] by lia; unfold dot, all_delays, delayed, smp; simpl; lra. }
  rewrite !HS, !HA by lia. assert (L = 1 \/ L = 2) as [-> | ->] by lia;
    repeat split; f_equal; unfold dot, all_delays, delays, delayed, smp; simpl; lra.
Qed.
Theorem sir_longer_refuted b : exists ref est S S' A A' i0 i1 i0' i1', wf ref /\ wf est /\
  bss_eval_sources_noperm b (plain_opts 1) ref est = Ok (S, [Fin i0; Fin i1], A) /\
  bss_eval_sources_noperm b (plain_opts 2) ref est = Ok (S', [Fin i0'; Fin i1'], A') /\
  (i0' < i0)%R /\ (i1 < i1')%R.
Proof.
  destruct (way_ok b 1 ltac:(lia)) as (m & sar & H). destruct (way_ok b 2 ltac:(lia)) as (m' & sar' & H').
  destruct (way_values b 1 m sar ltac:(lia) H) as (M0 & M1 & A0 & A1).
  destruct (way_values b 2 m' sar' ltac:(lia) H') as (M0' & M1' & A0' & A1').
  assert (D : forall x y, (0 < x < y)%R -> coherence_to_neg_sdr None (xdiv (Fin x) (Fin y)) = Fin (gdb (x / y))).
  { intros x y Hxy. rewrite xdiv_fin by lra. apply neg_sdr_fin. split; [apply Rdiv_lt_0_compat; lra|].
    apply Rmult_lt_reg_r with y; [lra|]. unfold Rdiv. rewrite Rmult_assoc, Rinv_l by lra. lra. }
  exists ex_ref, way_est. do 8 eexists. split; [exact ex_ref_wf|]. split; [exact way_wf|].
  split; [|split].
  - rewrite noperm_diag by (auto; simpl; lia). rewrite H. cbn [bind bss_mats]. unfold diag_out, tab. change (n_chan ex_ref) with 2. cbn [seq map].
    cbn [base_metrics fst snd clamp_db plain_opts]. rewrite M0, M1, A0, A1. rewrite !D by (simpl INR; lra). reflexivity.
  - rewrite noperm_diag by (auto; simpl; lia). rewrite H'. cbn [bind bss_mats]. unfold diag_out, tab. change (n_chan ex_ref) with 2. cbn [seq map].
    cbn [base_metrics fst snd clamp_db plain_opts]. rewrite M0', M1', A0', A1'. rewrite !D by (simpl INR; lra). reflexivity.
  - replace (1 / 4 / ((INR 1 + 1) / 4))%R with (1 / 2)%R by (simpl INR; field).
    replace (INR 1 / 4 / ((INR 1 + 1) / 4))%R with (1 / 2)%R by (simpl INR; field).
    replace (1 / 4 / ((INR 2 + 1) / 4))%R with (1 / 3)%R by (simpl INR; field).
    replace (INR 2 / 4 / ((INR 2 + 1) / 4))%R with (2 / 3)%R by (simpl INR; field).
    split; apply Ropp_lt_contravar, gdb_lt; lra.
Qed.
