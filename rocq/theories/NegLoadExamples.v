(** * Negative diagonal loading: an impulse as the reference *)
From Coq Require Import Reals Lra.
From Verif Require Import Prelude ExtReal Spec SpecSig Sums Helpers Linalg Metrics StatsProofs LeastSq
  PrepProofs DbProofs MetricsProofs ProjTheorems MetricTheorems Witness SumEst NegLoad.
Local Open Scope nat_scope.

Definition nl_est : arr := rarr 3 [[1; 0; 1]]%R.
Definition nl_opts (l : R) : opts := with_load (plain_opts 2) (Some l).
Lemma nl_est_wf : wf nl_est. Proof. apply rarr_wf; [lia|repeat constructor]. Qed.
Lemma nl_ref_chan c x : has_chan sum_ref c x -> c = 0 /\ x = [1; 0; 0]%R.
Proof.
  intros [Hc Hx]. change (c < 1) in Hc. assert (c = 0) as -> by lia. split; auto.
  destruct x as [|a [|a' [|a'' [|w x]]]]; simpl in Hx; try discriminate. injection Hx as -> -> ->. reflexivity.
Qed.
Lemma nl_eps : (norm_eps <= 1)%R.
Proof. unfold norm_eps. rewrite <- Rinv_1. apply Rinv_le_contravar; [lra|]. apply pow_R1_Rle. lra. Qed.
Lemma nl_unit : unit_of [1; 0; 0]%R = [1; 0; 0]%R.
Proof.
  assert (N : norm2 [1; 0; 0]%R = 1%R).
  { unfold norm2, smp. simpl. transitivity (sqrt 1); [f_equal; ring|apply sqrt_1]. }
  unfold unit_of. rewrite gain_norm; [|rewrite N; exact nl_eps].
  rewrite N. simpl. repeat f_equal; field.
Qed.
Lemma nl_white i j : i < 2 -> j < 2 ->
  dot 4 (delays [1; 0; 0]%R i) (delays [1; 0; 0]%R j) = if Nat.eqb i j then 1%R else 0%R.
Proof.
  intros Hi Hj. destruct i as [|[|i]]; [| |lia]; (destruct j as [|[|j]]; [| |lia]);
  unfold dot, delays, delayed, smp; simpl; ring.
Qed.
Lemma nl_ok b l : l <> (-1)%R -> is_ok (pairwise_sdr_loss b (nl_opts l) nl_est sum_ref).
Proof.
  intros Hl. destruct (pairwise_sdr_loss b (nl_opts l) nl_est sum_ref) as [m|e] eqn:E; [eexists; reflexivity|exfalso].
  destruct (proj1 (load_raises_iff b (nl_opts l) sum_ref nl_est 4 sum_ref_wf eq_refl ltac:(simpl; lia) ltac:(simpl; lia))
    (ex_intro _ e E)) as (c & x & g & Hx & (k & Hk & Gk) & H).
  destruct (nl_ref_chan c x Hx) as [-> ->]. cbn [filter_length nl_opts with_load plain_opts zero_mean pre load_diag loadv] in *.
  rewrite nl_unit in H. specialize (H k Hk).
  rewrite (Rsum_ext _ _ (fun j => if Nat.eqb j k then g j else 0%R)) in H.
  - rewrite Rsum_delta in H by auto. assert (g k * (1 + l) = 0)%R by lra.
    apply Rmult_integral in H0. destruct H0; lra.
  - intros j Hj. rewrite nl_white by auto. destruct (Nat.eqb_spec k j), (Nat.eqb_spec j k); try lia; ring.
Qed.
Lemma nl_value b l m : l <> (-1)%R -> pairwise_sdr_loss b (nl_opts l) nl_est sum_ref = Ok m ->
  mat_of m 0 0 = coherence_to_neg_sdr None (Fin (/ 2 / (1 + l))).
Proof.
  intros Hl H.
  rewrite (white_load b (nl_opts l) sum_ref nl_est m 0 0 [1; 0; 0]%R [1; 0; 1]%R 4 sum_ref_wf nl_est_wf eq_refl
    ltac:(simpl; lia) ltac:(simpl; lia) ltac:(split; [cbv; lia|reflexivity]) ltac:(split; [cbv; lia|reflexivity])); auto.
  - cbn [filter_length nl_opts with_load plain_opts zero_mean pre load_diag loadv clamp_db]. rewrite nl_unit. do 3 f_equal.
    assert (G : (gain [1; 0; 1] ^ 2 = / 2)%R).
    { assert (N : (norm2 [1; 0; 1] ^ 2 = 2)%R).
      { rewrite norm2_sq. unfold smp. simpl. ring. }
      assert (P : (1 <= norm2 [1; 0; 1])%R).
      { unfold norm2, smp. simpl. apply Rle_trans with (sqrt 1); [rewrite sqrt_1; lra|]. apply sqrt_le_1; lra. }
      rewrite gain_norm.
      - rewrite <- N. field. lra.
      - pose proof nl_eps. lra. }
    unfold dot, delays, delayed, smp, unit_of. simpl. rewrite <- G. ring.
  - cbn [filter_length nl_opts with_load plain_opts zero_mean pre]. rewrite nl_unit. exact nl_white.
Qed.
Theorem nl_perfect b : exists m0 m,
  pairwise_sdr_loss b (with_load (plain_opts 2) (Some 0%R)) nl_est sum_ref = Ok m0 /\ mat_of m0 0 0 = Fin 0 /\
  pairwise_sdr_loss b (with_load (plain_opts 2) (Some (- / 2)%R)) nl_est sum_ref = Ok m /\ mat_of m 0 0 = NInf.
Proof.
  destruct (nl_ok b 0 ltac:(lra)) as [m0 E0]. destruct (nl_ok b (- / 2) ltac:(lra)) as [m E].
  exists m0, m. split; [exact E0|]. split.
  - rewrite (nl_value b 0 m0 ltac:(lra) E0). rewrite neg_sdr_fin by lra. f_equal. unfold gdb, log10.
    replace ((1 - / 2 / (1 + 0)) / (/ 2 / (1 + 0)))%R with 1%R by field. rewrite ln_1. unfold Rdiv. ring.
  - split; [exact E|]. rewrite (nl_value b (- / 2) m ltac:(lra) E). apply neg_sdr_neg_inf. right.
    eexists. split; [reflexivity|]. replace (/ 2 / (1 + - / 2))%R with 1%R by field. lra.
Qed.
