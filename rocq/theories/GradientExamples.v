(** * Concrete signals for the derivative of the loss *)
From Coq Require Import Reals Lra.
From Verif Require Import Prelude ExtReal Sums SpecSig Helpers Metrics LeastSq StatsProofs PrepProofs MetricsProofs
  ProjTheorems DbProofs MetricTheorems Solvability Edge Diag Witness SigExamples Gradient.
Local Open Scope nat_scope.

(** reference (1, 1), estimate (1, -1), two taps: the space of filtered references is the
    orthogonal complement of (1, -1, 1) in R^3. *)
Definition gx : list R := [1; 1]%R.
Definition gy : list R := [1; -1]%R.
Definition gp : nat -> R := smp [1/3; -1/3; -2/3]%R.
Definition g_ref : arr := rarr 2 [gx].
Definition g_est (v : list R) : arr := rarr 2 [v].
Definition g_loss (b : backend) (L : nat) (v : list R) : list (list xr) :=
  match pairwise_sdr_loss b (plain_opts L) (g_est v) g_ref with Ok m => m | Raise _ => [] end.

Lemma g_ref_wf : wf g_ref. Proof. apply rarr_wf; [lia|repeat constructor]. Qed.
Lemma g_ref_chan : has_chan g_ref 0 gx. Proof. apply (rarr_chan 2 [gx] 0). simpl; lia. Qed.
Lemma g_family : family g_est 0 2.
Proof.
  intros v Hv. split; [apply rarr_wf; [lia|repeat constructor; auto]|].
  apply (rarr_chan 2 [v] 0). simpl; lia.
Qed.
Lemma map_Fin_inj (l x : list R) : map Fin x = map Fin l -> x = l.
Proof.
  revert x. induction l as [|a l IH]; intros [|y x] H; simpl in H; try discriminate; auto.
  injection H as -> H; f_equal; auto.
Qed.
Lemma g_ok b L v : 1 <= L <= 2 -> length v = 2 -> pairwise_sdr_loss b (plain_opts L) (g_est v) g_ref = Ok (g_loss b L v).
Proof.
  intros HL Hv. unfold g_loss.
  destruct (pairwise_sdr_loss b (plain_opts L) (g_est v) g_ref) as [m|e] eqn:H; auto. exfalso.
  unfold pairwise_sdr_loss in H.
  destruct (Nat.eq_dec L 1) as [->|H1].
  { unfold sdr_coh in H. simpl in H. discriminate. }
  destruct (sdr_coh b (plain_opts L) g_ref (g_est v)) as [m|e'] eqn:E; [discriminate|].
  destruct (sdr_raises_iff b (plain_opts L) g_ref (g_est v) g_ref_wf eq_refl ltac:(simpl; lra) ltac:(simpl; lia)) as [_ [K _]].
  destruct K as (_ & c & x & [Hc Hx] & Hs); [eexists; eassumption|].
  change (c < 1) in Hc. assert (c = 0) as -> by lia. symmetry in Hx. apply (map_Fin_inj gx) in Hx. subst x. change (pre (zero_mean (plain_opts L)) gx) with gx in Hs.
  specialize (Hs 0). unfold smp, gx in Hs. simpl in Hs. lra.
Qed.
Lemma g_proj : is_projection 2 3 (delays gx) (smp gy) gp.
Proof.
  split.
  - exists (fun k => if Nat.eqb k 0 then 1/3 else -2/3)%R. intros t Ht.
    destruct t as [|[|[|t]]]; try lia; unfold gp, gx, delays, delayed, smp; simpl; lra.
  - intros k Hk. destruct k as [|[|k]]; try lia; unfold dot, gp, gx, gy, delays, delayed, smp; simpl; lra.
Qed.
Lemma g_norm : (norm_eps < norm2 gy)%R.
Proof.
  apply Rle_lt_trans with 1%R; [apply eps_le_1|]. unfold norm2. rewrite <- sqrt_1 at 1.
  apply sqrt_lt_1; unfold smp, gy; simpl; lra.
Qed.
Lemma g_energy_r : energy 3 (fun t => smp gy t - gp t)%R = (4/3)%R.
Proof. unfold energy, dot, gp, gy, smp; simpl; lra. Qed.
Lemma g_energy_p : energy 3 gp = (2/3)%R.
Proof. unfold energy, dot, gp, gy, smp; simpl; lra. Qed.

Lemma g_flat b : flat (fun v => mat_of (g_loss b 2 v) 0 0) gy.
Proof.
  apply (flat_iff b (plain_opts 2) g_ref 0 0 gx gy 3 gp g_est (g_loss b 2) g_ref_wf eq_refl eq_refl eq_refl
    ltac:(simpl; lia) ltac:(simpl; lia) g_ref_chan ltac:(simpl; lia) ltac:(simpl; lia) g_proj g_family
    (fun v => g_ok b 2 v ltac:(lia)) eq_refl g_norm).
  - cbn [pre zero_mean plain_opts]. rewrite g_energy_r. lra.
  - rewrite g_energy_p. lra.
  - rewrite g_energy_p. intros t Ht. destruct t as [|[|t]]; simpl in Ht; try lia;
    unfold energy, dot, gp, gy, smp; simpl; lra.
Qed.
Lemma g_value b : mat_of (g_loss b 2 gy) 0 0 = Fin (10 * log10 2).
Proof.
  destruct (g_family gy eq_refl) as [W C].
  rewrite (sdr_projection b (plain_opts 2) g_ref (g_est gy) (g_loss b 2 gy) 0 0 gx gy 3 gp g_ref_wf W eq_refl eq_refl eq_refl
    ltac:(simpl; lia) ltac:(simpl; lia) g_ref_chan C ltac:(left; apply g_norm) ltac:(simpl; lia) ltac:(simpl; lia) g_proj
    (g_ok b 2 gy ltac:(lia) eq_refl)).
  cbn [pre zero_mean plain_opts]. rewrite g_energy_r, g_energy_p, dB_pos by lra. do 3 f_equal. field.
Qed.

(** estimate (2, 0) and a single tap: projection (1, 1) *)
Definition gz : list R := [2; 0]%R.
Lemma gz_proj : is_projection 1 2 (delays gx) (smp gz) (smp gx).
Proof.
  split.
  - exists (fun k => 1)%R. intros t Ht.
    destruct t as [|[|t]]; try lia; unfold gx, delays, delayed, smp; simpl; lra.
  - intros k Hk. destruct k as [|k]; try lia; unfold dot, gx, gz, delays, delayed, smp; simpl; lra.
Qed.
Lemma g_norm2 v : (1 < Rsum (length v) (fun t => smp v t ^ 2))%R -> (norm_eps < norm2 v)%R.
Proof.
  intros H. apply Rle_lt_trans with 1%R; [apply eps_le_1|]. unfold norm2. rewrite <- sqrt_1 at 1.
  apply sqrt_lt_1; lra.
Qed.
Lemma gz_norm : (norm_eps < norm2 gz)%R. Proof. apply g_norm2. unfold smp, gz; simpl; lra. Qed.
Lemma gx_norm : (norm_eps < norm2 gx)%R. Proof. apply g_norm2. unfold smp, gx; simpl; lra. Qed.
Lemma g_two : 1 <= 2 <= 2. Proof. lia. Qed.
