(** * Concrete gradients *)
From Coq Require Import Reals Lra.
From Verif Require Import Prelude ExtReal Sums SpecSig Helpers Metrics LeastSq StatsProofs PrepProofs MetricsProofs
  ProjTheorems DbProofs MetricTheorems Witness SigExamples Gradient GradientExamples Autograd.
Local Open Scope nat_scope.

Lemma g_chans c : c < n_chan g_ref -> exists x, has_chan g_ref c x.
Proof. intros Hc. change (c < 1) in Hc. assert (c = 0) as -> by lia. exists gx. apply g_ref_chan. Qed.

Definition g_lossc (b : backend) (D : R) (v : list R) : list (list xr) :=
  match pairwise_sdr_loss b (clamp_opts 1 D) (g_est v) g_ref with Ok m => m | Raise _ => [] end.
Lemma g_okc b D v : length v = 2 -> pairwise_sdr_loss b (clamp_opts 1 D) (g_est v) g_ref = Ok (g_lossc b D v).
Proof. intros _. reflexivity. Qed.

Lemma gz_value b : mat_of (g_loss b 1 gz) 0 0 = Fin 0.
Proof.
  destruct (g_family gz eq_refl) as [W C].
  rewrite (sdr_projection b (plain_opts 1) g_ref (g_est gz) (g_loss b 1 gz) 0 0 gx gz 2 (smp gx) g_ref_wf W eq_refl eq_refl eq_refl
    ltac:(simpl; lia) (fun _ => conj eq_refl (Rlt_le _ _ gx_norm)) g_ref_chan C ltac:(left; apply gz_norm) ltac:(simpl; lia) ltac:(simpl; lia) gz_proj
    (g_ok b 1 gz ltac:(lia) eq_refl)).
  cbn [pre zero_mean plain_opts]. rewrite dB_pos by (unfold energy, dot, gx, gz, smp; simpl; lra).
  f_equal. unfold energy, dot, gx, gz, smp; simpl. unfold log10.
  match goal with |- context [ln ?a] => replace a with 1%R by (field; lra) end. rewrite ln_1. field.
  pose proof ln10_pos. lra.
Qed.
(** (1, -1) is orthogonal to the reference *)
Lemma gy_value b : mat_of (g_loss b 1 gy) 0 0 = PInf.
Proof.
  destruct (g_family gy eq_refl) as [W C].
  destruct (loss_inv _ _ _ _ _ (g_ok b 1 gy ltac:(lia) eq_refl)) as (m1 & E1 & Em).
  rewrite Em, to_db_entry.
  destruct (has_chan_pchan false g_ref 0 gx g_ref_wf g_ref_chan) as [Px _].
  destruct (has_chan_pchan false (g_est gy) 0 gy W C) as [Py _].
  rewrite (sdr_entry1 b (plain_opts 1) g_ref (g_est gy) m1 0 0 _ _ g_ref_wf W E1 eq_refl eq_refl Px Py).
  cbn [plain_opts clamp_db]. apply neg_sdr_pos_inf. right. eexists. split; [reflexivity|].
  right. change (a_len g_ref) with 2. unfold dot. cbn [gsum]. rewrite !smp_unit_of. unfold smp, gx, gy, pre. simpl. ring.
Qed.
