(** * Concrete gradients with respect to a reference *)
From Coq Require Import Reals Lra.
From Verif Require Import Prelude ExtReal Sums SpecSig Helpers Metrics LeastSq StatsProofs PrepProofs MetricsProofs
  ProjTheorems DbProofs MetricTheorems Witness SigExamples Gradient GradientExamples Autograd AutogradExamples AutogradRef AutogradRefProofs.
Local Open Scope nat_scope.

(** a single reference, (1, 1), against the estimate (1, -1) *)
Lemma r_moves : moves g_est 0 2.
Proof.
  split; [exact g_family|]. intros v v' _ _. split; [reflexivity|]. intros i Hi. destruct i as [|[|i]]; [contradiction|reflexivity..].
Qed.
Lemma r_est_wf : wf (g_est gy). Proof. apply (g_family gy eq_refl). Qed.
Lemma r_est_chans : has_chans (g_est gy) (fun _ => gy).
Proof. intros c Hc. change (c < 1) in Hc. assert (c = 0) as -> by lia. reflexivity. Qed.
Definition r_loss0 : list (list xr) :=
  match pairwise_sdr_loss Torch (plain_opts 1) (g_est gy) (g_est [0; 0]%R) with Ok m => m | Raise _ => [] end.
Lemma r_ok0 : pairwise_sdr_loss Torch (plain_opts 1) (g_est gy) (g_est [0; 0]%R) = Ok r_loss0.
Proof. reflexivity. Qed.
