(** * A concrete case for C102 *)
From Coq Require Import Reals Lra Psatz.
From Verif Require Import Prelude ExtReal SpecSig Sums Fft Helpers Metrics PrepProofs SigExamples OneRefExamples InexactExamples
  FftRound FftRoundProofs FftRoundExamples NormRound.
Local Open Scope nat_scope.

(** the normalised signals, too large by one thousandth *)
Definition big_ref : list R := map (Rmult (1001 / 1000)) (exr 0).
Definition big_est : list R := map (Rmult (1001 / 1000)) near_y.
Lemma big_sqrt : sqrt ((1 / 1000) ^ 2) = (1 / 1000)%R.
Proof. apply sqrt_pow2. lra. Qed.
Lemma big_ref_near : unit_near (1 / 1000) (exr 0) big_ref.
Proof.
  split; [unfold big_ref; apply map_length|]. right. transitivity (sqrt ((1 / 1000) ^ 2)); [|exact big_sqrt]. unfold norm2. f_equal. unfold big_ref, smp. simpl. lra.
Qed.
Lemma big_est_near : unit_near (1 / 1000) near_y big_est.
Proof.
  split; [unfold big_est; apply map_length|]. right. transitivity (sqrt ((1 / 1000) ^ 2)); [|exact big_sqrt]. unfold norm2. f_equal. unfold big_est, smp. simpl. lra.
Qed.
Lemma big_error : norm_error (corr_error 16 0 0) (1 / 1000) = (2001 / 1000000)%R.
Proof. unfold norm_error, corr_error. lra. Qed.
