(** * compute_stats_2 with inexact Fourier transforms

    numpy/metrics.py:169-182, torch/metrics.py:165-178, with any functions in the place of rfft, irfft and the
    complex products, as in [FftRound.v]. *)
From Coq Require Import Reals.
From Coquelicot Require Import Complex.
From Verif Require Import Prelude Slice Sums Fft Cgd Metrics FftRound.
Local Open Scope nat_scope.

(** acf of compute_stats_2 for one pair of references: [mul2 a b] computes X * X.conj(),
    numpy/metrics.py:169, 173-175, torch/metrics.py:165, 169-171.  The cross-correlations are [stats_xcorr_with]. *)
Definition stats2_acf_with (rf : list R -> list C) (mul2 : C -> C -> C) (irf : list C -> list R) (L : nat) (x1 x2 : list R) : list R :=
  let a := irf (zip_with mul2 (rf x1) (rf x2)) in
  cut L a ++ pyslice (Some (- Z.of_nat L)%Z) None 1 a.
(** load_diag added to lag 0 of the blocks on the diagonal, numpy/metrics.py:526-529, torch/metrics.py:520-524 *)
Definition block_acf_with (rf : list R -> list C) (mul2 : C -> C -> C) (irf : list C -> list R) (L : nat) (ld : option R)
  (xs : nat -> list R) (c d : nat) : list R :=
  (if Nat.eqb c d then add_load ld else fun l => l) (stats2_acf_with rf mul2 irf L (xs c) (xs d)).

(** Products X * X.conj() with a relative error v. *)
Definition mul2_near (v : R) (mul2 : C -> C -> C) : Prop := forall a b,
  (Cmod (Cminus (mul2 a b) (Cmult a (Cconj b))) <= v * (Cmod a * Cmod b))%R.
