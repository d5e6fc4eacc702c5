(** * Mean removal computed with rounding

    Model of _remove_mean, numpy/helpers.py:38-39, torch/helpers.py:30-31, for one channel, followed by the
    scale-invariant coherence of SiRound.v: zero_mean=True and filter_length = 1, numpy/metrics.py:49-63,
    torch/metrics.py:44-58.  The mean is a sum in any order divided by the number of samples.
    Simplifications as in SiRound.v: no overflow. *)
From Coq Require Import Reals.
From Verif Require Import Prelude Sums Helpers SiRound.
Local Open Scope R_scope.

Section Rounded.
  Variable fl : R -> R.
  (** x.mean(axis=-1) *)
  Definition fmean (n : nat) (t : stree) (x : nat -> R) : R := fl (fsum fl x t / INR n).
  (** x - x.mean(axis=-1, keepdims=True) *)
  Definition fcenter (n : nat) (t : stree) (x : nat -> R) (i : nat) : R := fl (x i - fmean n t x).
  Definition fcoh_zm (n : nat) (fx fy fxy : nat -> bool) (mx my tx ty txy : stree) (x y : nat -> R) : R :=
    fcoh fl fx fy fxy tx ty txy (fcenter n mx x) (fcenter n my y).
End Rounded.
