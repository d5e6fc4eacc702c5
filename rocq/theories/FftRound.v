(** * The statistics with inexact Fourier transforms

    compute_stats, numpy/metrics.py:113-134, torch/metrics.py:108-130, with any functions in the place of rfft, irfft
    and of the complex products: they are arguments. *)
From Coq Require Import Reals.
From Coquelicot Require Import Complex.
From Verif Require Import Prelude Sums Fft Cgd Metrics.
Local Open Scope nat_scope.

(** xcorr of compute_stats for one pair of channels: [mulc a b] computes X.conj() * Y,
    numpy/metrics.py:119-120, 126-134, torch/metrics.py:114-115, 121-130. *)
Definition stats_xcorr_with (rf : list R -> list C) (mulc : C -> C -> C) (irf : list C -> list R) (L : nat) (x y : list R) : list R :=
  cut L (irf (zip_with mulc (rf x) (rf y))).
(** acf of compute_stats: [sq z] computes X.real**2 + X.imag**2, numpy/metrics.py:119-123, torch/metrics.py:114-119. *)
Definition stats_acf_with (rf : list R -> list C) (sq : C -> R) (irf : list C -> list R) (L : nat) (x : list R) : list R :=
  cut L (irf (map (fun z => RtoC (sq z)) (rf x))).

(** ** What the theorems assume about these functions *)

(** The sum over all n frequencies of a function of the first n/2 + 1: the others are conjugates. *)
Definition spectral_sum (n : nat) (f : nat -> R) : R :=
  Rsum (n / 2 + 1) (fun k => (if Nat.eqb k 0 then 1 else if Nat.eqb (2 * k) n then 1 else 2) * f k)%R.
(** The spectrum has a relative error u in the 2-norm. *)
Definition rfft_near (n : nat) (u : R) (rf : list R -> list C) : Prop := forall x,
  length (rf x) = n / 2 + 1 /\
  (spectral_sum n (fun k => Cmod (Cminus (nth k (rf x) (RtoC 0)) (nth k (rfft n x) (RtoC 0))) ^ 2) <=
   u ^ 2 * spectral_sum n (fun k => Cmod (nth k (rfft n x) (RtoC 0)) ^ 2))%R.
(** The same for the inverse transform. *)
Definition irfft_near (n : nat) (u : R) (irf : list C -> list R) : Prop := forall Z,
  length (irf Z) = n /\
  (Rsum n (fun t => (nth t (irf Z) 0 - nth t (irfft n Z) 0) ^ 2) <= u ^ 2 * Rsum n (fun t => nth t (irfft n Z) 0 ^ 2))%R.
(** Products with a relative error v. *)
Definition mulc_near (v : R) (mulc : C -> C -> C) : Prop := forall a b,
  (Cmod (Cminus (mulc a b) (Cmult (Cconj a) b)) <= v * (Cmod a * Cmod b))%R.
Definition sq_near (v : R) (sq : C -> R) : Prop := forall z, (Rabs (sq z - (fst z ^ 2 + snd z ^ 2)) <= v * (fst z ^ 2 + snd z ^ 2))%R.

(** The resulting error of a correlation of signals of norm one. *)
Definition corr_error (n : nat) (u v : R) : R :=
  (2 * u + u ^ 2 + v * (1 + u) ^ 2 + sqrt (INR n) * u * ((1 + v) * (1 + u) ^ 2))%R.
