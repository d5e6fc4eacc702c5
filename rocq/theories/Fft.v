(** * Exact discrete Fourier transforms

    Model of the external functions scipy.fft.rfft / irfft and torch's rfft / irfft
    (through torch/compatibility.py:30-161) for real data along one axis: exact
    transforms, without rounding. *)
From Coq Require Import Reals.
From Coquelicot Require Import Complex.
From Verif Require Import Prelude Sums.
Local Open Scope nat_scope.

Definition cis (t : R) : C := (cos t, sin t).

(** The angle 2 pi k / n. *)
Definition ang (n k : nat) : R := (2 * PI * INR k / INR n)%R.

(** rfft(x, n=n): the input is zero padded (or truncated) to n samples; the
    frequencies 0 .. n/2 are returned. *)
Definition rfft (n : nat) (x : list R) : list C :=
  tab (n / 2 + 1) (fun k =>
    Csum n (fun t => Cmult (RtoC (nth t x 0%R)) (cis (- ang n (k * t))))).

(** irfft(Z, n=n): inverse transform of a Hermitian spectrum given by its first n/2+1
    values (missing values are zero); the imaginary parts of frequencies 0 and
    n/2 (n even) are ignored. *)
Definition irfft (n : nat) (Z : list C) : list R :=
  tab n (fun t =>
    / INR n * (Re (nth 0 Z (RtoC 0)) +
      Rsum (n / 2) (fun k' =>
        let k := S k' in
        let z := nth k Z (RtoC 0) in
        if Nat.eqb (2 * k) n then Re z * cos (PI * INR t)
        else 2 * Re (Cmult z (cis (ang n (k * t)))))))%R.
