(** * Properties: the size of the FFT when math.log2 is rounded (C97) *)
From Coq Require Import Reals Lra ZArith.
From Verif Require Import Prelude Metrics SiRoundFlt FftSize FftSizeProofs.
From Flocq Require Import Core.
Local Open Scope R_scope.

(** C97: the logarithm may be off by 2^-46 (64 times the unit in the last place of numbers in [1, 2), 2 of those in [32, 64)),
    if it is exact at powers of two: up to 2^45 samples n_fft is the one of an exact logarithm. *)
Theorem C97_size f lx ly :
  (forall k : nat, (k <= 45)%nat -> f (2 ^ Z.of_nat k)%Z = INR k) ->
  (forall m, (1 <= m <= 2 ^ 45)%Z -> Rabs (f m - ln (IZR m) / ln 2) <= / 2 ^ 46) ->
  (1 <= lx)%nat -> (Z.of_nat (lx + Nat.max lx ly - 1) <= 2 ^ 45)%Z ->
  fft_size_with f (Z.of_nat (lx + Nat.max lx ly - 1)) = Z.of_nat (n_fft lx ly).
Proof. exact (fun H1 H2 => fft_size_eq f H1 H2 lx ly). Qed.
Print Assumptions C97_size.
(** C97: in particular for a correctly rounded binary64 logarithm. *)
Theorem C97_rounded choice lx ly : (1 <= lx)%nat -> (Z.of_nat (lx + Nat.max lx ly - 1) <= 2 ^ 45)%Z ->
  fft_size_with (fun m => round radix2 (FLT_exp (-1074) 53) (Znearest choice) (ln (IZR m) / ln 2))
    (Z.of_nat (lx + Nat.max lx ly - 1)) = Z.of_nat (n_fft lx ly).
Proof. exact (fft_size_rounded choice lx ly). Qed.
Print Assumptions C97_rounded.
(** Signals of 1000 and 1500 samples: the FFT has 4096 points. *)
Example C97_ex choice :
  fft_size_with (fun m => round radix2 (FLT_exp (-1074) 53) (Znearest choice) (ln (IZR m) / ln 2)) 2499 = 4096%Z.
Proof. exact (C97_rounded choice 1000 1500 ltac:(lia) ltac:(lia)). Qed.
(** C97: not for all lengths: with 2^49 + 1 (two signals of 2^48 + 1 samples) even the correctly rounded logarithm gives
    an FFT of 2^49 points, one too few. *)
Theorem C97_all_lengths_refuted choice :
  fft_size_with (fun m => round radix2 (FLT_exp (-1074) 53) (Znearest choice) (ln (IZR m) / ln 2)) (2 ^ 49 + 1) = (2 ^ 49)%Z.
Proof. exact (fft_size_too_small choice). Qed.
Print Assumptions C97_all_lengths_refuted.
