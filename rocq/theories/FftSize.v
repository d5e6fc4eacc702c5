(** * The size of the FFT with a rounded logarithm *)
From Coq Require Import Reals ZArith.
From Flocq Require Import Core.
Local Open Scope R_scope.

(** n_fft = 2 ** math.ceil(math.log2(m)) with m = x.shape[-1] + max_len - 1 >= 1, numpy/metrics.py:116-117, 166-167,
    torch/metrics.py:111-112, 162-163.  math.log2 is the function [log2] from integers to numbers; math.ceil is exact.
    (Metrics.v takes an exact logarithm.) *)
Definition fft_size_with (log2 : Z -> R) (m : Z) : Z := (2 ^ Zceil (log2 m))%Z.
