(** * The scale-invariant coherence computed with rounding and overflow

    The programs of SiRound.v (filter_length = 1, numpy/metrics.py:53-63, torch/metrics.py:48-58, and _normalize,
    numpy/helpers.py:42-46, torch/helpers.py:34-38) in a format with a largest number: a result that rounds to
    [omega] or beyond is infinite.  Infinities and NaN follow ExtReal.v.  Simplifications: the norm is the square
    root of the sum of squares (numpy.linalg.norm; torch on the CPU), in any order. *)
From Coq Require Import Reals.
From Verif Require Import Prelude ExtReal Sums Helpers SiRound.
Local Open Scope R_scope.

Section Overflow.
  Variables (fl : R -> R) (omega : R).

  (** Rounding of the result of one operation of numpy/metrics.py:53-63, numpy/helpers.py:45. *)
  Definition ovf (x : xr) : xr :=
    match x with
    | Fin r => if Rle_dec omega (fl r) then PInf else if Rle_dec (fl r) (- omega) then NInf else Fin (fl r)
    | _ => x
    end.
  (** The additions inside norm and einsum, numpy/helpers.py:45, numpy/metrics.py:62, torch/helpers.py:37, torch/metrics.py:57. *)
  Fixpoint osum (f : nat -> xr) (t : stree) : xr :=
    match t with SLeaf i => f i | SNode l r => ovf (xadd (osum f l) (osum f r)) end.
  (** einsum("...n,...n->...", x, y), numpy/metrics.py:62, torch/metrics.py:57. *)
  Definition odot (fma : nat -> bool) (t : stree) (x y : nat -> xr) : xr :=
    osum (fun i => if fma i then xmul (x i) (y i) else ovf (xmul (x i) (y i))) t.
  (** clamp(norm(x), min=1e-6), numpy/helpers.py:45, torch/helpers.py:37. *)
  Definition oden (fma : nat -> bool) (t : stree) (x : nat -> xr) : xr :=
    xmax (ovf (xsqrt (odot fma t x x))) (ovf (Fin norm_eps)).
  (** _normalize, numpy/helpers.py:42-46, torch/helpers.py:34-38. *)
  Definition onormalize (fma : nat -> bool) (t : stree) (x : nat -> xr) (i : nat) : xr :=
    ovf (xdiv (x i) (oden fma t x)).
  (** square(einsum("...n,...n->...", ref, est)) after normalisation, numpy/metrics.py:53-63, torch/metrics.py:48-58. *)
  Definition ocoh (fx fy fxy : nat -> bool) (tx ty txy : stree) (x y : nat -> xr) : xr :=
    let s := odot fxy txy (onormalize fx tx x) (onormalize fy ty y) in
    ovf (xmul s s).
End Overflow.
