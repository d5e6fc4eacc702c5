(** * The scale-invariant coherence computed with rounding

    Model of the filter_length = 1 path, numpy/metrics.py:49-63, torch/metrics.py:44-58
    (without mean removal) and of _normalize, numpy/helpers.py:42-46, torch/helpers.py:34-38,
    for one pair of channels, where every operation is followed by a rounding [fl].
    Simplifications: there is no overflow (exponents are unbounded above); the order of
    the additions in a sum is arbitrary (any binary tree), and each product of a sum of
    products may or may not be rounded separately (fused multiply-add). *)
From Coq Require Import Reals Permutation.
From Verif Require Import Prelude Sums Helpers.
Local Open Scope R_scope.

(** The order of the additions in a sum. *)
Inductive stree := SLeaf (i : nat) | SNode (l r : stree).
Fixpoint leaves (t : stree) : list nat :=
  match t with SLeaf i => [i] | SNode l r => leaves l ++ leaves r end.
Fixpoint depth (t : stree) : nat :=
  match t with SLeaf _ => 0%nat | SNode l r => S (Nat.max (depth l) (depth r)) end.
(** A sum of n terms, at most h additions deep. *)
Definition sums (n h : nat) (t : stree) : Prop :=
  Permutation (leaves t) (seq 0 n) /\ (depth t <= h)%nat.

Section Rounded.
  Variable fl : R -> R.

  Fixpoint fsum (f : nat -> R) (t : stree) : R :=
    match t with SLeaf i => f i | SNode l r => fl (fsum f l + fsum f r) end.

  (** sum_i x_i y_i; [fma i]: the product is not rounded by itself. *)
  Definition fdot (fma : nat -> bool) (t : stree) (x y : nat -> R) : R :=
    fsum (fun i => if fma i then x i * y i else fl (x i * y i)) t.

  (** clamp(norm(x), min=1e-6), numpy/helpers.py:45, torch/helpers.py:37. *)
  Definition fden (fma : nat -> bool) (t : stree) (x : nat -> R) : R :=
    Rmax (fl (sqrt (fdot fma t x x))) (fl norm_eps).
  Definition fnormalize (fma : nat -> bool) (t : stree) (x : nat -> R) (i : nat) : R :=
    fl (x i / fden fma t x).

  (** np.square(einsum("...n,...n->...", ref, est)) *)
  Definition fcoh (fx fy fxy : nat -> bool) (tx ty txy : stree) (x y : nat -> R) : R :=
    let s := fdot fxy txy (fnormalize fx tx x) (fnormalize fy ty y) in
    fl (s * s).
End Rounded.
