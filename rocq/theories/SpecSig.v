(** * Independent specification vocabulary for signals

    Nothing here depends on the model of the code.  A signal is a list of reals,
    understood as zero outside of its support. *)
From Coq Require Import Reals List Arith.
From Verif Require Import ExtReal Sums.
Import ListNotations.
Local Open Scope nat_scope.

Definition smp (x : list R) (t : nat) : R := nth t x 0%R.

(** Linear cross-correlation of x and y at lag l >= 0: sum_t x[t] y[t+l]. *)
Definition xcorr (x y : list R) (l : nat) : R :=
  Rsum (length x) (fun t => smp x t * smp y (t + l))%R.

(** x delayed by i samples. *)
Definition delayed (x : list R) (i t : nat) : R := if t <? i then 0%R else smp x (t - i).

(** Inner product and energy on time indices 0 .. M-1. *)
Definition dot (M : nat) (u v : nat -> R) : R := Rsum M (fun t => u t * v t)%R.
Definition energy (M : nat) (u : nat -> R) : R := dot M u u.

(** p is in the span of the K vectors a 0, ..., a (K-1). *)
Definition in_span (K M : nat) (a : nat -> nat -> R) (p : nat -> R) : Prop :=
  exists g : nat -> R, forall t, t < M -> p t = Rsum K (fun k => g k * a k t)%R.
(** p is the orthogonal projection of y on that span. *)
Definition is_projection (K M : nat) (a : nat -> nat -> R) (y p : nat -> R) : Prop :=
  in_span K M a p /\ forall k, k < K -> dot M (a k) (fun t => y t - p t)%R = 0%R.

(** The L delayed copies of one signal. *)
Definition delays (x : list R) (k : nat) : nat -> R := delayed x k.
(** The L delayed copies of each of several signals, in any fixed order: vector number
    l * K + c is signal c delayed by l. *)
Definition all_delays (K : nat) (xs : nat -> list R) (k : nat) : nat -> R :=
  delayed (xs (k mod K)) (k / K).

(** 10 log10(num / den) for num, den >= 0 with the usual conventions (+inf when
    the denominator vanishes, else -inf when the numerator vanishes). *)
Definition dB (num den : R) : xr :=
  if Req_EM_T den 0 then PInf
  else if Req_EM_T num 0 then NInf
  else Fin (10 * log10 (num / den)).

(** Euclidean norm. *)
Definition norm2 (x : list R) : R := sqrt (Rsum (length x) (fun t => smp x t ^ 2))%R.
(** Mean and centering. *)
Definition mean (x : list R) : R := (Rsum (length x) (smp x) / INR (length x))%R.
Definition centered (x : list R) : list R := map (fun v => v - mean x)%R x.
Definition pre (zero_mean : bool) (x : list R) : list R := if zero_mean then centered x else x.
Definition silent (x : list R) : Prop := forall t, smp x t = 0%R.
