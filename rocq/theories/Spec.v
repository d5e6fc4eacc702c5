(** * Independent specification vocabulary

    Nothing here depends on the model of the code. *)
From Coq Require Import List Arith Reals Sorted.
Import ListNotations.

(** ** Assignments between rows 0..n-1 and columns 0..m-1 *)

(** [l] is a complete one-to-one assignment: min(n,m) pairs (row, column), no row
    and no column used twice. *)
Definition complete_assignment (n m : nat) (l : list (nat * nat)) : Prop :=
  length l = Nat.min n m /\
  (forall i j, In (i, j) l -> i < n /\ j < m) /\
  NoDup (map fst l) /\ NoDup (map snd l).

(** Rows listed in strictly increasing order. *)
Definition rows_increasing (l : list (nat * nat)) : Prop := StronglySorted lt (map fst l).

Fixpoint sumR (l : list R) : R :=
  match l with [] => 0%R | x :: r => (x + sumR r)%R end.

(** Total cost of an assignment. *)
Definition total_cost (c : nat -> nat -> R) (l : list (nat * nat)) : R :=
  sumR (map (fun p => c (fst p) (snd p)) l).

(** [l] is a complete assignment of least total cost. *)
Definition optimal_assignment (n m : nat) (c : nat -> nat -> R) (l : list (nat * nat)) : Prop :=
  complete_assignment n m l /\
  forall l', complete_assignment n m l' -> (total_cost c l <= total_cost c l')%R.

(** ** Assignments for cost matrices with infinite entries *)
From Verif Require Import ExtReal.

(** Number of +inf / -inf entries used by an assignment, and the sum of the finite ones. *)
Definition n_posinf (C : nat -> nat -> xr) (l : list (nat * nat)) : nat :=
  length (filter (fun p => is_posinf (C (fst p) (snd p))) l).
Definition n_neginf (C : nat -> nat -> xr) (l : list (nat * nat)) : nat :=
  length (filter (fun p => is_neginf (C (fst p) (snd p))) l).
Definition finite_sum (C : nat -> nat -> xr) (l : list (nat * nat)) : R :=
  total_cost (fun i j => to_R (C i j)) l.

(** Contract of scipy.optimize.linear_sum_assignment on finite matrices: an optimal
    assignment, row indices in increasing order. *)
Definition lsa_contract (sp : nat -> nat -> (nat -> nat -> R) -> list (nat * nat)) : Prop :=
  forall n m c, optimal_assignment n m c (sp n m c) /\ rows_increasing (sp n m c).

(** The pair (reference, estimate) reported at position [i] when the permutation
    returned is [perm]: reference i with estimate perm[i] if there are at most as
    many references as estimates, else reference perm[i] with estimate i. *)
Definition pair_at (n_ref n_est : nat) (perm : list nat) (i : nat) : nat * nat :=
  if n_ref <=? n_est then (i, nth i perm 0) else (nth i perm 0, i).
(** All pairs reported. *)
Definition matching (n_ref n_est : nat) (perm : list nat) : list (nat * nat) :=
  map (pair_at n_ref n_est perm) (seq 0 (Nat.min n_ref n_est)).
Definition at_pair (M : nat -> nat -> xr) (p : nat * nat) : xr := M (fst p) (snd p).
