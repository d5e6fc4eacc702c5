(** * The assignment computed in floating point is nearly optimal (C61) *)
From Coq Require Import Reals Lra.
From Verif Require Import Prelude Spec Hungarian HungarianTop HungarianFloat HungarianIeee.
From Flocq Require Import Core BinarySingleNaN.
Local Open Scope nat_scope.

(** C61: any binary format, rounding to nearest even, overflow to infinity included; the
    costs are finite, of magnitude at most 2^e0, and differ by at most D. *)
Theorem C61_near_optimal (prec emax : Z) (Hp : Prec_gt_0 prec) (He : Prec_lt_emax prec emax)
    n m (c : nat -> nat -> binary_float prec emax) e0 D fuel :
  let N := Nat.min n m in
  (SpecFloat.emin prec emax <= e0)%Z -> (e0 + 4 < emax)%Z ->
  (INR (4 * (N * N) + 2) * bpow radix2 (- prec) <= 1 / 2)%R ->
  (forall i j, i < n -> j < m -> is_finite (c i j) = true /\ (Rabs (B2R (c i j)) <= bpow radix2 e0)%R) ->
  (0 <= D)%R ->
  (forall i j i' j', i < n -> j < m -> i' < n -> j' < m -> (B2R (c i j) - B2R (c i' j') <= D)%R) ->
  run_fuel N <= fuel ->
  exists l, linear_sum_assignment (ieee_ops prec emax Hp He mode_NE) fuel n m c = Ok l /\
    complete_assignment n m l /\ rows_increasing l /\
    forall l', complete_assignment n m l' ->
      (total_cost (fun i j => B2R (c i j)) l <=
       total_cost (fun i j => B2R (c i j)) l' + 4 * INR N * INR (4 * (N * N) + 1) * bpow radix2 (- prec) * D)%R.
Proof. exact (lsa_ieee_near prec emax Hp He n m c e0 D fuel). Qed.
Print Assumptions C61_near_optimal.

Theorem C61_binary32 n m (c : nat -> nat -> binary_float 24 128) D fuel :
  let N := Nat.min n m in N <= 1000 ->
  (forall i j, i < n -> j < m -> is_finite (c i j) = true /\ (Rabs (B2R (c i j)) <= bpow radix2 120)%R) ->
  (0 <= D)%R ->
  (forall i j i' j', i < n -> j < m -> i' < n -> j' < m -> (B2R (c i j) - B2R (c i' j') <= D)%R) ->
  run_fuel N <= fuel ->
  exists l, linear_sum_assignment (ieee_ops 24 128 p32 m32 mode_NE) fuel n m c = Ok l /\
    complete_assignment n m l /\ rows_increasing l /\
    forall l', complete_assignment n m l' ->
      (total_cost (fun i j => B2R (c i j)) l <=
       total_cost (fun i j => B2R (c i j)) l' + 4 * INR N * INR (4 * (N * N) + 1) * bpow radix2 (-24) * D)%R.
Proof. exact (lsa_binary32 n m c D fuel). Qed.
Print Assumptions C61_binary32.

Theorem C61_binary64 n m (c : nat -> nat -> binary_float 53 1024) D fuel :
  let N := Nat.min n m in N <= 1000 ->
  (forall i j, i < n -> j < m -> is_finite (c i j) = true /\ (Rabs (B2R (c i j)) <= bpow radix2 1000)%R) ->
  (0 <= D)%R ->
  (forall i j i' j', i < n -> j < m -> i' < n -> j' < m -> (B2R (c i j) - B2R (c i' j') <= D)%R) ->
  run_fuel N <= fuel ->
  exists l, linear_sum_assignment (ieee_ops 53 1024 p64 m64 mode_NE) fuel n m c = Ok l /\
    complete_assignment n m l /\ rows_increasing l /\
    forall l', complete_assignment n m l' ->
      (total_cost (fun i j => B2R (c i j)) l <=
       total_cost (fun i j => B2R (c i j)) l' + 4 * INR N * INR (4 * (N * N) + 1) * bpow radix2 (-53) * D)%R.
Proof. exact (lsa_binary64 n m c D fuel). Qed.
Print Assumptions C61_binary64.

(** Costs that are small integers: exactly optimal. *)
Theorem C61_integers (prec emax : Z) (Hp : Prec_gt_0 prec) (He : Prec_lt_emax prec emax)
    n m (c : nat -> nat -> binary_float prec emax) (z : nat -> nat -> Z) (q : Z) fuel :
  let N := Nat.min n m in
  (0 <= q)%Z -> (q + 4 < emax)%Z ->
  (INR (4 * (N * N) + 2) * bpow radix2 (- prec) <= 1 / 2)%R ->
  (forall i j, i < n -> j < m -> is_finite (c i j) = true /\ B2R (c i j) = IZR (z i j) /\
     (Z.abs (z i j) <= 2 ^ q)%Z) ->
  (4 * INR N * INR (4 * (N * N) + 1) * bpow radix2 (- prec) * bpow radix2 (q + 1) < 1)%R ->
  run_fuel N <= fuel ->
  exists l, linear_sum_assignment (ieee_ops prec emax Hp He mode_NE) fuel n m c = Ok l /\
    optimal_assignment n m (fun i j => B2R (c i j)) l /\ rows_increasing l.
Proof. exact (lsa_ieee_integers prec emax Hp He n m c z q fuel). Qed.
Print Assumptions C61_integers.

(** In general rounding can lose exact optimality. *)
Theorem C61_exactly_optimal_refuted : exists (c : nat -> nat -> binary_float 53 1024) l l',
  (forall i j, is_finite (c i j) = true /\ (Rabs (B2R (c i j)) <= 1)%R) /\
  linear_sum_assignment (ieee_ops 53 1024 p64 m64 mode_NE) (run_fuel 2) 2 2 c = Ok l /\
  complete_assignment 2 2 l' /\
  (total_cost (fun i j => B2R (c i j)) l' < total_cost (fun i j => B2R (c i j)) l)%R.
Proof. exact lsa_ieee_not_optimal. Qed.
Print Assumptions C61_exactly_optimal_refuted.

(** The matrix [[1, 2^-60], [1, 0]] meets the hypotheses with D = 1. *)
Example C61_ex : exists l,
  linear_sum_assignment (ieee_ops 53 1024 p64 m64 mode_NE) (run_fuel 2) 2 2 ex_abs = Ok l /\
  l = [(0, 1); (1, 0)] /\
  (total_cost (fun i j => B2R (ex_abs i j)) l <=
   total_cost (fun i j => B2R (ex_abs i j)) [(0, 0); (1, 1)]%nat + 136 * bpow radix2 (-53))%R.
Proof.
  destruct ex_abs_values as (V0 & V1 & V2 & V3).
  assert (H60 : (0 < bpow radix2 (-60) <= 1)%R).
  { split; [apply bpow_gt_0|]. change 1%R with (bpow radix2 0). apply bpow_le. lia. }
  assert (Hv : forall i j, i < 2 -> j < 2 -> (0 <= B2R (ex_abs i j) <= 1)%R).
  { intros [|[|i]] [|[|j]] Hi Hj; try lia; rewrite ?V0, ?V1, ?V2, ?V3; lra. }
  destruct (C61_binary64 2 2 ex_abs 1 (run_fuel 2)) as (l & E & _ & _ & H).
  - cbn. lia.
  - intros i j Hi Hj. split; [destruct i as [|[|]], j as [|[|]]; reflexivity|].
    rewrite Rabs_pos_eq by (apply Hv; auto).
    apply Rle_trans with 1%R; [apply Hv; auto|]. change 1%R with (bpow radix2 0). apply bpow_le. lia.
  - lra.
  - intros i j i' j' Hi Hj Hi' Hj'. pose proof (Hv i j Hi Hj). pose proof (Hv i' j' Hi' Hj'). lra.
  - apply le_n.
  - exists l. split; [exact E|]. split.
    + rewrite ex_abs_run in E. congruence.
    + replace (136 * bpow radix2 (-53))%R
        with (4 * INR (Nat.min 2 2) * INR (4 * (Nat.min 2 2 * Nat.min 2 2) + 1) * bpow radix2 (-53) * 1)%R
        by (simpl INR; ring).
      apply H. split; [reflexivity|]. split; [|split].
      * intros i j [P|[P|[]]]; inversion P; lia.
      * repeat constructor; simpl; intuition lia.
      * repeat constructor; simpl; intuition lia.
Qed.
