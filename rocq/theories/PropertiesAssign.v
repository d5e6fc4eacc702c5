(** * Properties of the assignment step (C01-C07, C10, C11, C45) *)
From Coq Require Import Reals Lra.
From Flocq Require Import Core.Core IEEE754.BinarySingleNaN.
From Verif Require Import Prelude ExtReal Spec Hungarian HungarianTop HungarianFloat HungarianZ
  Helpers HelpersProofs PermProofs Batch BatchProofs Examples.
Local Open Scope nat_scope.

(** C01: total and optimal for every shape and every finite cost matrix. *)
Theorem C01_hungarian_optimal n m (c : nat -> nat -> R) fuel :
  run_fuel (Nat.min n m) <= fuel ->
  exists l, linear_sum_assignment R_ops fuel n m c = Ok l /\
    optimal_assignment n m c l /\ rows_increasing l.
Proof. exact (lsa_optimal n m c fuel). Qed.
Print Assumptions C01_hungarian_optimal.

Example C01_example : exists l,
  linear_sum_assignment R_ops (run_fuel 3) 3 3 (fun i j => IZR (zmat ex_cost i j)) = Ok l /\
  l = [(0, 1); (1, 0); (2, 2)].
Proof. eexists. rewrite lsa_Z. split; vm_compute; reflexivity. Qed.
Example C01_example_wide : exists l,
  linear_sum_assignment R_ops (run_fuel 2) 2 4 (fun i j => IZR (zmat ex_wide i j)) = Ok l /\
  l = [(0, 0); (1, 1)].
Proof. eexists. rewrite lsa_Z. split; vm_compute; reflexivity. Qed.

(** C02, idealised rounding: any radix, any format, any monotone rounding. *)
Theorem C02_hungarian_rounded (beta : radix) (fexp : Z -> Z) (Hf : Valid_exp fexp)
    (rnd : R -> Z) (Hr : Valid_rnd rnd) n m (c : nat -> nat -> R) fuel :
  (forall i j, i < n -> j < m -> generic_format beta fexp (c i j)) ->
  run_fuel (Nat.min n m) <= fuel ->
  exists l, linear_sum_assignment (round_ops beta fexp rnd) fuel n m c = Ok l /\
    complete_assignment n m l /\ rows_increasing l.
Proof. exact (lsa_rounded beta fexp rnd n m c fuel). Qed.
Print Assumptions C02_hungarian_rounded.

(** C02, IEEE-754 binary formats including overflow to infinity: finite costs of
    magnitude at most 2^e0, far enough from the overflow threshold. *)
Theorem C02_hungarian_ieee (prec emax : Z) (Hp : Prec_gt_0 prec) (He : Prec_lt_emax prec emax)
    md n m (c : nat -> nat -> binary_float prec emax) e0 fuel :
  (SpecFloat.emin prec emax <= e0)%Z ->
  (e0 + 1 + 2 * Z.of_nat (Nat.min n m * Nat.min n m) < emax)%Z ->
  (forall i j, i < n -> j < m ->
     is_finite (c i j) = true /\ (Rabs (B2R (c i j)) <= bpow radix2 e0)%R) ->
  run_fuel (Nat.min n m) <= fuel ->
  exists l, linear_sum_assignment (ieee_ops prec emax Hp He md) fuel n m c = Ok l /\
    complete_assignment n m l /\ rows_increasing l.
Proof. exact (lsa_ieee prec emax Hp He md n m c e0 fuel). Qed.
Print Assumptions C02_hungarian_ieee.

(** binary64, 20 x 20 matrices of ones. *)
Example C02_example :
  let one := @Bone 53 1024 eq_refl eq_refl in
  is_finite one = true /\ (Rabs (B2R one) <= bpow radix2 0)%R /\
  (0 + 1 + 2 * Z.of_nat (Nat.min 20 20 * Nat.min 20 20) < 1024)%Z.
Proof.
  cbv zeta. split; [apply is_finite_Bone|]. split; [|reflexivity].
  rewrite Bone_correct. simpl. rewrite Rabs_R1. lra.
Qed.

(** C03: a NaN anywhere raises ValueError, whatever else the matrix contains. *)
Theorem C03_nan_rejected b sp n m C i j :
  i < n -> j < m -> C i j = NaN -> lsa_with_inf b sp n m C = Raise ValueError.
Proof. exact (lsa_inf_nan sp b n m C i j). Qed.
Print Assumptions C03_nan_rejected.
Theorem C03_nan_rejected_perm b sp n_ref n_est loss args i j :
  i < n_ref -> j < n_est -> loss i j = NaN ->
  solve_permutation b sp n_ref n_est loss args = Raise ValueError.
Proof. exact (solve_perm_nan sp b n_ref n_est loss args i j). Qed.
Print Assumptions C03_nan_rejected_perm.

(** C04 *)
Theorem C04_posinf_avoided b sp n_ref n_est loss args i0 j0 r0 :
  lsa_contract sp ->
  (forall i j, i < n_ref -> j < n_est -> is_nan (loss i j) = false /\ loss i j <> NInf) ->
  i0 < n_ref -> j0 < n_est -> loss i0 j0 = Fin r0 ->
  exists out outs perm, solve_permutation b sp n_ref n_est loss args = Ok (out, outs, perm) /\
    complete_assignment n_ref n_est (matching n_ref n_est perm) /\
    forall l', complete_assignment n_ref n_est l' ->
      n_posinf loss (matching n_ref n_est perm) < n_posinf loss l' \/
      (n_posinf loss (matching n_ref n_est perm) = n_posinf loss l' /\
       (finite_sum loss (matching n_ref n_est perm) <= finite_sum loss l')%R).
Proof. exact (fun H => solve_perm_posinf sp H b n_ref n_est loss args i0 j0 r0). Qed.
Print Assumptions C04_posinf_avoided.
Example C04_example :
  (forall i j, i < 2 -> j < 3 -> is_nan (xmat ex_posinf i j) = false /\ xmat ex_posinf i j <> NInf) /\
  xmat ex_posinf 0 1 = Fin 3 /\ xmat ex_posinf 1 1 = PInf.
Proof.
  split; [|split; reflexivity].
  intros [|[|i]] [|[|[|j]]] Hi Hj; try lia; (split; [reflexivity|unfold xmat; cbn; congruence]).
Qed.

(** C05 *)
Theorem C05_neginf_used b sp n_ref n_est loss args i0 j0 r0 :
  lsa_contract sp ->
  (forall i j, i < n_ref -> j < n_est -> is_nan (loss i j) = false /\ loss i j <> PInf) ->
  i0 < n_ref -> j0 < n_est -> loss i0 j0 = Fin r0 ->
  exists out outs perm, solve_permutation b sp n_ref n_est loss args = Ok (out, outs, perm) /\
    complete_assignment n_ref n_est (matching n_ref n_est perm) /\
    forall l', complete_assignment n_ref n_est l' ->
      n_neginf loss (matching n_ref n_est perm) > n_neginf loss l' \/
      (n_neginf loss (matching n_ref n_est perm) = n_neginf loss l' /\
       (finite_sum loss (matching n_ref n_est perm) <= finite_sum loss l')%R).
Proof. exact (fun H => solve_perm_neginf sp H b n_ref n_est loss args i0 j0 r0). Qed.
Print Assumptions C05_neginf_used.
Example C05_example :
  (forall i j, i < 3 -> j < 2 -> is_nan (xmat ex_neginf i j) = false /\ xmat ex_neginf i j <> PInf) /\
  xmat ex_neginf 0 1 = Fin 3 /\ xmat ex_neginf 1 1 = NInf.
Proof.
  split; [|split; reflexivity].
  intros [|[|[|i]]] [|[|j]] Hi Hj; try lia; (split; [reflexivity|unfold xmat; cbn; congruence]).
Qed.

(** C06 (matrix level): which matrices raise.  [handled] is the exact domain: no NaN
    and either all finite, or some finite entry and infinities of one sign only. *)
Theorem C06_both_infinities b sp n_ref n_est loss args i j i' j' :
  i < n_ref -> j < n_est -> i' < n_ref -> j' < n_est -> loss i j = PInf -> loss i' j' = NInf ->
  solve_permutation b sp n_ref n_est loss args = Raise ValueError.
Proof. exact (solve_perm_both sp b n_ref n_est loss args i j i' j'). Qed.
Print Assumptions C06_both_infinities.
Theorem C06_all_infinite b sp n_ref n_est loss args :
  0 < n_ref -> 0 < n_est ->
  (forall i j, i < n_ref -> j < n_est -> is_inf (loss i j) = true) ->
  raises (solve_permutation b sp n_ref n_est loss args).
Proof. exact (solve_perm_allinf sp b n_ref n_est loss args). Qed.
Print Assumptions C06_all_infinite.
Theorem C06_domain b sp n_ref n_est loss args : lsa_contract sp ->
  is_ok (solve_permutation b sp n_ref n_est loss args) <->
  ((forall i j, i < n_ref -> j < n_est -> loss i j <> NaN) /\
   ((forall i j, i < n_ref -> j < n_est -> is_fin (loss i j) = true) \/
    ((exists i j r, i < n_ref /\ j < n_est /\ loss i j = Fin r) /\
     ((forall i j, i < n_ref -> j < n_est -> loss i j <> PInf) \/
      (forall i j, i < n_ref -> j < n_est -> loss i j <> NInf))))).
Proof. exact (fun H => solve_perm_total_iff sp H b n_ref n_est loss args). Qed.
Print Assumptions C06_domain.

(** The contract assumed for scipy's solver is satisfiable. *)
Example contract_inhabited : lsa_contract reference_lsa.
Proof. exact reference_lsa_contract. Qed.

(** C07 / C10 (matrix level): outputs are read at the pairs given by perm; [pair_at]
    says that perm maps references to estimates when there are at most as many
    references as estimates. *)
Theorem C07_outputs b sp n_ref n_est loss args out outs perm : lsa_contract sp ->
  solve_permutation b sp n_ref n_est loss args = Ok (out, outs, perm) ->
  complete_assignment n_ref n_est (matching n_ref n_est perm) /\
  length perm = Nat.min n_ref n_est /\ NoDup perm /\
  (forall p, In p perm -> p < Nat.max n_ref n_est) /\
  out = map (at_pair loss) (matching n_ref n_est perm) /\
  outs = map (fun M => map (at_pair M) (matching n_ref n_est perm)) args.
Proof. exact (fun H => solve_perm_outputs sp H b n_ref n_est loss args out outs perm). Qed.
Print Assumptions C07_outputs.

(** C08 / C09 (matrix level): for finite losses the assignment is optimal. *)
Theorem C08_optimal_loss b sp n_ref n_est loss args : lsa_contract sp ->
  (forall i j, i < n_ref -> j < n_est -> is_fin (loss i j) = true) ->
  exists out outs perm, solve_permutation b sp n_ref n_est loss args = Ok (out, outs, perm) /\
    optimal_assignment n_ref n_est (fun i j => to_R (loss i j)) (matching n_ref n_est perm).
Proof. exact (fun H => solve_perm_optimal sp H b n_ref n_est loss args). Qed.
Print Assumptions C08_optimal_loss.

(** C11 and C45: any batch shape, arrays in memory.  [single m] is the result for
    batch item m alone; every buffer that existed before the call is unchanged. *)
Theorem C11_batch_independent b sp n_ref n_est loss args h0 b_shape :
  loss < next h0 -> (forall a, In a args -> a < next h0) ->
  let single := fun m => solve_permutation b sp n_ref n_est
      (fun i j => buf h0 loss (m ++ [i; j]))
      (map (fun a i j => buf h0 a (m ++ [i; j])) args) in
  let r := solve_permutation_batch b sp b_shape n_ref n_est loss args h0 in
  (forall o, fst r = Ok o -> forall m, Forall2 lt m b_shape ->
     single m = Ok (o_loss o m, map (fun f => f m) (o_args o), o_perm o m)) /\
  (forall e, fst r = Raise e -> exists m, Forall2 lt m b_shape /\ single m = Raise e) /\
  ((exists m e, Forall2 lt m b_shape /\ single m = Raise e) -> exists e, fst r = Raise e).
Proof. exact (fun Hl Ha => proj2 (batch_independent b sp n_ref n_est loss args h0 Hl Ha b_shape)). Qed.
Print Assumptions C11_batch_independent.

Theorem C45_inputs_unmodified b sp n_ref n_est loss args h0 b_shape :
  loss < next h0 -> (forall a, In a args -> a < next h0) ->
  let r := solve_permutation_batch b sp b_shape n_ref n_est loss args h0 in
  forall a, a < next h0 -> buf (snd r) a = buf h0 a.
Proof. exact (fun Hl Ha => proj2 (proj1 (batch_independent b sp n_ref n_est loss args h0 Hl Ha b_shape))). Qed.
Print Assumptions C45_inputs_unmodified.

(** A heap with a 2 x 1 x 2 x 2 loss array (infinite entry in the second item) and one argument. *)
Definition ex_heap : heap := mkHeap 2 (fun a k =>
  match k with
  | [b; 0; i; j] => if Nat.eqb a 0 then (if Nat.eqb b 1 && Nat.eqb i j then PInf else Fin (INR (i + 2 * j))) else Fin (INR i)
  | _ => NaN end).
Example C11_example :
  0 < next ex_heap /\ (forall a, In a [1] -> a < next ex_heap) /\
  exists o, fst (solve_permutation_batch NumPy reference_lsa [2; 1] 2 2 0 [1] ex_heap) = Ok o.
Proof.
  split; [simpl; lia|]. split; [intros a [<-|[]]; simpl; lia|].
  destruct (fst (solve_permutation_batch NumPy reference_lsa [2; 1] 2 2 0 [1] ex_heap)) as [o|e] eqn:E; [eauto|].
  exfalso.
  assert (Ha : forall a, In a [1] -> a < next ex_heap) by (intros a [<-|[]]; simpl; lia).
  destruct (batch_independent NumPy reference_lsa 2 2 0 [1] ex_heap ltac:(simpl; lia) Ha [2; 1]) as (_ & _ & H & _).
  destruct (H e E) as (m & Hm & Hs).
  inversion Hm as [|b x m' y Hb Hm']; subst. inversion Hm' as [|z w m'' v Hz Hm'']; subst. inversion Hm''; subst.
  assert (z = 0) by lia. subst z.
  assert (Hok : is_ok (single NumPy reference_lsa 2 2 0 [1] ex_heap [b; 0])).
  { apply solve_perm_total_iff; [apply reference_lsa_contract|]. split.
    - intros i j Hi Hj. unfold item_of. cbn. destruct (b =? 1), (i =? j); simpl; congruence.
    - right. split.
      + exists 0, 1. eexists. split; [lia|]. split; [lia|]. unfold item_of. cbn.
        rewrite andb_false_r. reflexivity.
      + right. intros i j Hi Hj. unfold item_of. cbn. destruct (b =? 1), (i =? j); simpl; congruence. }
  destruct Hok as (a & Ea). unfold single in Ea, Hs. simpl app in *. congruence.
Qed.
