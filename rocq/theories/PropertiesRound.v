(** * Properties of the torch < 1.8 wrappers (C58), of the scale-invariant coherence in
    floating point (C59) and of the slope of the loss (C60) *)
From Coq Require Import Reals Lra Permutation.
From Coquelicot Require Import Complex.
From Verif Require Import Prelude ExtReal Sums Fft SpecSig Linalg Cgd Helpers Metrics ProjTheorems SigExamples
  Compat CompatProofs DbProofs SiRound SiRoundFlt.
From Flocq Require Import Core.
Local Open Scope R_scope.

(** C58 *)
Theorem C58_rfft n x : old_rfft n x = new_rfft n x.
Proof. exact (old_rfft_eq n x). Qed.
Print Assumptions C58_rfft.
Theorem C58_irfft n Z : (n / 2 + 1 <= length Z)%nat ->
  old_irfft (Some n) Z = Ok (new_irfft (Some n) Z).
Proof. exact (old_irfft_eq n Z). Qed.
Print Assumptions C58_irfft.
(** With fewer frequencies than n/2 + 1 the wrapper pads the wrong axis and fails; with
    no n it only works on two frequencies. *)
Theorem C58_irfft_raises n Z :
  ((length Z < n / 2 + 1)%nat -> old_irfft (Some n) Z = Raise RuntimeError) /\
  (length Z <> 2%nat -> old_irfft None Z = Raise RuntimeError).
Proof. exact (conj (old_irfft_short n Z) (proj2 (old_irfft_none Z))). Qed.
Print Assumptions C58_irfft_raises.
Example C58_ex : old_irfft None [RtoC 1; RtoC 2; RtoC 3] = Raise RuntimeError.
Proof. exact (proj2 (C58_irfft_raises 0 [RtoC 1; RtoC 2; RtoC 3]) ltac:(discriminate)). Qed.
Theorem C58_wrapper_equivalence_refuted :
  exists n Z, old_irfft n Z <> Ok (new_irfft n Z).
Proof.
  exact (ex_intro _ None (ex_intro _ [RtoC 1; RtoC 2; RtoC 3]
    (eq_ind_r (fun r => r <> Ok _) (fun H => eq_ind (Raise RuntimeError)
       (fun r : res (list R) => match r with Raise _ => True | Ok _ => False end) I _ H) C58_ex))).
Qed.
Print Assumptions C58_wrapper_equivalence_refuted.
Theorem C58_einsum n a b : einsum_complex n a b = Csum n (fun i => Cmult (a i) (b i)).
Proof. exact (einsum_complex_eq n a b). Qed.
Print Assumptions C58_einsum.
(** No call made by the package is one of the failing ones. *)
Theorem C58_statistics nf L x y :
  old_stats_acf nf L x = Ok (stats_acf nf L x) /\
  old_stats_xcorr nf L x y = Ok (stats_xcorr nf L x y) /\
  old_stats2_acf nf L x y = Ok (stats2_acf nf L x y).
Proof. exact (conj (old_stats_acf_eq nf L x) (conj (old_stats_xcorr_eq nf L x y) (old_stats2_acf_eq nf L x y))). Qed.
Print Assumptions C58_statistics.
Theorem C58_iterative_solver :
  (forall col v, col <> [] -> old_toeplitz_op col v = Ok (toeplitz_op Torch col v)) /\
  (forall nf n nc Cf v r, old_block_apply nf n nc Cf v r = Ok (block_apply nf n nc Cf v r)) /\
  (forall col, match old_circulant_precond col, circulant_precond Torch col with
               | Ok f, Ok g => forall v, f v = Ok (g v)
               | Raise e, Raise e' => e = e'
               | _, _ => False
               end).
Proof. exact (conj old_toeplitz_op_eq (conj old_block_apply_eq old_circulant_precond_eq)). Qed.
Print Assumptions C58_iterative_solver.

(** C59: binary64, and binary32; the sums of n terms are evaluated in any order, at most
    h additions deep, with or without fused multiply-add. *)
Theorem C59_binary64 b o ref est m c d v w choice fx fy fxy tx ty txy h :
  wf ref -> wf est -> a_len ref = a_len est ->
  sdr_coh b o ref est = Ok m -> filter_length o = 1%nat -> zero_mean o = false ->
  has_chan ref c v -> has_chan est d w ->
  (Z.of_nat (a_len ref) <= 2 ^ 46)%Z -> (Z.of_nat h < 2 ^ 46)%Z ->
  sums (a_len ref) h tx -> sums (a_len ref) h ty -> sums (a_len ref) h txy ->
  exists q, mat_of m c d = Fin q /\
    Rabs (fcoh (round radix2 (FLT_exp (-1074) 53) (Znearest choice)) fx fy fxy tx ty txy (smp v) (smp w) - q)
      <= (8 * INR h + 40) * bpow radix2 (-53).
Proof.
  exact (fun Hr He Hl Hm HL Hz Hc Hd => coh_error_flt b o ref est m c d v w Hr He Hl Hm HL Hz Hc Hd
    choice fx fy fxy tx ty txy (-1074) 53 h ltac:(lia) ltac:(lia)).
Qed.
Print Assumptions C59_binary64.
Theorem C59_binary32 b o ref est m c d v w choice fx fy fxy tx ty txy h :
  wf ref -> wf est -> a_len ref = a_len est ->
  sdr_coh b o ref est = Ok m -> filter_length o = 1%nat -> zero_mean o = false ->
  has_chan ref c v -> has_chan est d w ->
  (Z.of_nat (a_len ref) <= 2 ^ 17)%Z -> (Z.of_nat h < 2 ^ 17)%Z ->
  sums (a_len ref) h tx -> sums (a_len ref) h ty -> sums (a_len ref) h txy ->
  exists q, mat_of m c d = Fin q /\
    Rabs (fcoh (round radix2 (FLT_exp (-149) 24) (Znearest choice)) fx fy fxy tx ty txy (smp v) (smp w) - q)
      <= (8 * INR h + 40) * bpow radix2 (-24).
Proof.
  exact (fun Hr He Hl Hm HL Hz Hc Hd => coh_error_flt b o ref est m c d v w Hr He Hl Hm HL Hz Hc Hd
    choice fx fy fxy tx ty txy (-149) 24 h ltac:(lia) ltac:(lia)).
Qed.
Print Assumptions C59_binary32.
(** Any order of the additions is at most n - 1 deep. *)
Theorem C59_any_order n t : Permutation (leaves t) (seq 0 n) -> sums n (n - 1) t.
Proof. exact (sums_any n t). Qed.
Print Assumptions C59_any_order.
(** In decibels, with a clamp (the conversion itself exact, see C54 for its rounding). *)
Theorem C59_decibels b o ref est m c d v w choice fx fy fxy tx ty txy h D :
  wf ref -> wf est -> a_len ref = a_len est ->
  sdr_coh b o ref est = Ok m -> filter_length o = 1%nat -> zero_mean o = false ->
  has_chan ref c v -> has_chan est d w ->
  (Z.of_nat (a_len ref) <= 2 ^ 46)%Z -> (Z.of_nat h < 2 ^ 46)%Z ->
  sums (a_len ref) h tx -> sums (a_len ref) h ty -> sums (a_len ref) h txy -> 0 <= D ->
  let eps := Rpower 10 (- D / 10) / (1 + Rpower 10 (- D / 10)) in
  exists p q, coherence_to_neg_sdr (Some D) (mat_of m c d) = Fin q /\
    coherence_to_neg_sdr (Some D) (Fin (fcoh (round radix2 (FLT_exp (-1074) 53) (Znearest choice))
      fx fy fxy tx ty txy (smp v) (smp w))) = Fin p /\
    Rabs (p - q) <= 10 / (ln 10 * (eps * (1 - eps))) * ((8 * INR h + 40) * bpow radix2 (-53)).
Proof.
  exact (fun Hr He Hl Hm HL Hz Hc Hd Hn Hh => db_error_flt b o ref est m c d v w Hr He Hl Hm HL Hz Hc Hd
    choice fx fy fxy tx ty txy (-1074) 53 h D ltac:(lia) ltac:(lia) Hn Hh).
Qed.
Print Assumptions C59_decibels.
(** Five samples added from left to right. *)
Example C59_ex :
  Rabs (fcoh (round radix2 (FLT_exp (-1074) 53) (Znearest (fun x => negb (Z.even x))))
     (fun _ => false) (fun _ => false) (fun _ => true)
     (SNode (SNode (SNode (SNode (SLeaf 0) (SLeaf 1)) (SLeaf 2)) (SLeaf 3)) (SLeaf 4))
     (SNode (SNode (SNode (SNode (SLeaf 0) (SLeaf 1)) (SLeaf 2)) (SLeaf 3)) (SLeaf 4))
     (SNode (SNode (SLeaf 4) (SLeaf 1)) (SNode (SLeaf 2) (SNode (SLeaf 0) (SLeaf 3))))
     (smp (exr 0)) (smp (exe 0)) - 1 / 2) <= (8 * INR 4 + 40) * bpow radix2 (-53).
Proof.
  assert (H5 : sums 5 4 (SNode (SNode (SNode (SNode (SLeaf 0) (SLeaf 1)) (SLeaf 2)) (SLeaf 3)) (SLeaf 4)))
    by (apply C59_any_order, Permutation_refl).
  assert (H6 : sums 5 4 (SNode (SNode (SLeaf 4) (SLeaf 1)) (SNode (SLeaf 2) (SNode (SLeaf 0) (SLeaf 3))))).
  { apply C59_any_order. cbn. apply NoDup_Permutation.
    - repeat constructor; cbn; lia.
    - repeat constructor; cbn; lia.
    - intros x. cbn. lia. }
  destruct (C59_binary64 NumPy (Opts 1 None false None None) ex_ref ex_est _ 0 0 (exr 0) (exe 0)
    (fun x => negb (Z.even x)) (fun _ => false) (fun _ => false) (fun _ => true) _ _ _ 4
    ex_ref_wf ex_est_wf eq_refl eq_refl eq_refl eq_refl
    (ex_ref_chan 0 ltac:(lia)) (ex_est_chan 0 ltac:(lia)) ltac:(cbn; lia) ltac:(lia) H5 H5 H6) as (q & E & H).
  rewrite (ex_half _ eq_refl) in E. injection E as <-. exact H.
Qed.

(** C60 *)
Theorem C60_slope c : 0 < c < 1 ->
  derivable_pt_lim (fun x => 10 * (ln ((1 - x) / x) / ln 10)) c (- 10 / (ln 10 * (c * (1 - c)))).
Proof. exact (gdb_deriv c). Qed.
Print Assumptions C60_slope.
Theorem C60_clamped_lipschitz D a b : 0 <= D ->
  let eps := Rpower 10 (- D / 10) / (1 + Rpower 10 (- D / 10)) in
  exists p q, coherence_to_neg_sdr (Some D) (Fin a) = Fin p /\
    coherence_to_neg_sdr (Some D) (Fin b) = Fin q /\
    Rabs (q - p) <= 10 / (ln 10 * (eps * (1 - eps))) * Rabs (b - a).
Proof. exact (clamped_lip D a b). Qed.
Print Assumptions C60_clamped_lipschitz.
Theorem C60_unclamped_unbounded K : exists c, 0 < c < / 2 /\
  K < Rabs (- 10 / (ln 10 * (c * (1 - c)))) /\
  K < Rabs (- 10 / (ln 10 * ((1 - c) * (1 - (1 - c))))).
Proof. exact (unclamped_steep K). Qed.
Print Assumptions C60_unclamped_unbounded.
(** Relative errors of the coherence and of its complement bound the error in dB. *)
Theorem C60_relative_error c c' th : 0 < c < 1 -> 0 <= th < 1 ->
  Rabs (c' - c) <= th * c -> Rabs (c' - c) <= th * (1 - c) ->
  exists p q, coherence_to_neg_sdr None (Fin c) = Fin p /\ coherence_to_neg_sdr None (Fin c') = Fin q /\
    Rabs (q - p) <= 10 * (ln ((1 + th) / (1 - th)) / ln 10).
Proof. exact (db_error_model c c' th). Qed.
Print Assumptions C60_relative_error.
Example C60_ex : exists p q, coherence_to_neg_sdr None (Fin (1 / 2)) = Fin p /\
  coherence_to_neg_sdr None (Fin (11 / 20)) = Fin q /\
  Rabs (q - p) <= 10 * (ln ((1 + 1 / 10) / (1 - 1 / 10)) / ln 10).
Proof. apply C60_relative_error; try lra; unfold Rabs; destruct Rcase_abs; lra. Qed.
