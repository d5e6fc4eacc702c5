(** * Properties: time reversal (C93) *)
From Coq Require Import Reals Lra.
From Verif Require Import Prelude ExtReal Spec SpecSig Helpers Linalg Metrics PrepProofs Witness SigExamples SumEst TimeRev.
Local Open Scope nat_scope.

(** C93: both recordings played backwards, the estimates delayed so that the whole spans the references
    and their delays: the same losses, permutations, SIR and SAR, or the same exception. *)
Theorem C93_reversed b o sp cs ref est ref' est' : wf ref -> wf est -> use_cg_iter o = None ->
  2 <= filter_length o <= Nat.max (a_len ref) (a_len est) ->
  a_len est <= a_len ref + filter_length o - 1 ->
  (zero_mean o = true -> a_len est = a_len ref + filter_length o - 1) ->
  ref' = Arr (a_len ref) (map (fun c => rev c) (a_chans ref)) ->
  est' = Arr (a_len ref + filter_length o - 1)
             (map (fun c => repeat (Fin 0) (a_len ref + filter_length o - 1 - a_len est) ++ rev c) (a_chans est)) ->
  pairwise_sdr_loss b o est' ref' = pairwise_sdr_loss b o est ref /\
  sdr b sp o cs ref' est' = sdr b sp o cs ref est /\
  bss_eval_sources b sp o ref' est' = bss_eval_sources b sp o ref est.
Proof. exact (reversed b o sp cs ref est ref' est'). Qed.
Print Assumptions C93_reversed.
Example C93_reversed_example b sp :
  bss_eval_sources b sp (plain_opts 2)
    (rarr 3 [[0; 0; 1]]%R) (rarr 4 [[0; 3; 2; 1]]%R) =
  bss_eval_sources b sp (plain_opts 2) (rarr 3 [[1; 0; 0]]%R) (rarr 3 [[1; 2; 3]]%R).
Proof.
  refine (proj2 (proj2 (C93_reversed b (plain_opts 2) sp true (rarr 3 [[1; 0; 0]]%R) (rarr 3 [[1; 2; 3]]%R) _ _ _ _ eq_refl
    _ _ _ eq_refl eq_refl))); try (apply rarr_wf; [lia|repeat constructor]); simpl; try lia; discriminate.
Qed.
Example C93_reversed_two b sp : bss_eval_sources b sp (plain_opts 2)
    (Arr 5 (map (@rev xr) (a_chans ex_ref))) (Arr 6 (map (fun c => Fin 0 :: rev c) (a_chans ex_est))) =
  bss_eval_sources b sp (plain_opts 2) ex_ref ex_est.
Proof.
  exact (proj2 (proj2 (C93_reversed b (plain_opts 2) sp true ex_ref ex_est _ _ ex_ref_wf ex_est_wf eq_refl
    ltac:(simpl; lia) ltac:(simpl; lia) ltac:(discriminate) eq_refl eq_refl))).
Qed.

(** C93: without the delay the best value may turn into the worst. *)
Theorem C93_no_delay_refuted b : exists ref est m m', wf ref /\ wf est /\
  pairwise_sdr_loss b (plain_opts 2) est ref = Ok m /\
  pairwise_sdr_loss b (plain_opts 2) (Arr (a_len est) (map (fun c => rev c) (a_chans est)))
     (Arr (a_len ref) (map (fun c => rev c) (a_chans ref))) = Ok m' /\
  mat_of m 0 0 = NInf /\ mat_of m' 0 0 = PInf.
Proof. exact (no_delay_refuted b). Qed.
Print Assumptions C93_no_delay_refuted.
