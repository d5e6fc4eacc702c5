(** * Properties: SAR and SIR under longer filters and larger loads (C86) *)
From Coq Require Import Reals Lra.
From Verif Require Import Prelude ExtReal Spec SpecSig Sums Helpers Metrics StatsProofs PrepProofs ProjTheorems MetricTheorems Witness SigExamples
  SarMono.
Local Open Scope nat_scope.

(** C86: with more taps and less load the SAR of an estimate does not decrease. *)
Theorem C86_sar_monotone b o o' ref est m sar m' sar' d xs y : wf ref -> wf est ->
  use_cg_iter o = None -> use_cg_iter o' = None -> zero_mean o' = zero_mean o -> clamp_db o' = clamp_db o ->
  1 <= filter_length o <= filter_length o' -> (0 <= loadv (load_diag o') <= loadv (load_diag o))%R ->
  (filter_length o = 1 -> a_len ref = a_len est) ->
  has_chans ref xs -> has_chan est d y ->
  sq_cos b o ref est = Ok (m, sar) -> sq_cos b o' ref est = Ok (m', sar') ->
  (exists q q', nth d sar NaN = Fin q /\ nth d sar' NaN = Fin q' /\ (q <= q')%R) /\
  forall c, let '(_, _, nsar) := bss_mats o (m, sar) in let '(_, _, nsar') := bss_mats o' (m', sar') in
    xle (nsar' c d) (nsar c d).
Proof. exact (sar_mono b o o' ref est m sar m' sar' d xs y). Qed.
Print Assumptions C86_sar_monotone.
(** one tap and two taps: 1/2 and 3/4 of the energy *)
Example C86_example b : exists m sar m' sar', wf ex_ref /\ wf way_est /\ has_chans ex_ref exr /\ has_chan way_est 0 way_y /\
  sq_cos b (plain_opts 1) ex_ref way_est = Ok (m, sar) /\ sq_cos b (plain_opts 2) ex_ref way_est = Ok (m', sar') /\
  nth 0 sar NaN = Fin ((INR 1 + 1) / 4) /\ nth 0 sar' NaN = Fin ((INR 2 + 1) / 4).
Proof.
  destruct (way_ok b 1 ltac:(lia)) as (m & sar & H). destruct (way_ok b 2 ltac:(lia)) as (m' & sar' & H').
  exists m, sar, m', sar'. destruct (way_values b 1 m sar ltac:(lia) H) as (_ & _ & V & _). destruct (way_values b 2 m' sar' ltac:(lia) H') as (_ & _ & V' & _).
  exact (conj ex_ref_wf (conj way_wf (conj ex_ref_chans (conj (way_chan 0 ltac:(lia)) (conj H (conj H' (conj V V'))))))).
Qed.

(** C86: the SIR can fall for one channel and rise for another. *)
Theorem C86_sir_refuted b : exists ref est S S' A A' i0 i1 i0' i1', wf ref /\ wf est /\
  bss_eval_sources_noperm b (plain_opts 1) ref est = Ok (S, [Fin i0; Fin i1], A) /\
  bss_eval_sources_noperm b (plain_opts 2) ref est = Ok (S', [Fin i0'; Fin i1'], A') /\
  (i0' < i0)%R /\ (i1 < i1')%R.
Proof. exact (sir_longer_refuted b). Qed.
Print Assumptions C86_sir_refuted.
