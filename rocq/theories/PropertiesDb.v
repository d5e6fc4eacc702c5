(** * Properties of the coherence to decibel mapping (C12-C14, C51) *)
From Coq Require Import Reals Lra.
From Verif Require Import Prelude ExtReal Helpers DbProofs.
Local Open Scope R_scope.

(** C12 *)
Theorem C12_clamp_bounds D coh : 0 <= D -> coh <> NaN ->
  exists v, coherence_to_neg_sdr (Some D) coh = Fin v /\ - D <= v <= D.
Proof. exact (clamp_bounds D coh). Qed.
Print Assumptions C12_clamp_bounds.
Theorem C12_bounds_attained D : 0 <= D ->
  coherence_to_neg_sdr (Some D) (Fin 0) = Fin D /\
  coherence_to_neg_sdr (Some D) (Fin 1) = Fin (- D).
Proof. exact (fun H => conj (clamp_low D H) (clamp_high D H)). Qed.
Print Assumptions C12_bounds_attained.
Example C12_example : 0 <= 30 /\ Fin (/ 2) <> NaN.
Proof. split; [lra|congruence]. Qed.

(** C13 *)
Theorem C13_clamp_saturates D coh : 0 <= D -> coh <> NaN ->
  coherence_to_neg_sdr (Some D) coh =
  xmin (Fin D) (xmax (Fin (- D)) (coherence_to_neg_sdr None coh)).
Proof. exact (clamp_saturates D coh). Qed.
Print Assumptions C13_clamp_saturates.

(** C14 *)
Theorem C14_strictly_decreasing a b : 0 <= a -> a < b -> b <= 1 ->
  xlt (coherence_to_neg_sdr None (Fin b)) (coherence_to_neg_sdr None (Fin a)).
Proof. exact (neg_sdr_decreasing a b). Qed.
Print Assumptions C14_strictly_decreasing.
Theorem C14_interior c : 0 < c < 1 ->
  coherence_to_neg_sdr None (Fin c) = Fin (10 * (ln ((1 - c) / c) / ln 10)).
Proof. exact (neg_sdr_fin c). Qed.
Print Assumptions C14_interior.
Theorem C14_ends c :
  (c <= 0 -> coherence_to_neg_sdr None (Fin c) = PInf) /\
  (1 <= c -> coherence_to_neg_sdr None (Fin c) = NInf) /\
  coherence_to_neg_sdr None NInf = PInf /\ coherence_to_neg_sdr None PInf = NInf.
Proof.
  exact (conj (fun H => neg_sdr_pos_inf (Fin c) (or_intror (ex_intro _ c (conj eq_refl H))))
        (conj (fun H => neg_sdr_neg_inf (Fin c) (or_intror (ex_intro _ c (conj eq_refl H))))
        (conj (neg_sdr_pos_inf NInf (or_introl eq_refl)) (neg_sdr_neg_inf PInf (or_introl eq_refl))))).
Qed.
Print Assumptions C14_ends.
Theorem C14_no_nan D coh : coherence_to_neg_sdr D coh = NaN <-> coh = NaN.
Proof. exact (neg_sdr_no_nan D coh). Qed.
Print Assumptions C14_no_nan.

(** C51: a negative clamp_db makes every value equal to it. *)
Theorem C51_negative_clamp D coh : D < 0 -> coh <> NaN ->
  coherence_to_neg_sdr (Some D) coh = Fin (- D).
Proof. exact (clamp_negative D coh). Qed.
Print Assumptions C51_negative_clamp.
