(** * Properties: mean removal with rounding (C94) *)
From Coq Require Import Reals Lra Permutation.
From Verif Require Import Prelude ExtReal SpecSig Sums Helpers Metrics PrepProofs ProjTheorems Witness SigExamples SiRound SiRoundProofs SiRoundFlt SiMean SiMeanProofs.
From Flocq Require Import Core Relative.
Local Open Scope R_scope.

(** C94: one tap, zero_mean=True.  The error is a multiple of the unit roundoff times the ratio of the norms
    before and after mean removal. *)
Theorem C94_binary64 b o ref est m c d v w choice fx fy fxy mx my tx ty txy h :
  wf ref -> wf est -> a_len ref = a_len est ->
  sdr_coh b o ref est = Ok m -> filter_length o = 1%nat -> zero_mean o = true ->
  has_chan ref c v -> has_chan est d w ->
  (Z.of_nat (a_len ref) <= 2 ^ 46)%Z -> (Z.of_nat h < 2 ^ 46)%Z ->
  sums (a_len ref) h mx -> sums (a_len ref) h my ->
  sums (a_len ref) h tx -> sums (a_len ref) h ty -> sums (a_len ref) h txy ->
  exists q, mat_of m c d = Fin q /\
    Rabs (fcoh_zm (round radix2 (FLT_exp (-1074) 53) (Znearest choice)) (a_len ref) fx fy fxy mx my tx ty txy (smp v) (smp w) - q)
      <= (8 * INR h + 41 + (5 * INR h + 9) * (norm2 v / Rmax (norm2 (centered v)) norm_eps
            + norm2 w / Rmax (norm2 (centered w)) norm_eps)) * bpow radix2 (-53).
Proof.
  exact (fun Hr He Hl Hm HL Hz Hc Hd => coh_zm_error b o ref est m c d v w Hr He Hl Hm HL Hz Hc Hd
    choice fx fy fxy mx my tx ty txy (-1074) 53 h ltac:(lia) ltac:(lia)).
Qed.
Print Assumptions C94_binary64.
Theorem C94_binary32 b o ref est m c d v w choice fx fy fxy mx my tx ty txy h :
  wf ref -> wf est -> a_len ref = a_len est ->
  sdr_coh b o ref est = Ok m -> filter_length o = 1%nat -> zero_mean o = true ->
  has_chan ref c v -> has_chan est d w ->
  (Z.of_nat (a_len ref) <= 2 ^ 17)%Z -> (Z.of_nat h < 2 ^ 17)%Z ->
  sums (a_len ref) h mx -> sums (a_len ref) h my ->
  sums (a_len ref) h tx -> sums (a_len ref) h ty -> sums (a_len ref) h txy ->
  exists q, mat_of m c d = Fin q /\
    Rabs (fcoh_zm (round radix2 (FLT_exp (-149) 24) (Znearest choice)) (a_len ref) fx fy fxy mx my tx ty txy (smp v) (smp w) - q)
      <= (8 * INR h + 41 + (5 * INR h + 9) * (norm2 v / Rmax (norm2 (centered v)) norm_eps
            + norm2 w / Rmax (norm2 (centered w)) norm_eps)) * bpow radix2 (-24).
Proof.
  exact (fun Hr He Hl Hm HL Hz Hc Hd => coh_zm_error b o ref est m c d v w Hr He Hl Hm HL Hz Hc Hd
    choice fx fy fxy mx my tx ty txy (-149) 24 h ltac:(lia) ltac:(lia)).
Qed.
Print Assumptions C94_binary32.
(** Five samples added from left to right. *)
Example C94_ex : exists m q, sdr_coh NumPy (Opts 1 None true None None) ex_ref ex_est = Ok m /\ mat_of m 0 0 = Fin q /\
  let t := SNode (SNode (SNode (SNode (SLeaf 0) (SLeaf 1)) (SLeaf 2)) (SLeaf 3)) (SLeaf 4) in
  Rabs (fcoh_zm (round radix2 (FLT_exp (-149) 24) (Znearest (fun x => negb (Z.even x)))) 5
     (fun _ => false) (fun _ => false) (fun _ => true) t t t t t (smp (exr 0)) (smp (exe 0)) - q)
   <= (8 * INR 4 + 41 + (5 * INR 4 + 9) * (norm2 (exr 0) / Rmax (norm2 (centered (exr 0))) norm_eps
            + norm2 (exe 0) / Rmax (norm2 (centered (exe 0))) norm_eps)) * bpow radix2 (-24).
Proof.
  assert (H5 : sums 5 4 (SNode (SNode (SNode (SNode (SLeaf 0) (SLeaf 1)) (SLeaf 2)) (SLeaf 3)) (SLeaf 4)))
    by (split; [apply Permutation_refl|cbn; lia]).
  destruct (C94_binary32 NumPy (Opts 1 None true None None) ex_ref ex_est _ 0 0 (exr 0) (exe 0)
    (fun x => negb (Z.even x)) (fun _ => false) (fun _ => false) (fun _ => true) _ _ _ _ _ 4
    ex_ref_wf ex_est_wf eq_refl eq_refl eq_refl eq_refl
    (ex_ref_chan 0 ltac:(lia)) (ex_est_chan 0 ltac:(lia)) ltac:(cbn; lia) ltac:(lia) H5 H5 H5 H5 H5) as (q & E & H).
  eexists. exists q. split; [reflexivity|]. split; [exact E|exact H].
Qed.
(** Signals that have no mean to begin with. *)
Theorem C94_no_mean v : mean v = 0 -> norm_eps <= norm2 v -> norm2 v / Rmax (norm2 (centered v)) norm_eps = 1.
Proof. exact (shrink_flat v). Qed.
Print Assumptions C94_no_mean.
(** In decibels, with a clamp. *)
Theorem C94_decibels b o ref est m c d v w choice fx fy fxy mx my tx ty txy h D :
  wf ref -> wf est -> a_len ref = a_len est ->
  sdr_coh b o ref est = Ok m -> filter_length o = 1%nat -> zero_mean o = true ->
  has_chan ref c v -> has_chan est d w ->
  (Z.of_nat (a_len ref) <= 2 ^ 46)%Z -> (Z.of_nat h < 2 ^ 46)%Z ->
  sums (a_len ref) h mx -> sums (a_len ref) h my ->
  sums (a_len ref) h tx -> sums (a_len ref) h ty -> sums (a_len ref) h txy -> 0 <= D ->
  let eps := Rpower 10 (- D / 10) / (1 + Rpower 10 (- D / 10)) in
  exists p q, coherence_to_neg_sdr (Some D) (mat_of m c d) = Fin q /\
    coherence_to_neg_sdr (Some D) (Fin (fcoh_zm (round radix2 (FLT_exp (-1074) 53) (Znearest choice)) (a_len ref)
      fx fy fxy mx my tx ty txy (smp v) (smp w))) = Fin p /\
    Rabs (p - q) <= 10 / (ln 10 * (eps * (1 - eps))) *
      ((8 * INR h + 41 + (5 * INR h + 9) * (norm2 v / Rmax (norm2 (centered v)) norm_eps
            + norm2 w / Rmax (norm2 (centered w)) norm_eps)) * bpow radix2 (-53)).
Proof.
  exact (fun Hr He Hl Hm HL Hz Hc Hd Hn Hh => db_zm_error b o ref est m c d v w Hr He Hl Hm HL Hz Hc Hd
    choice fx fy fxy mx my tx ty txy (-1074) 53 h D ltac:(lia) ltac:(lia) Hn Hh).
Qed.
Print Assumptions C94_decibels.

(** C94: the ratio of the norms is needed.  ref = [2^53, 2^53 + 2], est = [1, -1]: a perfect estimate, but binary64
    gives a coherence of about 1/2 (0 dB), for all ways to break ties. *)
Theorem C94_offset_refuted b choice fx fy fxy : exists m,
  sdr_coh b (Opts 1 None true None None) (rarr 2 [[IZR (2 ^ 53); IZR (2 ^ 53 + 2)]]) (rarr 2 [[1; -1]]) = Ok m /\
  mat_of m 0 0 = Fin 1 /\
  fcoh_zm (round radix2 (FLT_exp (-1074) 53) (Znearest choice)) 2 fx fy fxy
    (SNode (SLeaf 0) (SLeaf 1)) (SNode (SLeaf 0) (SLeaf 1)) (SNode (SLeaf 0) (SLeaf 1)) (SNode (SLeaf 0) (SLeaf 1)) (SNode (SLeaf 0) (SLeaf 1))
    (smp [IZR (2 ^ 53); IZR (2 ^ 53 + 2)]) (smp [1; -1]) <= 51 / 100.
Proof. exact (offset_refuted b choice fx fy fxy). Qed.
Print Assumptions C94_offset_refuted.
