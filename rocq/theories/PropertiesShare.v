(** * Properties: how references share an estimate and estimates a reference (C98) *)
From Coq Require Import Reals Lra.
From Verif Require Import Prelude ExtReal Sums SpecSig Helpers Metrics PrepProofs ProjTheorems Witness SigExamples RecoverExamples Share ShareExamples.
Local Open Scope nat_scope.

(** [share v] is the part of the energy that a loss of v dB gives to the target: 1 / (1 + 10^(v/10)). *)
Example C98_share : share NInf = 1%R /\ share (Fin 0) = (/ 2)%R /\ share PInf = 0%R.
Proof. exact (conj eq_refl (conj share_0 eq_refl)). Qed.

(** C98: references that are orthogonal under all delays of the filter share the estimate: the parts that the losses of
    one estimate give to the references sum to at most one. *)
Theorem C98_references b o ref est xs M d y m :
  wf ref -> wf est ->
  use_cg_iter o = None -> load_diag o = None -> clamp_db o = None ->
  1 <= filter_length o <= Nat.max (a_len ref) (a_len est) ->
  (filter_length o = 1 -> a_len ref = a_len est /\ forall c, c < n_chan ref -> (norm_eps <= norm2 (pre (zero_mean o) (xs c)))%R) ->
  has_chans ref xs -> a_len ref + filter_length o - 1 <= M -> a_len est <= M ->
  has_chan est d y -> (norm_eps <= norm2 (pre (zero_mean o) y))%R ->
  (forall c c', c < n_chan ref -> c' < n_chan ref -> c <> c' -> forall k k', k < filter_length o -> k' < filter_length o ->
     dot M (delayed (pre (zero_mean o) (xs c)) k) (delayed (pre (zero_mean o) (xs c')) k') = 0%R) ->
  pairwise_sdr_loss b o est ref = Ok m -> (Rsum (n_chan ref) (fun c => share (mat_of m c d)) <= 1)%R.
Proof. exact (fun A1 A2 A3 A4 A5 A6 A7 A8 A9 B1 C1 C2 C3 => loss_shares_le b o ref est xs M A1 A2 A3 A4 A5 A6 A7 A8 A9 B1 d y C1 C2 C3 m). Qed.
Print Assumptions C98_references.
(** C98: so at most one of them has a positive SDR. *)
Theorem C98_one_positive b o ref est xs M d y m c c' :
  wf ref -> wf est ->
  use_cg_iter o = None -> load_diag o = None -> clamp_db o = None ->
  1 <= filter_length o <= Nat.max (a_len ref) (a_len est) ->
  (filter_length o = 1 -> a_len ref = a_len est /\ forall c, c < n_chan ref -> (norm_eps <= norm2 (pre (zero_mean o) (xs c)))%R) ->
  has_chans ref xs -> a_len ref + filter_length o - 1 <= M -> a_len est <= M ->
  has_chan est d y -> (norm_eps <= norm2 (pre (zero_mean o) y))%R ->
  (forall c c', c < n_chan ref -> c' < n_chan ref -> c <> c' -> forall k k', k < filter_length o -> k' < filter_length o ->
     dot M (delayed (pre (zero_mean o) (xs c)) k) (delayed (pre (zero_mean o) (xs c')) k') = 0%R) ->
  pairwise_sdr_loss b o est ref = Ok m -> c < n_chan ref -> c' < n_chan ref -> c <> c' ->
  xle (mat_of m c d) (Fin 0) -> xle (Fin 0) (mat_of m c' d).
Proof. exact (fun A1 A2 A3 A4 A5 A6 A7 A8 A9 B1 C1 C2 C3 => loss_one_positive b o ref est xs M A1 A2 A3 A4 A5 A6 A7 A8 A9 B1 d y C1 C2 C3 m c c'). Qed.
Print Assumptions C98_one_positive.
(** C98: and the parts given by the SDRs of bss_eval_sources sum exactly to the one given by the SAR. *)
Theorem C98_sar b o ref est xs M d y m sar c :
  wf ref -> wf est ->
  use_cg_iter o = None -> load_diag o = None -> clamp_db o = None ->
  1 <= filter_length o <= Nat.max (a_len ref) (a_len est) ->
  (filter_length o = 1 -> a_len ref = a_len est /\ forall c, c < n_chan ref -> (norm_eps <= norm2 (pre (zero_mean o) (xs c)))%R) ->
  has_chans ref xs -> a_len ref + filter_length o - 1 <= M -> a_len est <= M ->
  has_chan est d y -> (norm_eps <= norm2 (pre (zero_mean o) y))%R ->
  (forall c c', c < n_chan ref -> c' < n_chan ref -> c <> c' -> forall k k', k < filter_length o -> k' < filter_length o ->
     dot M (delayed (pre (zero_mean o) (xs c)) k) (delayed (pre (zero_mean o) (xs c')) k') = 0%R) ->
  sq_cos b o ref est = Ok (m, sar) -> c < n_chan ref ->
  Rsum (n_chan ref) (fun c => share (fst (fst (bss_mats o (m, sar))) c d)) = share (snd (bss_mats o (m, sar)) c d).
Proof. exact (fun A1 A2 A3 A4 A5 A6 A7 A8 A9 B1 C1 C2 C3 => bss_shares b o ref est xs M A1 A2 A3 A4 A5 A6 A7 A8 A9 B1 d y C1 C2 C3 m sar c). Qed.
Print Assumptions C98_sar.
(** Two references, two taps, five samples. *)
Example C98_ex b : exists m, pairwise_sdr_loss b (plain_opts 2) ex_est ex_ref = Ok m /\
  (share (mat_of m 0 0) + share (mat_of m 1 0) <= 1)%R.
Proof.
  destruct (ex_pairwise_ok b 2 ltac:(lia)) as [m H]. exists m. split; [exact H|].
  pose proof (C98_references b (plain_opts 2) ex_ref ex_est exr 6 0 (exe 0) m ex_ref_wf ex_est_wf eq_refl eq_refl eq_refl
    ltac:(simpl; lia) ltac:(simpl; lia) ex_ref_chans ltac:(cbn; lia) ltac:(cbn; lia) (ex_est_chan 0 ltac:(lia)) (ex_est_norm 0 ltac:(lia)) ex_apart H) as S.
  change (n_chan ex_ref) with 2 in S. cbn [Rsum] in S. simpl in S. lra.
Qed.
(** Not so for correlated references: the same reference twice, one tap. *)
Theorem C98_correlated_refuted b : exists m,
  pairwise_sdr_loss b (plain_opts 1) (rarr 2 [[1; 0]%R]) (rarr 2 [[1; 0]; [1; 0]]%R) = Ok m /\ mat_of m 0 0 = NInf /\ mat_of m 1 0 = NInf.
Proof. exact (sh_twice_perfect b). Qed.
Print Assumptions C98_correlated_refuted.

(** C98: mutually orthogonal estimates share a reference: the parts that their losses give to one reference sum to at most
    filter_length. *)
Theorem C98_estimates b o ref est xs M ys m c :
  wf ref -> wf est ->
  use_cg_iter o = None -> load_diag o = None -> clamp_db o = None ->
  1 <= filter_length o <= Nat.max (a_len ref) (a_len est) ->
  (filter_length o = 1 -> a_len ref = a_len est /\ forall c, c < n_chan ref -> (norm_eps <= norm2 (pre (zero_mean o) (xs c)))%R) ->
  has_chans ref xs -> a_len ref + filter_length o - 1 <= M -> a_len est <= M ->
  has_chans est ys -> (forall d, d < n_chan est -> (norm_eps <= norm2 (pre (zero_mean o) (ys d)))%R) ->
  (forall d d', d < n_chan est -> d' < n_chan est -> d <> d' ->
     dot M (smp (pre (zero_mean o) (ys d))) (smp (pre (zero_mean o) (ys d'))) = 0%R) ->
  pairwise_sdr_loss b o est ref = Ok m -> c < n_chan ref ->
  (Rsum (n_chan est) (fun d => share (mat_of m c d)) <= INR (filter_length o))%R.
Proof. exact (fun A1 A2 A3 A4 A5 A6 A7 A8 A9 B1 C1 C2 C3 => est_shares b o ref est xs M A1 A2 A3 A4 A5 A6 A7 A8 A9 B1 ys C1 C2 C3 m c). Qed.
Print Assumptions C98_estimates.
(** C98: so at most filter_length / share v of them reach the loss v (2 filter_length for 0 dB). *)
Theorem C98_count b o ref est xs M ys m c v :
  wf ref -> wf est ->
  use_cg_iter o = None -> load_diag o = None -> clamp_db o = None ->
  1 <= filter_length o <= Nat.max (a_len ref) (a_len est) ->
  (filter_length o = 1 -> a_len ref = a_len est /\ forall c, c < n_chan ref -> (norm_eps <= norm2 (pre (zero_mean o) (xs c)))%R) ->
  has_chans ref xs -> a_len ref + filter_length o - 1 <= M -> a_len est <= M ->
  has_chans est ys -> (forall d, d < n_chan est -> (norm_eps <= norm2 (pre (zero_mean o) (ys d)))%R) ->
  (forall d d', d < n_chan est -> d' < n_chan est -> d <> d' ->
     dot M (smp (pre (zero_mean o) (ys d))) (smp (pre (zero_mean o) (ys d'))) = 0%R) ->
  pairwise_sdr_loss b o est ref = Ok m -> c < n_chan ref ->
  (forall d, d < n_chan est -> xle (mat_of m c d) v) -> (INR (n_chan est) * share v <= INR (filter_length o))%R.
Proof. exact (fun A1 A2 A3 A4 A5 A6 A7 A8 A9 B1 C1 C2 C3 => est_count b o ref est xs M A1 A2 A3 A4 A5 A6 A7 A8 A9 B1 ys C1 C2 C3 m c v). Qed.
Print Assumptions C98_count.
(** C98: and the parts given by the SARs sum to at most filter_length times the number of references. *)
Theorem C98_estimates_sar b o ref est xs M ys m sar c :
  wf ref -> wf est ->
  use_cg_iter o = None -> load_diag o = None -> clamp_db o = None ->
  1 <= filter_length o <= Nat.max (a_len ref) (a_len est) ->
  (filter_length o = 1 -> a_len ref = a_len est /\ forall c, c < n_chan ref -> (norm_eps <= norm2 (pre (zero_mean o) (xs c)))%R) ->
  has_chans ref xs -> a_len ref + filter_length o - 1 <= M -> a_len est <= M ->
  has_chans est ys -> (forall d, d < n_chan est -> (norm_eps <= norm2 (pre (zero_mean o) (ys d)))%R) ->
  (forall d d', d < n_chan est -> d' < n_chan est -> d <> d' ->
     dot M (smp (pre (zero_mean o) (ys d))) (smp (pre (zero_mean o) (ys d'))) = 0%R) ->
  sq_cos b o ref est = Ok (m, sar) -> c < n_chan ref ->
  (Rsum (n_chan est) (fun d => share (snd (bss_mats o (m, sar)) c d)) <= INR (filter_length o * n_chan ref))%R.
Proof. exact (fun A1 A2 A3 A4 A5 A6 A7 A8 A9 B1 C1 C2 C3 => est_sar_shares b o ref est xs M A1 A2 A3 A4 A5 A6 A7 A8 A9 B1 ys C1 C2 C3 m sar c). Qed.
Print Assumptions C98_estimates_sar.
(** The bound is reached, and for two taps it is not one: an impulse and its delayed copy are both perfect. *)
Theorem C98_at_most_one_estimate_refuted b : exists m,
  pairwise_sdr_loss b (plain_opts 2) (rarr 2 [[1; 0]; [0; 1]]%R) (rarr 2 [[1; 0]%R]) = Ok m /\ mat_of m 0 0 = NInf /\ mat_of m 0 1 = NInf.
Proof. exact (sh_both_perfect b). Qed.
Print Assumptions C98_at_most_one_estimate_refuted.
Example C98_ex_estimates b : exists m, pairwise_sdr_loss b (plain_opts 2) (rarr 2 [[1; 0]; [0; 1]]%R) (rarr 2 [[1; 0]%R]) = Ok m /\
  (share (mat_of m 0 0) + share (mat_of m 0 1) <= 2)%R.
Proof.
  destruct (sh_ok b) as [m H]. exists m. split; [exact H|].
  pose proof (C98_estimates b (plain_opts 2) sh_ref sh_est sh_x 3 sh_y m 0 sh_ref_wf sh_est_wf eq_refl eq_refl eq_refl
    ltac:(simpl; lia) ltac:(simpl; lia) sh_ref_chans ltac:(cbn; lia) ltac:(cbn; lia) sh_est_chans sh_est_norm (sh_orth 3) H ltac:(cbn; lia)) as S.
  change (n_chan sh_est) with 2 in S. cbn [Rsum] in S. simpl in S. lra.
Qed.
