(** * Properties: SDR, SAR and plain signal to noise ratios (C96) *)
From Coq Require Import Reals Lra.
From Verif Require Import Prelude ExtReal Sums SpecSig Helpers Metrics PrepProofs ProjTheorems DbProofs Witness SigExamples GradientExamples Snr.
Local Open Scope nat_scope.

(** C96: take any filtered reference s as the target.  The SDR (as a ratio) is at least the plain signal to noise ratio minus one. *)
Theorem C96_snr b o ref est m c d x y M s :
  wf ref -> wf est ->
  use_cg_iter o = None -> load_diag o = None -> clamp_db o = None ->
  1 <= filter_length o <= Nat.max (a_len ref) (a_len est) ->
  (filter_length o = 1 -> a_len ref = a_len est /\ (norm_eps <= norm2 (pre (zero_mean o) x))%R) ->
  has_chan ref c x -> has_chan est d y -> (norm_eps <= norm2 (pre (zero_mean o) y))%R ->
  a_len ref + filter_length o - 1 <= M -> a_len est <= M ->
  pairwise_sdr_loss b o est ref = Ok m ->
  let Y := smp (pre (zero_mean o) y) in
  in_span (filter_length o) M (delays (pre (zero_mean o) x)) s -> (energy M (fun t => Y t - s t) <= energy M s)%R ->
  xle (mat_of m c d) (dB (energy M (fun t => Y t - s t))%R (energy M s - energy M (fun t => Y t - s t))%R).
Proof. exact (fun A1 A2 A3 A4 A5 A6 A7 A8 A9 B1 B2 B3 B4 => sdr_snr b o ref est m c d x y M A1 A2 A3 A4 A5 A6 A7 A8 A9 B1 B2 B3 B4 s). Qed.
Print Assumptions C96_snr.
(** C96: and one filtered reference reaches the bound, unless the SDR is minus infinity. *)
Theorem C96_snr_reached b o ref est m c d x y M :
  wf ref -> wf est ->
  use_cg_iter o = None -> load_diag o = None -> clamp_db o = None ->
  1 <= filter_length o <= Nat.max (a_len ref) (a_len est) ->
  (filter_length o = 1 -> a_len ref = a_len est /\ (norm_eps <= norm2 (pre (zero_mean o) x))%R) ->
  has_chan ref c x -> has_chan est d y -> (norm_eps <= norm2 (pre (zero_mean o) y))%R ->
  a_len ref + filter_length o - 1 <= M -> a_len est <= M ->
  pairwise_sdr_loss b o est ref = Ok m ->
  let Y := smp (pre (zero_mean o) y) in
  mat_of m c d <> PInf -> exists s, in_span (filter_length o) M (delays (pre (zero_mean o) x)) s /\ (energy M (fun t => Y t - s t) <= energy M s)%R /\
  mat_of m c d = dB (energy M (fun t => Y t - s t))%R (energy M s - energy M (fun t => Y t - s t))%R.
Proof. exact (sdr_snr_reached b o ref est m c d x y M). Qed.
Print Assumptions C96_snr_reached.
(** C96: a signal to noise ratio above k means that the SDR is at most 10 log10(k / (k - 1)) dB lower (0.46 dB for k = 10). *)
Theorem C96_snr_decibels b o ref est m c d x y M s k :
  wf ref -> wf est ->
  use_cg_iter o = None -> load_diag o = None -> clamp_db o = None ->
  1 <= filter_length o <= Nat.max (a_len ref) (a_len est) ->
  (filter_length o = 1 -> a_len ref = a_len est /\ (norm_eps <= norm2 (pre (zero_mean o) x))%R) ->
  has_chan ref c x -> has_chan est d y -> (norm_eps <= norm2 (pre (zero_mean o) y))%R ->
  a_len ref + filter_length o - 1 <= M -> a_len est <= M ->
  pairwise_sdr_loss b o est ref = Ok m ->
  let Y := smp (pre (zero_mean o) y) in
  in_span (filter_length o) M (delays (pre (zero_mean o) x)) s -> (1 < k)%R -> (k * energy M (fun t => Y t - s t) <= energy M s)%R ->
  xle (mat_of m c d) (xadd (dB (energy M (fun t => Y t - s t))%R (energy M s)) (Fin (10 * log10 (k / (k - 1))))).
Proof. exact (fun A1 A2 A3 A4 A5 A6 A7 A8 A9 B1 B2 B3 B4 => sdr_snr_offset b o ref est m c d x y M A1 A2 A3 A4 A5 A6 A7 A8 A9 B1 B2 B3 B4 s k). Qed.
Print Assumptions C96_snr_decibels.
(** C96: the SDR plus one (as a ratio) is the energy of the estimate over the least error of a filtered reference. *)
Theorem C96_prediction_gain b o ref est m c d x y M :
  wf ref -> wf est ->
  use_cg_iter o = None -> load_diag o = None -> clamp_db o = None ->
  1 <= filter_length o <= Nat.max (a_len ref) (a_len est) ->
  (filter_length o = 1 -> a_len ref = a_len est /\ (norm_eps <= norm2 (pre (zero_mean o) x))%R) ->
  has_chan ref c x -> has_chan est d y -> (norm_eps <= norm2 (pre (zero_mean o) y))%R ->
  a_len ref + filter_length o - 1 <= M -> a_len est <= M ->
  pairwise_sdr_loss b o est ref = Ok m ->
  let Y := smp (pre (zero_mean o) y) in
  (forall s, in_span (filter_length o) M (delays (pre (zero_mean o) x)) s -> (energy M (fun t => Y t - s t) <= energy M Y)%R ->
     xle (mat_of m c d) (dB (energy M (fun t => Y t - s t))%R (energy M Y - energy M (fun t => Y t - s t))%R)) /\
  exists s, in_span (filter_length o) M (delays (pre (zero_mean o) x)) s /\ (energy M (fun t => Y t - s t) <= energy M Y)%R /\
     mat_of m c d = dB (energy M (fun t => Y t - s t))%R (energy M Y - energy M (fun t => Y t - s t))%R.
Proof. exact (sdr_gain b o ref est m c d x y M). Qed.
Print Assumptions C96_prediction_gain.
(** C96: the same for the SAR with filters on all references. *)
Theorem C96_sar_snr b o ref est m sar c d xs y M s :
  wf ref -> wf est ->
  use_cg_iter o = None -> load_diag o = None -> clamp_db o = None ->
  1 <= filter_length o <= Nat.max (a_len ref) (a_len est) ->
  (filter_length o = 1 -> a_len ref = a_len est /\ (norm_eps <= norm2 (pre (zero_mean o) (xs c)))%R) ->
  has_chans ref xs -> c < n_chan ref -> has_chan est d y -> (norm_eps <= norm2 (pre (zero_mean o) y))%R ->
  a_len ref + filter_length o - 1 <= M -> a_len est <= M ->
  sq_cos b o ref est = Ok (m, sar) ->
  let Y := smp (pre (zero_mean o) y) in
  in_span (filter_length o * n_chan ref) M (all_delays (n_chan ref) (fun c => pre (zero_mean o) (xs c))) s -> (energy M (fun t => Y t - s t) <= energy M s)%R ->
  xle (snd (bss_mats o (m, sar)) c d) (dB (energy M (fun t => Y t - s t))%R (energy M s - energy M (fun t => Y t - s t))%R).
Proof. exact (fun A1 A2 A3 A4 A5 A6 A7 A8 A0 A9 B1 B2 B3 B4 => sar_snr b o ref est m sar c d xs y M A1 A2 A3 A4 A5 A6 A7 A8 A0 A9 B1 B2 B3 B4 s). Qed.
Print Assumptions C96_sar_snr.
(** C96: prediction gain and SAR. *)
Theorem C96_sar_prediction_gain b o ref est m sar c d xs y M :
  wf ref -> wf est ->
  use_cg_iter o = None -> load_diag o = None -> clamp_db o = None ->
  1 <= filter_length o <= Nat.max (a_len ref) (a_len est) ->
  (filter_length o = 1 -> a_len ref = a_len est /\ (norm_eps <= norm2 (pre (zero_mean o) (xs c)))%R) ->
  has_chans ref xs -> c < n_chan ref -> has_chan est d y -> (norm_eps <= norm2 (pre (zero_mean o) y))%R ->
  a_len ref + filter_length o - 1 <= M -> a_len est <= M ->
  sq_cos b o ref est = Ok (m, sar) ->
  let Y := smp (pre (zero_mean o) y) in
  (forall s, in_span (filter_length o * n_chan ref) M (all_delays (n_chan ref) (fun c => pre (zero_mean o) (xs c))) s -> (energy M (fun t => Y t - s t) <= energy M Y)%R ->
     xle (snd (bss_mats o (m, sar)) c d) (dB (energy M (fun t => Y t - s t))%R (energy M Y - energy M (fun t => Y t - s t))%R)) /\
  exists s, in_span (filter_length o * n_chan ref) M (all_delays (n_chan ref) (fun c => pre (zero_mean o) (xs c))) s /\ (energy M (fun t => Y t - s t) <= energy M Y)%R /\
     snd (bss_mats o (m, sar)) c d = dB (energy M (fun t => Y t - s t))%R (energy M Y - energy M (fun t => Y t - s t))%R.
Proof. exact (sar_gain b o ref est m sar c d xs y M). Qed.
Print Assumptions C96_sar_prediction_gain.
(** The reference itself is one of the filtered references. *)
Theorem C96_reference_in_span L M x : 1 <= L -> in_span L M (delays x) (smp x).
Proof. exact (delay0_in_span L M x). Qed.
Print Assumptions C96_reference_in_span.

(** C96: the SDR can be below the plain signal to noise ratio: reference [1, 1], estimate [1, 0], 0 dB against 3 dB. *)
Theorem C96_sdr_above_snr_refuted b : exists m,
  pairwise_sdr_loss b (plain_opts 1) (rarr 2 [[1; 0]%R]) (rarr 2 [[1; 1]%R]) = Ok m /\
  mat_of m 0 0 = Fin 0 /\ energy 2 (smp [1; 1]%R) = 2%R /\ energy 2 (fun t => smp [1; 0] t - smp [1; 1] t)%R = 1%R.
Proof. exact (snr_above_sdr b). Qed.
Print Assumptions C96_sdr_above_snr_refuted.
(** There the bound holds with equality: SNR - 1 = 1, so that the SDR is at least 0 dB. *)
Example C96_ex b : exists m, pairwise_sdr_loss b (plain_opts 1) (rarr 2 [[1; 0]%R]) (rarr 2 [[1; 1]%R]) = Ok m /\
  xle (mat_of m 0 0) (dB 1 (2 - 1)).
Proof.
  destruct (snr_above_sdr b) as (m & E & _ & E2 & E1). exists m. split; [exact E|].
  pose proof (C96_snr b (plain_opts 1) (rarr 2 [[1; 1]%R]) (rarr 2 [[1; 0]%R]) m 0 0 [1; 1]%R [1; 0]%R 2 (smp [1; 1]%R)
    g_ref_wf (proj1 (g_family [1; 0]%R eq_refl)) eq_refl eq_refl eq_refl ltac:(simpl; lia) (fun _ => conj eq_refl gx_norm)
    g_ref_chan (proj2 (g_family [1; 0]%R eq_refl)) hy_norm ltac:(simpl; lia) ltac:(simpl; lia) E
    (C96_reference_in_span 1 2 _ (le_n 1))) as H.
  cbn [pre zero_mean plain_opts] in H. change (energy 2 (smp [1; 1]%R) = 2%R) in E2.
  change (energy 2 (fun t => smp [1; 0] t - smp [1; 1] t)%R = 1%R) in E1. rewrite E1, E2 in H. apply H. lra.
Qed.
(** Two references, two taps, five samples: the hypotheses of the SAR theorems. *)
Example C96_ex_sar b : exists m sar, sq_cos b (plain_opts 2) ex_ref ex_est = Ok (m, sar) /\
  exists s, in_span 4 6 (all_delays 2 exr) s /\
    (energy 6 (fun t => smp (exe 0) t - s t) <= energy 6 (smp (exe 0)))%R.
Proof.
  destruct (ex_sq_cos_ok b) as [[m sar] H]. exists m, sar. split; [exact H|].
  destruct (C96_sar_prediction_gain b (plain_opts 2) ex_ref ex_est m sar 0 0 exr (exe 0) 6 ex_ref_wf ex_est_wf eq_refl eq_refl eq_refl
    ltac:(simpl; lia) ltac:(simpl; lia) ex_ref_chans ltac:(cbn; lia) (ex_est_chan 0 ltac:(lia))) as [_ (s & Hs & He & _)];
    [|cbn; lia|cbn; lia|exact H|exists s; split; [exact Hs|exact He]].
  exact (ex_est_norm 0 ltac:(lia)).
Qed.
