(** * Properties of edge cases: orthogonal, non-finite and very short inputs (C32, C37, C44) *)
From Coq Require Import Reals Lra.
From Verif Require Import Prelude ExtReal Spec SpecSig Sums Helpers Linalg Metrics PrepProofs MetricsProofs SarProofs ProjTheorems MetricTheorems Outputs Edge Witness SigExamples Glue.
Local Open Scope nat_scope.

(** C32 *)
Theorem C32_orthogonal_worst b o ref est m c d x y : wf ref -> wf est ->
  1 <= filter_length o <= Nat.max (a_len ref) (a_len est) ->
  (filter_length o = 1 -> a_len ref = a_len est) ->
  (forall D, clamp_db o = Some D -> 0 <= D)%R ->
  has_chan ref c x -> has_chan est d y ->
  orthogonal_to (filter_length o) (pre (zero_mean o) x) (pre (zero_mean o) y) ->
  pairwise_sdr_loss b o est ref = Ok m -> mat_of m c d = worst_loss o.
Proof. exact (orth_loss b o ref est m c d x y). Qed.
Print Assumptions C32_orthogonal_worst.
Theorem C32_bss_raises b sp o ref est d xs y : wf ref -> wf est ->
  1 <= filter_length o <= Nat.max (a_len ref) (a_len est) ->
  (filter_length o = 1 -> a_len ref = a_len est) ->
  0 < n_chan ref -> has_chans ref xs -> has_chan est d y ->
  (forall c, c < n_chan ref ->
     orthogonal_to (filter_length o) (pre (zero_mean o) (xs c)) (pre (zero_mean o) y)) ->
  exists e, bss_eval_sources b sp o ref est = Raise e /\
    (is_ok (sq_cos b o ref est) -> e = ValueError).
Proof. exact (orth_bss b sp o ref est d xs y). Qed.
Print Assumptions C32_bss_raises.
Theorem C32_silent_is_orthogonal L x y : silent y -> orthogonal_to L x y.
Proof. exact (silent_orthogonal L x y). Qed.
Print Assumptions C32_silent_is_orthogonal.
Example C32_example : orthogonal_to 2 (exr 1) [3; 1; 0; 0; 4]%R.
Proof. intros l Hl. destruct l as [|[|l]]; try lia; unfold xcorr, smp; simpl; ring. Qed.

(** C37 *)
Theorem C37_nan_iff_nonfinite b o ref est m c d : wf ref -> wf est ->
  pairwise_sdr_loss b o est ref = Ok m -> c < n_chan ref -> d < n_chan est ->
  (mat_of m c d = NaN <-> nonfinite ref c \/ nonfinite est d).
Proof. exact (loss_nan_iff b o ref est m c d). Qed.
Print Assumptions C37_nan_iff_nonfinite.
Theorem C37_sdr_raises b sp o cs ref est c d : wf ref -> wf est -> c < n_chan ref -> d < n_chan est ->
  nonfinite ref c \/ nonfinite est d ->
  exists e, sdr b sp o cs ref est = Raise e /\
    (is_ok (pairwise_sdr_loss b o est ref) -> e = ValueError).
Proof. exact (sdr_nonfinite b sp o cs ref est c d). Qed.
Print Assumptions C37_sdr_raises.
Theorem C37_bss_raises b sp o ref est c d : wf ref -> wf est -> 0 < filter_length o ->
  c < n_chan ref -> d < n_chan est ->
  nonfinite ref c \/ nonfinite est d ->
  exists e, bss_eval_sources b sp o ref est = Raise e /\
    (is_ok (sq_cos b o ref est) -> e = ValueError).
Proof. exact (bss_nonfinite b sp o ref est c d). Qed.
Print Assumptions C37_bss_raises.
Example C37_example : nonfinite (Arr 2 [[Fin 1; NaN]; [Fin 0; Fin 2]]) 0 /\ ~ nonfinite (Arr 2 [[Fin 1; NaN]; [Fin 0; Fin 2]]) 1.
Proof.
  split; [split; [unfold n_chan; simpl; lia|exists 1; split; [simpl; lia|reflexivity]]|].
  intros H0. destruct H0 as [_ (i & Hi & H)]. simpl in Hi. destruct i as [|[|i]]; simpl in H; try discriminate; lia.
Qed.

(** C44 *)
Theorem C44_sdr_truncates b o ref est : let nf := n_fft (a_len ref) (a_len est) in
  nf <> 1 -> nf <= filter_length o ->
  pairwise_sdr_loss b o est ref = pairwise_sdr_loss b (with_length o nf) est ref.
Proof. exact (long_filter_loss b o ref est). Qed.
Print Assumptions C44_sdr_truncates.
(** n_fft = 1 (one-sample signals) is a real exception *)
Theorem C44_one_sample_refuted b : exists ref est,
  n_fft (a_len ref) (a_len est) = 1 /\
  raises (pairwise_sdr_loss b (plain_opts 2) est ref) /\
  is_ok (pairwise_sdr_loss b (with_length (plain_opts 2) 1) est ref).
Proof. exact (one_sample_differs b). Qed.
Print Assumptions C44_one_sample_refuted.
Theorem C44_bss_raises b sp o ref est :
  n_fft (a_len ref) (a_len est) < filter_length o ->
  bss_eval_sources b sp o ref est =
  Raise (match use_cg_iter o with None => shape_exn b | Some _ => AssertionError end).
Proof. exact (long_filter_bss b sp o ref est). Qed.
Print Assumptions C44_bss_raises.
Example C44_example : n_fft (a_len ex_ref) (a_len ex_est) = 16 /\ 16 < filter_length (plain_opts 512).
Proof. split; [reflexivity|simpl; lia]. Qed.
