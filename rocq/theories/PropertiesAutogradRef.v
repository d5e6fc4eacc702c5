(** * Properties: the gradients of the torch losses with respect to the references (C78) *)
From Coq Require Import Reals Lra.
From Verif Require Import Prelude ExtReal Sums SpecSig Helpers Metrics StatsProofs PrepProofs ProjTheorems MetricTheorems
  Invariance Witness Gradient GradientExamples Autograd AutogradExamples AutogradRef AutogradRefProofs AutogradRefExamples.
Local Open Scope nat_scope.

(** C78: when channel c of the references moves and the others stay, the backward pass returns the
    derivative of the weighted losses of that channel, in every direction, away from the kinks: the norm
    1e-6 of [_normalize] and losses equal to +- clamp_db.  The call succeeds around every point at
    which it succeeds. *)
Theorem C78_gradient o est c x ys w E m0 m1 : wf est -> has_chans est ys -> use_cg_iter o = None -> 1 <= filter_length o ->
  (filter_length o = 1 -> length x = a_len est) ->
  moves E c (length x) ->
  pairwise_sdr_loss Torch o est (E x) = Ok m0 ->
  norm2 (pre (zero_mean o) x) <> norm_eps ->
  pairwise_sdr_loss Torch (with_clamp o None) est (E x) = Ok m1 ->
  (forall d, d < n_chan est ->
    match clamp_db o with
    | None => exists r, mat_of m1 c d = Fin r
    | Some D => (0 <= D)%R /\ mat_of m1 c d <> Fin D /\ mat_of m1 c d <> Fin (- D)
    end) ->
  exists g, ref_grad Torch o est (length x) (map Fin x) w = Ok (map Fin g) /\ length g = length x /\
    forall h, length h = length x -> exists s,
      (forall d, d < n_chan est -> slope (fun v => entry (pairwise_sdr_loss Torch o est (E v)) c d) x h (s d)) /\
      Rsum (length x) (fun t => smp g t * smp h t)%R = Rsum (n_chan est) (fun d => w d * s d)%R.
Proof. exact (fun H1 H2 H3 H4 H5 H6 H7 => ref_gradient_is_derivative Torch o est c x ys w E m0 H1 H2 H3 H4 H5 H6 H7 m1). Qed.
Print Assumptions C78_gradient.
Example C78_gradient_example : exists g0 g1,
  ref_grad Torch (plain_opts 2) (g_est gy) 2 (map Fin gx) (fun _ => 1%R) = Ok [Fin g0; Fin g1] /\
  (forall h, length h = 2 ->
     slope (fun v => entry (pairwise_sdr_loss Torch (plain_opts 2) (g_est gy) (g_est v)) 0 0) gx h (g0 * smp h 0 + g1 * smp h 1)).
Proof.
  destruct (C78_gradient (plain_opts 2) (g_est gy) 0 gx (fun _ => gy) (fun _ => 1%R) g_est (g_loss Torch 2 gy) (g_loss Torch 2 gy)
    r_est_wf r_est_chans eq_refl ltac:(cbv; lia) ltac:(discriminate) r_moves (g_ok Torch 2 gy ltac:(lia) eq_refl)
    (Rgt_not_eq _ _ gx_norm) (g_ok Torch 2 gy ltac:(lia) eq_refl)) as (g & E & Lg & Hg).
  { intros d Hd. change (d < 1) in Hd. assert (d = 0) as -> by lia. eexists. apply g_value. }
  change (length gx) with 2 in *. destruct g as [|g0 [|g1 [|? ?]]]; try discriminate.
  exists g0, g1. split; [exact E|]. intros h Hh. destruct (Hg h Hh) as (s & Hs & Es).
  specialize (Hs 0 ltac:(cbv; lia)). change (n_chan (g_est gy)) with 1 in Es. simpl in Es.
  replace (g0 * smp h 0 + g1 * smp h 1)%R with (s 0) by (unfold smp in *; simpl in Es; lra). exact Hs.
Qed.

(** C78: with clamp_db the gradient is finite at every reference for which the call succeeds, orthogonal
    to the reference when its norm reaches 1e-6, and sums to zero with zero_mean. *)
Theorem C78_finite o est c x ys w E m0 D : wf est -> has_chans est ys -> use_cg_iter o = None -> 1 <= filter_length o ->
  (filter_length o = 1 -> length x = a_len est) ->
  moves E c (length x) ->
  pairwise_sdr_loss Torch o est (E x) = Ok m0 ->
  clamp_db o = Some D ->
  exists g, ref_grad Torch o est (length x) (map Fin x) w = Ok (map Fin g) /\ length g = length x /\
     ((norm_eps <= norm2 (pre (zero_mean o) x))%R -> Rsum (length x) (fun t => smp g t * smp x t)%R = 0%R) /\
     (zero_mean o = true -> Rsum (length x) (smp g) = 0%R).
Proof. exact (fun H1 H2 H3 H4 H5 H6 H7 => ref_clamped_finite Torch o est c x ys w E m0 H1 H2 H3 H4 H5 H6 H7 D). Qed.
Print Assumptions C78_finite.
Example C78_finite_example : exists g0 g1,
  ref_grad Torch (clamp_opts 1 30) (g_est gy) 2 (map Fin gx) (fun _ => 1%R) = Ok [Fin g0; Fin g1] /\ (g0 + g1 = 0)%R.
Proof.
  destruct (C78_finite (clamp_opts 1 30) (g_est gy) 0 gx (fun _ => gy) (fun _ => 1%R) g_est (g_lossc Torch 30 gy) 30
    r_est_wf r_est_chans eq_refl ltac:(cbv; lia) (fun _ => eq_refl) r_moves (g_okc Torch 30 gy eq_refl) eq_refl) as (g & E & Lg & Ho & _).
  change (length gx) with 2 in *. destruct g as [|g0 [|g1 [|? ?]]]; try discriminate.
  exists g0, g1. split; [exact E|]. specialize (Ho (Rlt_le _ _ gx_norm)). unfold smp, gx in Ho. simpl in Ho. lra.
Qed.

(** C78: without clamp_db, an infinite loss of the reference with any estimate turns its whole gradient
    into NaN, whatever the weights. *)
Theorem C78_infinite_loss_nan o est c d x ys w E m0 : wf est -> has_chans est ys -> use_cg_iter o = None -> 1 <= filter_length o ->
  (filter_length o = 1 -> length x = a_len est) ->
  moves E c (length x) ->
  pairwise_sdr_loss Torch o est (E x) = Ok m0 ->
  (0 <= loadv (load_diag o))%R -> clamp_db o = None ->
  d < n_chan est -> mat_of m0 c d = PInf \/ mat_of m0 c d = NInf ->
  ref_grad Torch o est (length x) (map Fin x) w = Ok (repeat NaN (length x)).
Proof. exact (fun H1 H2 H3 H4 H5 H6 H7 => ref_infinite_nan Torch o est c x ys w E m0 H1 H2 H3 H4 H5 H6 H7 d). Qed.
Print Assumptions C78_infinite_loss_nan.
Example C78_infinite_loss_nan_example :
  ref_grad Torch (plain_opts 1) (g_est gy) 2 (map Fin gx) (fun _ => 0%R) = Ok [NaN; NaN].
Proof.
  exact (C78_infinite_loss_nan (plain_opts 1) (g_est gy) 0 0 gx (fun _ => gy) (fun _ => 0%R) g_est (g_loss Torch 1 gy)
    r_est_wf r_est_chans eq_refl ltac:(cbv; lia) (fun _ => eq_refl) r_moves (g_ok Torch 1 gy ltac:(lia) eq_refl)
    (Rle_refl 0) eq_refl ltac:(cbv; lia) (or_introl (gy_value Torch))).
Qed.

(** C78: losses strictly beyond +- clamp_db contribute nothing; when all are, the gradient is 0. *)
Theorem C78_saturated o est c x ys w E m0 m1 D : wf est -> has_chans est ys -> use_cg_iter o = None -> 1 <= filter_length o ->
  (filter_length o = 1 -> length x = a_len est) ->
  moves E c (length x) ->
  pairwise_sdr_loss Torch o est (E x) = Ok m0 ->
  clamp_db o = Some D -> (0 <= D)%R ->
  pairwise_sdr_loss Torch (with_clamp o None) est (E x) = Ok m1 ->
  (forall d, d < n_chan est ->
     mat_of m1 c d = PInf \/ mat_of m1 c d = NInf \/ exists r, mat_of m1 c d = Fin r /\ (D < Rabs r)%R) ->
  ref_grad Torch o est (length x) (map Fin x) w = Ok (repeat (Fin 0) (length x)).
Proof. exact (fun H1 H2 H3 H4 H5 H6 H7 => ref_saturated_zero Torch o est c x ys w E m0 H1 H2 H3 H4 H5 H6 H7 m1 D). Qed.
Print Assumptions C78_saturated.
Example C78_saturated_example :
  ref_grad Torch (clamp_opts 1 30) (g_est gy) 2 (map Fin gx) (fun _ => 1%R) = Ok [Fin 0; Fin 0].
Proof.
  apply (C78_saturated (clamp_opts 1 30) (g_est gy) 0 gx (fun _ => gy) (fun _ => 1%R) g_est (g_lossc Torch 30 gy) (g_loss Torch 1 gy) 30
    r_est_wf r_est_chans eq_refl ltac:(cbv; lia) (fun _ => eq_refl) r_moves (g_okc Torch 30 gy eq_refl) eq_refl ltac:(lra)
    (g_ok Torch 1 gy ltac:(lia) eq_refl)).
  intros d Hd. change (d < 1) in Hd. assert (d = 0) as -> by lia. left. apply gy_value.
Qed.

(** C78: a silent reference (constant, with zero_mean) for which the call succeeds gets the gradient NaN
    without clamp_db and 0 with it. *)
Theorem C78_silent o est c x ys w E m0 : wf est -> has_chans est ys -> use_cg_iter o = None -> 1 <= filter_length o ->
  (filter_length o = 1 -> length x = a_len est) ->
  moves E c (length x) ->
  pairwise_sdr_loss Torch o est (E x) = Ok m0 ->
  silent (pre (zero_mean o) x) -> 0 < n_chan est ->
  ref_grad Torch o est (length x) (map Fin x) w =
    Ok (repeat (match clamp_db o with None => NaN | Some _ => Fin 0 end) (length x)).
Proof. exact (ref_silent Torch o est c x ys w E m0). Qed.
Print Assumptions C78_silent.
Example C78_silent_example :
  ref_grad Torch (plain_opts 1) (g_est gy) 2 [Fin 0; Fin 0] (fun _ => 1%R) = Ok [NaN; NaN].
Proof.
  exact (C78_silent (plain_opts 1) (g_est gy) 0 [0; 0]%R (fun _ => gy) (fun _ => 1%R) g_est r_loss0
    r_est_wf r_est_chans eq_refl ltac:(cbv; lia) (fun _ => eq_refl) r_moves r_ok0
    ltac:(intros [|[|[|t]]]; reflexivity) ltac:(cbv; lia)).
Qed.

(** C78: k times the reference gets 1/k times the gradient. *)
Theorem C78_scale o est x w g k : 0 < length x ->
  (0 < k)%R -> (norm_eps <= norm2 (pre (zero_mean o) x))%R -> (norm_eps <= k * norm2 (pre (zero_mean o) x))%R ->
  ref_grad Torch o est (length x) (map Fin x) w = Ok (map Fin g) ->
  ref_grad Torch o est (length x) (map Fin (map (Rmult k) x)) w = Ok (map Fin (map (Rmult (/ k)) g)).
Proof. exact (ref_gradient_scale Torch o est x w g k). Qed.
Print Assumptions C78_scale.
Example C78_scale_example : exists g0 g1,
  ref_grad Torch (plain_opts 2) (g_est gy) 2 (map Fin gx) (fun _ => 1%R) = Ok [Fin g0; Fin g1] /\
  ref_grad Torch (plain_opts 2) (g_est gy) 2 [Fin (3 * 1); Fin (3 * 1)] (fun _ => 1%R) = Ok [Fin (/ 3 * g0); Fin (/ 3 * g1)].
Proof.
  destruct C78_gradient_example as (g0 & g1 & E & _). exists g0, g1. split; [exact E|].
  exact (C78_scale (plain_opts 2) (g_est gy) gx (fun _ => 1%R) [g0; g1] 3 ltac:(cbv; lia) ltac:(lra) (Rlt_le _ _ gx_norm)
    ltac:(cbn [pre zero_mean plain_opts]; pose proof gx_norm; pose proof eps_pos; lra) E).
Qed.

(** C78: with one tap and equal lengths, references and estimates are interchangeable: a signal gets the
    same gradient as a reference against the estimates A and as an estimate against the references A. *)
Theorem C78_one_tap_symmetric o A y w : filter_length o = 1 -> length y = a_len A ->
  ref_grad Torch o A (length y) y w = est_grad Torch o A (length y) y w.
Proof. exact (fun H1 H2 => eq_sym (one_tap_swap Torch o A y w H1 H2)). Qed.
Print Assumptions C78_one_tap_symmetric.
Example C78_one_tap_symmetric_example :
  ref_grad Torch (plain_opts 1) g_ref 2 (map Fin gz) (fun _ => 1%R) = est_grad Torch (plain_opts 1) g_ref 2 (map Fin gz) (fun _ => 1%R).
Proof. exact (C78_one_tap_symmetric (plain_opts 1) g_ref (map Fin gz) (fun _ => 1%R) eq_refl eq_refl). Qed.
