(** * Properties: the gradients of the torch losses (C77) *)
From Coq Require Import Reals Lra.
From Verif Require Import Prelude ExtReal Sums SpecSig Helpers Metrics StatsProofs PrepProofs ProjTheorems MetricTheorems
  Invariance Witness Gradient GradientExamples Autograd AutogradTheorems AutogradExamples.
Local Open Scope nat_scope.

(** C77: the backward pass returns the derivative of the weighted losses, in every direction, away from
    the kinks: the norm 1e-6 of [_normalize] and losses equal to +- clamp_db. *)
Theorem C77_gradient o ref d y w E m m0 : wf ref -> use_cg_iter o = None ->
  (filter_length o = 1 -> a_len ref = length y) ->
  (forall c, c < n_chan ref -> exists x, has_chan ref c x) ->
  family E d (length y) ->
  (forall v, length v = length y -> pairwise_sdr_loss Torch o (E v) ref = Ok (m v)) ->
  norm2 (pre (zero_mean o) y) <> norm_eps ->
  pairwise_sdr_loss Torch (with_clamp o None) (E y) ref = Ok m0 ->
  (forall c, c < n_chan ref ->
    match clamp_db o with
    | None => exists r, mat_of m0 c d = Fin r
    | Some D => (0 <= D)%R /\ mat_of m0 c d <> Fin D /\ mat_of m0 c d <> Fin (- D)
    end) ->
  exists g, est_grad Torch o ref (length y) (map Fin y) w = Ok (map Fin g) /\ length g = length y /\
    forall h, length h = length y -> exists s,
      (forall c, c < n_chan ref -> slope (fun v => mat_of (m v) c d) y h (s c)) /\
      Rsum (length y) (fun t => smp g t * smp h t)%R = Rsum (n_chan ref) (fun c => w c * s c)%R.
Proof. exact (gradient_is_derivative Torch o ref d y w E m m0). Qed.
Print Assumptions C77_gradient.
Example C77_gradient_example : exists g0 g1,
  est_grad Torch (plain_opts 1) g_ref 2 (map Fin gz) (fun _ => 1%R) = Ok [Fin g0; Fin g1] /\
  (forall h, length h = 2 -> slope (fun v => mat_of (g_loss Torch 1 v) 0 0) gz h (g0 * smp h 0 + g1 * smp h 1)).
Proof.
  destruct (C77_gradient (plain_opts 1) g_ref 0 gz (fun _ => 1%R) g_est (g_loss Torch 1) (g_loss Torch 1 gz) g_ref_wf
    eq_refl (fun _ => eq_refl) g_chans g_family (fun v => g_ok Torch 1 v ltac:(lia)) (Rgt_not_eq _ _ gz_norm)
    (g_ok Torch 1 gz ltac:(lia) eq_refl)) as (g & E & Lg & Hg).
  { intros c Hc. change (c < 1) in Hc. assert (c = 0) as -> by lia. exists 0%R. apply gz_value. }
  change (length gz) with 2 in *. destruct g as [|g0 [|g1 [|? ?]]]; try discriminate.
  exists g0, g1. split; [exact E|]. intros h Hh. destruct (Hg h Hh) as (s & Hs & Es).
  specialize (Hs 0 ltac:(cbv; lia)). change (n_chan g_ref) with 1 in Es. simpl in Es.
  replace (g0 * smp h 0 + g1 * smp h 1)%R with (s 0) by (unfold smp in *; simpl in Es; lra). exact Hs.
Qed.

(** C77: with clamp_db the gradient is finite at every estimate, orthogonal to the estimate when its
    norm reaches 1e-6, and sums to zero with zero_mean. *)
Theorem C77_finite o ref d y w E m D : wf ref -> use_cg_iter o = None ->
  (filter_length o = 1 -> a_len ref = length y) ->
  (forall c, c < n_chan ref -> exists x, has_chan ref c x) ->
  family E d (length y) ->
  (forall v, length v = length y -> pairwise_sdr_loss Torch o (E v) ref = Ok (m v)) ->
  clamp_db o = Some D ->
  exists g, est_grad Torch o ref (length y) (map Fin y) w = Ok (map Fin g) /\ length g = length y /\
     ((norm_eps <= norm2 (pre (zero_mean o) y))%R -> Rsum (length y) (fun t => smp g t * smp y t)%R = 0%R) /\
     (zero_mean o = true -> Rsum (length y) (smp g) = 0%R).
Proof. exact (clamped_gradient_finite Torch o ref d y w E m D). Qed.
Print Assumptions C77_finite.
Example C77_finite_example : exists g0 g1,
  est_grad Torch (clamp_opts 1 30) g_ref 2 (map Fin gz) (fun _ => 1%R) = Ok [Fin g0; Fin g1] /\ (g0 * 2 + g1 * 0 = 0)%R.
Proof.
  destruct (C77_finite (clamp_opts 1 30) g_ref 0 gz (fun _ => 1%R) g_est (g_lossc Torch 30) 30 g_ref_wf eq_refl
    (fun _ => eq_refl) g_chans g_family (g_okc Torch 30) eq_refl) as (g & E & Lg & Ho & _).
  change (length gz) with 2 in *. destruct g as [|g0 [|g1 [|? ?]]]; try discriminate.
  exists g0, g1. split; [exact E|]. specialize (Ho (Rlt_le _ _ gz_norm)). unfold smp, gz in Ho. simpl in Ho. lra.
Qed.

(** C77: without clamp_db, an infinite loss with any reference turns the whole gradient of the estimate
    into NaN, whatever the weights: also when the weight of that loss is 0, e.g. the pair is not the one
    selected by sdr_pit_loss. *)
Theorem C77_infinite_loss_nan o ref c d y w E m : wf ref -> use_cg_iter o = None -> (0 <= loadv (load_diag o))%R ->
  clamp_db o = None ->
  (filter_length o = 1 -> a_len ref = length y) ->
  (forall c, c < n_chan ref -> exists x, has_chan ref c x) ->
  family E d (length y) ->
  (forall v, length v = length y -> pairwise_sdr_loss Torch o (E v) ref = Ok (m v)) ->
  c < n_chan ref -> mat_of (m y) c d = PInf \/ mat_of (m y) c d = NInf ->
  est_grad Torch o ref (length y) (map Fin y) w = Ok (repeat NaN (length y)).
Proof. exact (infinite_loss_nan Torch o ref c d y w E m). Qed.
Print Assumptions C77_infinite_loss_nan.
Example C77_infinite_loss_nan_example :
  est_grad Torch (plain_opts 1) g_ref 2 (map Fin gy) (fun _ => 0%R) = Ok [NaN; NaN].
Proof.
  exact (C77_infinite_loss_nan (plain_opts 1) g_ref 0 0 gy (fun _ => 0%R) g_est (g_loss Torch 1) g_ref_wf eq_refl
    (Rle_refl 0) eq_refl (fun _ => eq_refl) g_chans g_family (fun v => g_ok Torch 1 v ltac:(lia)) ltac:(cbv; lia)
    (or_introl (gy_value Torch))).
Qed.

(** C77: an estimate that is silent (constant, with zero_mean) gets the gradient NaN without clamp_db and
    0 with it. *)
Theorem C77_silent o ref d y w E m : wf ref -> use_cg_iter o = None ->
  (filter_length o = 1 -> a_len ref = length y) ->
  (forall c, c < n_chan ref -> exists x, has_chan ref c x) ->
  family E d (length y) ->
  (forall v, length v = length y -> pairwise_sdr_loss Torch o (E v) ref = Ok (m v)) ->
  0 < n_chan ref -> silent (pre (zero_mean o) y) ->
  est_grad Torch o ref (length y) (map Fin y) w =
    Ok (repeat (match clamp_db o with None => NaN | Some _ => Fin 0 end) (length y)).
Proof. exact (silent_gradient Torch o ref d y w E m). Qed.
Print Assumptions C77_silent.
Example C77_silent_example :
  est_grad Torch (plain_opts 2) g_ref 2 [Fin 0; Fin 0] (fun _ => 1%R) = Ok [NaN; NaN].
Proof.
  exact (C77_silent (plain_opts 2) g_ref 0 [0; 0]%R (fun _ => 1%R) g_est (g_loss Torch 2) g_ref_wf eq_refl
    ltac:(discriminate) g_chans g_family (fun v => g_ok Torch 2 v ltac:(lia)) ltac:(cbv; lia)
    ltac:(intros [|[|[|t]]]; reflexivity)).
Qed.

(** C77: losses strictly beyond +- clamp_db contribute nothing; when all are, the gradient is 0. *)
Theorem C77_saturated o ref d y w E m m0 D : wf ref -> use_cg_iter o = None ->
  (filter_length o = 1 -> a_len ref = length y) ->
  (forall c, c < n_chan ref -> exists x, has_chan ref c x) ->
  family E d (length y) ->
  (forall v, length v = length y -> pairwise_sdr_loss Torch o (E v) ref = Ok (m v)) ->
  clamp_db o = Some D -> (0 <= D)%R ->
  pairwise_sdr_loss Torch (with_clamp o None) (E y) ref = Ok m0 ->
  (forall c, c < n_chan ref ->
     mat_of m0 c d = PInf \/ mat_of m0 c d = NInf \/ exists r, mat_of m0 c d = Fin r /\ (D < Rabs r)%R) ->
  est_grad Torch o ref (length y) (map Fin y) w = Ok (repeat (Fin 0) (length y)).
Proof. exact (saturated_gradient_zero Torch o ref d y w E m m0 D). Qed.
Print Assumptions C77_saturated.
Example C77_saturated_example :
  est_grad Torch (clamp_opts 1 30) g_ref 2 (map Fin gy) (fun _ => 1%R) = Ok [Fin 0; Fin 0].
Proof.
  apply (C77_saturated (clamp_opts 1 30) g_ref 0 gy (fun _ => 1%R) g_est (g_lossc Torch 30) (g_loss Torch 1 gy) 30 g_ref_wf
    eq_refl (fun _ => eq_refl) g_chans g_family (g_okc Torch 30) eq_refl ltac:(lra) (g_ok Torch 1 gy ltac:(lia) eq_refl)).
  intros c Hc. change (c < 1) in Hc. assert (c = 0) as -> by lia. left. apply gy_value.
Qed.

(** C77: k times the estimate gets 1/k times the gradient: quiet estimates get large gradients. *)
Theorem C77_scale o ref y w g k : 0 < length y ->
  (0 < k)%R -> (norm_eps <= norm2 (pre (zero_mean o) y))%R -> (norm_eps <= k * norm2 (pre (zero_mean o) y))%R ->
  est_grad Torch o ref (length y) (map Fin y) w = Ok (map Fin g) ->
  est_grad Torch o ref (length y) (map Fin (map (Rmult k) y)) w = Ok (map Fin (map (Rmult (/ k)) g)).
Proof. exact (gradient_scale Torch o ref y w g k). Qed.
Print Assumptions C77_scale.
Example C77_scale_example : exists g0 g1,
  est_grad Torch (plain_opts 1) g_ref 2 (map Fin gz) (fun _ => 1%R) = Ok [Fin g0; Fin g1] /\
  est_grad Torch (plain_opts 1) g_ref 2 [Fin (3 * 2); Fin (3 * 0)] (fun _ => 1%R) = Ok [Fin (/ 3 * g0); Fin (/ 3 * g1)].
Proof.
  destruct C77_gradient_example as (g0 & g1 & E & _). exists g0, g1. split; [exact E|].
  exact (C77_scale (plain_opts 1) g_ref gz (fun _ => 1%R) [g0; g1] 3 ltac:(cbv; lia) ltac:(lra) (Rlt_le _ _ gz_norm)
    ltac:(cbn [pre zero_mean plain_opts]; pose proof gz_norm; pose proof eps_pos; lra) E).
Qed.
