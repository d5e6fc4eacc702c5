(** * Properties: the gradients of the torch losses with the conjugate gradient (C80) *)
From Coq Require Import Reals Lra.
From Verif Require Import Prelude ExtReal Sums SpecSig Helpers Metrics StatsProofs PrepProofs ProjTheorems MetricTheorems
  Invariance Witness Gradient Autograd AutogradTheorems AutogradCg AutogradCgProofs AutogradCgTheorems AutogradCgExamples.
Local Open Scope nat_scope.

(** C80: the backward pass through the iterations returns the derivative of the weighted losses that the
    truncated solver reports, in every direction, away from the kinks: those of C77, and a denominator of
    the iterations equal to 1e-6. *)
Theorem C80_gradient o it ref d y w E m m0 : wf ref -> use_cg_iter o = Some it -> filter_length o <> 1 ->
  (forall c, c < n_chan ref -> exists x, has_chan ref c x) ->
  family E d (length y) ->
  (forall v, length v = length y -> pairwise_sdr_loss Torch o (E v) ref = Ok (m v)) ->
  norm2 (pre (zero_mean o) y) <> norm_eps ->
  pairwise_sdr_loss Torch (with_clamp o None) (E y) ref = Ok m0 ->
  (forall c, c < n_chan ref ->
    match clamp_db o with
    | None => exists r, mat_of m0 c d = Fin r
    | Some D => (0 <= D)%R /\ mat_of m0 c d <> Fin D /\ mat_of m0 c d <> Fin (- D)
    end) ->
  cg_no_kink o ref y it ->
  exists g, est_grad_cg o ref (length y) (map Fin y) w = Ok (map Fin g) /\ length g = length y /\
    forall h, length h = length y -> exists s,
      (forall c, c < n_chan ref -> slope (fun v => mat_of (m v) c d) y h (s c)) /\
      Rsum (length y) (fun t => smp g t * smp h t)%R = Rsum (n_chan ref) (fun c => w c * s c)%R.
Proof. exact (fun Hw Hc Hn Hx => cg_gradient_is_derivative o it ref Hw Hc Hn Hx d y w E m m0). Qed.
Print Assumptions C80_gradient.
Example C80_gradient_example : exists g0 g1 g2,
  est_grad_cg (k_opts 1 None) k_ref 3 (map Fin ky) (fun _ => 1%R) = Ok [Fin g0; Fin g1; Fin g2] /\
  (forall h, length h = 3 -> slope (fun v => mat_of (k_loss 1 None v) 0 0) ky h (g0 * smp h 0 + g1 * smp h 1 + g2 * smp h 2)).
Proof.
  destruct (C80_gradient (k_opts 1 None) 1 k_ref 0 ky (fun _ => 1%R) k_est (k_loss 1 None) (k_loss 1 None ky) k_wf
    eq_refl ltac:(discriminate) k_chans k_family (k_ok 1 None) (Rgt_not_eq _ _ ky_norm) (k_ok 1 None ky eq_refl))
    as (g & E & Lg & Hg).
  { intros c Hc. change (c < 1) in Hc. assert (c = 0) as -> by lia. apply ky_loss. }
  { apply k_no_kink. lia. }
  change (length ky) with 3 in *. destruct g as [|g0 [|g1 [|g2 [|? ?]]]]; try discriminate.
  exists g0, g1, g2. split; [exact E|]. intros h Hh. destruct (Hg h Hh) as (s & Hs & Es).
  specialize (Hs 0 ltac:(cbv; lia)). change (n_chan k_ref) with 1 in Es. simpl in Es.
  replace (g0 * smp h 0 + g1 * smp h 1 + g2 * smp h 2)%R with (s 0) by (unfold smp in *; simpl in Es; lra). exact Hs.
Qed.

(** C80: when the iterations reach the solution for every reference (zero residual, denominators above 1e-6
    until then), the gradient is exactly that of the direct solver. *)
Theorem C80_converged o it ref est m y w : use_cg_iter o = Some it -> filter_length o <> 1 ->
  0 < length y -> a_len est = length y ->
  pairwise_sdr_loss Torch (with_cg o None) est ref = Ok m ->
  cg_all_reached o ref y it ->
  est_grad_cg o ref (length y) (map Fin y) w = est_grad Torch (with_cg o None) ref (length y) (map Fin y) w.
Proof. exact (fun Hc Hn => cg_gradient_direct o it ref Hc Hn est m y w). Qed.
Print Assumptions C80_converged.
Example C80_converged_example w :
  est_grad_cg (k_opts 5 (Some 30%R)) k_ref 3 (map Fin ky) w =
  est_grad Torch (clamp_opts 2 30) k_ref 3 (map Fin ky) w.
Proof.
  exact (C80_converged (k_opts 5 (Some 30%R)) 5 k_ref (k_est ky) (k_lossd ky) ky w eq_refl ltac:(discriminate)
    ltac:(cbv; lia) eq_refl (k_okd ky eq_refl) (k_reached 5 (Some 30%R) ltac:(lia))).
Qed.

(** C80: with clamp_db the gradient is finite at every estimate, also at the kinks, orthogonal to the
    estimate when its norm reaches 1e-6, and sums to zero with zero_mean. *)
Theorem C80_finite o it ref y w D : wf ref -> use_cg_iter o = Some it -> filter_length o <> 1 ->
  (forall c, c < n_chan ref -> exists x, has_chan ref c x) ->
  0 < length y -> clamp_db o = Some D ->
  exists g, est_grad_cg o ref (length y) (map Fin y) w = Ok (map Fin g) /\ length g = length y /\
     ((norm_eps <= norm2 (pre (zero_mean o) y))%R -> Rsum (length y) (fun t => smp g t * smp y t)%R = 0%R) /\
     (zero_mean o = true -> Rsum (length y) (smp g) = 0%R).
Proof. exact (fun Hw Hc Hn Hx => cg_clamped_finite o it ref Hw Hc Hn Hx y w D). Qed.
Print Assumptions C80_finite.
Example C80_finite_example : exists g0 g1 g2,
  est_grad_cg (k_opts 3 (Some 30%R)) k_ref 3 (map Fin ky) (fun _ => 1%R) = Ok [Fin g0; Fin g1; Fin g2] /\ (g0 + g1 + g2 = 0)%R.
Proof.
  destruct (C80_finite (k_opts 3 (Some 30%R)) 3 k_ref ky (fun _ => 1%R) 30 k_wf eq_refl ltac:(discriminate) k_chans
    ltac:(cbv; lia) eq_refl) as (g & E & Lg & Ho & _).
  change (length ky) with 3 in *. destruct g as [|g0 [|g1 [|g2 [|? ?]]]]; try discriminate.
  exists g0, g1, g2. split; [exact E|]. specialize (Ho (Rlt_le _ _ ky_norm)). unfold smp, ky in Ho. simpl in Ho. lra.
Qed.

(** C80: without clamp_db the gradient is NaN exactly when a coherence is 0 or 1.  Unlike with the direct
    solver (C77), an infinite loss may have a finite gradient: a coherence above 1. *)
Theorem C80_unclamped o it ref est m d y w : wf ref -> use_cg_iter o = Some it -> filter_length o <> 1 ->
  (forall c, c < n_chan ref -> exists x, has_chan ref c x) ->
  (0 <= loadv (load_diag o))%R -> clamp_db o = None ->
  wf est -> has_chan est d y -> sdr_coh Torch o ref est = Ok m ->
  (est_grad_cg o ref (length y) (map Fin y) w = Ok (repeat NaN (length y)) /\
     exists c, c < n_chan ref /\ (mat_of m c d = Fin 0 \/ mat_of m c d = Fin 1)) \/
  ((forall c, c < n_chan ref -> mat_of m c d <> Fin 0 /\ mat_of m c d <> Fin 1) /\
   exists g, est_grad_cg o ref (length y) (map Fin y) w = Ok (map Fin g) /\ length g = length y).
Proof. exact (fun Hw Hc Hn Hx => cg_unclamped o it ref Hw Hc Hn Hx est m d y w). Qed.
Print Assumptions C80_unclamped.
Example C80_unclamped_example :
  est_grad_cg (k_opts 1 None) k_ref 3 (map Fin kz) (fun _ => 0%R) = Ok [NaN; NaN; NaN].
Proof.
  destruct (C80_unclamped (k_opts 1 None) 1 k_ref (k_est kz) (k_coh 1 None kz) 0 kz (fun _ => 0%R) k_wf eq_refl ltac:(discriminate)
    k_chans (Rle_refl 0) eq_refl (proj1 (k_family kz eq_refl)) (proj2 (k_family kz eq_refl)) (k_coh_ok 1 None kz eq_refl))
    as [[H _]|[H _]]; [exact H|].
  exfalso. destruct (H 0 ltac:(cbv; lia)) as [H0 _]. apply H0. apply kz_coh.
Qed.

(** C80: losses strictly beyond +- clamp_db contribute nothing; when all are, the gradient is 0. *)
Theorem C80_saturated o it ref est m0 d y w D : wf ref -> use_cg_iter o = Some it -> filter_length o <> 1 ->
  (forall c, c < n_chan ref -> exists x, has_chan ref c x) ->
  clamp_db o = Some D -> (0 <= D)%R ->
  wf est -> has_chan est d y ->
  pairwise_sdr_loss Torch (with_clamp o None) est ref = Ok m0 ->
  (forall c, c < n_chan ref ->
     mat_of m0 c d = PInf \/ mat_of m0 c d = NInf \/ exists r, mat_of m0 c d = Fin r /\ (D < Rabs r)%R) ->
  est_grad_cg o ref (length y) (map Fin y) w = Ok (repeat (Fin 0) (length y)).
Proof. exact (fun Hw Hc Hn Hx => cg_saturated o it ref Hw Hc Hn Hx est m0 d y w D). Qed.
Print Assumptions C80_saturated.
Example C80_saturated_example :
  est_grad_cg (k_opts 1 (Some 30%R)) k_ref 3 (map Fin kz) (fun _ => 1%R) = Ok [Fin 0; Fin 0; Fin 0].
Proof.
  apply (C80_saturated (k_opts 1 (Some 30%R)) 1 k_ref (k_est kz) (k_loss 1 None kz) 0 kz (fun _ => 1%R) 30 k_wf eq_refl
    ltac:(discriminate) k_chans eq_refl ltac:(lra) (proj1 (k_family kz eq_refl)) (proj2 (k_family kz eq_refl)) (k_ok 1 None kz eq_refl)).
  intros c Hc. change (c < 1) in Hc. assert (c = 0) as -> by lia. left. apply kz_loss.
Qed.

(** C80: an estimate that is silent (constant, with zero_mean) gets the gradient NaN without clamp_db and
    0 with it. *)
Theorem C80_silent o it ref y w : wf ref -> use_cg_iter o = Some it -> filter_length o <> 1 ->
  (forall c, c < n_chan ref -> exists x, has_chan ref c x) ->
  0 < length y -> 0 < n_chan ref -> silent (pre (zero_mean o) y) ->
  est_grad_cg o ref (length y) (map Fin y) w =
    Ok (repeat (match clamp_db o with None => NaN | Some _ => Fin 0 end) (length y)).
Proof. exact (fun Hw Hc Hn Hx => cg_silent o it ref Hw Hc Hn Hx y w). Qed.
Print Assumptions C80_silent.
Example C80_silent_example :
  est_grad_cg (k_opts 7 None) k_ref 3 [Fin 0; Fin 0; Fin 0] (fun _ => 1%R) = Ok [NaN; NaN; NaN].
Proof.
  exact (C80_silent (k_opts 7 None) 7 k_ref [0; 0; 0]%R (fun _ => 1%R) k_wf eq_refl ltac:(discriminate) k_chans
    ltac:(cbv; lia) ltac:(cbv; lia) ltac:(intros [|[|[|[|t]]]]; reflexivity)).
Qed.

(** C80: k times the estimate gets 1/k times the gradient. *)
Theorem C80_scale o ref y w g k : 0 < length y ->
  (0 < k)%R -> (norm_eps <= norm2 (pre (zero_mean o) y))%R -> (norm_eps <= k * norm2 (pre (zero_mean o) y))%R ->
  est_grad_cg o ref (length y) (map Fin y) w = Ok (map Fin g) ->
  est_grad_cg o ref (length y) (map Fin (map (Rmult k) y)) w = Ok (map Fin (map (Rmult (/ k)) g)).
Proof. exact (cg_gradient_scale o ref y w g k). Qed.
Print Assumptions C80_scale.
Example C80_scale_example : exists g0 g1 g2,
  est_grad_cg (k_opts 1 None) k_ref 3 (map Fin ky) (fun _ => 1%R) = Ok [Fin g0; Fin g1; Fin g2] /\
  est_grad_cg (k_opts 1 None) k_ref 3 (map Fin (map (Rmult 3) ky)) (fun _ => 1%R) = Ok [Fin (/ 3 * g0); Fin (/ 3 * g1); Fin (/ 3 * g2)].
Proof.
  destruct C80_gradient_example as (g0 & g1 & g2 & E & _). exists g0, g1, g2. split; [exact E|].
  exact (C80_scale (k_opts 1 None) k_ref ky (fun _ => 1%R) [g0; g1; g2] 3 ltac:(cbv; lia) ltac:(lra) (Rlt_le _ _ ky_norm)
    ltac:(cbn [pre zero_mean k_opts with_clamp with_cg plain_opts]; pose proof ky_norm; pose proof PrepProofs.eps_pos; lra) E).
Qed.
