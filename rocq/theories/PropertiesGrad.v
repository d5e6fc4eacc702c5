(** * Properties: derivative of the loss (C62) *)
From Coq Require Import Reals Lra.
From Verif Require Import Prelude ExtReal Sums SpecSig Helpers Metrics PrepProofs ProjTheorems Witness Gradient GradientExamples.
Local Open Scope nat_scope.

(** C62: directional derivative at y in direction h, with p the projection of the estimate
    on the delayed references. *)
Theorem C62_derivative b o ref c d x y M p E m h : wf ref ->
  use_cg_iter o = None -> load_diag o = None -> clamp_db o = None ->
  1 <= filter_length o <= Nat.max (a_len ref) (length y) ->
  (filter_length o = 1 ->
     a_len ref = length y /\ (norm_eps <= norm2 (pre (zero_mean o) x))%R) ->
  has_chan ref c x -> a_len ref + filter_length o - 1 <= M -> length y <= M ->
  is_projection (filter_length o) M (delays (pre (zero_mean o) x)) (smp (pre (zero_mean o) y)) p ->
  family E d (length y) ->
  (forall v, length v = length y -> pairwise_sdr_loss b o (E v) ref = Ok (m v)) ->
  length h = length y -> (norm_eps < norm2 (pre (zero_mean o) y))%R ->
  let r := (fun t => smp (pre (zero_mean o) y) t - p t)%R in
  let hh := smp (pre (zero_mean o) h) in
  (0 < energy M r)%R -> (0 < energy M p)%R ->
  slope (fun v => mat_of (m v) c d) y h
    (20 / ln 10 * (dot M r hh / energy M r - dot M p hh / energy M p)).
Proof.
  exact (fun Wr Hcg Hld Hcl HL HL1 Hx HM HM' Hp HE Hm =>
    gradient b o ref c d x y M p E m Wr Hcg Hld Hcl HL HL1 Hx HM HM' Hp HE Hm h).
Qed.
Print Assumptions C62_derivative.
Example C62_derivative_example b :
  slope (fun v => mat_of (g_loss b 1 v) 0 0) gz [1; 0]%R 0 /\
  slope (fun v => mat_of (g_loss b 1 v) 0 0) gz [0; 1]%R (- (20 / ln 10)).
Proof.
  pose proof DbProofs.ln10_pos as L10.
  assert (G : forall h, length h = 2 -> _) by
    exact (fun h Hh => C62_derivative b (plain_opts 1) g_ref 0 0 gx gz 2 (smp gx) g_est (g_loss b 1) h g_ref_wf
      eq_refl eq_refl eq_refl ltac:(simpl; lia) (fun _ => conj eq_refl (Rlt_le _ _ gx_norm)) g_ref_chan
      ltac:(simpl; lia) ltac:(simpl; lia) gz_proj g_family (fun v => g_ok b 1 v ltac:(lia)) Hh gz_norm
      ltac:(unfold energy, dot, gx, gz, smp; simpl; lra) ltac:(unfold energy, dot, gx, gz, smp; simpl; lra)).
  split.
  - specialize (G [1; 0]%R eq_refl). revert G. unfold energy, dot, smp, gz, gx. simpl.
    match goal with |- slope _ _ _ ?l -> slope _ _ _ ?k => replace l with k; auto end. field. lra.
  - specialize (G [0; 1]%R eq_refl). revert G. unfold energy, dot, smp, gz, gx. simpl.
    match goal with |- slope _ _ _ ?l -> slope _ _ _ ?k => replace l with k; auto end. field. lra.
Qed.

(** C62: with a single tap no point is stationary. *)
Theorem C62_one_tap_never_flat b o ref c d x y M p E m : wf ref ->
  use_cg_iter o = None -> load_diag o = None -> clamp_db o = None ->
  filter_length o = 1 ->
  a_len ref = length y -> (norm_eps <= norm2 (pre (zero_mean o) x))%R ->
  has_chan ref c x -> length y <= M ->
  is_projection 1 M (delays (pre (zero_mean o) x)) (smp (pre (zero_mean o) y)) p ->
  family E d (length y) ->
  (forall v, length v = length y -> pairwise_sdr_loss b o (E v) ref = Ok (m v)) ->
  (norm_eps < norm2 (pre (zero_mean o) y))%R ->
  (0 < energy M (fun t => smp (pre (zero_mean o) y) t - p t))%R -> (0 < energy M p)%R ->
  ~ flat (fun v => mat_of (m v) c d) y.
Proof. exact (one_tap_never_flat b o ref c d x y M p E m). Qed.
Print Assumptions C62_one_tap_never_flat.
Example C62_one_tap_never_flat_example b : ~ flat (fun v => mat_of (g_loss b 1 v) 0 0) gz.
Proof.
  exact (C62_one_tap_never_flat b (plain_opts 1) g_ref 0 0 gx gz 2 (smp gx) g_est (g_loss b 1) g_ref_wf
      eq_refl eq_refl eq_refl eq_refl eq_refl (Rlt_le _ _ gx_norm) g_ref_chan
      ltac:(simpl; lia) gz_proj g_family (fun v => g_ok b 1 v ltac:(lia)) gz_norm
      ltac:(unfold energy, dot, gx, gz, smp; simpl; lra) ltac:(unfold energy, dot, gx, gz, smp; simpl; lra)).
Qed.

(** C62: stationary points in general (no centering). *)
Theorem C62_flat_iff b o ref c d x y M p E m : wf ref ->
  use_cg_iter o = None -> load_diag o = None -> clamp_db o = None -> zero_mean o = false ->
  1 <= filter_length o <= Nat.max (a_len ref) (length y) ->
  (filter_length o = 1 -> a_len ref = length y /\ (norm_eps <= norm2 x)%R) ->
  has_chan ref c x -> a_len ref + filter_length o - 1 <= M -> length y <= M ->
  is_projection (filter_length o) M (delays x) (smp y) p ->
  family E d (length y) ->
  (forall v, length v = length y -> pairwise_sdr_loss b o (E v) ref = Ok (m v)) ->
  (norm_eps < norm2 y)%R ->
  (0 < energy M (fun t => smp y t - p t))%R -> (0 < energy M p)%R ->
  flat (fun v => mat_of (m v) c d) y <->
  (forall t, t < length y -> (energy M (smp y) * p t = energy M p * smp y t)%R).
Proof. exact (flat_iff_plain b o ref c d x y M p E m). Qed.
Print Assumptions C62_flat_iff.
Example C62_flat_iff_example b : flat (fun v => mat_of (g_loss b 2 v) 0 0) gy.
Proof. exact (g_flat b). Qed.

(** C62: with more than one tap a vanishing gradient does not mean a good estimate. *)
Theorem C62_flat_is_perfect_refuted b : exists ref E m y, wf ref /\ family E 0 (length y) /\
  (forall v, length v = length y -> pairwise_sdr_loss b (plain_opts 2) (E v) ref = Ok (m v)) /\
  flat (fun v => mat_of (m v) 0 0) y /\ mat_of (m y) 0 0 = Fin (10 * log10 2).
Proof.
  exact (ex_intro _ g_ref (ex_intro _ g_est (ex_intro _ (g_loss b 2) (ex_intro _ gy
    (conj g_ref_wf (conj g_family (conj (fun v => g_ok b 2 v g_two) (conj (g_flat b) (g_value b))))))))).
Qed.
Print Assumptions C62_flat_is_perfect_refuted.

(** C62: no local minimum: adding any amount of the reference, with the sign of the
    correlation, strictly improves the loss. *)
Theorem C62_no_local_minimum b o ref c d x y M p E m t : wf ref ->
  use_cg_iter o = None -> load_diag o = None -> clamp_db o = None ->
  1 <= filter_length o <= length y -> length x = length y -> 
  (filter_length o = 1 -> (norm_eps <= norm2 (pre (zero_mean o) x))%R) ->
  has_chan ref c x -> length y + filter_length o - 1 <= M ->
  is_projection (filter_length o) M (delays (pre (zero_mean o) x)) (smp (pre (zero_mean o) y)) p ->
  family E d (length y) ->
  (forall v, length v = length y -> pairwise_sdr_loss b o (E v) ref = Ok (m v)) ->
  (norm_eps <= norm2 (pre (zero_mean o) y))%R -> (0 < norm2 (pre (zero_mean o) x))%R ->
  (0 < energy M (fun t => smp (pre (zero_mean o) y) t - p t))%R -> (0 < energy M p)%R ->
  t <> 0%R -> (0 <= t * dot M (smp (pre (zero_mean o) y)) (smp (pre (zero_mean o) x)))%R ->
  exists u v, mat_of (m y) c d = Fin u /\ mat_of (m (ray y x t)) c d = Fin v /\ (v < u)%R.
Proof. exact (no_local_minimum b o ref c d x y M p E m t). Qed.
Print Assumptions C62_no_local_minimum.
(** the flat point (1, -1) is not a minimum *)
Example C62_no_local_minimum_example b t : t <> 0%R ->
  exists u v, mat_of (g_loss b 2 gy) 0 0 = Fin u /\ mat_of (g_loss b 2 (ray gy gx t)) 0 0 = Fin v /\ (v < u)%R.
Proof.
  intros Ht.
  exact (C62_no_local_minimum b (plain_opts 2) g_ref 0 0 gx gy 3 gp g_est (g_loss b 2) t g_ref_wf
      eq_refl eq_refl eq_refl ltac:(simpl; lia) eq_refl ltac:(simpl; lia) g_ref_chan ltac:(simpl; lia)
      g_proj g_family (fun v => g_ok b 2 v g_two) (Rlt_le _ _ g_norm)
      (Rlt_trans _ _ _ eps_pos gx_norm)
      ltac:(cbn [pre zero_mean plain_opts]; rewrite g_energy_r; lra) ltac:(rewrite g_energy_p; lra) Ht
      ltac:(unfold dot, gx, gy, smp; simpl; lra)).
Qed.
