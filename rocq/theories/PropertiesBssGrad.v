(** * Properties: the gradient of bss_eval_sources (C83) *)
From Coq Require Import Reals Lra.
From Verif Require Import Prelude ExtReal Sums Spec SpecSig Helpers Metrics StatsProofs PrepProofs DbProofs ProjTheorems MetricTheorems
  Edge Diag Witness Gradient Autograd AutogradPit AutogradPitProofs AutogradPitTheorems AutogradPitExamples AutogradBss AutogradBssTheorems
  AutogradBssExamples.
Local Open Scope nat_scope.

(** C83: the backward pass through SDR, SIR, SAR and the selection of the permutation (by the SIR) returns the derivative
    of the weighted outputs with respect to all the estimates, in every direction, away from the kinks (norm at the floor,
    clamping edges, infinite values, ties). The outputs without weight ([None]) do not have to be differentiable; the SIR
    has to be in any case since the permutation is chosen with it. *)
Theorem C83_gradient sp o ref T K ys c0 vs vi va sdrs sirs sars perm : lsa_contract sp -> wf ref -> 0 < T -> shaped K T ys ->
  use_cg_iter o = None -> 0 < filter_length o -> (filter_length o = 1 -> a_len ref = T) ->
  (forall c, c < n_chan ref -> exists x, has_chan ref c x) ->
  sq_cos Torch o ref (arr_of T ys) = Ok c0 -> clamp_pos o ->
  (forall d, d < K -> norm2 (pre (zero_mean o) (nth d ys [])) <> norm_eps) ->
  (forall c d, c < n_chan ref -> d < K ->
    (vs <> None -> db_smooth (clamp_db o) (fst (fst (unclamped o c0 c d)))) /\
    db_smooth (clamp_db o) (snd (fst (unclamped o c0 c d))) /\ snd (unclamped o c0 c d) <> PInf /\
    (va <> None -> db_smooth (clamp_db o) (snd (unclamped o c0 c d)))) ->
  bss_eval_sources Torch sp o ref (arr_of T ys) = Ok (sdrs, sirs, sars, perm) ->
  (forall l, complete_assignment (n_chan ref) K l ->
     (total_cost (fun c d => to_R (snd (fst (bss_mats o c0)) c d)) l <=
      total_cost (fun c d => to_R (snd (fst (bss_mats o c0)) c d)) (matching (n_chan ref) K perm))%R ->
     incl l (matching (n_chan ref) K perm)) ->
  exists G, bss_grad sp o ref (arr_of T ys) vs vi va = Ok (map (map Fin) G) /\ shaped K T G /\
    forall hs, shaped K T hs -> exists (fs fi fa : nat -> R -> R) (ss si sa : nat -> R) e, (0 < e)%R /\
      (forall t, (Rabs t < e)%R -> exists sdrs' sirs' sars',
         bss_eval_sources Torch sp o ref (arr_of T (rays ys hs t)) = Ok (sdrs', sirs', sars', perm) /\
         forall k, k < Nat.min (n_chan ref) K -> (vs <> None -> nth k sdrs' NaN = Fin (fs k t)) /\
           nth k sirs' NaN = Fin (fi k t) /\ (va <> None -> nth k sars' NaN = Fin (fa k t))) /\
      (forall k, k < Nat.min (n_chan ref) K -> (vs <> None -> derivable_pt_lim (fs k) 0 (ss k)) /\
         derivable_pt_lim (fi k) 0 (si k) /\ (va <> None -> derivable_pt_lim (fa k) 0 (sa k))) /\
      Rsum K (fun d => Rsum T (fun t => smp (nth d G []) t * smp (nth d hs []) t))%R =
      Rsum (Nat.min (n_chan ref) K) (fun k => weight vs k * ss k + weight vi k * si k + weight va k * sa k)%R.
Proof. exact (bss_gradient sp o ref T K ys c0 vs vi va sdrs sirs sars perm). Qed.
Print Assumptions C83_gradient.
Example C83_gradient_example sp vs vi va : lsa_contract sp -> exists G perm,
  bss_grad sp q_opts q_ref (arr_of 3 q_bss) (Some vs) (Some vi) (Some va) = Ok (map (map Fin) G) /\ shaped 2 3 G /\
  forall hs, shaped 2 3 hs -> exists (fs fi fa : nat -> R -> R) (ss si sa : nat -> R) e, (0 < e)%R /\
    (forall t, (Rabs t < e)%R -> exists sdrs sirs sars,
       bss_eval_sources Torch sp q_opts q_ref (arr_of 3 (rays q_bss hs t)) = Ok (sdrs, sirs, sars, perm) /\
       forall k, k < 2 -> nth k sdrs NaN = Fin (fs k t) /\ nth k sirs NaN = Fin (fi k t) /\ nth k sars NaN = Fin (fa k t)) /\
    (forall k, k < 2 -> derivable_pt_lim (fs k) 0 (ss k) /\ derivable_pt_lim (fi k) 0 (si k) /\ derivable_pt_lim (fa k) 0 (sa k)) /\
    Rsum 2 (fun d => Rsum 3 (fun t => smp (nth d G []) t * smp (nth d hs []) t))%R =
    Rsum 2 (fun k => vs k * ss k + vi k * si k + va k * sa k)%R.
Proof.
  intros Hsp. destruct (q_bss_eval sp Hsp) as (c0 & sdrs & sirs & sars & perm & Hc0 & V & E & U).
  destruct (C83_gradient sp q_opts q_ref 3 2 q_bss c0 (Some vs) (Some vi) (Some va) sdrs sirs sars perm Hsp q_wf ltac:(lia)
    (q_est_shape 2 1 1 1 2 1) eq_refl ltac:(cbv; lia) (fun _ => eq_refl) q_chans Hc0 I) as (G & EG & SG & HG).
  - intros d Hd. apply Rgt_not_eq. destruct d as [|[|d]]; try lia; apply q_norm; lra.
  - intros c d Hc Hd. rewrite V by auto. simpl. repeat split; try discriminate; intros; eexists; reflexivity.
  - exact E.
  - exact U.
  - exists G, perm. split; auto. split; auto. intros hs Hhs.
    destruct (HG hs Hhs) as (fs & fi & fa & ss & si & sa & e & He & H1 & H2 & H3). exists fs, fi, fa, ss, si, sa, e.
    split; auto. split; [|split].
    + intros t Ht. destruct (H1 t Ht) as (A & B & C & EE & HH). exists A, B, C. split; auto. intros k Hk.
      destruct (HH k Hk) as (P & Q & W). split; [apply P; discriminate|]. split; [exact Q|apply W; discriminate].
    + intros k Hk. destruct (H2 k Hk) as (P & Q & W). split; [apply P; discriminate|]. split; [exact Q|apply W; discriminate].
    + exact H3.
Qed.

(** C83: the same without permutation (compute_permutation = False); then only the outputs that carry a weight have to
    be differentiable. *)
Theorem C83_noperm o ref T K ys c0 vs vi va : wf ref -> 0 < T -> shaped K T ys -> n_chan ref = K ->
  use_cg_iter o = None -> 0 < filter_length o -> (filter_length o = 1 -> a_len ref = T) ->
  (forall c, c < n_chan ref -> exists x, has_chan ref c x) ->
  sq_cos Torch o ref (arr_of T ys) = Ok c0 -> clamp_pos o ->
  (forall d, d < K -> norm2 (pre (zero_mean o) (nth d ys [])) <> norm_eps) ->
  (forall d, d < K ->
    (vs <> None -> db_smooth (clamp_db o) (fst (fst (unclamped o c0 d d)))) /\
    (vi <> None -> db_smooth (clamp_db o) (snd (fst (unclamped o c0 d d))) /\ snd (unclamped o c0 d d) <> PInf) /\
    (va <> None -> db_smooth (clamp_db o) (snd (unclamped o c0 d d)))) ->
  exists G, bss_noperm_grad o ref (arr_of T ys) vs vi va = Ok (map (map Fin) G) /\ shaped K T G /\
    forall hs, shaped K T hs -> exists (fs fi fa : nat -> R -> R) (ss si sa : nat -> R) e, (0 < e)%R /\
      (forall t, (Rabs t < e)%R -> exists sdrs sirs sars,
         bss_eval_sources_noperm Torch o ref (arr_of T (rays ys hs t)) = Ok (sdrs, sirs, sars) /\
         forall k, k < K -> (vs <> None -> nth k sdrs NaN = Fin (fs k t)) /\
           (vi <> None -> nth k sirs NaN = Fin (fi k t)) /\ (va <> None -> nth k sars NaN = Fin (fa k t))) /\
      (forall k, k < K -> (vs <> None -> derivable_pt_lim (fs k) 0 (ss k)) /\
         (vi <> None -> derivable_pt_lim (fi k) 0 (si k)) /\ (va <> None -> derivable_pt_lim (fa k) 0 (sa k))) /\
      Rsum K (fun d => Rsum T (fun t => smp (nth d G []) t * smp (nth d hs []) t))%R =
      Rsum K (fun k => weight vs k * ss k + weight vi k * si k + weight va k * sa k)%R.
Proof. exact (bss_noperm_gradient o ref T K ys c0 vs vi va). Qed.
Print Assumptions C83_noperm.
(** (2, 0, 1) and (0, 2, 1): the SIR is infinite, the SDR and the SAR have a gradient *)
Example C83_noperm_example vs va : exists G,
  bss_noperm_grad q_opts q_ref (arr_of 3 q_bss1) (Some vs) None (Some va) = Ok (map (map Fin) G) /\ shaped 2 3 G /\
  forall hs, shaped 2 3 hs -> exists (fs fa : nat -> R -> R) (ss sa : nat -> R) e, (0 < e)%R /\
    (forall t, (Rabs t < e)%R -> exists sdrs sirs sars,
       bss_eval_sources_noperm Torch q_opts q_ref (arr_of 3 (rays q_bss1 hs t)) = Ok (sdrs, sirs, sars) /\
       forall k, k < 2 -> nth k sdrs NaN = Fin (fs k t) /\ nth k sars NaN = Fin (fa k t)) /\
    (forall k, k < 2 -> derivable_pt_lim (fs k) 0 (ss k) /\ derivable_pt_lim (fa k) 0 (sa k)) /\
    Rsum 2 (fun d => Rsum 3 (fun t => smp (nth d G []) t * smp (nth d hs []) t))%R =
    Rsum 2 (fun k => vs k * ss k + va k * sa k)%R.
Proof.
  destruct (q_bss1_coh None) as (c0 & Hc0 & V).
  destruct (C83_noperm q_opts q_ref 3 2 q_bss1 c0 (Some vs) None (Some va) q_wf ltac:(lia)
    (q_est_shape 2 0 1 0 2 1) eq_refl eq_refl ltac:(cbv; lia) (fun _ => eq_refl) q_chans Hc0 I) as (G & EG & SG & HG).
  - intros d Hd. apply Rgt_not_eq. destruct d as [|[|d]]; try lia; apply q_norm; lra.
  - intros d Hd. destruct (V d Hd) as [V1 V2]. unfold unclamped, base_metrics. rewrite V1, V2.
    cbn [fst snd]. split; [|split].
    + intros _. exists (gdb (4 / 5)). apply neg_sdr_fin. lra.
    + intros H. contradiction H. reflexivity.
    + intros _. exists (gdb (4 / 5)). apply neg_sdr_fin. lra.
  - exists G. split; auto. split; auto. intros hs Hhs.
    destruct (HG hs Hhs) as (fs & fi & fa & ss & si & sa & e & He & H1 & H2 & H3). exists fs, fa, ss, sa, e.
    split; auto. split; [|split].
    + intros t Ht. destruct (H1 t Ht) as (A & B & C & EE & HH). exists A, B, C. split; auto. intros k Hk.
      destruct (HH k Hk) as (P & _ & W). split; [apply P; discriminate|apply W; discriminate].
    + intros k Hk. destruct (H2 k Hk) as (P & _ & W). split; [apply P; discriminate|apply W; discriminate].
    + rewrite H3. apply Rsum_ext. intros k _. simpl. ring.
Qed.

(** C83: with clamp_db the gradient is finite, and each estimate's part is orthogonal to the estimate, unless the SIR is
    part of the loss and the SAR coherence of an estimate is 0. *)
Theorem C83_clamped sp o ref T K ys c0 vs vi va out D : wf ref -> 0 < T -> shaped K T ys ->
  use_cg_iter o = None -> 0 < filter_length o -> (filter_length o = 1 -> a_len ref = T) ->
  (forall c, c < n_chan ref -> exists x, has_chan ref c x) ->
  sq_cos Torch o ref (arr_of T ys) = Ok c0 -> clamp_db o = Some D ->
  (vi <> None -> forall d, d < K -> nth d (snd c0) NaN <> Fin 0) ->
  (bss_eval_sources Torch sp o ref (arr_of T ys) = Ok out ->
   exists G, bss_grad sp o ref (arr_of T ys) vs vi va = Ok G /\ all_finite K T o ys G) /\
  (n_chan ref = K -> exists G, bss_noperm_grad o ref (arr_of T ys) vs vi va = Ok G /\ all_finite K T o ys G).
Proof. exact (bss_grad_clamped sp o ref T K ys c0 vs vi va out D). Qed.
Print Assumptions C83_clamped.
(** the same estimates as above, with clamping also for the SIR *)
Example C83_clamped_example vs vi va : exists G,
  bss_noperm_grad (q_bss_opts (Some 30%R)) q_ref (arr_of 3 q_bss1) vs vi va = Ok (map (map Fin) G) /\
  (2 * smp (nth 0 G []) 0 + smp (nth 0 G []) 2 = 0)%R.
Proof.
  destruct (q_bss1_coh (Some 30%R)) as (c0 & Hc0 & V).
  destruct (C83_clamped (fun _ _ _ => []) (q_bss_opts (Some 30%R)) q_ref 3 2 q_bss1 c0 vs vi va ([], [], [], []) 30 q_wf ltac:(lia)
    (q_est_shape 2 0 1 0 2 1) eq_refl ltac:(cbv; lia) (fun _ => eq_refl) q_chans Hc0 eq_refl) as [_ H].
  { intros _ d Hd. destruct (V d Hd) as [_ ->]. intros E. injection E. lra. }
  destruct (H eq_refl) as (G0 & EG & G & -> & SG & HO). exists G. split; auto.
  specialize (HO 0 ltac:(lia)). unfold smp in *. simpl in HO |- *.
  assert (Q : (norm_eps <= norm2 [2; 0; 1])%R) by (apply Rlt_le, q_norm; lra). specialize (HO Q). lra.
Qed.

(** C83: where the gradient is NaN. With permutation every reference is compared with every estimate, also the pairs
    that are not selected. *)
Theorem C83_nan sp o ref T K ys c0 vs vi va out : wf ref -> 0 < T -> shaped K T ys ->
  use_cg_iter o = None -> 0 < filter_length o -> (filter_length o = 1 -> a_len ref = T) ->
  (forall c, c < n_chan ref -> exists x, has_chan ref c x) ->
  sq_cos Torch o ref (arr_of T ys) = Ok c0 ->
  (bss_eval_sources Torch sp o ref (arr_of T ys) = Ok out ->
   exists G, bss_grad sp o ref (arr_of T ys) vs vi va = Ok G /\ length G = K /\
     forall c d s a, c < n_chan ref -> d < K -> mat_of (fst c0) c d = Fin s -> nth d (snd c0) NaN = Fin a ->
       bad_pair o vs vi va s a -> nth d G [] = repeat NaN T) /\
  (n_chan ref = K -> exists G, bss_noperm_grad o ref (arr_of T ys) vs vi va = Ok G /\ length G = K /\
     forall d s a, d < K -> mat_of (fst c0) d d = Fin s -> nth d (snd c0) NaN = Fin a ->
       bad_pair o vs vi va s a -> nth d G [] = repeat NaN T).
Proof. exact (bss_grad_nan sp o ref T K ys c0 vs vi va out). Qed.
Print Assumptions C83_nan.
(** (2, 0, 1) and (0, 2, 1) once more: with the SIR in the loss everything is NaN *)
Example C83_nan_example vs vi va :
  bss_noperm_grad q_opts q_ref (arr_of 3 q_bss1) vs (Some vi) va = Ok [[NaN; NaN; NaN]; [NaN; NaN; NaN]].
Proof.
  destruct (q_bss1_coh None) as (c0 & Hc0 & V).
  destruct (C83_nan (fun _ _ _ => []) q_opts q_ref 3 2 q_bss1 c0 vs (Some vi) va ([], [], [], []) q_wf ltac:(lia)
    (q_est_shape 2 0 1 0 2 1) eq_refl ltac:(cbv; lia) (fun _ => eq_refl) q_chans Hc0) as [_ H].
  destruct (H eq_refl) as (G & EG & L & HG). rewrite EG. f_equal.
  assert (HN : forall d, d < 2 -> nth d G [] = repeat NaN 3).
  { intros d Hd. destruct (V d Hd) as [V1 V2]. apply (HG d _ _ Hd V1 V2). right. split; auto. right. right. split; [discriminate|auto]. }
  destruct G as [|x [|y [|? ?]]]; try discriminate L. pose proof (HN 0 ltac:(lia)) as H0. pose proof (HN 1 ltac:(lia)) as H1.
  simpl in H0, H1. subst. reflexivity.
Qed.

(** C83: clamp_db does not help when an estimate is orthogonal to all the delayed references, for example silent: the SIR
    coherence is 0 / 0 and a loss with the SIR has a NaN gradient. *)
Theorem C83_orthogonal o ref T K ys c0 vs vi va xs : wf ref -> 0 < T -> shaped K T ys -> n_chan ref = K ->
  use_cg_iter o = None -> 1 <= filter_length o <= Nat.max (a_len ref) T -> (filter_length o = 1 -> a_len ref = T) ->
  has_chans ref xs -> sq_cos Torch o ref (arr_of T ys) = Ok c0 -> vi <> None ->
  exists G, bss_noperm_grad o ref (arr_of T ys) vs vi va = Ok G /\ length G = K /\
    forall d, d < K ->
      (forall c, c < n_chan ref -> orthogonal_to (filter_length o) (pre (zero_mean o) (xs c)) (pre (zero_mean o) (nth d ys []))) ->
      nth d G [] = repeat NaN T.
Proof. exact (bss_grad_orthogonal o ref T K ys c0 vs vi va xs). Qed.
Print Assumptions C83_orthogonal.
Example C83_orthogonal_example vs vi va : exists g,
  bss_noperm_grad (q_bss_opts (Some 30%R)) q_ref (arr_of 3 q_bss0) vs (Some vi) va = Ok [g; [NaN; NaN; NaN]].
Proof.
  destruct (q_bss0_coh (Some 30%R)) as (c0 & Hc0 & V).
  destruct (C83_orthogonal (q_bss_opts (Some 30%R)) q_ref 3 2 q_bss0 c0 vs (Some vi) va _ q_wf ltac:(lia)
    (q_est_shape 2 1 1 0 0 2) eq_refl eq_refl ltac:(cbv; lia) (fun _ => eq_refl) q_has_chans Hc0 ltac:(discriminate)) as (G & EG & L & H).
  rewrite EG. pose proof (H 1 ltac:(lia)) as H1.
  destruct G as [|x [|y [|? ?]]]; try discriminate L. exists x. do 3 f_equal. simpl in H1. apply H1.
  intros c Hc l Hl. simpl in Hl. assert (l = 0) by lia. subst l. destruct c as [|[|c]]; [| |cbv in Hc; lia]; unfold xcorr, smp; simpl; ring.
Qed.
