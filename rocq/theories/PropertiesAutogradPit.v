(** * Properties: the gradients of sdr, sdr_pit_loss and sdr_loss (C81) *)
From Coq Require Import Reals Lra.
From Verif Require Import Prelude ExtReal Sums Spec SpecSig Helpers Metrics StatsProofs PrepProofs ProjTheorems MetricTheorems
  Diag Witness Gradient Autograd AutogradPit AutogradPitProofs AutogradPitTheorems AutogradPitNan AutogradPitExamples.
Local Open Scope nat_scope.

(** C81: away from the kinks of C77 and C80, when the selected assignment is the only optimal one, the backward pass
    of sdr returns the derivative of the weighted outputs, in every direction in the space of all the estimates;
    near that point the outputs are finite and the permutation is constant. *)
Theorem C81_gradient sp o ref T K ys m0 cs v vals perm m : lsa_contract sp -> wf ref -> 0 < T -> shaped K T ys ->
  (filter_length o = 1 -> a_len ref = T) ->
  (forall c, c < n_chan ref -> exists x, has_chan ref c x) ->
  pairwise_sdr_loss Torch (with_clamp o None) (arr_of T ys) ref = Ok m0 ->
  (forall d, d < K -> smooth o ref m0 d (nth d ys [])) ->
  sdr Torch sp o cs ref (arr_of T ys) = Ok (vals, perm) ->
  pairwise_sdr_loss Torch o (arr_of T ys) ref = Ok m ->
  (forall l, complete_assignment (n_chan ref) K l ->
     (total_cost (fun c d => to_R (mat_of m c d)) l <=
      total_cost (fun c d => to_R (mat_of m c d)) (matching (n_chan ref) K perm))%R ->
     incl l (matching (n_chan ref) K perm)) ->
  exists G, sdr_grad sp o cs ref (arr_of T ys) v = Ok (map (map Fin) G) /\ shaped K T G /\
    forall hs, shaped K T hs -> exists f s e, (0 < e)%R /\
      (forall t, (Rabs t < e)%R -> exists vals', sdr Torch sp o cs ref (arr_of T (rays ys hs t)) = Ok (vals', perm) /\
         length vals' = Nat.min (n_chan ref) K /\
         forall k, k < Nat.min (n_chan ref) K -> nth k vals' NaN = Fin (f k t)) /\
      (forall k, k < Nat.min (n_chan ref) K -> derivable_pt_lim (f k) 0 (s k)) /\
      Rsum K (fun d => Rsum T (fun t => smp (nth d G []) t * smp (nth d hs []) t)%R) =
      Rsum (Nat.min (n_chan ref) K) (fun k => v k * s k)%R.
Proof.
  exact (fun Hsp Hwr HT Hys HL1 Hxs Hm0 Hsm => sdr_gradient sp Hsp o ref T K ys m0 Hwr HT Hys HL1 Hxs Hm0 Hsm cs v vals perm m).
Qed.
Print Assumptions C81_gradient.
Example C81_gradient_example sp v : lsa_contract sp -> exists vals perm G,
  sdr Torch sp q_opts false q_ref (arr_of 3 q_mix) = Ok (vals, perm) /\
  sdr_grad sp q_opts false q_ref (arr_of 3 q_mix) v = Ok (map (map Fin) G) /\ shaped 2 3 G /\
  forall hs, shaped 2 3 hs -> exists f s e, (0 < e)%R /\
    (forall t, (Rabs t < e)%R -> sdr Torch sp q_opts false q_ref (arr_of 3 (rays q_mix hs t)) = Ok ([Fin (f 0 t); Fin (f 1 t)], perm)) /\
    derivable_pt_lim (f 0) 0 (s 0) /\ derivable_pt_lim (f 1) 0 (s 1) /\
    Rsum 2 (fun d => Rsum 3 (fun t => smp (nth d G []) t * smp (nth d hs []) t)%R) = (v 0%nat * s 0%nat + v 1%nat * s 1%nat)%R.
Proof.
  intros Hsp. pose proof (q_est_shape 2 1 0 1 2 0 : shaped 2 3 q_mix) as S.
  destruct (q_sdr Torch sp false q_mix Hsp S) as (vals & perm & E & Lp & HO).
  { intros i j Hi Hj. rewrite q_mix_loss by auto. reflexivity. }
  destruct (C81_gradient sp q_opts q_ref 3 2 q_mix (q_loss Torch (arr_of 3 q_mix)) false v vals perm (q_loss Torch (arr_of 3 q_mix)) Hsp q_wf
    ltac:(lia) S (fun _ => eq_refl) q_chans (q_ok Torch q_mix)) as (G & EG & SG & HG); auto.
  { intros d Hd. apply q_smooth.
    - destruct d as [|[|d]]; try lia; unfold smp; simpl; lra.
    - intros c Hc. rewrite q_mix_loss by auto. eexists. reflexivity. }
  { intros l Hl. apply diagonal_only; auto. rewrite !q_mix_loss by lia. cbn [Nat.eqb to_R].
    pose proof log10_4. rewrite log10_quarter. lra. }
  exists vals, perm, G. split; auto. split; auto. split; auto. intros hs Hhs.
  destruct (HG hs Hhs) as (f & s & e & He & H1 & H2 & H3). change (Nat.min (n_chan q_ref) 2) with 2 in *.
  exists f, s, e. split; auto. split; [|split; [apply H2; lia|split; [apply H2; lia|]]].
  - intros t Ht. destruct (H1 t Ht) as (vals' & E' & L' & V'). rewrite E'.
    destruct vals' as [|a [|c [|? ?]]]; try discriminate L'.
    pose proof (V' 0 ltac:(lia)) as V0. pose proof (V' 1 ltac:(lia)) as V1. simpl in V0, V1. subst. reflexivity.
  - rewrite H3. simpl. ring.
Qed.

(** C81: at a tie sdr_pit_loss is not differentiable, but its gradient (weights 1) is a supergradient to first
    order: moving along h changes the total loss by at most <G, h> t + o(t), so - G is a descent direction. *)
Theorem C81_descent sp o ref T K ys m0 vals : lsa_contract sp -> wf ref -> 0 < T -> shaped K T ys ->
  (filter_length o = 1 -> a_len ref = T) ->
  (forall c, c < n_chan ref -> exists x, has_chan ref c x) ->
  pairwise_sdr_loss Torch (with_clamp o None) (arr_of T ys) ref = Ok m0 ->
  (forall d, d < K -> smooth o ref m0 d (nth d ys [])) ->
  sdr_pit_loss Torch sp o (arr_of T ys) ref = Ok vals ->
  exists G, sdr_pit_loss_grad sp o (arr_of T ys) ref (fun _ => 1%R) = Ok (map (map Fin) G) /\ shaped K T G /\
    forall hs, shaped K T hs -> forall eps, (0 < eps)%R -> exists e, (0 < e)%R /\
      forall t, (0 < t < e)%R -> exists vals', sdr_pit_loss Torch sp o (arr_of T (rays ys hs t)) ref = Ok vals' /\
        (forall x, In x vals' -> is_fin x = true) /\
        (sumR (map to_R vals') <= sumR (map to_R vals) +
           t * (Rsum K (fun d => Rsum T (fun t => smp (nth d G []) t * smp (nth d hs []) t)) + eps))%R.
Proof.
  exact (fun Hsp Hwr HT Hys HL1 Hxs Hm0 Hsm => pit_descent sp Hsp o ref T K ys m0 Hwr HT Hys HL1 Hxs Hm0 Hsm vals).
Qed.
Print Assumptions C81_descent.
Example C81_descent_example sp : lsa_contract sp -> exists vals G,
  sdr_pit_loss Torch sp q_opts (arr_of 3 q_tie) q_ref = Ok vals /\
  sdr_pit_loss_grad sp q_opts (arr_of 3 q_tie) q_ref (fun _ => 1%R) = Ok (map (map Fin) G) /\
  forall hs, shaped 2 3 hs -> (Rsum 2 (fun d => Rsum 3 (fun t => smp (nth d G []) t * smp (nth d hs []) t)) < 0)%R ->
    exists e, (0 < e)%R /\ forall t, (0 < t < e)%R -> exists vals', sdr_pit_loss Torch sp q_opts (arr_of 3 (rays q_tie hs t)) q_ref = Ok vals' /\
      (sumR (map to_R vals') < sumR (map to_R vals))%R.
Proof.
  intros Hsp. pose proof (q_est_shape 1 1 0 1 1 0 : shaped 2 3 q_tie) as S.
  destruct (q_sdr Torch sp true q_tie Hsp S) as (vals & perm & E & Lp & HO).
  { intros i j Hi Hj. rewrite q_tie_loss by auto. reflexivity. }
  assert (EV : sdr_pit_loss Torch sp q_opts (arr_of 3 q_tie) q_ref = Ok vals) by (unfold sdr_pit_loss; rewrite E; reflexivity).
  destruct (C81_descent sp q_opts q_ref 3 2 q_tie (q_loss Torch (arr_of 3 q_tie)) vals Hsp q_wf
    ltac:(lia) S (fun _ => eq_refl) q_chans (q_ok Torch q_tie)) as (G & EG & SG & HG); auto.
  { intros d Hd. apply q_smooth.
    - destruct d as [|[|d]]; try lia; unfold smp; simpl; lra.
    - intros c Hc. rewrite q_tie_loss by auto. eexists. reflexivity. }
  exists vals, G. split; auto. split; auto. intros hs Hhs Hneg.
  set (g := Rsum 2 (fun d => Rsum 3 (fun t => smp (nth d G []) t * smp (nth d hs []) t)%R)) in *.
  destruct (HG hs Hhs (- g / 2)%R ltac:(lra)) as (e & He & H). exists e. split; auto. intros t Ht.
  destruct (H t Ht) as (vals' & E' & _ & Hle). exists vals'. split; auto. fold g in Hle.
  assert (t * (g + - g / 2) < 0)%R by (replace (t * (g + - g / 2))%R with (- (t * - g / 2))%R by field;
    apply Ropp_lt_gt_0_contravar; apply Rmult_lt_0_compat; [apply Rmult_lt_0_compat|]; lra).
  lra.
Qed.

(** C81: with clamp_db the gradient is finite at every estimate, for every weight and assignment, and the part of
    each estimate is orthogonal to it. *)
Theorem C81_finite sp o cs ref T K ys v D vals perm : lsa_contract sp -> wf ref -> 0 < T -> shaped K T ys ->
  (filter_length o = 1 -> a_len ref = T) ->
  (forall c, c < n_chan ref -> exists x, has_chan ref c x) ->
  clamp_db o = Some D ->
  sdr Torch sp o cs ref (arr_of T ys) = Ok (vals, perm) ->
  exists G, sdr_grad sp o cs ref (arr_of T ys) v = Ok (map (map Fin) G) /\ shaped K T G /\
    forall d, d < K -> (norm_eps <= norm2 (pre (zero_mean o) (nth d ys [])))%R ->
      Rsum T (fun t => smp (nth d G []) t * smp (nth d ys []) t)%R = 0%R.
Proof. exact (sdr_grad_finite sp o cs ref T K ys v D vals perm). Qed.
Print Assumptions C81_finite.
Example C81_finite_example sp vals perm : lsa_contract sp ->
  sdr Torch sp (clamp_opts 1 30) false q_ref (arr_of 3 q_sep) = Ok (vals, perm) -> exists G,
  sdr_grad sp (clamp_opts 1 30) false q_ref (arr_of 3 q_sep) (fun _ => 1%R) = Ok (map (map Fin) G) /\
  (smp (nth 0 G []) 0 + smp (nth 0 G []) 2 = 0)%R.
Proof.
  intros Hsp E. destruct (C81_finite sp (clamp_opts 1 30) false q_ref 3 2 q_sep (fun _ => 1%R) 30 vals perm Hsp q_wf ltac:(lia)
    (q_est_shape 1 0 1 0 1 1) (fun _ => eq_refl) q_chans eq_refl E) as (G & EG & SG & H).
  exists G. split; auto. specialize (H 0 ltac:(lia)). unfold smp in *. simpl in H |- *.
  assert (Q : (norm_eps <= norm2 [1; 0; 1])%R) by (apply Rlt_le, q_norm; lra). specialize (H Q). lra.
Qed.

(** C81: without clamp_db, an infinite loss of an estimate with any reference makes its gradient NaN, also when that
    pair is not selected: the outputs of sdr_pit_loss may all be finite. *)
Theorem C81_unselected_nan sp o cs ref T K ys v m vals perm : wf ref -> 0 < T -> shaped K T ys ->
  (filter_length o = 1 -> a_len ref = T) ->
  (forall c, c < n_chan ref -> exists x, has_chan ref c x) ->
  use_cg_iter o = None -> (0 <= loadv (load_diag o))%R -> clamp_db o = None ->
  pairwise_sdr_loss Torch o (arr_of T ys) ref = Ok m ->
  sdr Torch sp o cs ref (arr_of T ys) = Ok (vals, perm) ->
  exists G, sdr_grad sp o cs ref (arr_of T ys) v = Ok G /\ length G = K /\
    forall c d, c < n_chan ref -> d < K -> mat_of m c d = PInf \/ mat_of m c d = NInf -> nth d G [] = repeat NaN T.
Proof. exact (sdr_grad_nan_total sp o cs ref T K ys v m vals perm). Qed.
Print Assumptions C81_unselected_nan.
Example C81_unselected_nan_example sp v : lsa_contract sp ->
  sdr_pit_loss Torch sp q_opts (arr_of 3 q_sep) q_ref = Ok [Fin 0; Fin 0] /\
  sdr_pit_loss_grad sp q_opts (arr_of 3 q_sep) q_ref v = Ok [[NaN; NaN; NaN]; [NaN; NaN; NaN]].
Proof.
  intros Hsp. pose proof (q_sep_sdr Torch sp true Hsp) as E. split; [unfold sdr_pit_loss; rewrite E; reflexivity|].
  destruct (C81_unselected_nan sp q_opts true q_ref 3 2 q_sep v (q_loss Torch (arr_of 3 q_sep)) _ _ q_wf ltac:(lia)
    (q_est_shape 1 0 1 0 1 1) (fun _ => eq_refl) q_chans eq_refl (Rle_refl 0) eq_refl (q_ok Torch q_sep) E) as (G & EG & LG & H).
  unfold sdr_pit_loss_grad. rewrite EG. f_equal.
  pose proof (H 1 0 ltac:(cbv; lia) ltac:(lia) ltac:(left; apply q_sep_loss; lia)) as H0.
  pose proof (H 0 1 ltac:(cbv; lia) ltac:(lia) ltac:(left; apply q_sep_loss; lia)) as H1.
  destruct G as [|a [|b [|? ?]]]; try discriminate LG. simpl in H0, H1. subst. reflexivity.
Qed.

(** C81: the backward pass of the non-pairwise sdr_loss returns the derivative as well; a single channel that is
    broadcast collects the contributions of all outputs. *)
Theorem C81_sdr_loss o ref T K ys out v : wf ref -> 0 < T -> shaped K T ys ->
  (filter_length o = 1 -> a_len ref = T) ->
  (forall c, c < n_chan ref -> exists x, has_chan ref c x) ->
  0 < n_chan ref -> 0 < K ->
  sdr_loss Torch o (arr_of T ys) ref = Ok out ->
  (forall i, i < length out -> exists m1,
     pairwise_sdr_loss Torch (with_clamp o None) (one_chan T (nth (bc_idx K i) ys [])) (one_ref ref (bc_idx (n_chan ref) i)) = Ok m1 /\
     smooth o (one_ref ref (bc_idx (n_chan ref) i)) m1 0 (nth (bc_idx K i) ys [])) ->
  exists G, sdr_loss_grad o (arr_of T ys) ref v = Ok (map (map Fin) G) /\ shaped K T G /\
    forall hs, shaped K T hs -> exists f s e, (0 < e)%R /\
      (forall t, (Rabs t < e)%R -> exists out', sdr_loss Torch o (arr_of T (rays ys hs t)) ref = Ok out' /\
         length out' = length out /\ forall i, i < length out -> nth i out' NaN = Fin (f i t)) /\
      (forall i, i < length out -> derivable_pt_lim (f i) 0 (s i)) /\
      Rsum K (fun d => Rsum T (fun t => smp (nth d G []) t * smp (nth d hs []) t)%R) =
      Rsum (length out) (fun i => v i * s i)%R.
Proof.
  exact (fun Hwr HT Hys HL1 Hxs Hnr HK Hout Hsm => sdr_loss_gradient o ref T K ys out Hwr HT Hys HL1 Hxs Hnr HK Hout Hsm v).
Qed.
Print Assumptions C81_sdr_loss.
(** one estimate (2, 1, 0), two references: the gradient is that of the sum of both losses *)
Example C81_sdr_loss_example v : exists out G,
  sdr_loss Torch q_opts (arr_of 3 [[2; 1; 0]]%R) q_ref = Ok out /\ length out = 2 /\
  sdr_loss_grad q_opts (arr_of 3 [[2; 1; 0]]%R) q_ref v = Ok (map (map Fin) G) /\ shaped 1 3 G /\
  forall hs, shaped 1 3 hs -> exists f s e, (0 < e)%R /\
    (forall t, (Rabs t < e)%R -> sdr_loss Torch q_opts (arr_of 3 (rays [[2; 1; 0]]%R hs t)) q_ref = Ok [Fin (f 0 t); Fin (f 1 t)]) /\
    derivable_pt_lim (f 0) 0 (s 0) /\ derivable_pt_lim (f 1) 0 (s 1) /\
    Rsum 3 (fun t => smp (nth 0 G []) t * smp (nth 0 hs []) t)%R = (v 0%nat * s 0%nat + v 1%nat * s 1%nat)%R.
Proof.
  assert (S : shaped 1 3 [[2; 1; 0]]%R) by (split; [reflexivity|repeat constructor]).
  assert (EO : exists out, sdr_loss Torch q_opts (arr_of 3 [[2; 1; 0]]%R) q_ref = Ok out /\ length out = 2)
    by (eexists; split; reflexivity).
  destruct EO as (out & EO & LO).
  destruct (C81_sdr_loss q_opts q_ref 3 1 [[2; 1; 0]]%R out v q_wf ltac:(lia) S (fun _ => eq_refl) q_chans ltac:(cbv; lia) ltac:(lia) EO)
    as (G & EG & SG & HG).
  { intros i Hi. rewrite LO in Hi. change (bc_idx 1 i) with 0. change (nth 0 [[2; 1; 0]]%R []) with [2; 1; 0]%R.
    pose proof (arr_of_wf 1 3 _ ltac:(lia) S) as WE. pose proof (arr_of_has 1 3 _ 0 S ltac:(lia)) as CE. simpl nth in CE.
    destruct i as [|[|i]]; try lia.
    - eexists. split; [reflexivity|]. split; [apply Rgt_not_eq, q_norm; lra|]. split; [|intros it Hit; discriminate Hit].
      intros c Hc. change (c < 1) in Hc. assert (c = 0) as -> by lia. cbn [clamp_db q_opts plain_opts].
      rewrite (q_entry0 Torch (one_ref q_ref 0) (one_chan 3 [2; 1; 0]%R) _ 0 0 2 1 0); try reflexivity; try lra.
      + rewrite dB_pos by lra. eexists. reflexivity.
      + split; [cbv; lia|repeat constructor].
      + exact WE.
      + split; [cbv; lia|reflexivity].
      + exact CE.
    - eexists. split; [reflexivity|]. split; [apply Rgt_not_eq, q_norm; lra|]. split; [|intros it Hit; discriminate Hit].
      intros c Hc. change (c < 1) in Hc. assert (c = 0) as -> by lia. cbn [clamp_db q_opts plain_opts].
      rewrite (q_entry1 Torch (one_ref q_ref 1) (one_chan 3 [2; 1; 0]%R) _ 0 0 2 1 0); try reflexivity; try lra.
      + rewrite dB_pos by lra. eexists. reflexivity.
      + split; [cbv; lia|repeat constructor].
      + exact WE.
      + split; [cbv; lia|reflexivity].
      + exact CE. }
  rewrite LO in HG. exists out, G. repeat (split; auto). intros hs Hhs.
  destruct (HG hs Hhs) as (f & s & e & He & H1 & H2 & H3). exists f, s, e. split; auto. split; [|split; [apply H2; lia|split; [apply H2; lia|]]].
  - intros t Ht. destruct (H1 t Ht) as (out' & E' & L' & V'). rewrite E'.
    destruct out' as [|a [|c [|? ?]]]; try discriminate L'.
    pose proof (V' 0 ltac:(lia)) as V0. pose proof (V' 1 ltac:(lia)) as V1. simpl in V0, V1. subst. reflexivity.
  - simpl in H3 |- *. lra.
Qed.
