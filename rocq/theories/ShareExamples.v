(** * Concrete cases for C98 *)
From Coq Require Import Reals Lra.
From Verif Require Import Prelude ExtReal Sums SpecSig Helpers Metrics LeastSq PrepProofs MetricsProofs ProjTheorems MetricTheorems
  Solvability Edge Witness SigExamples Gradient GradientExamples Snr Share.
Local Open Scope nat_scope.

(** one impulse as reference, the impulse and its delayed copy as estimates *)
Definition sh_imp : list R := [1; 0]%R.
Definition sh_ref : arr := rarr 2 [sh_imp].
Definition sh_y (d : nat) : list R := nth d [[1; 0]; [0; 1]]%R [].
Definition sh_est : arr := rarr 2 [sh_y 0; sh_y 1].
Definition sh_x (c : nat) : list R := sh_imp.
(** the same reference twice *)
Definition sh_twice : arr := rarr 2 [sh_imp; sh_imp].

Lemma sh_ref_wf : wf sh_ref. Proof. apply rarr_wf; [lia|repeat constructor]. Qed.
Lemma sh_est_wf : wf sh_est. Proof. apply rarr_wf; [lia|repeat constructor]. Qed.
Lemma sh_twice_wf : wf sh_twice. Proof. apply rarr_wf; [lia|repeat constructor]. Qed.
Lemma sh_ref_chans : has_chans sh_ref sh_x.
Proof. intros c Hc. change (c < 1) in Hc. assert (c = 0) as -> by lia. reflexivity. Qed.
Lemma sh_est_chans : has_chans sh_est sh_y.
Proof. intros c. apply (two (fun c => nth c (a_chans sh_est) [] = map Fin (sh_y c))); reflexivity. Qed.
Lemma sh_twice_chans : has_chans sh_twice sh_x.
Proof. intros c. apply (two (fun c => nth c (a_chans sh_twice) [] = map Fin (sh_x c))); reflexivity. Qed.
Lemma sh_norm : (norm_eps <= norm2 sh_imp)%R.
Proof. apply norm2_big. unfold sh_imp, smp. simpl. lra. Qed.
Lemma sh_est_norm d : d < 2 -> (norm_eps <= norm2 (sh_y d))%R.
Proof. intros H. apply norm2_big. revert d H. apply (two (fun d => _ <= _)%R); unfold smp; simpl; lra. Qed.
Lemma sh_orth M d d' : d < 2 -> d' < 2 -> d <> d' -> dot M (smp (sh_y d)) (smp (sh_y d')) = 0%R.
Proof.
  intros H H' N. unfold dot. apply Rsum_zero. intros t _.
  destruct d as [|[|d]], d' as [|[|d']]; try lia; destruct t as [|[|[|t]]]; unfold sh_y, smp; simpl; ring.
Qed.
Lemma sh_ok b : exists m, pairwise_sdr_loss b (plain_opts 2) sh_est sh_ref = Ok m.
Proof.
  unfold pairwise_sdr_loss.
  destruct (sdr_coh b (plain_opts 2) sh_ref sh_est) as [m|e] eqn:E; [eexists; reflexivity|exfalso].
  destruct (sdr_raises_iff b (plain_opts 2) sh_ref sh_est sh_ref_wf eq_refl ltac:(simpl; lra) ltac:(simpl; lia)) as [_ [H _]].
  destruct H as (_ & c & x & [Hc Hx] & Hs); [eexists; eassumption|].
  change (c < 1) in Hc. assert (c = 0) as -> by lia. symmetry in Hx. apply (map_Fin_inj sh_imp) in Hx. subst x.
  specialize (Hs 0). unfold sh_imp, smp in Hs. simpl in Hs. lra.
Qed.
Lemma perfect_dB M y : (0 < energy M y)%R -> dB (energy M (fun t => y t - y t)%R) (energy M y) = NInf.
Proof.
  intros H. rewrite (energy_ext M (fun t => y t - y t)%R (fun _ => 0%R)) by (intros; ring).
  assert (energy M (fun _ => 0%R) = 0%R) as -> by (apply Rsum_zero; intros; ring).
  unfold dB. destruct (Req_EM_T (energy M y) 0); [lra|]. destruct (Req_EM_T 0 0); [reflexivity|lra].
Qed.
Lemma sh_both_perfect b : exists m, pairwise_sdr_loss b (plain_opts 2) sh_est sh_ref = Ok m /\
  mat_of m 0 0 = NInf /\ mat_of m 0 1 = NInf.
Proof.
  destruct (sh_ok b) as [m H]. exists m. split; [exact H|].
  assert (V : forall d, d < 2 -> mat_of m 0 d = NInf).
  { intros d Hd.
    assert (P : is_projection 2 3 (delays sh_imp) (smp (sh_y d)) (smp (sh_y d))).
    { split.
      - exists (fun k => if Nat.eqb k d then 1%R else 0%R). intros t Ht.
        destruct d as [|[|d]]; try lia; destruct t as [|[|[|t]]]; try lia; unfold sh_y, sh_imp, delays, delayed, smp; simpl; ring.
      - intros k Hk. unfold dot. apply Rsum_zero. intros. ring. }
    rewrite (sdr_projection b (plain_opts 2) sh_ref sh_est m 0 d sh_imp (sh_y d) 3 (smp (sh_y d)) sh_ref_wf sh_est_wf eq_refl eq_refl eq_refl
      ltac:(simpl; lia) ltac:(simpl; lia) (has_chans_at _ _ 0 sh_ref_chans ltac:(cbn; lia)) (has_chans_at _ _ d sh_est_chans Hd)
      (sh_est_norm d Hd) ltac:(simpl; lia) ltac:(simpl; lia) P H).
    cbn [pre zero_mean plain_opts]. apply perfect_dB. destruct d as [|[|d]]; try lia; unfold energy, dot, sh_y, smp; simpl; lra. }
  split; apply V; lia.
Qed.
Lemma sh_twice_perfect b : exists m, pairwise_sdr_loss b (plain_opts 1) sh_ref sh_twice = Ok m /\
  mat_of m 0 0 = NInf /\ mat_of m 1 0 = NInf.
Proof.
  destruct (pairwise_sdr_loss b (plain_opts 1) sh_ref sh_twice) as [m|e] eqn:H; [|unfold pairwise_sdr_loss, sdr_coh in H; simpl in H; discriminate].
  exists m. split; [reflexivity|].
  assert (V : forall c, c < 2 -> mat_of m c 0 = NInf).
  { intros c Hc.
    assert (P : is_projection 1 2 (delays sh_imp) (smp sh_imp) (smp sh_imp)).
    { split; [apply delay0_in_span; lia|]. intros k Hk. unfold dot. apply Rsum_zero. intros. ring. }
    rewrite (sdr_projection b (plain_opts 1) sh_twice sh_ref m c 0 sh_imp sh_imp 2 (smp sh_imp) sh_twice_wf sh_ref_wf eq_refl eq_refl eq_refl
      ltac:(simpl; lia) (fun _ => conj eq_refl sh_norm) (has_chans_at _ _ c sh_twice_chans Hc) (has_chans_at _ _ 0 sh_ref_chans ltac:(cbn; lia))
      sh_norm ltac:(simpl; lia) ltac:(simpl; lia) P H).
    cbn [pre zero_mean plain_opts]. apply perfect_dB. unfold energy, dot, sh_imp, smp; simpl; lra. }
  split; apply V; lia.
Qed.
