(** * The SAR is not stable in the references; examples *)
From Coq Require Import Reals Lra.
From Verif Require Import Prelude ExtReal Spec SpecSig Sums Helpers Linalg LinalgProofs Metrics StatsProofs LeastSq
  PrepProofs DbProofs MetricsProofs SarProofs ProjTheorems MetricTheorems Outputs Edge Solvability Witness SigExamples Sensitivity SensitivityDb.
Local Open Scope nat_scope.

(** two references that are almost parallel, differing by u in the second and v in the third sample *)
Definition par_ref (u v : R) : arr := rarr 3 [[1; 0; 0]; [1; u; v]]%R.
Definition par_xs (u v : R) (c : nat) : list R := nth c [[1; 0; 0]; [1; u; v]]%R [].
Definition par_est : arr := rarr 3 [[0; 1; 0]; [1; 0; 0]]%R.
Lemma par_ref_wf u v : wf (par_ref u v). Proof. apply rarr_wf; [lia|repeat constructor]. Qed.
Lemma par_est_wf : wf par_est. Proof. apply rarr_wf; [lia|repeat constructor]. Qed.
Lemma par_ref_chans u v : has_chans (par_ref u v) (par_xs u v).
Proof. intros c. apply (two (fun c => nth c (a_chans (par_ref u v)) [] = map Fin (par_xs u v c))); reflexivity. Qed.
Lemma par_est_chan : has_chan par_est 0 [0; 1; 0]%R.
Proof. split; [cbv; lia|reflexivity]. Qed.
Lemma par_ok b u v : (u <> 0 \/ v <> 0)%R -> is_ok (sq_cos b (plain_opts 1) (par_ref u v) par_est).
Proof.
  intros H.
  apply (bss_solvable_iff b (plain_opts 1) (par_ref u v) par_est (par_xs u v) (par_ref_wf u v) par_est_wf eq_refl eq_refl
    ltac:(simpl; lia) ltac:(reflexivity) (par_ref_chans u v)).
  intros g Hg k Hk.
  pose proof (Hg 0 ltac:(simpl; lia)) as H0. pose proof (Hg 1 ltac:(simpl; lia)) as H1. pose proof (Hg 2 ltac:(simpl; lia)) as H2.
  unfold comb, all_delays, delayed, smp in *. simpl in *.
  assert (Z : g 1 = 0%R). { destruct H as [Hu|Hv]; [apply (Rmult_eq_reg_r u); lra|apply (Rmult_eq_reg_r v); lra]. }
  destruct k as [|[|k]]; try lia; lra.
Qed.
Lemma par_pk u v : is_projection 1 3 (delays (par_xs u v 0)) (smp [0; 1; 0]%R) (fun _ => 0%R).
Proof.
  split; [exists (fun _ => 0%R); intros; simpl; ring|].
  intros k Hk. assert (k = 0) as -> by lia. unfold dot, delays, delayed, smp. simpl. ring.
Qed.
Theorem sar_reference_unstable b dl : (0 < dl)%R -> forall m sar m' sar',
  sq_cos b (plain_opts 1) (par_ref dl 0) par_est = Ok (m, sar) ->
  sq_cos b (plain_opts 1) (par_ref 0 dl) par_est = Ok (m', sar') ->
  snd (bss_mats (plain_opts 1) (m, sar)) 0 0 = NInf /\
  snd (bss_mats (plain_opts 1) (m', sar')) 0 0 = PInf.
Proof.
  intros Hd m sar m' sar' H H'. 
  assert (Hn : forall w : R, (norm_eps <= norm2 [1; 0; 0]%R)%R).
  { intros _. apply norm2_big. unfold smp. simpl. lra. }
  assert (Hy : (norm_eps <= norm2 (pre false [0; 1; 0]%R))%R).
  { apply norm2_big. unfold smp. simpl. lra. }
  split.
  - pose proof (sir_sar_projection b (plain_opts 1) (par_ref dl 0) par_est m sar 0 0 (par_xs dl 0) [0; 1; 0]%R 3
      (smp [0; 1; 0]%R) (fun _ => 0%R) (par_ref_wf _ _) par_est_wf eq_refl eq_refl eq_refl ltac:(simpl; lia)
      (fun _ => conj eq_refl (Hn 0%R)) (par_ref_chans _ _) ltac:(cbv; lia) par_est_chan Hy ltac:(simpl; lia) ltac:(simpl; lia)) as V.
    specialize (V ltac:(split; [exists (fun k => if Nat.eqb k 0 then - / dl else / dl)%R; intros t Ht;
        destruct t as [|[|[|t]]]; try (simpl in Ht; lia); unfold all_delays, delayed, smp; simpl; field; lra
      |intros k Hk; unfold dot; simpl; ring]) (par_pk _ _) H).
    destruct (bss_mats (plain_opts 1) (m, sar)) as [[nsdr nsir] nsar]. destruct V as (_ & V & _). simpl. rewrite V.
    unfold dB. destruct (Req_EM_T _ 0) as [E|E]; [revert E; unfold energy, dot, smp; simpl; lra|].
    destruct (Req_EM_T _ 0) as [F|F]; [reflexivity|exfalso; apply F; unfold energy, dot, smp; simpl; ring].
  - pose proof (sir_sar_projection b (plain_opts 1) (par_ref 0 dl) par_est m' sar' 0 0 (par_xs 0 dl) [0; 1; 0]%R 3
      (fun _ => 0%R) (fun _ => 0%R) (par_ref_wf _ _) par_est_wf eq_refl eq_refl eq_refl ltac:(simpl; lia)
      (fun _ => conj eq_refl (Hn 0%R)) (par_ref_chans _ _) ltac:(cbv; lia) par_est_chan Hy ltac:(simpl; lia) ltac:(simpl; lia)) as V.
    specialize (V ltac:(split; [exists (fun k => 0)%R; intros t Ht; simpl; ring
      |intros k Hk; destruct k as [|[|k]]; try (simpl in Hk; lia); unfold dot, all_delays, delayed, smp; simpl; ring]) (par_pk _ _) H').
    destruct (bss_mats (plain_opts 1) (m', sar')) as [[nsdr nsir] nsar]. destruct V as (_ & V & _). simpl. rewrite V.
    unfold dB. destruct (Req_EM_T _ 0) as [E|E]; [reflexivity|exfalso; apply E; unfold energy, dot; simpl; ring].
Qed.
Theorem sar_reference_refuted b dl : (0 < dl)%R -> exists m sar m' sar',
  sq_cos b (plain_opts 1) (par_ref dl 0) par_est = Ok (m, sar) /\
  sq_cos b (plain_opts 1) (par_ref 0 dl) par_est = Ok (m', sar') /\
  snd (bss_mats (plain_opts 1) (m, sar)) 0 0 = NInf /\
  snd (bss_mats (plain_opts 1) (m', sar')) 0 0 = PInf.
Proof.
  intros Hd. destruct (par_ok b dl 0) as [[m sar] H]; [left; lra|].
  destruct (par_ok b 0 dl) as [[m' sar'] H']; [right; lra|].
  exists m, sar, m', sar'. split; [exact H|]. split; [exact H'|]. exact (sar_reference_unstable b dl Hd m sar m' sar' H H').
Qed.
