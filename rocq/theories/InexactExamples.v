(** * A concrete case for [Inexact.v] *)
From Coq Require Import Reals Lra.
From Verif Require Import Prelude ExtReal Spec SpecSig Sums Helpers Metrics StatsProofs PrepProofs ProjTheorems MetricTheorems Glue Witness SigExamples MetricsProofs
  OneRefExamples Inexact.
Local Open Scope nat_scope.

Definition near_opts : opts := Opts 2 None false (Some 30%R) (Some (1 / 10)%R).
Definition near_y : list R := [3 / 5; 4 / 5; 0; 0; 0]%R.
Definition near_est : arr := rarr 5 [near_y].
Lemma near_wf : wf near_est. Proof. apply rarr_wf; [lia|repeat constructor]. Qed.
Lemma near_chan : has_chan near_est 0 near_y.
Proof. apply (rarr_chan 5 [near_y] 0). simpl. lia. Qed.
Lemma unit_norm1 v : Rsum (length v) (fun t => smp v t ^ 2)%R = 1%R -> unit_of v = v.
Proof.
  intros H. unfold unit_of, gain, norm2. rewrite H, sqrt_1. rewrite Rmax_left.
  2:{ unfold norm_eps. rewrite <- Rinv_1. apply Rinv_le_contravar; [lra|]. apply pow_R1_Rle. lra. }
  rewrite Rinv_1. rewrite (map_ext _ (fun u => u)) by (intros; ring). apply map_id.
Qed.
Lemma near_unit : unit_of near_y = near_y.
Proof. apply unit_norm1. unfold smp. simpl. lra. Qed.
Lemma mono_unit : unit_of (exr 0) = exr 0.
Proof. apply unit_norm1. unfold smp. simpl. lra. Qed.
Lemma near_ok b : exists m, sdr_coh b near_opts mono_ref near_est = Ok m.
Proof.
  destruct (loss_never_raises_loaded b near_opts mono_ref near_est mono_wf eq_refl) as [m H]; try (simpl; lra); try (simpl; lia).
  unfold pairwise_sdr_loss in H. destruct (sdr_coh _ _ _ _) as [c|]; [eauto|discriminate H].
Qed.
Lemma near_plain_ok b : exists m, sdr_coh b (plain_opts 2) mono_ref near_est = Ok m.
Proof.
  destruct (mono_ok b None [near_y] ltac:(repeat constructor)) as [[m sar] H]. exists m.
  apply (SarProofs.sq_cos_sdr' b (plain_opts 2) mono_ref near_est m sar); auto; simpl; lia.
Qed.
Lemma mono_chans : has_chans mono_ref (fun _ => exr 0).
Proof. intros c Hc. change (n_chan mono_ref) with 1 in Hc. assert (c = 0) by lia. subst c. exact (proj2 mono_chan). Qed.
Lemma near_sar_ok b : exists m sar, sq_cos b near_opts mono_ref near_est = Ok (m, sar).
Proof.
  destruct (Solvability.bss_loaded_ok b near_opts mono_ref near_est (fun _ => exr 0)) as [[m sar] H]; auto using mono_wf, near_wf;
    try (simpl; lra); try (simpl; lia); eauto.
  exact mono_chans.
Qed.

(** two references and two estimates: the coherences to three decimals *)
Definition ex_coh' (c d : nat) : R := nth d (nth c [[625; 143]; [250; 714]] [])%R 0%R / 1000.
Definition ex_sar' (d : nat) : R := nth d [875; 857]%R 0%R / 1000.
Lemma ex_near b m sar : sq_cos b (clamp_opts 2 30) ex_ref ex_est = Ok (m, sar) ->
  (forall c d, c < 2 -> d < 2 -> exists q, mat_of m c d = Fin q /\ (Rabs (ex_coh' c d - q) <= 1 / 1000)%R) /\
  (forall d, d < 2 -> exists a, nth d sar NaN = Fin a /\ (Rabs (ex_sar' d - a) <= 1 / 1000)%R).
Proof.
  intros H. split.
  - intros c d Hc Hd.
    destruct (sdr_entry_plain b (clamp_opts 2 30) ex_ref ex_est m c d (exr c) (exe d) 6 ex_ref_wf ex_est_wf) as (q & E & Q); auto;
      try (simpl; lia); try discriminate.
    { apply (SarProofs.sq_cos_sdr' b _ _ _ m sar); auto; simpl; lia. }
    { exact (proj2 (ex_ref_chan c Hc)). }
    { exact (proj2 (ex_est_chan d Hd)). }
    exists q. split; auto. cbn [zero_mean clamp_opts with_clamp plain_opts pre filter_length] in Q.
    rewrite (lsq_unit 2 6 (delays (exr c)) (delays (unit_of (exr c))) (exe d) (smp (if Nat.eqb c 0 then pk0 d else pk1 d)) q (fun _ => gain (exr c)));
      [| intros _ _; pose proof (gain_pos (exr c)); lra | intros k t _ _; unfold delays; apply delayed_unit | | | exact Q | exact (ex_proj c d Hc Hd)].
    + destruct c as [|[|c]]; try lia; destruct d as [|[|d]]; try lia; unfold energy, dot, smp, ex_coh'; simpl; unfold Rabs; destruct Rcase_abs; lra.
    + destruct d as [|[|d]]; simpl; lia.
    + apply (ex_est_norm d Hd).
  - intros d Hd.
    destruct (sar_entry_plain b (clamp_opts 2 30) ex_ref ex_est m sar d exr (exe d) 6 ex_ref_wf ex_est_wf H) as (q & E & Q); auto;
      try (simpl; lia); try discriminate; try exact ex_ref_chans; try exact (ex_est_chan d Hd).
    exists q. split; auto. cbn [zero_mean clamp_opts with_clamp plain_opts pre filter_length] in Q. change (n_chan ex_ref) with 2 in Q.
    rewrite (lsq_unit 4 6 (all_delays 2 exr) (all_delays 2 (fun c => unit_of (exr c))) (exe d) (smp (pall d)) q (fun i => gain (exr (i mod 2))));
      [| intros k _; pose proof (gain_pos (exr (k mod 2))); lra | intros k t _ _; unfold all_delays; apply delayed_unit | | | exact Q | exact (ex_proj_all d Hd)].
    + destruct d as [|[|d]]; try lia; unfold energy, dot, smp, ex_sar'; simpl; unfold Rabs; destruct Rcase_abs; lra.
    + destruct d as [|[|d]]; simpl; lia.
    + apply (ex_est_norm d Hd).
Qed.
