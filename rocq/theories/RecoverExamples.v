(** * Concrete cases for [Recover.v] *)
From Coq Require Import Reals Lra.
From Verif Require Import Prelude ExtReal Spec SpecSig Sums Helpers Metrics StatsProofs PrepProofs DbProofs MetricsProofs ProjTheorems MetricTheorems Glue Witness SigExamples
  InexactExamples Outputs Recover.
Local Open Scope nat_scope.

Lemma xlt_fin a c : (a < c)%R -> xlt (Fin a) (Fin c).
Proof. intros H. unfold xlt, xleb. split; destruct Rle_dec; auto; lra. Qed.
Lemma log10_lt a c : (0 < a < c)%R -> (10 * log10 a < 10 * log10 c)%R.
Proof.
  intros [Ha Hc]. unfold log10. assert (0 < ln 10)%R by (rewrite <- ln_1; apply ln_increasing; lra).
  apply Rmult_lt_compat_l; [lra|]. apply Rmult_lt_compat_r; [apply Rinv_0_lt_compat; auto|]. apply ln_increasing; auto.
Qed.
Lemma ex_dominant b m i j : pairwise_sdr_loss b (plain_opts 2) ex_est ex_ref = Ok m -> i < 2 -> j < 2 -> i <> j ->
  xlt (mat_of m j j) (mat_of m i j) /\ xlt (mat_of m i i) (mat_of m i j) /\ xlt (mat_of m j j) (Fin 0).
Proof.
  intros H Hi Hj Hn. rewrite (ex_loss b m i j H Hi Hj), (ex_loss b m j j H Hj Hj), (ex_loss b m i i H Hi Hi).
  assert (Z : (10 * log10 1 = 0)%R) by (unfold log10; rewrite ln_1; unfold Rdiv; ring). rewrite <- Z.
  destruct i as [|[|i]]; try lia; destruct j as [|[|j]]; try lia; unfold ex_ratio; simpl; repeat split; try (apply xlt_fin, log10_lt; lra).
Qed.
Lemma ex_apart c c' : c < 2 -> c' < 2 -> c <> c' -> apart 2 6 (exr c) (exr c').
Proof.
  intros Hc Hc' Hn k k' Hk Hk'. destruct c as [|[|c]]; try lia; destruct c' as [|[|c']]; try lia;
    destruct k as [|[|k]]; try lia; destruct k' as [|[|k']]; try lia; unfold dot, delayed, smp; simpl; ring.
Qed.

(** correlated references: both estimates have a positive SDR with "their" reference, and are nearer to the other *)
Definition cor_ref : arr := rarr 2 [[1; 0]; [3 / 5; 4 / 5]]%R.
Definition cor_est : arr := rarr 2 [[4 / 5; 3 / 5]; [12 / 13; 5 / 13]]%R.
Lemma cor_ref_wf : wf cor_ref. Proof. apply rarr_wf; [lia|repeat constructor]. Qed.
Lemma cor_est_wf : wf cor_est. Proof. apply rarr_wf; [lia|repeat constructor]. Qed.
Definition cor_coh (c d : nat) : R := nth d (nth c [[16 / 25; 144 / 169]; [576 / 625; 3136 / 4225]] [])%R 0%R.
Lemma cor_loss b : exists m, pairwise_sdr_loss b (plain_opts 1) cor_est cor_ref = Ok m /\
  forall c d, c < 2 -> d < 2 -> mat_of m c d = coherence_to_neg_sdr None (Fin (cor_coh c d)).
Proof.
  destruct (sdr_coh b (plain_opts 1) cor_ref cor_est) as [m|e] eqn:E.
  2:{ unfold sdr_coh in E. simpl in E. discriminate E. }
  exists (to_db (plain_opts 1) m). split. { unfold pairwise_sdr_loss. rewrite E. reflexivity. }
  intros c d Hc Hd. rewrite to_db_entry. f_equal.
  set (x := nth c [[1; 0]; [3 / 5; 4 / 5]]%R []). set (y := nth d [[4 / 5; 3 / 5]; [12 / 13; 5 / 13]]%R []).
  assert (Hx : has_chan cor_ref c x) by (apply (rarr_chan 2 [[1; 0]; [3 / 5; 4 / 5]]%R c); simpl; lia).
  assert (Hy : has_chan cor_est d y) by (apply (rarr_chan 2 [[4 / 5; 3 / 5]; [12 / 13; 5 / 13]]%R d); simpl; lia).
  destruct (has_chan_pchan false cor_ref c x cor_ref_wf Hx) as [Px _]. destruct (has_chan_pchan false cor_est d y cor_est_wf Hy) as [Py _].
  rewrite (sdr_entry1 b (plain_opts 1) cor_ref cor_est m c d _ _ cor_ref_wf cor_est_wf E eq_refl eq_refl Px Py). f_equal. simpl pre.
  rewrite !unit_norm1.
  - destruct c as [|[|c]]; try lia; destruct d as [|[|d]]; try lia; unfold x, y, dot, smp, cor_coh; simpl; field.
  - destruct d as [|[|d]]; try lia; unfold y, smp; simpl; field.
  - destruct c as [|[|c]]; try lia; unfold x, smp; simpl; field.
Qed.
Theorem cor_swapped b sp : lsa_contract sp -> exists loss vals, pairwise_sdr_loss b (plain_opts 1) cor_est cor_ref = Ok loss /\
  sdr b sp (plain_opts 1) false cor_ref cor_est = Ok (vals, [1; 0]) /\
  (forall i, i < 2 -> xlt (mat_of loss i i) (Fin 0)).
Proof.
  intros Hsp. destruct (cor_loss b) as (m & Hm & E).
  assert (F : forall i j, i < n_chan cor_ref -> j < n_chan cor_est -> is_fin (mat_of m i j) = true).
  { intros i j Hi Hj. rewrite E by auto. rewrite neg_sdr_fin; auto. change (n_chan cor_ref) with 2 in Hi. change (n_chan cor_est) with 2 in Hj.
    destruct i as [|[|i]]; try lia; destruct j as [|[|j]]; try lia; unfold cor_coh; simpl; lra. }
  destruct (sdr_optimal b sp (plain_opts 1) cor_ref cor_est m Hsp Hm F) as (vals & perm & H & _).
  exists m, vals. split; auto. split.
  - rewrite H. f_equal. f_equal. apply (sdr_recover_rows b sp (plain_opts 1) false cor_ref cor_est m vals perm (fun i => 1 - i) Hsp H Hm (le_n 2)).
    + intros i Hi. change (n_chan cor_est) with 2. lia.
    + intros i i' Hi Hi'. change (n_chan cor_ref) with 2 in *. lia.
    + intros i j Hi Hj Hn. change (n_chan cor_ref) with 2 in Hi. change (n_chan cor_est) with 2 in Hj. rewrite !E by lia.
      apply neg_sdr_decreasing; destruct i as [|[|i]]; try lia; destruct j as [|[|j]]; try (simpl in Hn; lia); unfold cor_coh; simpl; lra.
  - intros i Hi. rewrite E by auto. assert (Z : coherence_to_neg_sdr None (Fin (1 / 2)) = Fin 0).
    { rewrite neg_sdr_fin by lra. f_equal. unfold gdb. replace ((1 - 1 / 2) / (1 / 2))%R with 1%R by field. unfold log10. rewrite ln_1. unfold Rdiv. ring. }
    rewrite <- Z. apply neg_sdr_decreasing; try lra; destruct i as [|[|i]]; try lia; unfold cor_coh; simpl; lra.
Qed.
