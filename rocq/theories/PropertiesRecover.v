(** * Properties: when the permutation returned is the expected one (C87) *)
From Coq Require Import Reals Lra.
From Verif Require Import Prelude ExtReal Spec SpecSig Sums Helpers PermProofs Metrics StatsProofs PrepProofs MetricsProofs ProjTheorems MetricTheorems Witness SigExamples
  Recover RecoverExamples.
Local Open Scope nat_scope.

(** C87: each reference has an estimate of its own with a smaller loss than all other estimates; infinite losses included. *)
Theorem C87_own_estimate b sp n_ref n_est loss args out outs perm s : lsa_contract sp ->
  solve_permutation b sp n_ref n_est loss args = Ok (out, outs, perm) -> n_ref <= n_est ->
  (forall i, i < n_ref -> s i < n_est) -> (forall i i', i < n_ref -> i' < n_ref -> s i = s i' -> i = i') ->
  (forall i j, i < n_ref -> j < n_est -> j <> s i -> xlt (loss i (s i)) (loss i j)) ->
  perm = map s (seq 0 n_ref).
Proof. exact (recover_rows b sp n_ref n_est loss args out outs perm s). Qed.
Print Assumptions C87_own_estimate.
Theorem C87_own_reference b sp n_ref n_est loss args out outs perm s : lsa_contract sp ->
  solve_permutation b sp n_ref n_est loss args = Ok (out, outs, perm) -> n_est <= n_ref ->
  (forall j, j < n_est -> s j < n_ref) -> (forall j j', j < n_est -> j' < n_est -> s j = s j' -> j = j') ->
  (forall i j, i < n_ref -> j < n_est -> i <> s j -> xlt (loss (s j) j) (loss i j)) ->
  forall i j, In (i, j) (matching n_ref n_est perm) -> i = s j.
Proof. exact (recover_cols b sp n_ref n_est loss args out outs perm s). Qed.
Print Assumptions C87_own_reference.

(** C87: the same for sdr. *)
Theorem C87_sdr_own_estimate b sp o cs ref est loss vals perm s : lsa_contract sp ->
  sdr b sp o cs ref est = Ok (vals, perm) -> pairwise_sdr_loss b o est ref = Ok loss -> n_chan ref <= n_chan est ->
  (forall i, i < n_chan ref -> s i < n_chan est) -> (forall i i', i < n_chan ref -> i' < n_chan ref -> s i = s i' -> i = i') ->
  (forall i j, i < n_chan ref -> j < n_chan est -> j <> s i -> xlt (mat_of loss i (s i)) (mat_of loss i j)) ->
  perm = map s (seq 0 (n_chan ref)).
Proof. exact (sdr_recover_rows b sp o cs ref est loss vals perm s). Qed.
Print Assumptions C87_sdr_own_estimate.
Theorem C87_sdr_own_reference b sp o cs ref est loss vals perm s : lsa_contract sp ->
  sdr b sp o cs ref est = Ok (vals, perm) -> pairwise_sdr_loss b o est ref = Ok loss -> n_chan est <= n_chan ref ->
  (forall j, j < n_chan est -> s j < n_chan ref) -> (forall j j', j < n_chan est -> j' < n_chan est -> s j = s j' -> j = j') ->
  (forall i j, i < n_chan ref -> j < n_chan est -> i <> s j -> xlt (mat_of loss (s j) j) (mat_of loss i j)) ->
  forall i j, In (i, j) (matching (n_chan ref) (n_chan est) perm) -> i = s j.
Proof. exact (sdr_recover_cols b sp o cs ref est loss vals perm s). Qed.
Print Assumptions C87_sdr_own_reference.
Example C87_dominant_example b : exists m, pairwise_sdr_loss b (plain_opts 2) ex_est ex_ref = Ok m /\
  forall i j, i < 2 -> j < 2 -> i <> j -> xlt (mat_of m j j) (mat_of m i j) /\ xlt (mat_of m i i) (mat_of m i j).
Proof.
  destruct (ex_pairwise_ok b 2 ltac:(lia)) as [m H]. exists m. split; auto. intros i j Hi Hj Hn.
  destruct (ex_dominant b m i j H Hi Hj Hn) as (H1 & H2 & _). auto.
Qed.

(** C87: references that stay orthogonal under all delays of the filter: a positive SDR of every estimate with a reference of its own is enough. *)
Theorem C87_uncorrelated b sp o cs ref est loss vals perm s M xs ys : lsa_contract sp -> wf ref -> wf est ->
  use_cg_iter o = None -> (0 <= loadv (load_diag o))%R ->
  1 <= filter_length o <= Nat.max (a_len ref) (a_len est) -> (filter_length o = 1 -> a_len ref = a_len est) ->
  a_len ref + filter_length o - 1 <= M -> a_len est <= M -> has_chans ref xs -> has_chans est ys ->
  (forall c c', c < n_chan ref -> c' < n_chan ref -> c <> c' -> forall k k', k < filter_length o -> k' < filter_length o ->
     dot M (delayed (pre (zero_mean o) (xs c)) k) (delayed (pre (zero_mean o) (xs c')) k') = 0%R) ->
  sdr b sp o cs ref est = Ok (vals, perm) -> pairwise_sdr_loss b o est ref = Ok loss -> n_chan est <= n_chan ref ->
  (forall j, j < n_chan est -> s j < n_chan ref) -> (forall j j', j < n_chan est -> j' < n_chan est -> s j = s j' -> j = j') ->
  (forall j, j < n_chan est -> xlt (mat_of loss (s j) j) (Fin 0)) ->
  forall i j, In (i, j) (matching (n_chan ref) (n_chan est) perm) -> i = s j.
Proof. exact (sdr_uncorrelated b sp o cs ref est loss vals perm s M xs ys). Qed.
Print Assumptions C87_uncorrelated.
Example C87_uncorrelated_example b : (exists m, pairwise_sdr_loss b (plain_opts 2) ex_est ex_ref = Ok m /\
    forall j, j < 2 -> xlt (mat_of m j j) (Fin 0)) /\
  forall c c', c < 2 -> c' < 2 -> c <> c' -> forall k k', k < 2 -> k' < 2 -> dot 6 (delayed (exr c) k) (delayed (exr c') k') = 0%R.
Proof.
  split; [|exact ex_apart]. destruct (ex_pairwise_ok b 2 ltac:(lia)) as [m H]. exists m. split; auto. intros j Hj.
  apply (ex_dominant b m (1 - j) j H); lia.
Qed.
(** For correlated references it is not: each estimate has a positive SDR with its own reference, and sdr returns the exchange. *)
Theorem C87_correlated_refuted b sp : lsa_contract sp -> exists loss vals, pairwise_sdr_loss b (plain_opts 1) cor_est cor_ref = Ok loss /\
  sdr b sp (plain_opts 1) false cor_ref cor_est = Ok (vals, [1; 0]) /\
  (forall i, i < 2 -> xlt (mat_of loss i i) (Fin 0)).
Proof. exact (cor_swapped b sp). Qed.
Print Assumptions C87_correlated_refuted.

(** C87: if every estimate has a reference of its own by SDR, bss_eval_sources (which selects by SIR) takes the same. *)
Theorem C87_bss_own_reference b sp o ref est m sar xs ys out perm s : lsa_contract sp -> wf ref -> wf est ->
  use_cg_iter o = None -> (0 <= loadv (load_diag o))%R -> clamp_db o = None ->
  2 <= filter_length o \/ (filter_length o = 1 /\ a_len ref = a_len est /\ loadv (load_diag o) = 0%R) ->
  has_chans ref xs -> has_chans est ys -> sq_cos b o ref est = Ok (m, sar) ->
  bss_eval_sources b sp o ref est = Ok (out, perm) -> n_chan est <= n_chan ref ->
  (forall j, j < n_chan est -> s j < n_chan ref) -> (forall j j', j < n_chan est -> j' < n_chan est -> s j = s j' -> j = j') ->
  (forall i j, i < n_chan ref -> j < n_chan est -> i <> s j -> xlt (mat_of (to_db o m) (s j) j) (mat_of (to_db o m) i j)) ->
  forall i j, In (i, j) (matching (n_chan ref) (n_chan est) perm) -> i = s j.
Proof. exact (bss_recover_cols b sp o ref est m sar xs ys out perm s). Qed.
Print Assumptions C87_bss_own_reference.
Example C87_bss_example b sp : lsa_contract sp -> exists m sar out, sq_cos b (plain_opts 2) ex_ref ex_est = Ok (m, sar) /\
  bss_eval_sources b sp (plain_opts 2) ex_ref ex_est = Ok (out, [0; 1]) /\
  forall i j, i < 2 -> j < 2 -> i <> j -> xlt (mat_of (to_db (plain_opts 2) m) j j) (mat_of (to_db (plain_opts 2) m) i j).
Proof.
  intros Hsp. destruct (ex_sq_cos_ok b) as [[m sar] H]. exists m, sar. eexists. split; [exact H|]. split; [exact (ex_bss b sp Hsp)|].
  intros i j Hi Hj Hn.
  assert (Hm : pairwise_sdr_loss b (plain_opts 2) ex_est ex_ref = Ok (to_db (plain_opts 2) m)).
  { unfold pairwise_sdr_loss. rewrite (SarProofs.sq_cos_sdr' b (plain_opts 2) ex_ref ex_est m sar ltac:(simpl; lia) H). reflexivity. }
  apply (ex_dominant b _ i j Hm Hi Hj Hn).
Qed.
