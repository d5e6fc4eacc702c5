(** * Properties: scale, offset and permutation behaviour, agreement of the backends (C23-C25, C31, C36) *)
From Coq Require Import Reals Lra.
From Verif Require Import Prelude ExtReal Spec SpecSig Sums Helpers Linalg Cgd Metrics StatsProofs LeastSq PrepProofs MetricsProofs ProjTheorems MetricTheorems Invariance Symmetry
  SarSymmetry Relabel Cells Witness SigExamples Glue.
Local Open Scope nat_scope.

(** C23: [same_results] says that all six public functions give the same result *)
Theorem C23_scale_invariance o ref est k k' : 0 < filter_length o -> wf ref -> wf est ->
  scale_ok (zero_mean o) k ref -> scale_ok (zero_mean o) k' est ->
  same_results o (scale k ref) (scale k' est) ref est.
Proof. exact (scale_results o ref est k k'). Qed.
Print Assumptions C23_scale_invariance.
Example C23_example : scale_ok false (fun c => if Nat.eqb c 0 then (-3)%R else 7%R) ex_est.
Proof.
  intros c Hc. change (c < 2) in Hc. split; [destruct (Nat.eqb c 0); lra|].
  intros v Hv. right.
  assert (v = exe c) as ->.
  { destruct Hv as [_ Hv]. rewrite (ex_est_chans c Hc) in Hv. symmetry. revert Hv. generalize (exe c). clear.
    intros l. revert v. induction l as [|a l IH]; intros [|y v] H; simpl in H; try discriminate; auto.
    injection H as -> H. f_equal. auto. }
  pose proof (ex_est_norm c Hc) as Hn. split; [exact Hn|].
  apply Rle_trans with (1 * norm2 (exe c))%R; [rewrite Rmult_1_l; exact Hn|].
  apply Rmult_le_compat_r; [apply sqrt_pos|].
  destruct (Nat.eqb c 0); [rewrite Rabs_left by lra; lra|rewrite Rabs_right by lra; lra].
Qed.

(** C24: below the norm threshold the invariance fails *)
Theorem C24_tiny_scale_refuted b : exists m m',
  pairwise_sdr_loss b (plain_opts 1) (rarr 1 [[tiny]]) (rarr 1 [[1%R]]) = Ok m /\
  pairwise_sdr_loss b (plain_opts 1) (rarr 1 [[(10 ^ 7 * tiny)%R]]) (rarr 1 [[1%R]]) = Ok m' /\
  mat_of m' 0 0 = NInf /\ exists v, mat_of m 0 0 = Fin v /\ (0 < v)%R.
Proof. exact (scale_changes b). Qed.
Print Assumptions C24_tiny_scale_refuted.

(** C25 *)
Theorem C25_offset_invariance o ref est k k' : zero_mean o = true -> wf ref -> wf est ->
  same_results o (add_offset k ref) (add_offset k' est) ref est.
Proof. exact (offset_results o ref est k k'). Qed.
Print Assumptions C25_offset_invariance.
Example C25_example : wf ex_ref /\ wf ex_est /\ zero_mean (Opts 2 None true None None) = true.
Proof. exact (conj ex_ref_wf (conj ex_est_wf eq_refl)). Qed.

(** C31: relabelling references by [sg] and estimates by [tau] relabels the matrices ... *)
Theorem C31_relabel_loss b o ref est sg tau : perm_of (n_chan ref) sg -> perm_of (n_chan est) tau ->
  rrel (mat_rel (n_chan ref) (n_chan est) sg tau)
    (pairwise_sdr_loss b o est ref) (pairwise_sdr_loss b o (pick tau est) (pick sg ref)).
Proof. exact (perm_pairwise b o ref est sg tau). Qed.
Print Assumptions C31_relabel_loss.
Theorem C31_relabel_bss b o ref est sg tau : perm_of (n_chan ref) sg -> perm_of (n_chan est) tau ->
  0 < filter_length o ->
  rrel (fun c c' => mat_rel (n_chan ref) (n_chan est) sg tau (fst c) (fst c') /\
                    col_rel (n_chan est) tau (snd c) (snd c'))
    (sq_cos b o ref est) (sq_cos b o (pick sg ref) (pick tau est)).
Proof. exact (perm_sq_cos b o ref est sg tau). Qed.
Print Assumptions C31_relabel_bss.
(** ... and leaves the optimised totals alone *)
Theorem C31_sdr_total b sp o ref est sg tau loss : lsa_contract sp ->
  perm_of (n_chan ref) sg -> perm_of (n_chan est) tau ->
  pairwise_sdr_loss b o est ref = Ok loss ->
  (forall i j, i < n_chan ref -> j < n_chan est -> is_fin (mat_of loss i j) = true) ->
  exists v p v' p', sdr b sp o false ref est = Ok (v, p) /\
     sdr b sp o false (pick sg ref) (pick tau est) = Ok (v', p') /\
     sumR (map to_R v') = sumR (map to_R v).
Proof. exact (perm_sdr_total b sp o ref est sg tau loss). Qed.
Print Assumptions C31_sdr_total.
Theorem C31_bss_total b sp o ref est sg tau c : lsa_contract sp -> 0 < filter_length o ->
  perm_of (n_chan ref) sg -> perm_of (n_chan est) tau ->
  sq_cos b o ref est = Ok c ->
  (forall i j, i < n_chan ref -> j < n_chan est -> is_fin (snd (fst (bss_mats o c)) i j) = true) ->
  exists s i a p s' i' a' p', bss_eval_sources b sp o ref est = Ok (s, i, a, p) /\
     bss_eval_sources b sp o (pick sg ref) (pick tau est) = Ok (s', i', a', p') /\
     sumR (map to_R i') = sumR (map to_R i).
Proof. exact (perm_bss_total b sp o ref est sg tau c). Qed.
Print Assumptions C31_bss_total.
Example C31_example b : perm_of (n_chan ex_ref) (fun i => 1 - i) /\
  exists c, sq_cos b (plain_opts 2) ex_ref ex_est = Ok c /\
  forall i j, i < n_chan ex_ref -> j < n_chan ex_est -> is_fin (snd (fst (bss_mats (plain_opts 2) c)) i j) = true.
Proof.
  split; [split; change (n_chan ex_ref) with 2; intros; lia|].
  destruct (ex_sq_cos_ok b) as [c H]. exists c. split; auto. intros i j. exact (ex_sir_finite b c i j H).
Qed.

(** C36 *)
Theorem C36_arrays x top rows cols y M col n nf r v :
  toeplitz Torch x = toeplitz NumPy x /\
  (block_toeplitz Torch top rows cols y = Ok M <-> block_toeplitz NumPy top rows cols y = Ok M) /\
  sym_precond_col Torch col = sym_precond_col NumPy col /\
  (length v <= length col -> toeplitz_op Torch col v = toeplitz_op NumPy col v) /\
  (length r = 2 * n -> 2 <= n ->
     nonsym_precond_col Torch r = nonsym_precond_col NumPy r /\
     block_circ_col Torch n nf r = block_circ_col NumPy n nf r).
Proof.
  exact (conj (backend_toeplitz x) (conj (backend_block_toeplitz top rows cols y M)
    (conj (backend_sym_precond col) (conj (backend_toeplitz_op col v)
      (fun Hr Hn => conj (backend_nonsym_precond n r Hr Hn) (backend_circ_embedding n nf r Hr Hn)))))).
Qed.
Print Assumptions C36_arrays.
Theorem C36_backends_loss o ref est m :
  pairwise_sdr_loss Torch o est ref = Ok m <-> pairwise_sdr_loss NumPy o est ref = Ok m.
Proof. exact (backend_pairwise o ref est m). Qed.
Print Assumptions C36_backends_loss.
Theorem C36_backends_sq_cos o ref est c : 0 < filter_length o ->
  (sq_cos Torch o ref est = Ok c <-> sq_cos NumPy o ref est = Ok c).
Proof. exact (backend_sq_cos o ref est c). Qed.
Print Assumptions C36_backends_sq_cos.
Theorem C36_backends_noperm o ref est v : 0 < filter_length o ->
  (bss_eval_sources_noperm Torch o ref est = Ok v <-> bss_eval_sources_noperm NumPy o ref est = Ok v).
Proof. exact (backend_noperm o ref est v). Qed.
Print Assumptions C36_backends_noperm.
Theorem C36_backends_sdr_loss o ref est v : n_chan ref = n_chan est \/ n_chan est = 1 ->
  (sdr_loss Torch o est ref = Ok v <-> sdr_loss NumPy o est ref = Ok v).
Proof. exact (backend_sdr_loss o ref est v). Qed.
Print Assumptions C36_backends_sdr_loss.
(** outside that hypothesis the backends differ *)
Theorem C36_one_reference_refuted o ref est m : use_cg_iter o = None -> filter_length o <> 1 ->
  n_chan ref = 1 -> 1 < n_chan est -> n_chan est <> filter_length o ->
  pairwise_sdr_loss NumPy o est ref = Ok m ->
  sdr_loss Torch o est ref = Raise RuntimeError /\
  sdr_loss NumPy o est ref = Ok (tab (n_chan est) (fun i => mat_of m 0 i)).
Proof. exact (backend_one_reference o ref est m). Qed.
Print Assumptions C36_one_reference_refuted.
Example C36_one_reference_example : n_chan (rarr 5 [exr 0]) = 1 /\ n_chan ex_est = 2 /\
  is_ok (pairwise_sdr_loss NumPy (with_load (plain_opts 3) (Some 1%R)) ex_est (rarr 5 [exr 0])).
Proof.
  split; [reflexivity|]. split; [reflexivity|].
  apply loss_never_raises_loaded; [apply rarr_wf; [lia|repeat constructor]|reflexivity|simpl; lra|simpl; lia].
Qed.
Theorem C36_backends_sdr sp o ref est loss : lsa_contract sp -> pairwise_sdr_loss NumPy o est ref = Ok loss ->
  (forall i j, i < n_chan ref -> j < n_chan est -> is_fin (mat_of loss i j) = true) ->
  exists v p v' p', sdr NumPy sp o false ref est = Ok (v, p) /\ sdr Torch sp o false ref est = Ok (v', p') /\
     sumR (map to_R v') = sumR (map to_R v).
Proof. exact (backend_sdr_total sp o ref est loss). Qed.
Print Assumptions C36_backends_sdr.
Theorem C36_backends_bss sp o ref est c : lsa_contract sp -> 0 < filter_length o -> sq_cos NumPy o ref est = Ok c ->
  (forall i j, i < n_chan ref -> j < n_chan est -> is_fin (snd (fst (bss_mats o c)) i j) = true) ->
  exists s i a p s' i' a' p', bss_eval_sources NumPy sp o ref est = Ok (s, i, a, p) /\
     bss_eval_sources Torch sp o ref est = Ok (s', i', a', p') /\
     sumR (map to_R i') = sumR (map to_R i).
Proof. exact (backend_bss_total sp o ref est c). Qed.
Print Assumptions C36_backends_bss.
Example C36_example : is_ok (pairwise_sdr_loss NumPy (plain_opts 2) ex_est ex_ref) /\
  is_ok (sq_cos NumPy (plain_opts 2) ex_ref ex_est).
Proof. exact (conj (ex_pairwise_ok NumPy 2 ltac:(lia)) (ex_sq_cos_ok NumPy)). Qed.
