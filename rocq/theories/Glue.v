(** * Restatements of the signal theorems in terms of the public functions *)
From Coq Require Import Reals Lra.
From Coquelicot Require Import Complex.
From Verif Require Import Prelude ExtReal Slice Sums SpecSig Fft FftProofs Helpers HelpersProofs PermProofs DbProofs Linalg
  LinalgProofs Cgd Metrics StatsProofs LeastSq PrepProofs MetricsProofs SarProofs ProjTheorems MetricTheorems
  Invariance Symmetry SarSymmetry Relabel CgdOps CgdPrecond CgProofs CgCirc Cells CgTheorems Diag Outputs Edge
  Solvability Witness Spec.
Local Open Scope nat_scope.

(** ** C15: correlations with the FFT length of the code *)
Theorem code_xcorr lx ly L x y l : length x = lx -> 0 < lx -> l < L -> L <= Nat.max lx ly ->
  nth l (stats_xcorr (n_fft lx ly) L x y) 0%R = xcorr x y l.
Proof.
  intros Hx H0 Hl HL. pose proof (n_fft_ge lx ly H0). apply stats_xcorr_plain; lia.
Qed.
Theorem code_acf lx ly L x l : length x = lx -> 0 < lx -> l < L -> L <= Nat.max lx ly ->
  nth l (stats_acf (n_fft lx ly) L x) 0%R = xcorr x x l.
Proof.
  intros Hx H0 Hl HL. pose proof (n_fft_ge lx ly H0). apply stats_acf_plain; lia.
Qed.
(** cross-correlations between references: lags 0 .. L-1 in the first half,
    negative lags -L+1 .. -1 at the end of the second half *)
Theorem code_acf2 lx ly L x1 x2 l : length x1 = lx -> length x2 = lx -> 0 < lx -> l < L -> L <= Nat.max lx ly ->
  nth l (stats2_acf (n_fft lx ly) L x1 x2) 0%R = xcorr x2 x1 l /\
  (0 < l -> nth (2 * L - l) (stats2_acf (n_fft lx ly) L x1 x2) 0%R = xcorr x1 x2 l).
Proof.
  intros Hx Hx2 H0 Hl HL. pose proof (n_fft_ge lx ly H0). split.
  - apply stats2_acf_first; lia.
  - intros Hp. replace (2 * L) with (2 * Nat.min L (n_fft lx ly)) by lia. apply stats2_acf_last; lia.
Qed.

(** ** C22 for the losses and sdr *)
Lemma pairwise_ok_iff b o ref est :
  raises (pairwise_sdr_loss b o est ref) <-> raises (sdr_coh b o ref est).
Proof.
  unfold pairwise_sdr_loss. destruct (sdr_coh b o ref est) as [m|e]; simpl; split; intros [e' H]; try discriminate;
    eexists; reflexivity.
Qed.
Theorem loss_raises_iff b o ref est : wf ref ->
  use_cg_iter o = None -> (0 <= loadv (load_diag o))%R ->
  2 <= filter_length o <= Nat.max (a_len ref) (a_len est) ->
  (forall e, pairwise_sdr_loss b o est ref = Raise e -> e = LinAlgError) /\
  (raises (pairwise_sdr_loss b o est ref) <->
   loadv (load_diag o) = 0%R /\ exists c x, has_chan ref c x /\ silent (pre (zero_mean o) x)).
Proof.
  intros Hw Hcg Hld HL. destruct (sdr_raises_iff b o ref est Hw Hcg Hld HL) as [H1 H2]. split.
  - intros e H. apply H1. unfold pairwise_sdr_loss in H. destruct (sdr_coh b o ref est); simpl in H; [discriminate|congruence].
  - rewrite pairwise_ok_iff. exact H2.
Qed.
Theorem loss_diag_raises_iff b o ref est : wf ref -> n_chan ref = n_chan est ->
  use_cg_iter o = None -> (0 <= loadv (load_diag o))%R ->
  2 <= filter_length o <= Nat.max (a_len ref) (a_len est) ->
  (forall e, sdr_loss b o est ref = Raise e -> e = LinAlgError) /\
  (raises (sdr_loss b o est ref) <->
   loadv (load_diag o) = 0%R /\ exists c x, has_chan ref c x /\ silent (pre (zero_mean o) x)).
Proof.
  intros Hw Hn Hcg Hld HL. destruct (loss_raises_iff b o ref est Hw Hcg Hld HL) as [H1 H2].
  rewrite (sdr_loss_diag b o ref est Hn). destruct (pairwise_sdr_loss b o est ref) as [m|e]; simpl; split; auto.
  - intros e H. discriminate.
  - split; intros H.
    + destruct H as [e H]. discriminate.
    + apply H2 in H. destruct H as [e H]. discriminate.
  - intros e' H. apply H1. congruence.
  - rewrite <- H2. split; intros _; eexists; reflexivity.
Qed.
Theorem loss_never_raises_loaded b o ref est : wf ref ->
  use_cg_iter o = None -> (0 < loadv (load_diag o))%R ->
  2 <= filter_length o <= Nat.max (a_len ref) (a_len est) ->
  is_ok (pairwise_sdr_loss b o est ref).
Proof.
  intros Hw Hcg Hld HL. destruct (loss_raises_iff b o ref est Hw Hcg ltac:(lra) HL) as [_ H2].
  destruct (pairwise_sdr_loss b o est ref) as [m|e]; [eexists; reflexivity|].
  destruct H2 as [H2 _]. destruct H2 as [H _]; [eexists; reflexivity|]. lra.
Qed.

(** ** C20: no NaN in the losses *)
Theorem loss_not_nan b o ref est m c d x y : wf ref -> wf est ->
  has_chan ref c x -> has_chan est d y ->
  pairwise_sdr_loss b o est ref = Ok m -> mat_of m c d <> NaN.
Proof.
  intros Hr He Hx Hy Hm Hn.
  apply (loss_nan_iff b o ref est m c d Hr He Hm (proj1 Hx) (proj1 Hy)) in Hn.
  assert (X : forall a k v, wf a -> has_chan a k v -> ~ nonfinite a k).
  { intros a k v Hw [Hk Hv] (_ & i & Hi & Hf). rewrite Hv in Hf.
    rewrite (map_nth Fin v 0%R i) in Hf. discriminate. }
  destruct Hn as [H|H]; [exact (X _ _ _ Hr Hx H)|exact (X _ _ _ He Hy H)].
Qed.

(** ** C28 for normalised signals *)
Theorem fast_path_general b nf v w n : length v = n -> length w = n -> 0 < n -> n <= nf ->
  (norm_eps <= norm2 v)%R ->
  coh_row b None (stats_acf nf 1 (unit_of v)) (stats_xcorr nf 1 (unit_of v)) [Some (unit_of w)] =
  Ok [lift2 (fun a c => ip n a c ^ 2)%R (Some (unit_of v)) (Some (unit_of w))].
Proof.
  intros Hv Hw Hn Hnf Hv1. rewrite (len1_general b nf (unit_of v) (unit_of w) n); auto.
  - rewrite length_unit_of. auto.
  - rewrite length_unit_of. auto.
  - apply energy_unit_1; auto. lia.
Qed.

(** ** C23-C25 for all functions at once: two calls give the same results *)
Definition same_results (o : opts) (ref est ref' est' : arr) : Prop :=
  (forall b, pairwise_sdr_loss b o est ref = pairwise_sdr_loss b o est' ref') /\
  (forall b, (n_chan ref = 1 -> 0 < n_chan est) -> sdr_loss b o est ref = sdr_loss b o est' ref') /\
  (forall b sp cs, sdr b sp o cs ref est = sdr b sp o cs ref' est') /\
  (forall b sp, sdr_pit_loss b sp o est ref = sdr_pit_loss b sp o est' ref') /\
  (forall b sp, bss_eval_sources b sp o ref est = bss_eval_sources b sp o ref' est') /\
  (forall b, bss_eval_sources_noperm b o ref est = bss_eval_sources_noperm b o ref' est').
Theorem scale_results o ref est k k' : 0 < filter_length o -> wf ref -> wf est ->
  scale_ok (zero_mean o) k ref -> scale_ok (zero_mean o) k' est ->
  same_results o (scale k ref) (scale k' est) ref est.
Proof.
  intros HL Hr He Hk Hk'.
  assert (N : n_chan (scale k ref) = n_chan ref) by apply map_chans_n.
  assert (N' : n_chan (scale k' est) = n_chan est) by apply map_chans_n.
  split; [|split; [|split; [|split; [|split]]]]; intros.
  - apply scale_pairwise; auto.
  - apply scale_sdr_loss; auto. rewrite <- N, <- N'. auto.
  - apply scale_sdr; auto.
  - apply scale_pit; auto.
  - apply scale_bss; auto.
  - apply scale_bss_noperm; auto.
Qed.
Theorem offset_results o ref est k k' : zero_mean o = true -> wf ref -> wf est ->
  same_results o (add_offset k ref) (add_offset k' est) ref est.
Proof.
  intros Hz Hr He.
  pose proof (offset_same k ref Hr) as Sr. pose proof (offset_same k' est He) as Se. rewrite <- Hz in Sr, Se.
  split; [|split; [|split; [|split; [|split]]]]; intros.
  - apply same_pairwise; auto.
  - apply same_sdr_loss; auto.
  - apply same_sdr; auto.
  - apply same_pit; auto.
  - apply same_bss; auto.
  - apply same_bss_noperm; auto.
Qed.

(** ** C41: the two solvers of the package *)
Theorem toeplitz_cg_zero_iter b acf xc s : toeplitz_cg b acf xc 0 = Ok s -> s = repeat 0%R (length acf).
Proof.
  unfold toeplitz_cg. destruct (circulant_precond b acf); simpl; [|discriminate].
  destruct (length acf =? length xc); [|discriminate]. intros H. injection H as <-. reflexivity.
Qed.
Theorem block_cg_zero_iter b top k acf xc x0 s : block_toeplitz_cg b top k acf xc (Some x0) 0 = Ok s -> s = x0.
Proof.
  unfold block_toeplitz_cg. destruct (block_precond b k acf); cbn [bind]; [|discriminate].
  destruct (top / 2 * k =? length xc); [|discriminate]. intros H. injection H as <-. reflexivity.
Qed.

(** C10 as an existence statement: a successful run whose permutation reads reference -> estimate
    and not the other way round. *)
Lemma documented_direction_refuted b sp : lsa_contract sp -> exists o ref est vals perm,
  sdr b sp o false ref est = Ok (vals, perm) /\
  (forall i, i < 3 -> nth (nth i perm 0) (a_chans est) [] = nth i (a_chans ref) []) /\
  (forall i, i < 3 -> nth (nth i perm 0) (a_chans ref) [] <> nth i (a_chans est) []).
Proof.
  intros Hsp. exists (clamp_opts 1 30), cyc_ref, cyc_est, [Fin 30; Fin 30; Fin 30], [2; 0; 1].
  split; [exact (cyc_sdr b sp Hsp)|]. exact (cyc_direction b sp _ _ Hsp (cyc_sdr b sp Hsp)).
Qed.

(** ** C07/C10 entry by entry *)
Theorem sdr_values b sp o cs ref est vals perm i : lsa_contract sp ->
  sdr b sp o cs ref est = Ok (vals, perm) -> i < Nat.min (n_chan ref) (n_chan est) ->
  exists loss, pairwise_sdr_loss b o est ref = Ok loss /\
    let sgn := fun v => if cs then v else xneg v in
    (n_chan ref <= n_chan est -> nth i vals NaN = sgn (mat_of loss i (nth i perm 0))) /\
    (n_chan est < n_chan ref -> nth i vals NaN = sgn (mat_of loss (nth i perm 0) i)).
Proof.
  intros Hsp H Hi. destruct (sdr_outputs b sp o cs ref est vals perm Hsp H) as (loss & E & _ & _ & _ & _ & Hv).
  exists loss. split; auto. cbv zeta. subst vals. unfold matching. rewrite map_map.
  match goal with |- context [map ?f (seq 0 ?n)] => change (map f (seq 0 n)) with (tab n f) end.
  rewrite nth_tab by auto. unfold pair_at, at_pair.
  split; intros Hn; destruct (Nat.leb_spec (n_chan ref) (n_chan est)); try lia; reflexivity.
Qed.

(** ** C36: the arrays built by the two backends *)
Theorem backend_toeplitz x : toeplitz Torch x = toeplitz NumPy x.
Proof. apply toeplitz_backend. Qed.
Theorem backend_block_toeplitz top rows cols x M :
  block_toeplitz Torch top rows cols x = Ok M <-> block_toeplitz NumPy top rows cols x = Ok M.
Proof. unfold block_toeplitz. destruct existsb2; split; intros H; congruence. Qed.
Theorem backend_sym_precond col : sym_precond_col Torch col = sym_precond_col NumPy col.
Proof. rewrite !sym_precond_col_ok. reflexivity. Qed.
Theorem backend_nonsym_precond n r : length r = 2 * n -> 2 <= n ->
  nonsym_precond_col Torch r = nonsym_precond_col NumPy r.
Proof. intros Hr Hn. rewrite !(nonsym_precond_col_ok _ n) by (auto; lia). reflexivity. Qed.
Theorem backend_toeplitz_op col v : length v <= length col -> toeplitz_op Torch col v = toeplitz_op NumPy col v.
Proof. intros H. rewrite !toeplitz_op_dense by auto. reflexivity. Qed.
Theorem backend_circ_embedding n nf r : length r = 2 * n -> 2 <= n ->
  block_circ_col Torch n nf r = block_circ_col NumPy n nf r.
Proof. intros Hr Hn. rewrite !block_circ_parts by (auto; lia). reflexivity. Qed.

(** the exception: one reference and several estimates, not pairwise, direct solver
    (n_est = filter_length is outside the model, see [bc_chan]) *)
Theorem backend_one_reference o ref est m : use_cg_iter o = None -> filter_length o <> 1 ->
  n_chan ref = 1 -> 1 < n_chan est -> n_chan est <> filter_length o ->
  pairwise_sdr_loss NumPy o est ref = Ok m ->
  sdr_loss Torch o est ref = Raise RuntimeError /\
  sdr_loss NumPy o est ref = Ok (tab (n_chan est) (fun i => mat_of m 0 i)).
Proof.
  intros Hcg HL Hr He _ Hm.
  assert (X : forall b, bc_chan b o (n_chan ref) (n_chan est) = match b with NumPy => Ok (n_chan est) | Torch => Raise RuntimeError end).
  { intros b. unfold bc_chan. rewrite Hr, Hcg.
    destruct (Nat.eqb_spec 1 (n_chan est)); [lia|]. destruct (Nat.eqb_spec (n_chan est) 1); [lia|].
    rewrite Nat.eqb_refl. destruct (Nat.eqb_spec (filter_length o) 1); [contradiction|]. destruct b; reflexivity. }
  split.
  - unfold sdr_loss, sdr_coh_diag. rewrite !length_prep.
    destruct (Nat.eqb_spec (filter_length o) 1); [contradiction|]. rewrite X. reflexivity.
  - rewrite (sdr_loss_spec NumPy o ref est (n_chan est)) by (rewrite ?X; auto; lia).
    rewrite Hm. cbn [bind]. f_equal. apply tab_ext. intros i Hi. unfold bc_idx.
    rewrite Hr. destruct (Nat.eqb_spec (n_chan est) 1); [lia|]. reflexivity.
Qed.

(** ** C42 on the SDR system *)
Theorem sdr_system_descent b o nf x y it s s' : (0 <= loadv (load_diag o))%R ->
  toeplitz_cg b (sdr_acf o nf x) (stats_xcorr nf (filter_length o) x y) it = Ok s ->
  toeplitz_cg b (sdr_acf o nf x) (stats_xcorr nf (filter_length o) x y) (S it) = Ok s' ->
  let obj := ls_obj (Nat.min (filter_length o) nf) nf (cdelayed nf x) (loadv (load_diag o)) (smp y) in
  (obj (smp s') <= obj (smp s))%R.
Proof.
  intros Hl H1 H2 obj. rewrite (sol_ok o nf x y) in H1, H2. injection H1 as <-. injection H2 as <-.
  apply pair_descent. auto.
Qed.

(** ** C44: with one-sample signals the length-one fast path differs from the truncated long filter *)
Theorem one_sample_differs b : exists ref est,
  n_fft (a_len ref) (a_len est) = 1 /\
  raises (pairwise_sdr_loss b (plain_opts 2) est ref) /\
  is_ok (pairwise_sdr_loss b (with_length (plain_opts 2) 1) est ref).
Proof.
  exists (rarr 1 [[0%R]]), (rarr 1 [[1%R]]). split; [reflexivity|]. split.
  2:{ destruct b; eexists; reflexivity. }
  unfold pairwise_sdr_loss.
  assert (E : sdr_coh b (plain_opts 2) (rarr 1 [[0%R]]) (rarr 1 [[1%R]]) = Raise LinAlgError).
  { rewrite sdr_coh_unfold by (simpl; lia). change (n_fft _ _) with 1.
    cbn [zero_mean plain_opts use_cg_iter load_diag filter_length].
    destruct (has_chan_pchan false (rarr 1 [[0%R]]) 0 [0%R]) as [P _].
    { apply rarr_wf; [lia|repeat constructor]. }
    { apply (rarr_chan 1 [[0%R]] 0). simpl. lia. }
    change (prep_arr false (rarr 1 [[0%R]])) with [pchan false (rarr 1 [[0%R]]) 0].
    rewrite P. cbn [mapM]. set (x := unit_of (pre false [0%R])).
    match goal with |- bind ?r _ = _ => destruct r as [row|e] eqn:Er end.
    - exfalso. apply coh_row_inv in Er. destruct Er as (_ & HN & _).
      apply row_nonsingular in HN. change (Nat.min 2 1) with 1 in HN. change (loadv None) with 0%R in HN.
      pose proof (HN (fun _ => 1%R)) as Hk.
      assert (X : (1 = 0)%R); [|lra].
      refine (Hk _ 0 ltac:(lia)). clear Hk HN.
      intros i Hi. rewrite gram_mv by auto.
      rewrite (dot_ext 1 _ (cdelayed 1 x i) _ (fun _ => 0%R)); auto.
      + unfold dot. rewrite Rsum_zero; [ring|intros; ring].
      + intros t Ht. destruct t as [|t]; try lia. unfold comb. simpl.
        assert (E0 : nth 0 x 0%R = 0%R).
        { unfold x. change (smp (unit_of (pre false [0%R])) 0 = 0%R). rewrite smp_unit_of. unfold smp. simpl. ring. }
        unfold cdelayed. simpl. change (hd 0%R x) with (nth 0 x 0%R). rewrite ?E0. ring.
    - apply coh_row_raise in Er. destruct Er as [-> _]. reflexivity. }
  rewrite E. eexists. reflexivity.
Qed.
