(** * No iteration of the conjugate gradient *)
From Coq Require Import Reals Lra.
From Verif Require Import Prelude ExtReal Slice Sums Spec SpecSig Fft FftProofs Helpers HelpersProofs PermProofs
  DbProofs Linalg LinalgProofs Cgd Metrics StatsProofs LeastSq PrepProofs MetricsProofs SarProofs
  ProjTheorems MetricTheorems Invariance CgdOps CgdPrecond Cells Diag BlockGlue Edge Empty EmptyProofs IntOpts IntOptsProofs.
Local Open Scope nat_scope.

Lemma cell_zero acf xc : sdr_cell (Some 0) acf xc = 0%R.
Proof.
  unfold sdr_cell, dot_nth. apply Rsum_zero. intros l Hl. unfold sdr_sol, toeplitz_cg_spec, conjugate_gradient, cg_run. simpl.
  rewrite nth_repeat. ring.
Qed.
Lemma sar_cell_zero pw nf L ld refs inv y : sar_cell (Some 0) pw nf L ld refs inv y = 0%R.
Proof.
  unfold sar_cell, dot_nth. apply Rsum_zero. intros l Hl. unfold sar_sol, block_cg_spec, conjugate_gradient, cg_run. simpl.
  replace (nth l (sar_start pw 0 nf L ld refs y) 0%R) with 0%R; [ring|]. unfold sar_start. destruct pw; [|rewrite nth_repeat; reflexivity].
  unfold flatten. rewrite nth_tab by auto. destruct (_ <? _); [|destruct (l / length refs); reflexivity].
  unfold toeplitz_cg_spec, conjugate_gradient, cg_run. simpl. rewrite nth_repeat. reflexivity.
Qed.
Lemma coh_zero b o ref est : filter_length o <> 1 -> use_cg_iter o = Some 0 -> exists m, sdr_coh b o ref est = Ok m /\
  forall c d x y, wf ref -> wf est -> has_chan ref c x -> has_chan est d y -> mat_of m c d = Fin 0.
Proof.
  intros HL Hc. rewrite sdr_coh_cells by auto. rewrite Hc.
  set (ests := prep_arr (zero_mean o) est). set (row := sdr_row_cells _ _ _ _ _).
  assert (HR : forall x, row x = Ok (match x with None => map (fun _ => NaN) ests | Some _ => map (vcell (fun _ => 0%R)) ests end)).
  { intros [x|]; [|reflexivity]. unfold row, sdr_row_cells. simpl solvable. cbn [bind]. f_equal. apply map_ext. intros [y|]; [|reflexivity].
    unfold vcell. rewrite cell_zero. reflexivity. }
  rewrite (mapM_ok row (fun x : chan => match x with None => map (fun _ => NaN) ests | Some _ => map (vcell (fun _ => 0%R)) ests end)) by auto.
  eexists. split; [reflexivity|]. intros c d x y Hwr Hwe Hx Hy. unfold mat_of.
  destruct (has_chan_pchan (zero_mean o) ref c x Hwr Hx) as [P _]. unfold pchan in P.
  destruct (has_chan_pchan (zero_mean o) est d y Hwe Hy) as [Q _]. unfold pchan in Q.
  set (f := fun x : chan => match x with None => map (fun _ : chan => NaN) ests | Some _ => map (vcell (fun _ => 0%R)) ests end).
  rewrite (nth_indep _ [] (f None)) by (rewrite map_length, length_prep; apply Hx). rewrite map_nth, P. unfold f.
  rewrite (nth_indep _ NaN (vcell (fun _ => 0%R) None)) by (unfold ests; rewrite map_length, length_prep; apply Hy).
  rewrite map_nth. unfold ests. rewrite Q. reflexivity.
Qed.
Lemma loss_zero b o ref est : filter_length o <> 1 -> use_cg_iter o = Some 0 -> (forall D, clamp_db o = Some D -> 0 <= D)%R ->
  exists loss, pairwise_sdr_loss b o est ref = Ok loss /\
  forall c d x y, wf ref -> wf est -> has_chan ref c x -> has_chan est d y -> mat_of loss c d = worst_loss o.
Proof.
  intros HL Hc HD. destruct (coh_zero b o ref est HL Hc) as (m & E & HM). unfold pairwise_sdr_loss. rewrite E. cbn [bind].
  eexists. split; [reflexivity|]. intros c d x y H1 H2 H3 H4. rewrite mat_of_to_db, (HM c d x y) by auto. apply worst_loss_coh; auto.
Qed.
Lemma sar_zero b nf L ld pw refs ests s d : 2 <= L -> L <= nf -> sar_row b (Some 0) nf L ld pw refs ests = Ok s -> d < length ests ->
  nth d s NaN = Fin 0 \/ nth d s NaN = NaN.
Proof.
  intros HL Hn H Hd. rewrite sar_row_cells in H by auto. destruct (existsb tainted _).
  { injection H as <-. right. exact (map_nth (fun _ : chan => NaN) _ None d). }
  destruct (sar_ready _ _ _ _ _) as [inv|]; [|discriminate]. cbn [bind] in H. injection H as <-.
  set (f := vcell _). rewrite (nth_indep _ NaN (f None)) by (rewrite map_length; auto). rewrite map_nth.
  unfold f, vcell. destruct (nth d ests None) as [y|]; [left|right; reflexivity]. f_equal. apply sar_cell_zero.
Qed.
Lemma bss_zero b sp o ref est x y : 2 <= filter_length o -> use_cg_iter o = Some 0 -> wf ref -> wf est -> has_chan ref 0 x -> has_chan est 0 y ->
  raises (bss_eval_sources b sp o ref est).
Proof.
  intros HL Hc Hwr Hwe Hx Hy. unfold bss_eval_sources.
  destruct (sq_cos b o ref est) as [[mt s]|e] eqn:E; [|exists e; reflexivity].
  exists ValueError. cbn [bind]. simpl bss_mats. cbv beta iota zeta.
  rewrite (solve_perm_nan sp b (n_chan ref) (n_chan est) _ _ 0 0 (proj1 Hx) (proj1 Hy)); auto.
  simpl. apply neg_sdr_no_nan.
  pose proof (sq_cos_bound b o ref est _ ltac:(lia) E) as HB. destruct HB as [HB|HB]; [lia|].
  rewrite sq_cos_cells in E by auto.
  destruct (coh_zero b o ref est ltac:(lia) Hc) as (m & E1 & HM). rewrite E1 in E. cbn [bind] in E.
  destruct (sar_row _ _ _ _ _ _ _ _) as [s'|] eqn:ES; [|discriminate]. cbn [bind] in E. injection E as <- <-.
  rewrite Hc in ES. pose proof (sar_zero _ _ _ _ _ _ _ _ 0 HL HB ES ltac:(rewrite length_prep; apply Hy)) as HS.
  rewrite (HM 0 0 x y) by auto. destruct HS as [-> | ->]; [apply zero_ratio|reflexivity].
Qed.
Lemma noperm_zero b o ref est sdr sir sar : 2 <= filter_length o -> use_cg_iter o = Some 0 -> wf ref -> wf est ->
  (forall D, clamp_db o = Some D -> 0 <= D)%R -> bss_eval_sources_noperm b o ref est = Ok (sdr, sir, sar) ->
  forall c x y, has_chan ref c x -> has_chan est c y -> nth c sdr NaN = xneg (worst_loss o) /\ nth c sir NaN = NaN.
Proof.
  intros HL Hc Hwr Hwe HD H c x y Hx Hy. unfold bss_eval_sources_noperm in H.
  destruct (Nat.eqb_spec (n_chan ref) (n_chan est)) as [En|]; [|discriminate].
  destruct (sq_cos_diag b o ref est) as [[mt s]|] eqn:E; [|discriminate]. cbn [bind] in H. injection H as <- <- <-.
  unfold sq_cos_diag in E. destruct (Nat.eqb_spec (filter_length o) 1); [lia|]. cbv zeta in E.
  destruct (check_sizes _ _ _ _) as [[]|] eqn:EC; [|discriminate]. cbn [bind] in E.
  apply check_sizes_ok in EC; [|lia|apply n_fft_pos].
  destruct (mapM _ _) as [mt'|] eqn:EM; [|discriminate]. cbn [bind] in E.
  destruct (sar_row _ _ _ _ _ _ _ _) as [s'|] eqn:ES; [|discriminate]. cbn [bind] in E. injection E as <- <-.
  rewrite Hc in ES. assert (HS : nth c s' NaN = Fin 0 \/ nth c s' NaN = NaN).
  { apply (sar_zero _ _ _ _ _ _ _ _ c HL EC ES). rewrite length_prep. apply Hy. }
  assert (HM : nth c mt' NaN = Fin 0).
  { destruct (has_chan_pchan (zero_mean o) ref c x Hwr Hx) as [P _]. unfold pchan in P.
    destruct (has_chan_pchan (zero_mean o) est c y Hwe Hy) as [Q _]. unfold pchan in Q.
    pose proof (mapM_nth _ _ _ 0 NaN c EM) as HN. rewrite seq_length, length_prep in HN. specialize (HN (proj1 Hx)).
    rewrite seq_nth in HN by apply Hx. simpl plus in HN. rewrite P in HN.
    rewrite Hc in HN. unfold coh_row in HN. rewrite Q in HN. cbn [mapM bind] in HN.
    destruct (toeplitz_cg _ _ _ _) as [sol|] eqn:ET; [|discriminate]. cbn [bind] in HN. injection HN as <-. f_equal.
    rewrite toeplitz_cg_ok in ET. destruct (Nat.eqb _ _); [|discriminate]. injection ET as <-. apply cell_zero. }
  set (f := fun i => base_metrics o (nth i mt' NaN) (nth i s' NaN)).
  assert (EF : forall g : xr * xr * xr -> xr, nth c (map g (tab (n_chan ref) f)) NaN = g (f c)).
  { intros g. unfold tab. rewrite map_map. rewrite (nth_indep _ NaN (g (f 0))) by (rewrite map_length, seq_length; apply Hx).
    rewrite (map_nth (fun k => g (f k))). rewrite seq_nth by apply Hx. reflexivity. }
  rewrite !EF. unfold f, base_metrics. rewrite HM. cbn [fst snd]. split; [rewrite worst_loss_coh by auto; reflexivity|].
  assert (EN : xdiv (Fin 0) (nth c s' NaN) = NaN) by (destruct HS as [-> | ->]; [apply zero_ratio|reflexivity]).
  rewrite EN. destruct (clamp_db o); reflexivity.
Qed.

(** The same for use_cg_iter <= 0. *)
Lemma iterations_zero o k : z_iter o = Some k -> (k <= 0)%Z -> iterations o = Some 0.
Proof. intros E H. unfold iterations. rewrite E. simpl. f_equal. lia. Qed.
Lemma no_iterations b sp o ref est l k : z_length o = Some l -> (2 <= l)%Z -> z_iter o = Some k -> (k <= 0)%Z ->
  (forall D, z_clamp o = Some D -> 0 <= D)%R -> wf ref -> wf est ->
  let worst := match z_clamp o with None => PInf | Some D => Fin D end in
  (exists loss, pairwise_sdr_loss_z b o est ref = Ok loss /\
    forall c d x y, has_chan ref c x -> has_chan est d y -> mat_of loss c d = worst) /\
  (forall x y, has_chan ref 0 x -> has_chan est 0 y -> raises (bss_z b sp o ref est)) /\
  (forall sdr sir sar c x y, bss_noperm_z b o ref est = Ok (sdr, sir, sar) -> has_chan ref c x -> has_chan est c y ->
    nth c sdr NaN = xneg worst /\ nth c sir NaN = NaN).
Proof.
  intros El Hl Ek Hk HD Hwr Hwe worst.
  destruct (length_positive b sp o false ref est l El ltac:(lia)) as (A & _ & B & C).
  assert (Hc : use_cg_iter (at_length o (Z.to_nat l)) = Some 0) by exact (iterations_zero o k Ek Hk).
  assert (HL : 2 <= filter_length (at_length o (Z.to_nat l))) by (simpl; lia).
  rewrite A, B, C. split; [|split].
  - destruct (loss_zero b (at_length o (Z.to_nat l)) ref est ltac:(lia) Hc HD) as (loss & E & HW).
    exists loss. split; [exact E|]. intros c d x y Hx Hy. exact (HW c d x y Hwr Hwe Hx Hy).
  - intros x y Hx Hy. exact (bss_zero b sp _ ref est x y HL Hc Hwr Hwe Hx Hy).
  - intros sd si sa c x y E Hx Hy. exact (noperm_zero b _ ref est sd si sa HL Hc Hwr Hwe HD E c x y Hx Hy).
Qed.
