(** * Recordings without samples (C90) *)
From Coq Require Import Reals Lra Lia FunctionalExtensionality.
From Coquelicot Require Import Complex.
From Verif Require Import Prelude ExtReal Slice Sums Spec SpecSig Fft FftProofs Helpers HelpersProofs PermProofs
  DbProofs Linalg LinalgProofs Cgd Metrics StatsProofs LeastSq PrepProofs MetricsProofs SarProofs
  ProjTheorems MetricTheorems Invariance CgdOps CgdPrecond Cells Diag Edge Empty.
Local Open Scope nat_scope.

Lemma fft_size_ok lx ly : 0 < lx \/ 2 <= ly -> fft_size lx ly = Ok (n_fft lx ly).
Proof.
  intros H. unfold fft_size, n_fft. destruct (Z.leb_spec (Z.of_nat lx + Z.of_nat (Nat.max lx ly) - 1) 0); [lia|].
  do 3 f_equal. lia.
Qed.
Lemma fft_size_raises lx ly : lx = 0 -> ly <= 1 -> fft_size lx ly = Raise ValueError.
Proof.
  intros -> H. unfold fft_size. destruct (Z.leb_spec (Z.of_nat 0 + Z.of_nat (Nat.max 0 ly) - 1) 0); [reflexivity|lia].
Qed.
Lemma with_stats_ok {A} o ref est (k : res A) : filter_length o = 1 \/ 0 < a_len ref \/ 2 <= a_len est ->
  with_stats o ref est k = k.
Proof.
  intros H. unfold with_stats. destruct (Nat.eqb_spec (filter_length o) 1); [reflexivity|].
  rewrite fft_size_ok by tauto. reflexivity.
Qed.
Lemma with_stats_raises {A} o ref est (k : res A) : filter_length o <> 1 -> a_len ref = 0 -> a_len est <= 1 ->
  with_stats o ref est k = Raise ValueError.
Proof.
  intros H1 H2 H3. unfold with_stats. destruct (Nat.eqb_spec (filter_length o) 1); [contradiction|].
  rewrite fft_size_raises by auto. reflexivity.
Qed.

(** Every function of the package on arrays without samples. *)
Lemma all_raise b sp o cs ref est : filter_length o <> 1 -> a_len ref = 0 -> a_len est <= 1 ->
  pairwise_sdr_loss_any b o est ref = Raise ValueError /\ sdr_loss_any b o est ref = Raise ValueError /\
  sdr_any b sp o cs ref est = Raise ValueError /\ bss_any b sp o ref est = Raise ValueError /\
  bss_noperm_any b o ref est = Raise (if Nat.eqb (n_chan ref) (n_chan est) then ValueError else AssertionError).
Proof.
  intros H1 H2 H3. unfold pairwise_sdr_loss_any, sdr_loss_any, sdr_any, bss_any, bss_noperm_any.
  rewrite !with_stats_raises by auto. destruct (n_chan ref =? n_chan est); auto.
Qed.
Lemma all_same b sp o cs ref est : filter_length o = 1 \/ 0 < a_len ref \/ 2 <= a_len est ->
  pairwise_sdr_loss_any b o est ref = pairwise_sdr_loss b o est ref /\ sdr_loss_any b o est ref = sdr_loss b o est ref /\
  sdr_any b sp o cs ref est = sdr b sp o cs ref est /\ bss_any b sp o ref est = bss_eval_sources b sp o ref est /\
  bss_noperm_any b o ref est = bss_eval_sources_noperm b o ref est.
Proof.
  intros H. unfold pairwise_sdr_loss_any, sdr_loss_any, sdr_any, bss_any, bss_noperm_any.
  rewrite !with_stats_ok by auto. repeat split; auto. unfold bss_eval_sources_noperm. destruct (n_chan ref =? n_chan est); auto.
Qed.

(** ** Only the samples matter *)
Definition same_samples (x y : chan) : Prop :=
  match x, y with
  | Some a, Some b => forall t, nth t a 0%R = nth t b 0%R
  | None, None => True
  | _, _ => False
  end.
Definition same_chans (l l' : list chan) : Prop := length l = length l' /\ forall d, same_samples (nth d l None) (nth d l' None).

Lemma rfft_same nf a b : (forall t, nth t a 0%R = nth t b 0%R) -> rfft nf a = rfft nf b.
Proof.
  intros H. unfold rfft. f_equal. extensionality k. f_equal. extensionality t. rewrite H. reflexivity.
Qed.
Lemma xcorr_same nf L v x y : same_samples x y -> stats_xcorr nf L v (opt0 x) = stats_xcorr nf L v (opt0 y).
Proof.
  intros H. unfold stats_xcorr. rewrite (rfft_same nf (opt0 x) (opt0 y)); [reflexivity|].
  destruct x, y; simpl in *; try contradiction; auto.
Qed.
(** Folding over estimates of which only the cross-correlations are used. *)
Lemma mapM_same {A} (f : list R -> res A) (e : A) l l' : same_chans l l' ->
  (forall x y, (forall t, nth t x 0%R = nth t y 0%R) -> f x = f y) ->
  mapM (fun y : chan => match y with None => Ok e | Some v => f v end) l =
  mapM (fun y : chan => match y with None => Ok e | Some v => f v end) l'.
Proof.
  intros [HL HS] HF. apply (mapM_nth_eq _ _ l l' None HL). intros i Hi. specialize (HS i).
  destruct (nth i l None), (nth i l' None); simpl in HS; try contradiction; auto.
Qed.
Lemma tab_same {A} (f : list R -> A) (g : nat -> list R -> A) (e : A) l l' : same_chans l l' ->
  (forall d x y, (forall t, nth t x 0%R = nth t y 0%R) -> g d x = g d y) ->
  tab (length l) (fun d => match nth d l None with None => e | Some y => g d y end) =
  tab (length l') (fun d => match nth d l' None with None => e | Some y => g d y end).
Proof.
  intros [HL HS] HF. rewrite HL. apply tab_ext. intros i Hi. specialize (HS i).
  destruct (nth i l None), (nth i l' None); simpl in HS; try contradiction; auto.
Qed.
Lemma map_nan_same (l l' : list chan) : same_chans l l' -> map (fun _ => NaN) l = map (fun _ => NaN) l'.
Proof.
  intros [HL _]. revert l' HL. induction l as [|x l IH]; intros [|y l'] HL; simpl in *; try discriminate; auto. f_equal. apply IH. lia.
Qed.
Lemma coh_row_same b cg acf nf L v l l' : same_chans l l' ->
  coh_row b cg acf (stats_xcorr nf L v) l = coh_row b cg acf (stats_xcorr nf L v) l'.
Proof.
  intros H. assert (HX : forall x y, (forall t, nth t x 0%R = nth t y 0%R) -> stats_xcorr nf L v x = stats_xcorr nf L v y).
  { intros x y E. unfold stats_xcorr. rewrite (rfft_same nf x y E). reflexivity. }
  unfold coh_row. destruct cg as [k|].
  - apply mapM_same; auto. intros x y E. rewrite (HX x y E). reflexivity.
  - replace (fun l0 d => nth l0 (stats_xcorr nf L v (opt0 (nth d l None))) 0%R)
      with (fun l0 d => nth l0 (stats_xcorr nf L v (opt0 (nth d l' None))) 0%R).
    2:{ extensionality i. extensionality d. f_equal. symmetry. apply xcorr_same. apply H. }
    destruct H as [HL HS]. rewrite HL.
    destruct (solve_cols _ _ _ _) as [X|e]; [|reflexivity]. cbn [bind]. f_equal. rewrite <- HL at 1.
    apply (tab_same (fun _ => NaN) (fun d y => Fin (dot_nth (length acf) (stats_xcorr nf L v y) (fun l0 => X l0 d)))); [split; auto|].
    intros d x y E. rewrite (HX x y E). reflexivity.
Qed.
Lemma sar_row_same b cg nf L ld pw refs l l' : same_chans l l' ->
  sar_row b cg nf L ld pw refs l = sar_row b cg nf L ld pw refs l'.
Proof.
  intros H. unfold sar_row. destruct (existsb tainted refs). { f_equal. apply map_nan_same. exact H. } cbv zeta.
  set (k := length refs). set (rf := fun c => opt0 (nth c refs None)).
  set (xc := fun y => flatten k (length (stats_xcorr nf L (rf 0) y)) (fun c => stats_xcorr nf L (rf c) y)).
  assert (HX : forall x y, (forall t, nth t x 0%R = nth t y 0%R) -> forall v, stats_xcorr nf L v x = stats_xcorr nf L v y).
  { intros x y E v. unfold stats_xcorr. rewrite (rfft_same nf x y E). reflexivity. }
  assert (HXC : forall x y, (forall t, nth t x 0%R = nth t y 0%R) -> xc x = xc y).
  { intros x y E. unfold xc. rewrite (HX x y E). f_equal. extensionality c. apply HX. auto. }
  change (fun y => flatten k (length (stats_xcorr nf L (opt0 (nth 0 refs None)) y)) (fun c => stats_xcorr nf L (opt0 (nth c refs None)) y)) with xc.
  destruct cg as [it|].
  - destruct (block_precond _ _ _) as [P|e]; [|reflexivity]. cbn [bind].
    apply (mapM_same (fun v => do x0 <- (if pw then do cols <- mapM (fun c => toeplitz_cg b (add_load ld (stats_acf nf L (rf c))) (stats_xcorr nf L (rf c) v) it) (seq 0 k);
                  Ok (Some (flatten k _ (fun c => nth c cols []))) else Ok None);
              do s <- block_toeplitz_cg b _ k _ (xc v) x0 it; Ok (Fin (dot_nth _ (xc v) (fun l0 => nth l0 s 0%R)))) NaN l l' H).
    intros x y E. rewrite (HXC x y E).
    replace (fun c => toeplitz_cg b (add_load ld (stats_acf nf L (rf c))) (stats_xcorr nf L (rf c) x) it)
      with (fun c => toeplitz_cg b (add_load ld (stats_acf nf L (rf c))) (stats_xcorr nf L (rf c) y) it).
    + reflexivity.
    + extensionality c. rewrite (HX x y E). reflexivity.
  - destruct (block_toeplitz _ _ _ _ _) as [M|e]; [|reflexivity]. cbn [bind].
    destruct H as [HL HS]. rewrite HL.
    match goal with |- bind (solve_cols ?n ?m ?A ?B) _ = bind (solve_cols ?n ?m ?A ?B') _ => assert (EB : B = B') end.
    { extensionality i. extensionality d. change (nth i (xc (opt0 (nth d l None))) 0%R = nth i (xc (opt0 (nth d l' None))) 0%R).
      f_equal. specialize (HS d). apply HXC. destruct (nth d l None), (nth d l' None); simpl in *; try contradiction; auto. }
    rewrite EB.
    match goal with |- bind ?r _ = _ => destruct r as [X|e] end; [|reflexivity]. cbn [bind]. f_equal. rewrite <- HL at 1.
    apply (tab_same (fun _ => NaN) (fun d y => Fin (dot_nth _ (xc y) (fun l0 => X l0 d)))); [split; auto|].
    intros d x y E. rewrite (HXC x y E). reflexivity.
Qed.
Lemma pick_same l l' i : same_chans l l' -> same_chans [bc_pick l i None] [bc_pick l' i None].
Proof.
  intros [HL HS]. split; [reflexivity|]. intros [|[|d]]; simpl; auto. unfold bc_pick. rewrite HL. destruct (length l' =? 1); apply HS.
Qed.
Lemma nth_same l l' i : same_chans l l' -> same_chans [nth i l None] [nth i l' None].
Proof. intros [HL HS]. split; [reflexivity|]. intros [|[|d]]; simpl; auto. Qed.

(** Estimates with the same samples, and the same size of the transform: everything is the same. *)
Section Same.
Variables (b : backend) (o : opts) (ref est est' : arr).
Hypothesis HL : filter_length o <> 1.
Hypothesis HE : same_chans (prep_arr (zero_mean o) est) (prep_arr (zero_mean o) est').
Hypothesis HN : n_fft (a_len ref) (a_len est) = n_fft (a_len ref) (a_len est').
Lemma same_n_chan : n_chan est = n_chan est'.
Proof. rewrite <- !(length_prep (zero_mean o)). apply HE. Qed.
Lemma sdr_coh_same : sdr_coh b o ref est = sdr_coh b o ref est'.
Proof.
  unfold sdr_coh. destruct (Nat.eqb_spec (filter_length o) 1); [contradiction|]. cbv zeta. rewrite HN.
  apply mapM_ext. intros [v|] _.
  - apply coh_row_same. exact HE.
  - f_equal. apply map_nan_same. exact HE.
Qed.
Lemma sdr_coh_diag_same : sdr_coh_diag b o ref est = sdr_coh_diag b o ref est'.
Proof.
  unfold sdr_coh_diag. destruct (Nat.eqb_spec (filter_length o) 1); [contradiction|]. cbv zeta. rewrite HN.
  destruct HE as [HE1 HE2]. rewrite HE1. destruct (bc_chan _ _ _ _) as [k|e]; [|reflexivity]. cbn [bind].
  apply mapM_ext. intros i _. destruct (bc_pick (prep_arr (zero_mean o) ref) i None) as [v|]; [|reflexivity].
  rewrite (coh_row_same _ _ _ _ _ _ _ _ (pick_same _ _ i HE)). reflexivity.
Qed.
Lemma sq_cos_same : sq_cos b o ref est = sq_cos b o ref est'.
Proof.
  unfold sq_cos. destruct (Nat.eqb_spec (filter_length o) 1); [contradiction|]. cbv zeta. rewrite HN.
  destruct (check_sizes _ _ _ _); [|reflexivity]. cbn [bind].
  rewrite (sar_row_same _ _ _ _ _ _ _ _ _ HE). erewrite mapM_ext; [reflexivity|].
  intros [v|] _; cbv beta iota.
  - apply coh_row_same. exact HE.
  - f_equal. apply map_nan_same. exact HE.
Qed.
Lemma sq_cos_diag_same : sq_cos_diag b o ref est = sq_cos_diag b o ref est'.
Proof.
  unfold sq_cos_diag. destruct (Nat.eqb_spec (filter_length o) 1); [contradiction|]. cbv zeta. rewrite HN.
  destruct (check_sizes _ _ _ _); [|reflexivity]. cbn [bind].
  rewrite (sar_row_same _ _ _ _ _ _ _ _ _ HE). erewrite mapM_ext; [reflexivity|].
  intros i _; cbv beta iota. destruct (nth i (prep_arr (zero_mean o) ref) None) as [v|]; [|reflexivity].
  rewrite (coh_row_same _ _ _ _ _ _ _ _ (nth_same _ _ i HE)). reflexivity.
Qed.
End Same.

(** ** Silence *)
Lemma silent_prep zm m k d : d < k -> exists z, nth d (prep_arr zm (silent_arr m k)) None = Some z /\ silent z /\ length z = m.
Proof.
  intros Hd. unfold prep_arr, silent_arr. cbn [a_chans].
  rewrite (nth_indep _ None (prep zm [])) by (rewrite map_length, repeat_length; auto).
  rewrite map_nth.
  destruct m as [|m].
  - exists []. replace (nth d (repeat (repeat (Fin 0) 0) k) []) with (@nil xr).
    + split; [destruct zm; reflexivity|]. split; [|reflexivity]. intros [|t]; reflexivity.
    + symmetry. change (repeat (Fin 0) 0) with (@nil xr). apply nth_repeat.
  - assert (W : wf (silent_arr (S m) k)).
    { split; [simpl; lia|]. apply Forall_forall. intros c Hc. cbn [silent_arr a_chans] in Hc. apply repeat_spec in Hc. subst. apply repeat_length. }
    assert (HC : has_chan (silent_arr (S m) k) d (repeat 0%R (S m))).
    { split; [unfold n_chan, silent_arr; cbn [a_chans]; rewrite repeat_length; auto|].
      unfold silent_arr. cbn [a_chans]. rewrite (nth_indep _ [] (repeat (Fin 0) (S m))) by (rewrite repeat_length; auto).
      rewrite nth_repeat. clear. induction (S m) as [|j IH]; [reflexivity|]. simpl. f_equal. exact IH. }
    destruct (has_chan_pchan zm _ d _ W HC) as [P LP]. unfold pchan, prep_arr in P.
    rewrite (nth_indep _ None (prep zm [])) in P by (rewrite map_length; apply HC). rewrite map_nth in P. cbn [silent_arr a_chans] in P.
    eexists. split; [exact P|]. split.
    + apply silent_unit.
      assert (Z : silent (repeat 0%R (S m))) by (intros t; unfold smp; apply nth_repeat).
      destruct zm; [|exact Z]. cbn [pre]. intros t. unfold centered, smp.
      destruct (Nat.lt_ge_cases t (S m)) as [Ht|Ht].
      2:{ apply nth_overflow. rewrite map_length, repeat_length. auto. }
      set (f := fun v => (v - mean (repeat 0%R (S m)))%R).
      rewrite (nth_indep _ 0%R (f 0%R)) by (rewrite map_length, repeat_length; auto). rewrite map_nth, nth_repeat. unfold f, mean.
      rewrite Rsum_zero; [lra|]. intros i _. apply Z.
    + rewrite length_unit_of, length_pre. exact LP.
Qed.

Section SilentEstimate.
Variables (b : backend) (sp : scipy_lsa) (o : opts) (cs : bool) (ref : arr) (m k : nat).
Hypothesis HL : filter_length o <> 1.
Hypothesis Hm : m <= a_len ref.
Lemma silent_same : same_chans (prep_arr (zero_mean o) (silent_arr 0 k)) (prep_arr (zero_mean o) (silent_arr m k)).
Proof.
  split; [rewrite !length_prep; unfold n_chan, silent_arr; cbn [a_chans]; rewrite !repeat_length; reflexivity|].
  intros d. destruct (Nat.lt_ge_cases d k) as [Hd|Hd].
  - destruct (silent_prep (zero_mean o) 0 k d Hd) as (z & E & S & _). destruct (silent_prep (zero_mean o) m k d Hd) as (z' & E' & S' & _).
    rewrite E, E'. intros t. change (smp z t = smp z' t). rewrite S, S'. reflexivity.
  - rewrite !nth_overflow by (rewrite length_prep; unfold n_chan, silent_arr; cbn [a_chans]; rewrite repeat_length; auto). exact I.
Qed.
Lemma silent_size : n_fft (a_len ref) (a_len (silent_arr 0 k)) = n_fft (a_len ref) (a_len (silent_arr m k)).
Proof. unfold n_fft, silent_arr. cbn [a_len]. rewrite !Nat.max_l by lia. reflexivity. Qed.
Lemma silent_n_chan j : n_chan (silent_arr j k) = k.
Proof. unfold n_chan, silent_arr. cbn [a_chans]. apply repeat_length. Qed.
Lemma silent_estimate : 
  pairwise_sdr_loss b o (silent_arr 0 k) ref = pairwise_sdr_loss b o (silent_arr m k) ref /\
  sdr_loss b o (silent_arr 0 k) ref = sdr_loss b o (silent_arr m k) ref /\
  sdr b sp o cs ref (silent_arr 0 k) = sdr b sp o cs ref (silent_arr m k) /\
  bss_eval_sources b sp o ref (silent_arr 0 k) = bss_eval_sources b sp o ref (silent_arr m k) /\
  bss_eval_sources_noperm b o ref (silent_arr 0 k) = bss_eval_sources_noperm b o ref (silent_arr m k).
Proof.
  pose proof silent_same as HE. pose proof silent_size as HN.
  unfold sdr, bss_eval_sources, bss_eval_sources_noperm, pairwise_sdr_loss, sdr_loss. rewrite !silent_n_chan.
  rewrite (sdr_coh_same b o ref _ _ HL HE HN), (sdr_coh_diag_same b o ref _ _ HL HE HN), (sq_cos_same b o ref _ _ HL HE HN),
    (sq_cos_diag_same b o ref _ _ HL HE HN).
  repeat split; reflexivity.
Qed.
End SilentEstimate.

Lemma all_estimates b sp o cs ref m k : filter_length o <> 1 -> 0 < a_len ref -> m <= a_len ref ->
  pairwise_sdr_loss_any b o (silent_arr 0 k) ref = pairwise_sdr_loss b o (silent_arr m k) ref /\
  sdr_loss_any b o (silent_arr 0 k) ref = sdr_loss b o (silent_arr m k) ref /\
  sdr_any b sp o cs ref (silent_arr 0 k) = sdr b sp o cs ref (silent_arr m k) /\
  bss_any b sp o ref (silent_arr 0 k) = bss_eval_sources b sp o ref (silent_arr m k) /\
  bss_noperm_any b o ref (silent_arr 0 k) = bss_eval_sources_noperm b o ref (silent_arr m k).
Proof.
  intros HL H0 Hm. destruct (all_same b sp o cs ref (silent_arr 0 k) (or_intror (or_introl H0))) as (-> & -> & -> & -> & ->).
  apply silent_estimate; auto.
Qed.

(** ** References without samples *)
Lemma silent_gram nf z lam i j : silent z -> gram nf (cdelayed nf z) lam i j = (if Nat.eqb i j then lam else 0)%R.
Proof.
  intros H. unfold gram. replace (dot nf (cdelayed nf z i) (cdelayed nf z j)) with 0%R.
  - destruct (i =? j); ring.
  - symmetry. unfold dot. apply Rsum_zero. intros t _. unfold cdelayed.
    change (smp z ((t + (nf - i)) mod nf) * smp z ((t + (nf - j)) mod nf) = 0)%R. rewrite H. ring.
Qed.
Lemma diag_mv n l (v : nat -> R) i : i < n -> Rmv n (fun i j => if Nat.eqb i j then l else 0)%R v i = (l * v i)%R.
Proof.
  intros Hi. unfold mulmv. rewrite (Rsum_ext n _ (fun j => if Nat.eqb j i then l * v j else 0)%R).
  - apply Rsum_delta. auto.
  - intros j Hj. rewrite (Nat.eqb_sym i j). destruct (j =? i); ring.
Qed.
Lemma diag_nonsingular n l : l <> 0%R -> nonsingular n (fun i j => if Nat.eqb i j then l else 0)%R.
Proof.
  intros Hl v Hv j Hj. specialize (Hv j Hj). rewrite diag_mv in Hv by auto. apply Rmult_integral in Hv. tauto.
Qed.
Lemma silent_solvable cg ld nf L z : silent z -> 0 < L -> 0 < nf ->
  solvable cg (Nat.min L nf) (ent (toeplitz NumPy (add_load ld (stats_acf nf L z)))) =
  match cg with None => if Reqb (loadv ld) 0 then Raise LinAlgError else Ok tt | Some _ => Ok tt end.
Proof.
  intros Hz HL Hn. unfold solvable. destruct cg; [reflexivity|].
  pose proof (row_nonsingular NumPy nf L ld z) as HR. rewrite length_loaded in HR.
  assert (HG : nonsingular (Nat.min L nf) (gram nf (cdelayed nf z) (loadv ld)) <->
               nonsingular (Nat.min L nf) (fun i j => if Nat.eqb i j then loadv ld else 0)%R).
  { split; apply nonsingular_ext; intros; rewrite silent_gram; auto. }
  destruct (Reqb (loadv ld) 0) eqn:E.
  - apply Reqb_true in E.
    destruct (Rsolve (Nat.min L nf) (ent (toeplitz NumPy (add_load ld (stats_acf nf L z)))) (fun _ => 0%R)) as [x|] eqn:ES; [|reflexivity].
    exfalso. assert (HN : nonsingular (Nat.min L nf) (ent (toeplitz NumPy (add_load ld (stats_acf nf L z))))).
    { intros v Hv. apply (Rsolve_inj _ _ _ x v ES Hv). }
    apply HR in HN. apply (silent_singular nf (Nat.min L nf) z); auto; [lia|].
    rewrite E in HN. exact HN.
  - destruct (Rsolve_some (Nat.min L nf) (ent (toeplitz NumPy (add_load ld (stats_acf nf L z)))) (fun _ => 0%R)) as [x ES].
    + apply HR, HG, diag_nonsingular. intros E0. apply Reqb_true in E0. congruence.
    + rewrite ES. reflexivity.
Qed.
Lemma silent_xcorr nf L z y l : silent z -> nth l (stats_xcorr nf L z y) 0%R = 0%R.
Proof.
  intros Hz. destruct (Nat.lt_ge_cases l (Nat.min L nf)) as [Hl|Hl].
  - rewrite stats_xcorr_circ by lia. apply Rsum_zero. intros t _. change (smp z t * nth ((t + l) mod nf) y 0 = 0)%R. rewrite Hz. ring.
  - apply nth_overflow. rewrite length_stats_xcorr. auto.
Qed.
Lemma silent_cell cg acf nf L z y : silent z -> sdr_cell cg acf (stats_xcorr nf L z y) = 0%R.
Proof. intros Hz. unfold sdr_cell, dot_nth. apply Rsum_zero. intros l _. rewrite silent_xcorr by auto. ring. Qed.
Lemma silent_row cg ld nf L ests z : silent z -> 0 < L -> 0 < nf ->
  sdr_row_cells cg ld nf L ests (Some z) =
  match cg with
  | None => if Reqb (loadv ld) 0 then Raise LinAlgError else Ok (map (vcell (fun _ => 0%R)) ests)
  | Some _ => Ok (map (vcell (fun _ => 0%R)) ests)
  end.
Proof.
  intros Hz HL Hn. unfold sdr_row_cells. rewrite silent_solvable by auto.
  assert (E : map (vcell (fun w => sdr_cell cg (add_load ld (stats_acf nf L z)) (stats_xcorr nf L z w))) ests = map (vcell (fun _ => 0%R)) ests).
  { apply map_ext. intros [w|]; [|reflexivity]. unfold vcell. rewrite silent_cell by auto. reflexivity. }
  rewrite E. destruct cg; [reflexivity|]. destruct (Reqb (loadv ld) 0); reflexivity.
Qed.

Lemma mapM_const {A B} (f : A -> res B) l e : 0 < length l -> (forall x, In x l -> f x = Raise e) -> mapM f l = Raise e.
Proof. destruct l as [|x l]; simpl; intros H E; [lia|]. rewrite E by auto. reflexivity. Qed.
Lemma silent_in zm m k x : In x (prep_arr zm (silent_arr m k)) -> exists z, x = Some z /\ silent z.
Proof.
  intros H. destruct (In_nth _ _ None H) as (d & Hd & <-).
  rewrite length_prep, silent_n_chan in Hd. destruct (silent_prep zm m k d Hd) as (z & E & S & _). exists z. auto.
Qed.
Lemma silent_len zm m k : length (prep_arr zm (silent_arr m k)) = k.
Proof. rewrite length_prep. apply silent_n_chan. Qed.
(** Any number of zeros. *)
Lemma silent_coh b o m k est : 2 <= filter_length o -> 0 < k ->
  sdr_coh b o (silent_arr m k) est =
  match use_cg_iter o with
  | None => if Reqb (loadv (load_diag o)) 0 then Raise LinAlgError
            else Ok (repeat (map (vcell (fun _ => 0%R)) (prep_arr (zero_mean o) est)) k)
  | Some _ => Ok (repeat (map (vcell (fun _ => 0%R)) (prep_arr (zero_mean o) est)) k)
  end.
Proof.
  intros HL Hk. rewrite sdr_coh_cells by lia.
  set (row := sdr_row_cells _ _ _ _ _).
  assert (HR : forall x, In x (prep_arr (zero_mean o) (silent_arr m k)) -> row x =
    match use_cg_iter o with
    | None => if Reqb (loadv (load_diag o)) 0 then Raise LinAlgError else Ok (map (vcell (fun _ => 0%R)) (prep_arr (zero_mean o) est))
    | Some _ => Ok (map (vcell (fun _ => 0%R)) (prep_arr (zero_mean o) est))
    end).
  { intros x Hx. destruct (silent_in _ _ _ _ Hx) as (z & -> & Hz). unfold row. rewrite silent_row; auto; [lia|apply n_fft_pos]. }
  assert (HO : forall v, (forall x, In x (prep_arr (zero_mean o) (silent_arr m k)) -> row x = Ok v) ->
    mapM row (prep_arr (zero_mean o) (silent_arr m k)) = Ok (repeat v k)).
  { intros v Hv. rewrite (mapM_ok _ (fun _ => v)) by auto. f_equal. rewrite <- (silent_len (zero_mean o) m k) at 2.
    clear. induction (prep_arr (zero_mean o) (silent_arr m k)) as [|x l IH]; [reflexivity|]. simpl. f_equal. exact IH. }
  destruct (use_cg_iter o); [apply HO; auto|]. destruct (Reqb (loadv (load_diag o)) 0); [|apply HO; auto].
  apply mapM_const; auto. rewrite silent_len. auto.
Qed.

Lemma nth_repeat_lt {A} (v d : A) k i : i < k -> nth i (repeat v k) d = v.
Proof. intros H. rewrite (nth_indep _ d v) by (rewrite repeat_length; auto). apply nth_repeat. Qed.
Lemma silent_loss b o m k est : 2 <= filter_length o -> 0 < k ->
  (use_cg_iter o = None -> loadv (load_diag o) = 0%R -> pairwise_sdr_loss b o est (silent_arr m k) = Raise LinAlgError) /\
  (use_cg_iter o <> None \/ loadv (load_diag o) <> 0%R -> (forall D, clamp_db o = Some D -> 0 <= D)%R ->
   exists loss, pairwise_sdr_loss b o est (silent_arr m k) = Ok loss /\
     forall c d y, wf est -> c < k -> has_chan est d y -> mat_of loss c d = worst_loss o).
Proof.
  intros HL Hk. unfold pairwise_sdr_loss. rewrite silent_coh by auto. split.
  - intros -> E. apply Reqb_true in E. rewrite E. reflexivity.
  - intros HC HD.
    assert (HM : match use_cg_iter o with
      | None => if Reqb (loadv (load_diag o)) 0 then Raise LinAlgError
            else Ok (repeat (map (vcell (fun _ => 0%R)) (prep_arr (zero_mean o) est)) k)
      | Some _ => Ok (repeat (map (vcell (fun _ => 0%R)) (prep_arr (zero_mean o) est)) k)
      end = Ok (repeat (map (vcell (fun _ => 0%R)) (prep_arr (zero_mean o) est)) k)).
    { destruct (use_cg_iter o); [reflexivity|]. destruct HC as [HC|HC]; [congruence|].
      apply Reqb_false in HC. rewrite HC. reflexivity. }
    rewrite HM. cbn [bind]. eexists. split; [reflexivity|]. intros c d y Hw Hc Hy.
    rewrite mat_of_to_db. rewrite <- worst_loss_coh by auto. f_equal. unfold mat_of. rewrite nth_repeat_lt by auto.
    destruct (has_chan_pchan (zero_mean o) est d y Hw Hy) as [P _]. unfold pchan in P.
    rewrite (nth_indep _ NaN (vcell (fun _ => 0%R) None)) by (rewrite map_length, length_prep; apply Hy).
    rewrite map_nth, P. reflexivity.
Qed.

(** 0 / 0 makes the SIR undefined. *)
Lemma zero_ratio : xdiv (Fin 0) (Fin 0) = NaN.
Proof. unfold xdiv. assert (E : Reqb 0 0 = true) by (apply Reqb_true; reflexivity). rewrite E. reflexivity. Qed.
Lemma silent_sar b cg nf L ld pw m k zm est s : 2 <= L -> L <= nf ->
  sar_row b cg nf L ld pw (prep_arr zm (silent_arr m k)) (prep_arr zm est) = Ok s ->
  forall d, d < n_chan est -> nth d s NaN = Fin 0 \/ nth d s NaN = NaN.
Proof.
  intros HL Hn H d Hd. rewrite sar_row_cells in H by auto.
  destruct (existsb tainted _).
  { injection H as <-. right. exact (map_nth (fun _ : chan => NaN) _ None d). }
  destruct (sar_ready _ _ _ _ _) as [inv|]; [|discriminate]. cbn [bind] in H. injection H as <-.
  set (f := vcell _). rewrite (nth_indep _ NaN (f None)) by (rewrite map_length, length_prep; auto). rewrite map_nth.
  unfold f, vcell. destruct (nth d (prep_arr zm est) None) as [y|]; [left|right; reflexivity]. f_equal.
  unfold sar_cell, dot_nth. apply Rsum_zero. intros l Hl.
  replace (nth l (sar_xc nf L (prep_arr zm (silent_arr m k)) y) 0%R) with 0%R; [ring|]. symmetry.
  rewrite silent_len in Hl.
  unfold sar_xc. rewrite silent_len. rewrite Nat.min_l by auto. unfold flatten. rewrite nth_tab by auto.
  apply silent_xcorr. unfold rchan. assert (Hk : l mod k < k) by (apply Nat.mod_upper_bound; lia).
  destruct (silent_prep zm m k (l mod k) Hk) as (z & E & S & _). rewrite E. exact S.
Qed.
Lemma silent_bss b sp o m k est : 2 <= filter_length o -> 0 < k -> 0 < n_chan est ->
  raises (bss_eval_sources b sp o (silent_arr m k) est).
Proof.
  intros HL Hk He. unfold bss_eval_sources.
  destruct (sq_cos b o (silent_arr m k) est) as [[mt s]|e] eqn:E; [|exists e; reflexivity].
  exists ValueError. cbn [bind]. simpl bss_mats. cbv beta iota zeta.
  rewrite silent_n_chan, (solve_perm_nan sp b k (n_chan est) _ _ 0 0 Hk He); auto.
  simpl. apply neg_sdr_no_nan.
  pose proof (sq_cos_bound b o (silent_arr m k) est _ ltac:(lia) E) as HB. destruct HB as [HB|HB]; [lia|].
  rewrite sq_cos_cells in E by auto. rewrite silent_coh in E by auto.
  assert (E2 : exists s', sar_row b (use_cg_iter o) (n_fft (a_len (silent_arr m k)) (a_len est)) (filter_length o) (load_diag o) true
             (prep_arr (zero_mean o) (silent_arr m k)) (prep_arr (zero_mean o) est) = Ok s' /\ s' = s /\
             mt = repeat (map (vcell (fun _ => 0%R)) (prep_arr (zero_mean o) est)) k).
  { destruct (use_cg_iter o) as [it|].
    - cbn [bind] in E. destruct (sar_row _ _ _ _ _ _ _ _) as [s'|]; [|discriminate]. cbn [bind] in E. injection E as <- <-. eauto.
    - destruct (Reqb _ _); [discriminate|].
      cbn [bind] in E. destruct (sar_row _ _ _ _ _ _ _ _) as [s'|]; [|discriminate]. cbn [bind] in E. injection E as <- <-. eauto. }
  destruct E2 as (s' & E2 & -> & ->).
  pose proof (silent_sar b _ _ _ _ true m k _ est s HL HB E2 0 He) as HS.
  unfold mat_of. rewrite nth_repeat_lt by auto.
  rewrite (nth_indep _ NaN (vcell (fun _ => 0%R) None)) by (rewrite map_length, length_prep; auto). rewrite map_nth.
  destruct (nth 0 (prep_arr (zero_mean o) est) None) as [y|]; unfold vcell; destruct HS as [-> | ->]; try reflexivity.
  apply zero_ratio.
Qed.
Lemma empty_reference b sp o cs k est : 2 <= filter_length o -> 0 < k -> 2 <= a_len est ->
  (use_cg_iter o = None -> loadv (load_diag o) = 0%R ->
   pairwise_sdr_loss_any b o est (silent_arr 0 k) = Raise LinAlgError /\ sdr_any b sp o cs (silent_arr 0 k) est = Raise LinAlgError) /\
  (use_cg_iter o <> None \/ loadv (load_diag o) <> 0%R -> (forall D, clamp_db o = Some D -> 0 <= D)%R ->
   exists loss, pairwise_sdr_loss_any b o est (silent_arr 0 k) = Ok loss /\
     forall c d y, wf est -> c < k -> has_chan est d y -> mat_of loss c d = worst_loss o) /\
  (0 < n_chan est -> raises (bss_any b sp o (silent_arr 0 k) est)).
Proof.
  intros HL Hk Hl. destruct (all_same b sp o cs (silent_arr 0 k) est (or_intror (or_intror Hl))) as (-> & _ & -> & -> & _).
  destruct (silent_loss b o 0 k est HL Hk) as [H1 H2]. split; [|split].
  - intros HC HZ. rewrite (H1 HC HZ). split; [reflexivity|]. unfold sdr. rewrite (H1 HC HZ). reflexivity.
  - intros HC HD. destruct (H2 HC HD) as (loss & E & HW). exists loss. split; [exact E|].
    exact HW.
  - apply silent_bss; auto.
Qed.

(** ** One tap *)
Lemma ip_0 x y : ip 0 x y = 0%R.
Proof. reflexivity. Qed.
Lemma one_tap_len b lx ly : lx <= 1 -> ly <= 1 -> lx = 0 \/ ly = 0 -> bc_len b lx ly = Ok 0.
Proof. intros H1 H2 H. unfold bc_len. destruct lx as [|[|lx]], ly as [|[|ly]]; try lia; reflexivity. Qed.
(** No sample to sum over: zero. *)
Lemma one_tap_coh b o ref est : filter_length o = 1 -> a_len ref <= 1 -> a_len est <= 1 -> a_len ref = 0 \/ a_len est = 0 ->
  sdr_coh b o ref est = Ok (len1_sdr 0 (prep_arr (zero_mean o) ref) (prep_arr (zero_mean o) est)).
Proof. intros HL H1 H2 H. unfold sdr_coh. rewrite HL. simpl Nat.eqb. cbv iota zeta. rewrite one_tap_len by auto. reflexivity. Qed.
Lemma len1_zero n refs ests c d : (forall x y, ip n x y = 0%R) -> c < length refs -> d < length ests ->
  mat_of (len1_sdr n refs ests) c d =
  match nth c refs None, nth d ests None with Some _, Some _ => Fin 0 | _, _ => NaN end.
Proof.
  intros H0 Hc Hd. unfold mat_of, len1_sdr.
  set (g := fun x => map (fun y => lift2 (fun a b => ip n a b ^ 2)%R x y) ests).
  rewrite (nth_indep _ [] (g None)) by (rewrite map_length; auto). rewrite map_nth. unfold g.
  set (h := fun y => lift2 (fun a b => ip n a b ^ 2)%R (nth c refs None) y).
  rewrite (nth_indep _ NaN (h None)) by (rewrite map_length; auto). rewrite map_nth. unfold h, lift2.
  destruct (nth c refs None), (nth d ests None); try reflexivity. rewrite H0. f_equal. ring.
Qed.
Lemma one_tap_loss b o m m' k k' : filter_length o = 1 -> m <= 1 -> m' <= 1 -> m = 0 \/ m' = 0 ->
  (forall D, clamp_db o = Some D -> 0 <= D)%R ->
  exists loss, pairwise_sdr_loss_any b o (silent_arr m' k') (silent_arr m k) = Ok loss /\
    forall c d, c < k -> d < k' -> mat_of loss c d = worst_loss o.
Proof.
  intros HL H1 H2 H HD. unfold pairwise_sdr_loss_any. rewrite with_stats_ok by auto. unfold pairwise_sdr_loss.
  rewrite one_tap_coh by auto. cbn [bind]. eexists. split; [reflexivity|]. intros c d Hc Hd.
  rewrite mat_of_to_db, len1_zero; [|reflexivity|rewrite silent_len; auto|rewrite silent_len; auto].
  destruct (silent_prep (zero_mean o) m k c Hc) as (z & -> & _). destruct (silent_prep (zero_mean o) m' k' d Hd) as (z' & -> & _).
  apply worst_loss_coh. auto.
Qed.
(** Lengths 0 and 2 or more do not go together. *)
Lemma one_tap_mismatch b sp o cs ref est : filter_length o = 1 -> (a_len ref = 0 /\ 2 <= a_len est) \/ (a_len est = 0 /\ 2 <= a_len ref) ->
  pairwise_sdr_loss_any b o est ref = Raise (shape_exn b) /\ sdr_loss_any b o est ref = Raise (shape_exn b) /\
  sdr_any b sp o cs ref est = Raise (shape_exn b) /\ bss_any b sp o ref est = Raise (shape_exn b).
Proof.
  intros HL H. assert (HB : bc_len b (a_len ref) (a_len est) = Raise (shape_exn b)).
  { unfold bc_len. destruct (a_len ref) as [|[|lx]], (a_len est) as [|[|ly]]; try lia; reflexivity. }
  destruct (all_same b sp o cs ref est (or_introl HL)) as (-> & -> & -> & -> & _).
  unfold sdr, bss_eval_sources, pairwise_sdr_loss, sdr_loss, sdr_coh, sdr_coh_diag, sq_cos. rewrite HL. simpl Nat.eqb. cbv iota zeta.
  rewrite HB. repeat split; reflexivity.
Qed.
Lemma not_tainted zm m k : existsb tainted (prep_arr zm (silent_arr m k)) = false.
Proof.
  destruct (existsb tainted _) eqn:E; [|reflexivity]. apply existsb_exists in E. destruct E as (x & Hx & Tx).
  destruct (silent_in _ _ _ _ Hx) as (z & -> & _). discriminate.
Qed.
Lemma one_tap_sar ld zm m' k k' : 0 < k ->
  len1_sar 0 0 ld (prep_arr zm (silent_arr 0 k)) (prep_arr zm (silent_arr m' k')) =
  if Reqb (loadv ld) 0 then Raise LinAlgError else Ok (repeat (Fin 0) k').
Proof.
  intros Hk. unfold len1_sar. rewrite not_tainted. cbv zeta. rewrite !silent_len.
  set (A := fun c d : nat => _).
  assert (EA : forall i j, A i j = (if Nat.eqb i j then loadv ld else 0)%R).
  { intros i j. unfold A. rewrite ip_0. unfold loadv. destruct ld as [l|], (i =? j); ring. }
  destruct (Reqb (loadv ld) 0) eqn:E.
  - apply Reqb_true in E. destruct (solve_cols k k' A _) as [X|e] eqn:ES.
    + exfalso. apply solve_cols_inv in ES. destruct ES as [HN _].
      assert (H1 : (fun _ : nat => 1%R) 0 = 0%R).
      { apply (HN (fun _ => 1%R)) with (j := 0); auto. intros i Hi. unfold mulmv. apply Rsum_zero. intros j Hj. rewrite EA, E. destruct (i =? j); ring. }
      cbv beta in H1. lra.
    + apply solve_cols_raise in ES. destruct ES as [-> _]. reflexivity.
  - assert (HN : nonsingular k A).
    { apply (nonsingular_ext k (fun i j => if Nat.eqb i j then loadv ld else 0)%R); [intros; symmetry; apply EA|].
      apply diag_nonsingular. apply Reqb_false. exact E. }
    destruct (solve_cols_ok k k' A (fun c d : nat => ip 0 (opt0 (nth c (prep_arr zm (silent_arr 0 k)) None)) (opt0 (nth d (prep_arr zm (silent_arr m' k')) None))) HN)
      as (X & -> & _). cbn [bind]. f_equal. apply (nth_ext _ _ NaN NaN); [rewrite length_tab, repeat_length; reflexivity|].
    intros d Hd. rewrite length_tab in Hd. rewrite nth_tab by auto. rewrite nth_repeat_lt by auto.
    destruct (silent_prep zm m' k' d Hd) as (z & -> & _). cbn [tainted]. f_equal. apply Rsum_zero. intros c Hc. rewrite ip_0. ring.
Qed.
Lemma one_tap_bss b sp o k k' : filter_length o = 1 -> 0 < k -> 0 < k' ->
  bss_any b sp o (silent_arr 0 k) (silent_arr 0 k') =
  Raise (if Reqb (loadv (load_diag o)) 0 then LinAlgError else ValueError).
Proof.
  intros HL Hk Hk'. unfold bss_any. rewrite with_stats_ok by auto. unfold bss_eval_sources, sq_cos. rewrite HL. simpl Nat.eqb. cbv iota zeta.
  rewrite one_tap_len by auto. cbn [bind a_len silent_arr]. fold (silent_arr 0 k). fold (silent_arr 0 k').
  rewrite one_tap_sar by auto. destruct (Reqb (loadv (load_diag o)) 0); [reflexivity|]. cbn [bind]. simpl bss_mats. cbv beta iota zeta.
  rewrite !silent_n_chan, (solve_perm_nan sp b k k' _ _ 0 0 Hk Hk'); [reflexivity|].
  simpl. apply neg_sdr_no_nan. rewrite len1_zero; [|reflexivity|rewrite silent_len; auto|rewrite silent_len; auto].
  destruct (silent_prep (zero_mean o) 0 k 0 Hk) as (z & -> & _). destruct (silent_prep (zero_mean o) 0 k' 0 Hk') as (z' & -> & _).
  rewrite nth_repeat_lt by auto. apply zero_ratio.
Qed.
Lemma one_tap_noperm b o k : filter_length o = 1 -> 0 < k -> (forall D, clamp_db o = Some D -> 0 <= D)%R ->
  bss_noperm_any b o (silent_arr 0 k) (silent_arr 0 k) =
  if Reqb (loadv (load_diag o)) 0 then Raise LinAlgError
  else Ok (repeat (xneg (worst_loss o)) k, repeat NaN k, repeat (xneg (worst_loss o)) k).
Proof.
  intros HL Hk HD. unfold bss_noperm_any. rewrite Nat.eqb_refl, with_stats_ok by auto. unfold bss_eval_sources_noperm.
  rewrite Nat.eqb_refl. unfold sq_cos_diag. rewrite HL. simpl Nat.eqb. cbv iota zeta.
  rewrite one_tap_len by auto. cbn [bind a_len silent_arr]. fold (silent_arr 0 k).
  rewrite one_tap_sar by auto. destruct (Reqb (loadv (load_diag o)) 0); [reflexivity|]. cbn [bind]. rewrite silent_n_chan, silent_len.
  set (base := fun i => base_metrics o _ _).
  assert (EB : forall i, i < k -> base i = (worst_loss o, NaN, worst_loss o)).
  { intros i Hi. unfold base. rewrite nth_tab by auto. rewrite nth_repeat_lt by auto.
    destruct (silent_prep (zero_mean o) 0 k i Hi) as (z & -> & _). unfold lift2. rewrite ip_0.
    replace (0 ^ 2)%R with 0%R by ring. unfold base_metrics. rewrite worst_loss_coh by auto. f_equal. f_equal. apply neg_sdr_no_nan.
    apply zero_ratio. }
  assert (ER : forall (f : xr * xr * xr -> xr) v, f (worst_loss o, NaN, worst_loss o) = v -> map f (tab k base) = repeat v k).
  { intros f v Hf. apply (nth_ext _ _ NaN NaN); [rewrite map_length, length_tab, repeat_length; reflexivity|].
    intros i Hi. rewrite map_length, length_tab in Hi. rewrite nth_repeat_lt by auto.
    rewrite (nth_indep _ NaN (f (base 0))) by (rewrite map_length, length_tab; auto). rewrite map_nth, nth_tab, EB by auto. exact Hf. }
  rewrite (ER (fun t => xneg (fst (fst t))) _ eq_refl), (ER (fun t => xneg (snd (fst t))) NaN eq_refl), (ER (fun t => xneg (snd t)) _ eq_refl).
  reflexivity.
Qed.
