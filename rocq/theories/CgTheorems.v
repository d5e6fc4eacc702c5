(** * The conjugate gradient solver inside the SDR: descent, exactness, bounds *)
From Coq Require Import Reals Lra.
From Coquelicot Require Import Complex.
From Verif Require Import Prelude ExtReal Slice Sums SpecSig Fft Helpers Linalg LinalgProofs
  Cgd Metrics StatsProofs LeastSq PrepProofs MetricsProofs SarProofs ProjTheorems MetricTheorems
  CgdOps CgdPrecond CgProofs CgCirc Cells.
Local Open Scope nat_scope.

(** value of the quadratic functional of the least-squares problem *)
Definition ls_obj (K M : nat) (a : nat -> nat -> R) (lam : R) (y h : nat -> R) : R :=
  (energy M (fun t => y t - comb K a h t) + lam * sq K h)%R.

Lemma energy_sub_comb K M a y h :
  (energy M (fun t => y t - comb K a h t) = energy M y - 2 * qval K M a y h + energy M (comb K a h))%R.
Proof. rewrite energy_sub, qval_dot. reflexivity. Qed.

(** the system of one pair of channels *)
Section Pair.
Variables (o : opts) (nf : nat) (x y : list R).
Hypothesis Hld : (0 <= loadv (load_diag o))%R.
Let L := Nat.min (filter_length o) nf.
Let acf := sdr_acf o nf x.
Let xc := stats_xcorr nf (filter_length o) x y.
Let a := cdelayed nf x.
Let lam := loadv (load_diag o).
Let sol it := toeplitz_cg_spec acf xc it.

Lemma pair_len : length acf = L.
Proof. apply length_loaded. Qed.
Lemma pair_len_xc : length xc = length acf.
Proof. unfold xc, acf, sdr_acf. apply stats_len. Qed.
Lemma pair_xc i : i < L -> nth i xc 0%R = dot nf (a i) (smp y).
Proof. intros Hi. apply sdr_crhs; unfold L in Hi; lia. Qed.
Lemma pair_ent b i j : i < L -> j < L -> ent (toeplitz b acf) i j = gram nf a lam i j.
Proof.
  intros Hi Hj. unfold acf, sdr_acf. rewrite stats_acf_min. apply toep_gram; unfold L in *; lia.
Qed.
Lemma pair_psd b : psd_mat (length acf) (ent (toeplitz b acf)).
Proof. apply sdr_system_psd; auto. Qed.

Lemma pair_qval h : dot_nth L xc h = qval L nf a (smp y) h.
Proof. apply Rsum_ext. intros i Hi. rewrite pair_xc; auto. Qed.
Lemma pair_quad b h : quad_err L (ent (toeplitz b acf)) xc h =
  (energy nf (comb L a (smp h)) + lam * sq L (smp h) - 2 * qval L nf a (smp y) (smp h))%R.
Proof.
  unfold quad_err. f_equal.
  - unfold sq, energy. rewrite <- gram_form. apply Rsum_ext. intros i Hi. f_equal.
    apply Rsum_ext. intros j Hj. rewrite pair_ent; auto.
  - f_equal. rewrite <- pair_qval. reflexivity.
Qed.
(** the functional is the distance between the estimate and the filtered reference *)
Lemma pair_obj b h :
  ls_obj L nf a lam (smp y) (smp h) = (quad_err L (ent (toeplitz b acf)) xc h + energy nf (smp y))%R.
Proof. rewrite (pair_quad b). unfold ls_obj. rewrite energy_sub_comb. ring. Qed.

Lemma sol_ok b it : toeplitz_cg b acf xc it = Ok (sol it).
Proof. rewrite toeplitz_cg_ok, pair_len_xc, Nat.eqb_refl. reflexivity. Qed.
Lemma sol_len it : length (sol it) = L.
Proof.
  rewrite <- pair_len. unfold sol, toeplitz_cg_spec, conjugate_gradient.
  apply cg_run_len; [apply repeat_length|intros; apply length_circ_prec].
Qed.
Lemma sol_0 i : nth i (sol 0) 0%R = 0%R.
Proof.
  unfold sol, toeplitz_cg_spec, conjugate_gradient. simpl. unfold cg_init. simpl.
  generalize (length acf). intros n. revert i. induction n; destruct i; simpl; auto.
Qed.

(** C42 *)
Theorem pair_descent it : (ls_obj L nf a lam (smp y) (smp (sol (S it))) <=
  ls_obj L nf a lam (smp y) (smp (sol it)))%R.
Proof.
  rewrite !(pair_obj NumPy).
  pose proof (toeplitz_cg_descent NumPy acf xc it (sol it) (sol (S it)) (pair_psd _) (sol_ok _ _) (sol_ok _ _)).
  rewrite pair_len in H. lra.
Qed.
Lemma pair_descent_le it j : (ls_obj L nf a lam (smp y) (smp (sol (it + j))) <=
  ls_obj L nf a lam (smp y) (smp (sol it)))%R.
Proof.
  induction j as [|j IH]; [rewrite Nat.add_0_r; lra|].
  rewrite Nat.add_succ_r. pose proof (pair_descent (it + j)). lra.
Qed.
Lemma obj_0 : ls_obj L nf a lam (smp y) (smp (sol 0)) = energy nf (smp y).
Proof.
  rewrite (pair_obj NumPy). unfold quad_err. rewrite !Rsum_zero; [ring| |];
    intros i _; unfold smp; rewrite sol_0; ring.
Qed.

(** what the code reports for this pair after [it] iterations *)
Let coh it := sdr_cell (Some it) acf xc.
Lemma coh_qval it : coh it = qval L nf a (smp y) (smp (sol it)).
Proof. unfold coh, sdr_cell. rewrite pair_len. apply (pair_qval (fun l => nth l (sol it) 0%R)). Qed.

(** C52: in all cases within twice the energy of the estimate *)
Theorem pair_range it : (0 <= coh it <= 2 * energy nf (smp y))%R.
Proof.
  rewrite coh_qval. set (h := smp (sol it)).
  pose proof (pair_descent_le 0 it) as H. rewrite obj_0 in H. simpl in H. fold h in H.
  unfold ls_obj in H. rewrite energy_sub_comb in H.
  pose proof (energy_nonneg nf (comb L a h)) as HE. pose proof (sq_nonneg L h) as HS.
  pose proof (Rmult_le_pos _ _ Hld HS) as HL. fold lam in HL.
  assert (Hq : (energy nf (comb L a h) <= 2 * qval L nf a (smp y) h)%R) by lra.
  pose proof (energy_nonneg nf (fun t => smp y t - / 2 * comb L a h t)%R) as HY.
  rewrite energy_sub, dot_scal_r, energy_scal, <- qval_dot in HY. lra.
Qed.

(** C43 *)
Theorem pair_exact it : L <= it -> (forall k, k < L -> cg_inactive acf xc k) ->
  lsq L nf a lam (smp y) (coh it).
Proof.
  intros Hit Hin. rewrite coh_qval. exists (smp (sol it)). split; auto.
  destruct (toeplitz_cg_exact NumPy acf xc it pair_len_xc) as (s & E & _ & Hs).
  { rewrite pair_len. auto. } { rewrite pair_len. auto. }
  rewrite sol_ok in E. injection E as <-. rewrite pair_len in Hs.
  intros i Hi. rewrite <- pair_xc, <- Hs by auto. apply Rsum_ext. intros j Hj. rewrite pair_ent; auto.
Qed.

(** C52: as long as the safeguards stay inactive, the value can only be too small, and
    grows with the number of iterations. *)
Lemma pair_galerkin it : (forall k, k < it -> cg_inactive acf xc k) ->
  ls_obj L nf a lam (smp y) (smp (sol it)) = (energy nf (smp y) - coh it)%R.
Proof.
  intros Hin.
  pose proof (cg_galerkin (length acf) (dense_toeplitz acf) (circ_prec acf) (ent (toeplitz NumPy acf)) xc
    (repeat 0%R (length acf)) (dense_acts NumPy acf) (repeat_length _ _)
    (fun v _ => length_circ_prec acf v) (toeplitz_sym NumPy acf)
    (fun v _ => circ_prec_zero acf v) (fun u v _ _ => circ_prec_sym acf u v) it) as G.
  specialize (G (fun i _ => nth_repeat _ _ _)).
  assert (G' := G (fun k Hk Hz => Hin k Hk (not_zero_ex _ _ Hz))). clear G.
  rewrite (pair_obj NumPy). rewrite coh_qval.
  assert (Eq : (Rsum L (fun i => smp (sol it) i * Rmv L (ent (toeplitz NumPy acf)) (smp (sol it)) i) =
                qval L nf a (smp y) (smp (sol it)))%R).
  { rewrite <- pair_qval. unfold dot_nth. rewrite <- pair_len.
    apply Rminus_diag_uniq. rewrite <- Rsum_minus.
    match goal with |- ?u = _ => cut ((- u)%R = 0%R); [lra|] end.
    etransitivity; [|exact G']. unfold dotl. rewrite <- Rsum_opp.
    apply Rsum_ext. intros i Hi.
    rewrite (cg_residual (length acf) (dense_toeplitz acf) (circ_prec acf) (ent (toeplitz NumPy acf)) xc
      (repeat 0%R (length acf)) (dense_acts NumPy acf) (repeat_length _ _)
      (fun v _ => length_circ_prec acf v)) by auto.
    unfold sol, toeplitz_cg_spec, conjugate_gradient, smp. ring. }
  unfold quad_err. rewrite Eq.
  replace (Rsum L (fun i => nth i xc 0 * nth i (sol it) 0)%R) with (dot_nth L xc (smp (sol it))) by reflexivity.
  rewrite pair_qval. ring.
Qed.
Theorem pair_below it q : (forall k, k < it -> cg_inactive acf xc k) ->
  lsq L nf a lam (smp y) q -> (coh it <= q)%R.
Proof.
  intros Hin Hq. pose proof (pair_galerkin it Hin) as G.
  pose proof (lsq_max _ _ _ _ _ _ (smp (sol it)) Hld Hq) as H.
  unfold ls_obj in G. rewrite energy_sub_comb in G. rewrite coh_qval in *. fold lam in H. lra.
Qed.
Theorem pair_grows it : (forall k, k < S it -> cg_inactive acf xc k) -> (coh it <= coh (S it))%R.
Proof.
  intros Hin. pose proof (pair_descent it) as H.
  rewrite (pair_galerkin (S it) Hin) in H. rewrite (pair_galerkin it) in H by (intros; apply Hin; lia). lra.
Qed.
Theorem pair_le_energy it : (forall k, k < it -> cg_inactive acf xc k) -> (coh it <= energy nf (smp y))%R.
Proof.
  intros Hin. pose proof (pair_galerkin it Hin) as G. unfold ls_obj in G.
  pose proof (energy_nonneg nf (fun t => smp y t - comb L a (smp (sol it)) t)%R).
  pose proof (Rmult_le_pos _ _ Hld (sq_nonneg L (smp (sol it)))). fold lam in H0. lra.
Qed.
End Pair.

(** ** The whole matrix *)
(** the safeguards of the iterative solver stay inactive in the first n iterations, all pairs *)
Definition never_guarded (o : opts) (ref est : arr) (n : nat) : Prop :=
  let nf := n_fft (a_len ref) (a_len est) in
  forall c d x y, pchan (zero_mean o) ref c = Some x -> pchan (zero_mean o) est d = Some y ->
  forall k, k < n -> cg_inactive (sdr_acf o nf x) (stats_xcorr nf (filter_length o) x y) k.

Lemma in_pchan zm a x : In x (prep_arr zm a) -> exists c, pchan zm a c = x /\ c < n_chan a.
Proof.
  intros H. destruct (In_nth _ _ (None : chan) H) as (c & Hc & E). exists c. rewrite length_prep in Hc. auto.
Qed.

(** C43 *)
Lemma cg_coh_equals b o it ref est m0 : (0 <= loadv (load_diag o))%R ->
  Nat.min (filter_length o) (n_fft (a_len ref) (a_len est)) <= it ->
  never_guarded o ref est (Nat.min (filter_length o) (n_fft (a_len ref) (a_len est))) ->
  sdr_coh b (with_cg o None) ref est = Ok m0 -> sdr_coh b (with_cg o (Some it)) ref est = Ok m0.
Proof.
  intros Hld Hit Hg E.
  destruct (Nat.eq_dec (filter_length o) 1) as [E1|N1].
  - unfold sdr_coh in *. change (filter_length (with_cg o (Some it))) with (filter_length o).
    change (filter_length (with_cg o None)) with (filter_length o) in E. rewrite E1 in *. exact E.
  - rewrite sdr_coh_cells in * by exact N1. rewrite <- E.
    apply mapM_ext. intros x Hx. destruct (mapM_ok_all _ _ _ x E Hx) as (row & Er).
    destruct x as [x|]; auto. unfold sdr_row_cells, solvable in Er |- *.
    cbn [use_cg_iter with_cg load_diag filter_length zero_mean bind] in Er |- *.
    destruct (in_pchan _ _ _ Hx) as (c & Ec & _).
    set (nf := n_fft (a_len ref) (a_len est)) in *. set (L := Nat.min (filter_length o) nf) in *.
    set (acf := add_load (load_diag o) (stats_acf nf (filter_length o) x)) in *.
    destruct (Rsolve L (ent (toeplitz NumPy acf)) (fun _ => 0%R)) as [x0|] eqn:Es; [|discriminate].
    cbn [bind]. f_equal. apply map_ext_in. intros y Hy. destruct y as [y|]; auto. unfold vcell. f_equal.
    destruct (in_pchan _ _ _ Hy) as (d & Ed & _).
    pose proof (pair_exact o nf x y it Hit (fun k Hk => Hg c d x y Ec Ed k Hk)) as Hq.
    refine (lsq_unique _ _ _ _ _ _ _ Hld Hq _).
    exists (solution L (ent (toeplitz NumPy acf)) (stats_xcorr nf (filter_length o) x y)).
    assert (HN : nonsingular L (ent (toeplitz NumPy acf))).
    { intros v Hv. apply (Rsolve_inj _ _ _ _ v Es Hv). }
    split.
    + intros i Hi. unfold solution.
      destruct (Rsolve_some L (ent (toeplitz NumPy acf))
        (fun i => nth i (stats_xcorr nf (filter_length o) x y) 0%R) HN) as (h & Eh).
      rewrite Eh. rewrite <- (pair_xc o nf x y i Hi). rewrite <- (Rsolve_ok _ _ _ _ Eh i Hi).
      apply Rsum_ext. intros j Hj. f_equal. symmetry. apply (pair_ent o nf x NumPy i j Hi Hj).
    + unfold sdr_cell, sdr_sol. unfold acf. rewrite length_loaded.
      apply (pair_qval o nf x y).
Qed.

Theorem cg_equals_direct b o it ref est m : (0 <= loadv (load_diag o))%R ->
  Nat.min (filter_length o) (n_fft (a_len ref) (a_len est)) <= it ->
  never_guarded o ref est (Nat.min (filter_length o) (n_fft (a_len ref) (a_len est))) ->
  pairwise_sdr_loss b (with_cg o None) est ref = Ok m ->
  pairwise_sdr_loss b (with_cg o (Some it)) est ref = Ok m.
Proof.
  intros Hld Hit Hg H. unfold pairwise_sdr_loss in *.
  destruct (sdr_coh b (with_cg o None) ref est) as [m0|] eqn:E; [|discriminate].
  cbn [bind] in H. injection H as <-. rewrite (cg_coh_equals b o it ref est m0) by auto. reflexivity.
Qed.

(** what the iterative solver reports for one pair *)
Lemma cg_entry b o it ref est m c d x y :
  use_cg_iter o = Some it -> filter_length o <> 1 ->
  pchan (zero_mean o) ref c = Some x -> pchan (zero_mean o) est d = Some y ->
  sdr_coh b o ref est = Ok m ->
  let nf := n_fft (a_len ref) (a_len est) in
  mat_of m c d = Fin (sdr_cell (Some it) (sdr_acf o nf x) (stats_xcorr nf (filter_length o) x y)).
Proof.
  intros Hcg N1 Px Py H nf. pose proof (pchan_lt _ _ _ _ Px) as Hc. pose proof (pchan_lt _ _ _ _ Py) as Hd.
  rewrite sdr_coh_cells in H by auto. rewrite Hcg in H.
  assert (Hc' : c < length (prep_arr (zero_mean o) ref)) by (rewrite length_prep; auto).
  pose proof (mapM_nth _ _ _ (None : chan) [] c H Hc') as E. unfold pchan in Px, Py. rewrite Px in E.
  simpl in E. injection E as E. unfold mat_of. rewrite <- E.
  rewrite (nth_indep _ NaN (vcell (fun w : list R =>
      sdr_cell (Some it) (add_load (load_diag o) (stats_acf nf (filter_length o) x))
        (stats_xcorr nf (filter_length o) x w)) None)) by (rewrite map_length, length_prep; auto).
  rewrite map_nth, Py. reflexivity.
Qed.

(** C52 *)
Theorem cg_coh_range b o it ref est m c d x y : wf ref -> wf est ->
  use_cg_iter o = Some it -> (0 <= loadv (load_diag o))%R -> filter_length o <> 1 ->
  has_chan ref c x -> has_chan est d y ->
  sdr_coh b o ref est = Ok m ->
  exists q, mat_of m c d = Fin q /\ (0 <= q <= 2)%R /\ (never_guarded o ref est it -> q <= 1)%R.
Proof.
  intros Hwr Hwe Hcg Hld N1 Hx Hy H.
  destruct (has_chan_pchan (zero_mean o) ref c x Hwr Hx) as [Px Lx].
  destruct (has_chan_pchan (zero_mean o) est d y Hwe Hy) as [Py Ly].
  assert (Hwr0 : 0 < a_len ref) by apply Hwr.
  pose proof (pchan_energy_le1 _ _ _ _ _ Hwe Py (nf_ge_est (a_len ref) (a_len est) Hwr0)) as HE.
  eexists. split; [apply (cg_entry b o it ref est m c d _ _ Hcg N1 Px Py H)|].
  split.
  - pose proof (pair_range o (n_fft (a_len ref) (a_len est)) (unit_of (pre (zero_mean o) x))
      (unit_of (pre (zero_mean o) y)) Hld it). lra.
  - intros Hg. pose proof (pair_le_energy o (n_fft (a_len ref) (a_len est)) (unit_of (pre (zero_mean o) x))
      (unit_of (pre (zero_mean o) y)) Hld it (Hg c d _ _ Px Py)). lra.
Qed.
Theorem cg_below_direct b o it ref est m m' c d x y : wf ref -> wf est ->
  (0 <= loadv (load_diag o))%R -> filter_length o <> 1 ->
  has_chan ref c x -> has_chan est d y ->
  sdr_coh b (with_cg o (Some it)) ref est = Ok m ->
  sdr_coh b (with_cg o None) ref est = Ok m' ->
  never_guarded o ref est it ->
  exists q q', mat_of m c d = Fin q /\ mat_of m' c d = Fin q' /\ (q <= q')%R.
Proof.
  intros Hwr Hwe Hld N1 Hx Hy H H' Hg.
  destruct (has_chan_pchan (zero_mean o) ref c x Hwr Hx) as [Px Lx].
  destruct (has_chan_pchan (zero_mean o) est d y Hwe Hy) as [Py Ly].
  destruct (sdr_entry b (with_cg o None) ref est m' c d _ _ H' eq_refl N1 (proj1 Hx) (proj1 Hy) Px Py)
    as (q' & Hq & Eq).
  eexists. exists q'. split; [apply (cg_entry b (with_cg o (Some it)) it ref est m c d _ _ eq_refl N1 Px Py H)|].
  split; auto. apply (pair_below o (n_fft (a_len ref) (a_len est)) _ _ Hld it q' (Hg c d _ _ Px Py) Hq).
Qed.
Theorem cg_more_iterations b o it ref est m m' c d x y : wf ref -> wf est ->
  (0 <= loadv (load_diag o))%R -> filter_length o <> 1 ->
  has_chan ref c x -> has_chan est d y ->
  sdr_coh b (with_cg o (Some it)) ref est = Ok m ->
  sdr_coh b (with_cg o (Some (S it))) ref est = Ok m' ->
  never_guarded o ref est (S it) ->
  exists q q', mat_of m c d = Fin q /\ mat_of m' c d = Fin q' /\ (q <= q')%R.
Proof.
  intros Hwr Hwe Hld N1 Hx Hy H H' Hg.
  destruct (has_chan_pchan (zero_mean o) ref c x Hwr Hx) as [Px Lx].
  destruct (has_chan_pchan (zero_mean o) est d y Hwe Hy) as [Py Ly].
  eexists. eexists.
  split; [apply (cg_entry b (with_cg o (Some it)) it ref est m c d _ _ eq_refl N1 Px Py H)|].
  split; [apply (cg_entry b (with_cg o (Some (S it))) (S it) ref est m' c d _ _ eq_refl N1 Px Py H')|].
  apply (pair_grows o (n_fft (a_len ref) (a_len est)) _ _ Hld it (Hg c d _ _ Px Py)).
Qed.
