(** * Iterative SAR against the direct one (C64) *)
From Coq Require Import Reals Lra.
From Coquelicot Require Import Complex.
From Verif Require Import Prelude ExtReal Slice Sums SpecSig Fft FftProofs Helpers Linalg LinalgProofs
  Cgd Metrics StatsProofs LeastSq PrepProofs MetricsProofs SarProofs ProjTheorems MetricTheorems
  CgdOps CgdPrecond CgProofs CgCirc Cells Diag CgTheorems CgRate CgRateToep CgRateSdr BlockPrec Solvability BlockCg BlockRate.
Local Open Scope nat_scope.

(** ** The start made of the pairwise solutions *)
Lemma start_pointwise K (p : nat -> R) (y : R) : 0 < K ->
  ((Rsum K p - (INR K - 1) * y) ^ 2 <= (2 * INR K - 1) * (Rsum K (fun c => p c * p c) + (INR K - 1) * (y * y)))%R.
Proof.
  intros HK. assert (P : (1 <= INR K)%R) by (apply (le_INR 1); lia).
  pose proof (dot_cs K (fun _ => 1%R) p) as C. unfold energy, dot in C.
  rewrite (Rsum_ext K (fun i => 1 * p i)%R p) in C by (intros; ring).
  rewrite (Rsum_ext K (fun i => 1 * 1)%R (fun _ => 1%R)) in C by (intros; ring). rewrite Rsum_const, Rmult_1_r in C.
  set (A := Rsum K p) in *. set (B := Rsum K (fun c => p c * p c)%R) in *. set (k := INR K) in *.
  apply (Rmult_le_reg_l k); [lra|].
  apply Rle_trans with ((2 * k - 1) * (A * A + k * (k - 1) * (y * y)))%R.
  - assert (0 <= (k - 1) * (A + k * y) ^ 2)%R by (apply Rmult_le_pos; [lra|apply pow2_ge_0]). nra.
  - assert (0 <= (2 * k - 1) * (k * B - A * A))%R by (apply Rmult_le_pos; lra). nra.
Qed.

Section Start.
Variables (nf L it : nat) (ld : option R) (refs : list chan) (y : list R).
Let K := length refs.
Let lam := loadv ld.
Let N := L * K.
Let a := all_cdelays nf K (rchan refs).
Hypotheses (HL2 : 2 <= L) (HL : L <= nf) (Hlam : (0 <= lam)%R).
Let po := Opts L None false None ld.
Let h c := toeplitz_cg_spec (add_load ld (stats_acf nf L (rchan refs c))) (stats_xcorr nf L (rchan refs c) y) it.
Let E := energy nf (smp y).

Lemma start_len pw : length (sar_start pw it nf L ld refs y) = N.
Proof. destruct pw; [apply length_flatten|apply repeat_length]. Qed.
Lemma start_pair c : (ls_obj L nf (cdelayed nf (rchan refs c)) lam (smp y) (smp (h c)) <= E)%R.
Proof.
  pose proof (pair_descent_le po nf (rchan refs c) y Hlam 0 it) as H.
  pose proof (obj_0 po nf (rchan refs c) y) as H0.
  cbn [po filter_length load_diag] in H, H0. rewrite Nat.min_l in H, H0 by lia. rewrite H0 in H. exact H.
Qed.
Lemma start_entry l c : l < L -> c < K -> smp (sar_start true it nf L ld refs y) (l * K + c) = smp (h c) l.
Proof.
  intros Hl Hc. unfold sar_start. fold K. unfold smp. rewrite nth_flatten by auto.
  destruct (Nat.ltb_spec c K) as [|Hge]; [reflexivity|].
  exfalso. exact (Nat.lt_irrefl c (Nat.lt_le_trans c K c Hc Hge)).
Qed.
Lemma start_comb t : comb N a (smp (sar_start true it nf L ld refs y)) t =
  Rsum K (fun c => comb L (cdelayed nf (rchan refs c)) (smp (h c)) t).
Proof.
  unfold comb, N. rewrite Rsum_prod, Rsum_swap. apply Rsum_ext. intros c Hc. apply Rsum_ext. intros l Hl.
  rewrite start_entry by auto. unfold a, all_cdelays. rewrite lag_div, lag_mod by auto. reflexivity.
Qed.
Lemma start_sq : sq N (smp (sar_start true it nf L ld refs y)) = Rsum K (fun c => sq L (smp (h c))).
Proof.
  unfold sq, N. rewrite Rsum_prod, Rsum_swap. apply Rsum_ext. intros c Hc. apply Rsum_ext. intros l Hl.
  rewrite start_entry by auto. reflexivity.
Qed.
Theorem start_obj : (ls_obj N nf a lam (smp y) (smp (sar_start true it nf L ld refs y)) <= (2 * INR K - 1) ^ 2 * E)%R.
Proof.
  destruct (Nat.eq_dec K 0) as [E0|NZ].
  - unfold ls_obj. rewrite start_sq, E0. cbn [gsum INR].
    rewrite (energy_ext nf _ (smp y)).
    + fold E. apply Req_le. ring.
    + intros t Ht. rewrite start_comb, E0. cbn [gsum]. ring.
  - assert (P : (1 <= INR K)%R) by (apply (le_INR 1); lia).
    pose (p := fun c t => (smp y t - comb L (cdelayed nf (rchan refs c)) (smp (h c)) t)%R).
    assert (H1 : (energy nf (fun t => smp y t - comb N a (smp (sar_start true it nf L ld refs y)) t) <=
      (2 * INR K - 1) * (Rsum K (fun c => energy nf (p c)) + (INR K - 1) * E))%R).
    { apply Rle_trans with (Rsum nf (fun t => (2 * INR K - 1) * (Rsum K (fun c => p c t * p c t) + (INR K - 1) * (smp y t * smp y t))))%R.
      - apply Rsum_le. intros t Ht. rewrite start_comb.
        assert (Es : Rsum K (fun c => p c t) = (INR K * smp y t - Rsum K (fun c => comb L (cdelayed nf (rchan refs c)) (smp (h c)) t))%R).
        { unfold p. rewrite Rsum_minus, Rsum_const. reflexivity. }
        pose proof (start_pointwise K (fun c => p c t) (smp y t) ltac:(lia)) as H. rewrite Es in H.
        eapply Rle_trans; [|exact H]. apply Req_le. ring.
      - rewrite Rsum_scal_l. apply Rmult_le_compat_l; [lra|]. rewrite Rsum_plus, Rsum_scal_l.
        rewrite Rsum_swap. apply Req_le. reflexivity. }
    unfold ls_obj. rewrite start_sq.
    assert (H2 : (Rsum K (fun c => energy nf (p c) + lam * sq L (smp (h c))) <= INR K * E)%R).
    { rewrite <- Rsum_const. apply Rsum_le. intros c Hc. apply start_pair. }
    rewrite Rsum_plus, Rsum_scal_l in H2.
    assert (H3 : (0 <= Rsum K (fun c => sq L (smp (h c))))%R) by (apply Rsum_nonneg; intros; apply sq_nonneg).
    pose proof (Rmult_le_pos _ _ Hlam H3) as H4.
    set (S1 := Rsum K (fun c => energy nf (p c))) in *. set (S2 := (lam * Rsum K (fun c => sq L (smp (h c))))%R) in *.
    assert (H5 : (0 <= (2 * INR K - 1) * (INR K * E - (S1 + S2)))%R) by (apply Rmult_le_pos; lra).
    assert (H6 : (0 <= (2 * INR K - 2) * S2)%R) by (apply Rmult_le_pos; lra). nra.
Qed.
Lemma start_obj0 : ls_obj N nf a lam (smp y) (smp (sar_start false it nf L ld refs y)) = E.
Proof.
  assert (Z : forall i, smp (sar_start false it nf L ld refs y) i = 0%R).
  { intros i. unfold sar_start. fold K. fold N. unfold smp. generalize N. intros n. revert i.
    induction n; destruct i; simpl; auto. }
  unfold ls_obj, sq. rewrite (Rsum_zero N) by (intros; rewrite Z; ring).
  rewrite (energy_ext nf _ (smp y)); [fold E; ring|]. intros t Ht.
  unfold comb. rewrite Rsum_zero by (intros; rewrite Z; ring). ring.
Qed.
End Start.

(** ** The spectrum of the preconditioned system of all references *)
Definition block_between (b : backend) (K L : nat) (acf : nat -> nat -> list R) (mu Lam : R) : Prop :=
  exists P B, block_precond b K acf = Ok P /\ block_toeplitz b (2 * L) K K acf = Ok B /\
  forall u, length u = L * K ->
    (mu * Rsum (L * K) (fun i => smp u i * smp (P u) i)
     <= Rsum (L * K) (fun i => smp (P u) i * Rmv (L * K) B (smp (P u)) i)
     <= Lam * Rsum (L * K) (fun i => smp u i * smp (P u) i))%R.

Section Between.
Variables (b : backend) (nf L : nat) (ld : option R) (refs : list chan).
Let K := length refs.
Let acf := sar_acf nf L ld refs.
Let N := L * K.
Let T := bmat K L acf.
Let Q := pmat K L acf.
Hypotheses (HL2 : 2 <= L) (HL : L <= nf) (Hlam : (0 <= loadv ld)%R) (Hns : nonsingular N T).
Lemma acf_len r c : length (acf r c) = 2 * L.
Proof. unfold acf, sar_acf. rewrite length_block_acf by lia. rewrite Nat.min_l by lia. reflexivity. Qed.
Lemma bt_mat B : block_toeplitz b (2 * L) K K acf = Ok B -> B = sar_mat L K acf.
Proof.
  intros HM. assert (H2 : 2 * L / 2 = L) by (rewrite Nat.mul_comm; apply Nat.div_mul; lia).
  unfold block_toeplitz in HM. rewrite H2 in HM. destruct (existsb2 _ _ _) in HM; [discriminate|].
  injection HM as <-. reflexivity.
Qed.
Lemma block_between_iff mu Lam : block_between b K L acf mu Lam <->
  (forall u, mu * form N Q u u <= form N T (Rmv N Q u) (Rmv N Q u) <= Lam * form N Q u u)%R.
Proof.
  set (inv := inv_list K L acf).
  assert (EP : block_precond b K acf = Ok (block_prec K L inv)).
  { rewrite (block_precond_ok b K L) by (auto using acf_len; lia).
    pose proof (cg_ready nf L ld refs HL2 HL Hlam 0 Hns) as H. unfold sar_ready in H. fold K acf in H. rewrite H. reflexivity. }
  destruct (block_toeplitz_ok b (2 * L) K K acf) as (B & EB & _); [lia|intros; apply acf_len|].
  pose proof (bt_mat B EB) as ->.
  assert (Eu : forall u : list R, length u = N ->
    Rsum N (fun i => smp u i * smp (block_prec K L inv u) i)%R = form N Q (smp u) (smp u) /\
    Rsum N (fun i => smp (block_prec K L inv u) i * Rmv N (sar_mat L K acf) (smp (block_prec K L inv u)) i)%R =
    form N T (Rmv N Q (smp u)) (Rmv N Q (smp u))).
  { intros u Hu. pose proof (s_pacts nf L ld refs HL2 HL Hlam Hns u) as HP. fold K acf inv N in HP. split.
    - apply Rsum_ext. intros i Hi. unfold smp at 2. rewrite HP by auto. reflexivity.
    - rewrite <- (form_ext N T (smp (block_prec K L inv u)) _ (smp (block_prec K L inv u)) _).
      + apply Rsum_ext. intros i Hi. f_equal. apply Rsum_ext. intros j Hj. f_equal.
        apply (sar_mat_T nf L ld refs HL2 HL); auto.
      + intros i Hi. unfold smp at 1. rewrite HP by auto. reflexivity.
      + intros i Hi. unfold smp at 1. rewrite HP by auto. reflexivity. }
  split.
  - intros (P & B' & EP' & EB' & H) u. rewrite EP in EP'. injection EP' as <-. rewrite EB in EB'. injection EB' as <-.
    specialize (H (tab N u) (length_tab _ _)). fold N in H.
    destruct (Eu (tab N u) (length_tab _ _)) as [E1 E2]. rewrite E1, E2 in H.
    assert (Ex : forall i, i < N -> smp (tab N u) i = u i) by (intros i Hi; unfold smp; apply nth_tab; auto).
    assert (Eq : forall i, i < N -> Rmv N Q (smp (tab N u)) i = Rmv N Q u i).
    { intros i Hi. apply Rsum_ext. intros j Hj. rewrite Ex by auto. reflexivity. }
    rewrite (form_ext N Q _ u _ u) in H by auto.
    rewrite (form_ext N T _ (Rmv N Q u) _ (Rmv N Q u)) in H by auto. exact H.
  - intros H. exists (block_prec K L inv), (sar_mat L K acf). split; auto. split; auto.
    intros u Hu. fold N. destruct (Eu u Hu) as [E1 E2]. rewrite E1, E2. apply H.
Qed.
End Between.

(** ** The row of the SAR *)
Section Row.
Variables (b : backend) (pw : bool) (o : opts) (it : nat) (ref est : arr) (xs : nat -> list R).
Hypotheses (Hwr : wf ref) (Hwe : wf est) (Hx : has_chans ref xs)
  (HL : 2 <= filter_length o <= Nat.max (a_len ref) (a_len est)) (Hld : (0 <= loadv (load_diag o))%R).
Let L := filter_length o.
Let nf := n_fft (a_len ref) (a_len est).
Let refs := prep_arr (zero_mean o) ref.
Let ests := prep_arr (zero_mean o) est.
Let ld := load_diag o.
Let K := n_chan ref.
Let acf := sar_acf nf L ld refs.
Let row cg := sar_row b cg nf L ld pw refs ests.
Let HL2 : 2 <= L := proj1 HL.
Let HLn : L <= nf := gl_nf2 o ref est Hwr HL.
Let EK : length refs = K := gl_K o ref.

Lemma row_eq cg : row cg = do inv <- sar_ready cg nf L ld refs; Ok (map (vcell (sar_cell cg pw nf L ld refs inv)) ests).
Proof.
  unfold row. rewrite sar_row_cells by auto. unfold refs at 1. rewrite (gl_clean o ref xs Hwr Hx). reflexivity.
Qed.
Lemma row_at f d y : has_chan est d y -> nth d (map (vcell f) ests) NaN = Fin (f (unit_of (pre (zero_mean o) y))).
Proof.
  intros Hy. destruct (has_chan_pchan (zero_mean o) est d y Hwe Hy) as [Py _]. pose proof (pchan_lt _ _ _ _ Py) as Hd.
  rewrite (nth_indep _ NaN (vcell f None)) by (rewrite map_length; unfold ests; rewrite length_prep; auto).
  rewrite map_nth. unfold pchan in Py. unfold ests. rewrite Py. reflexivity.
Qed.
Lemma row_ns s : row None = Ok s -> nonsingular (L * length refs) (bmat (length refs) L acf).
Proof.
  rewrite row_eq. intros H. apply (direct_ready nf L ld refs HL2 HLn).
  destruct (sar_ready None nf L ld refs) eqn:E; [eexists; reflexivity|discriminate].
Qed.
Lemma row_direct s y : row None = Ok s ->
  lsq (L * length refs) nf (all_cdelays nf (length refs) (rchan refs)) (loadv ld) (smp y) (sar_cell None pw nf L ld refs [] y).
Proof.
  intros H. pose proof (row_ns s H) as Hns. unfold sar_cell, sar_sol, solution.
  destruct (Rsolve_some (L * length refs) (sar_mat L (length refs) acf) (fun i => nth i (sar_xc nf L refs y) 0%R)) as (h & Eh).
  { apply (sar_mat_ns nf L ld refs HL2 HLn). exact Hns. }
  fold acf. rewrite Eh. exists h. split.
  - intros i Hi. rewrite <- (s_xc nf L refs y HLn) by auto. rewrite <- (Rsolve_ok _ _ _ _ Eh i Hi).
    rewrite <- (bm_mv nf L ld refs HL2 HLn) by auto. apply Rsum_ext. intros j Hj. f_equal. symmetry.
    apply (sar_mat_T nf L ld refs HL2 HLn); auto.
  - apply (s_qval nf L refs y HLn).
Qed.
Lemma row_cells_at s s' d y : row (Some it) = Ok s -> row None = Ok s' -> has_chan est d y ->
  let u := unit_of (pre (zero_mean o) y) in
  nth d s NaN = Fin (sar_cell (Some it) pw nf L ld refs (inv_list (length refs) L acf) u) /\
  nth d s' NaN = Fin (sar_cell None pw nf L ld refs [] u).
Proof.
  intros H H' Hy u. pose proof (row_ns s' H') as Hns. rewrite row_eq in H, H'.
  rewrite (cg_ready nf L ld refs HL2 HLn Hld it Hns) in H. cbn [bind] in H. injection H as <-.
  unfold sar_ready in H'. destruct (Rsolve _ _ _) in H'; [|discriminate]. cbn [bind] in H'. injection H' as <-.
  split; apply (row_at _ d y Hy).
Qed.

(** the safeguards of all the solves stay inactive *)
Definition block_never_guarded (n : nat) : Prop :=
  forall d y inv, pchan (zero_mean o) est d = Some y ->
  prec_inv (n_chan ref) L acf = Ok inv ->
  forall k, k < n -> block_inactive (n_chan ref) L acf inv (sar_xc nf L refs y) (sar_start pw it nf L ld refs y) k.

Theorem row_exact s : L * K <= it -> block_never_guarded (L * K) -> row None = Ok s -> row (Some it) = Ok s.
Proof.
  intros Hit Hg H. pose proof (row_ns s H) as Hns. rewrite <- H.
  pose proof (cg_ready nf L ld refs HL2 HLn Hld it Hns) as Hr.
  pose proof (fun y => row_direct s y H) as Hd. clear H. rewrite !row_eq, Hr. cbn [bind].
  unfold sar_ready in Hr. unfold sar_ready.
  destruct (proj2 (direct_ready nf L ld refs HL2 HLn) Hns) as (i0 & E0). unfold sar_ready in E0.
  destruct (Rsolve _ _ _) in E0 |- *; [|discriminate]. cbn [bind]. f_equal. apply map_ext_in.
  intros y Hy. destruct y as [y|]; auto. unfold vcell. f_equal.
  destruct (in_pchan _ _ _ Hy) as (d & Ed & _).
  rewrite EK in Hr. pose proof (Hg d y _ Ed Hr) as Hin.
  refine (lsq_unique _ _ _ _ _ _ _ Hld _ (Hd y)).
  unfold sar_cell, sar_sol.
  change (n_chan ref) with K in Hin. rewrite <- EK in Hin, Hit.
  exact (s_exact_lsq nf L ld refs y (sar_start pw it nf L ld refs y) HL2 HLn Hld Hns (start_len nf L it ld refs y pw) it Hit Hin).
Qed.

Let e0 (q' : R) : R := if pw then ((2 * INR K - 1) ^ 2)%R else q'.
Lemma start_err d y q' : has_chan est d y ->
  lsq (L * length refs) nf (all_cdelays nf (length refs) (rchan refs)) (loadv ld) (smp (unit_of (pre (zero_mean o) y))) q' ->
  let u := unit_of (pre (zero_mean o) y) in
  (ls_obj (L * length refs) nf (all_cdelays nf (length refs) (rchan refs)) (loadv ld) (smp u)
    (smp (sar_start pw it nf L ld refs u)) - (energy nf (smp u) - q') <= e0 q')%R /\ (0 <= q' <= 1)%R.
Proof.
  intros Hy Hq u. destruct (has_chan_pchan (zero_mean o) est d y Hwe Hy) as [Py _].
  assert (Hn : a_len est <= nf).
  { apply nf_ge_est. apply Hwr. }
  pose proof (pchan_energy_le1 _ _ _ _ nf Hwe Py Hn) as He. fold u in He, Hq.
  assert (Hq1 : (0 <= q' <= energy nf (smp u))%R) by (destruct Hq as (h & Hh & ->); apply (q_bounds _ _ _ (loadv ld)); auto).
  split; [|lra]. unfold e0. destruct pw.
  - pose proof (start_obj nf L it ld refs u HL2 HLn Hld) as H. rewrite EK in *.
    assert (0 <= (2 * INR K - 1) ^ 2)%R by apply pow2_ge_0.
    assert ((2 * INR K - 1) ^ 2 * energy nf (smp u) <= (2 * INR K - 1) ^ 2 * 1)%R by (apply Rmult_le_compat_l; auto). lra.
  - rewrite start_obj0. lra.
Qed.
Section Rate.
Variables (s s' : list xr) (d : nat) (y : list R).
Hypotheses (Hs : row (Some it) = Ok s) (Hs' : row None = Ok s') (Hy : has_chan est d y).
Let u := unit_of (pre (zero_mean o) y).
Let q' := sar_cell None pw nf L ld refs [] u.
Theorem row_stable : exists q q', nth d s NaN = Fin q /\ nth d s' NaN = Fin q' /\ (0 <= q' <= 1)%R /\
  ((q - q') ^ 2 <= q' * e0 q')%R.
Proof.
  destruct (row_cells_at s s' d y Hs Hs' Hy) as [E1 E2]. fold u in E1, E2. fold q' in E2.
  exists (sar_cell (Some it) pw nf L ld refs (inv_list (length refs) L acf) u), q'. split; auto. split; auto.
  pose proof (row_direct s' u Hs') as Hq. fold q' in Hq.
  destruct (start_err d y q' Hy Hq) as [H1 H2]. split; auto.
  pose proof (s_stable nf L ld refs u (sar_start pw it nf L ld refs u) HL2 HLn Hld (row_ns s' Hs')
     (start_len nf L it ld refs u pw) q' Hq it) as H.
  eapply Rle_trans; [exact H|]. apply Rmult_le_compat_l; [lra|]. exact H1.
Qed.
Variables mu Lam : R.
Hypotheses (Hmu : (0 < mu)%R) (HLam : (mu <= Lam)%R) (Hb : block_between b K L acf mu Lam).
Let Hb' : forall v, (mu * form (L * length refs) (pmat (length refs) L acf) v v <=
  form (L * length refs) (bmat (length refs) L acf) (Rmv (L * length refs) (pmat (length refs) L acf) v)
    (Rmv (L * length refs) (pmat (length refs) L acf) v) <= Lam * form (L * length refs) (pmat (length refs) L acf) v v)%R.
Proof.
  apply (block_between_iff b nf L ld refs HL2 HLn Hld (row_ns s' Hs')). rewrite EK. exact Hb.
Qed.
Let rho : (0 <= 1 - sqrt (mu / Lam))%R.
Proof.
  assert (mu / Lam <= 1)%R.
  { apply (Rmult_le_reg_r Lam); [lra|]. unfold Rdiv. rewrite Rmult_assoc, Rinv_l by lra. lra. }
  assert (sqrt (mu / Lam) <= sqrt 1)%R by (apply sqrt_le_1_alt; auto). rewrite sqrt_1 in *. lra.
Qed.
Theorem row_rate_total : exists q q', nth d s NaN = Fin q /\ nth d s' NaN = Fin q' /\
  ((q - q') ^ 2 <= q' * Rmax (2 * (1 - sqrt (mu / Lam)) ^ it * e0 q') (cg_eps / (mu * Rmin 1 mu)))%R.
Proof.
  destruct (row_cells_at s s' d y Hs Hs' Hy) as [E1 E2]. fold u in E1, E2. fold q' in E2.
  exists (sar_cell (Some it) pw nf L ld refs (inv_list (length refs) L acf) u), q'. split; auto. split; auto.
  pose proof (row_direct s' u Hs') as Hq. fold q' in Hq.
  destruct (start_err d y q' Hy Hq) as [H1 H2].
  pose proof (s_rate_total nf L ld refs u (sar_start pw it nf L ld refs u) HL2 HLn Hld (row_ns s' Hs')
     (start_len nf L it ld refs u pw) mu Lam q' Hmu HLam Hb' Hq it) as H.
  eapply Rle_trans; [exact H|]. apply Rmult_le_compat_l; [lra|]. apply Rle_max_compat_r.
  apply Rmult_le_compat_l; [|exact H1]. apply Rmult_le_pos; [lra|]. apply pow_le. exact rho.
Qed.
Theorem row_rate : block_never_guarded it -> exists q q', nth d s NaN = Fin q /\ nth d s' NaN = Fin q' /\
  ((q - q') ^ 2 <= q' * (2 * (1 - sqrt (mu / Lam)) ^ it * e0 q'))%R.
Proof.
  intros Hg. destruct (row_cells_at s s' d y Hs Hs' Hy) as [E1 E2]. fold u in E1, E2. fold q' in E2.
  exists (sar_cell (Some it) pw nf L ld refs (inv_list (length refs) L acf) u), q'. split; auto. split; auto.
  pose proof (row_direct s' u Hs') as Hq. fold q' in Hq.
  destruct (start_err d y q' Hy Hq) as [H1 H2].
  destruct (has_chan_pchan (zero_mean o) est d y Hwe Hy) as [Py _].
  pose proof (cg_ready nf L ld refs HL2 HLn Hld it (row_ns s' Hs')) as Hr. unfold sar_ready in Hr. rewrite EK in Hr.
  pose proof (Hg d u _ Py Hr) as Hin. change (n_chan ref) with K in Hin. rewrite <- EK in Hin.
  pose proof (s_rate nf L ld refs u (sar_start pw it nf L ld refs u) HL2 HLn Hld (row_ns s' Hs')
     (start_len nf L it ld refs u pw) mu Lam q' Hmu HLam Hb' Hq it Hin) as H.
  eapply Rle_trans; [exact H|]. apply Rmult_le_compat_l; [lra|].
  apply Rmult_le_compat_l; [|exact H1]. apply Rmult_le_pos; [lra|]. apply pow_le. exact rho.
Qed.
End Rate.
End Row.

(** ** Whole functions *)
Lemma sq_cos_row b o ref est m s : 2 <= filter_length o <= Nat.max (a_len ref) (a_len est) -> wf ref ->
  sq_cos b o ref est = Ok (m, s) ->
  sdr_coh b o ref est = Ok m /\
  sar_row b (use_cg_iter o) (n_fft (a_len ref) (a_len est)) (filter_length o) (load_diag o) true
    (prep_arr (zero_mean o) ref) (prep_arr (zero_mean o) est) = Ok s.
Proof.
  intros HL Hw. rewrite sq_cos_cells; [|apply HL|apply (gl_nf2 o ref est Hw HL)].
  destruct (sdr_coh _ _ _ _); [|discriminate]. cbn [bind]. destruct (sar_row _ _ _ _ _ _ _ _); [|discriminate].
  cbn [bind]. intros H. injection H as -> ->. auto.
Qed.
Lemma sq_cos_diag_row b o ref est m s : 2 <= filter_length o <= Nat.max (a_len ref) (a_len est) -> wf ref ->
  n_chan ref = n_chan est -> sq_cos_diag b o ref est = Ok (m, s) ->
  sar_row b (use_cg_iter o) (n_fft (a_len ref) (a_len est)) (filter_length o) (load_diag o) false
    (prep_arr (zero_mean o) ref) (prep_arr (zero_mean o) est) = Ok s.
Proof.
  intros HL Hw Hn. rewrite sq_cos_diag_unfold; [|apply HL|apply (gl_nf2 o ref est Hw HL)|exact Hn].
  destruct (sdr_coh_diag _ _ _ _); [|discriminate]. cbn [bind]. destruct (sar_row _ _ _ _ _ _ _ _); [|discriminate].
  cbn [bind]. intros H. injection H as -> ->. auto.
Qed.

Theorem block_cg_exact b o it ref est xs r : wf ref -> wf est -> (0 <= loadv (load_diag o))%R ->
  2 <= filter_length o <= Nat.max (a_len ref) (a_len est) -> has_chans ref xs ->
  0 < n_chan ref -> filter_length o * n_chan ref <= it ->
  never_guarded o ref est (filter_length o) ->
  block_never_guarded true o it ref est (filter_length o * n_chan ref) ->
  sq_cos b (with_cg o None) ref est = Ok r -> sq_cos b (with_cg o (Some it)) ref est = Ok r.
Proof.
  intros Hwr Hwe Hld HL Hx HK Hit Hg Hbg H. destruct r as [m s].
  destruct (sq_cos_row b (with_cg o None) ref est m s HL Hwr H) as [H1 H2].
  cbn [with_cg use_cg_iter filter_length load_diag zero_mean] in H2.
  pose proof (gl_nf2 o ref est Hwr HL) as HLn.
  assert (Hmin : Nat.min (filter_length o) (n_fft (a_len ref) (a_len est)) = filter_length o) by lia.
  rewrite sq_cos_cells by (try apply HLn; apply HL). cbn [with_cg use_cg_iter filter_length load_diag zero_mean].
  rewrite (cg_coh_equals b o it ref est m) by (rewrite ?Hmin; auto; nia). cbn [bind].
  rewrite (row_exact b true o it ref est xs Hwr Hx HL Hld s) by auto. reflexivity.
Qed.
Theorem bss_cg_exact b sp o it ref est xs : wf ref -> wf est -> (0 <= loadv (load_diag o))%R ->
  2 <= filter_length o <= Nat.max (a_len ref) (a_len est) -> has_chans ref xs ->
  0 < n_chan ref -> filter_length o * n_chan ref <= it ->
  never_guarded o ref est (filter_length o) ->
  block_never_guarded true o it ref est (filter_length o * n_chan ref) ->
  is_ok (sq_cos b (with_cg o None) ref est) ->
  bss_eval_sources b sp (with_cg o (Some it)) ref est = bss_eval_sources b sp (with_cg o None) ref est.
Proof.
  intros Hwr Hwe Hld HL Hx HK Hit Hg Hbg (r & H). unfold bss_eval_sources.
  rewrite (block_cg_exact b o it ref est xs r), H by auto. reflexivity.
Qed.
Theorem block_cg_exact_diag b o it ref est xs r : wf ref -> wf est -> (0 <= loadv (load_diag o))%R ->
  2 <= filter_length o <= Nat.max (a_len ref) (a_len est) -> has_chans ref xs ->
  n_chan ref = n_chan est -> 0 < n_chan ref -> filter_length o * n_chan ref <= it ->
  never_guarded o ref est (filter_length o) ->
  block_never_guarded false o it ref est (filter_length o * n_chan ref) ->
  sq_cos_diag b (with_cg o None) ref est = Ok r -> sq_cos_diag b (with_cg o (Some it)) ref est = Ok r.
Proof.
  intros Hwr Hwe Hld HL Hx Hn HK Hit Hg Hbg H. destruct r as [m s].
  pose proof (sq_cos_diag_row b (with_cg o None) ref est m s HL Hwr Hn H) as H2.
  pose proof (gl_nf2 o ref est Hwr HL) as HLn.
  rewrite sq_cos_diag_unfold in * by (try apply HLn; try apply HL; auto).
  rewrite H2 in H.
  pose proof (row_exact b false o it ref est xs Hwr Hx HL Hld s Hit Hbg H2) as H3.
  match goal with |- context [sar_row ?b ?c ?n ?l ?d ?p ?r ?e] => change (sar_row b c n l d p r e = Ok s) in H3 end.
  rewrite H3.
  assert (Hmin : Nat.min (filter_length o) (n_fft (a_len ref) (a_len est)) = filter_length o) by lia.
  rewrite (sdr_coh_diag_spec b _ ref est (n_chan ref)) by (rewrite <- ?Hn; auto using bc_chan_eq; lia).
  rewrite (sdr_coh_diag_spec b (with_cg o None) ref est (n_chan ref)) in H by (rewrite <- ?Hn; auto using bc_chan_eq; lia).
  destruct (sdr_coh b (with_cg o None) ref est) as [m0|] eqn:E0; [|discriminate].
  rewrite (cg_coh_equals b o it ref est m0) by (rewrite ?Hmin; auto; nia). exact H.
Qed.
Theorem noperm_cg_exact b o it ref est xs : wf ref -> wf est -> (0 <= loadv (load_diag o))%R ->
  2 <= filter_length o <= Nat.max (a_len ref) (a_len est) -> has_chans ref xs ->
  0 < n_chan ref -> filter_length o * n_chan ref <= it ->
  never_guarded o ref est (filter_length o) ->
  block_never_guarded false o it ref est (filter_length o * n_chan ref) ->
  is_ok (sq_cos b (with_cg o None) ref est) ->
  bss_eval_sources_noperm b (with_cg o (Some it)) ref est = bss_eval_sources_noperm b (with_cg o None) ref est.
Proof.
  intros Hwr Hwe Hld HL Hx HK Hit Hg Hbg (r & H). unfold bss_eval_sources_noperm.
  destruct (Nat.eqb_spec (n_chan ref) (n_chan est)) as [Hn|]; auto.
  pose proof (sq_cos_diag_direct b (with_cg o None) ref est ltac:(cbn; lia) eq_refl Hn) as Hd. rewrite H in Hd. cbn [bind] in Hd.
  rewrite (block_cg_exact_diag b o it ref est xs _ Hwr Hwe Hld HL Hx Hn HK Hit Hg Hbg Hd), Hd. reflexivity.
Qed.

(** no condition on the safeguards: the distance to the direct result never exceeds that of the start *)
Theorem sar_stable b o it ref est xs m s m' s' d y : wf ref -> wf est -> (0 <= loadv (load_diag o))%R ->
  2 <= filter_length o <= Nat.max (a_len ref) (a_len est) -> has_chans ref xs -> has_chan est d y ->
  sq_cos b (with_cg o (Some it)) ref est = Ok (m, s) -> sq_cos b (with_cg o None) ref est = Ok (m', s') ->
  exists q q', nth d s NaN = Fin q /\ nth d s' NaN = Fin q' /\ (0 <= q' <= 1)%R /\
    ((q - q') ^ 2 <= q' * (2 * INR (n_chan ref) - 1) ^ 2)%R.
Proof.
  intros Hwr Hwe Hld HL Hx Hy H H'.
  apply sq_cos_row in H; auto. apply sq_cos_row in H'; auto.
  exact (row_stable b true o it ref est xs Hwr Hwe Hx HL Hld s s' d y (proj2 H) (proj2 H') Hy).
Qed.
Theorem sar_rate_total b o it ref est xs m s m' s' d y mu Lam : wf ref -> wf est -> (0 <= loadv (load_diag o))%R ->
  2 <= filter_length o <= Nat.max (a_len ref) (a_len est) -> has_chans ref xs -> has_chan est d y ->
  sq_cos b (with_cg o (Some it)) ref est = Ok (m, s) -> sq_cos b (with_cg o None) ref est = Ok (m', s') ->
  (0 < mu)%R -> (mu <= Lam)%R ->
  block_between b (n_chan ref) (filter_length o) (sar_acf (n_fft (a_len ref) (a_len est)) (filter_length o)
    (load_diag o) (prep_arr (zero_mean o) ref)) mu Lam ->
  exists q q', nth d s NaN = Fin q /\ nth d s' NaN = Fin q' /\
    ((q - q') ^ 2 <= q' * Rmax (2 * (1 - sqrt (mu / Lam)) ^ it * (2 * INR (n_chan ref) - 1) ^ 2) (cg_eps / (mu * Rmin 1 mu)))%R.
Proof.
  intros Hwr Hwe Hld HL Hx Hy H H' Hmu HLam Hb.
  apply sq_cos_row in H; auto. apply sq_cos_row in H'; auto.
  exact (row_rate_total b true o it ref est xs Hwr Hwe Hx HL Hld s s' d y (proj2 H) (proj2 H') Hy mu Lam Hmu HLam Hb).
Qed.
Theorem sar_rate_noperm b o it ref est xs m s m' s' d y mu Lam : wf ref -> wf est -> (0 <= loadv (load_diag o))%R ->
  2 <= filter_length o <= Nat.max (a_len ref) (a_len est) -> has_chans ref xs -> has_chan est d y ->
  n_chan ref = n_chan est ->
  sq_cos_diag b (with_cg o (Some it)) ref est = Ok (m, s) -> sq_cos_diag b (with_cg o None) ref est = Ok (m', s') ->
  (0 < mu)%R -> (mu <= Lam)%R ->
  block_between b (n_chan ref) (filter_length o) (sar_acf (n_fft (a_len ref) (a_len est)) (filter_length o)
    (load_diag o) (prep_arr (zero_mean o) ref)) mu Lam ->
  exists q q', nth d s NaN = Fin q /\ nth d s' NaN = Fin q' /\
    ((q - q') ^ 2 <= q' * Rmax (2 * (1 - sqrt (mu / Lam)) ^ it * q') (cg_eps / (mu * Rmin 1 mu)))%R.
Proof.
  intros Hwr Hwe Hld HL Hx Hy Hn H H' Hmu HLam Hb.
  apply sq_cos_diag_row in H; auto. apply sq_cos_diag_row in H'; auto.
  exact (row_rate_total b false o it ref est xs Hwr Hwe Hx HL Hld s s' d y H H' Hy mu Lam Hmu HLam Hb).
Qed.

(** *** explicit bounds with diagonal loading *)
Section LoadBlock.
Variables (b : backend) (nf L : nat) (ld : option R) (refs : list chan).
Let K := length refs.
Let acf := sar_acf nf L ld refs.
Let a := all_cdelays nf K (rchan refs).
Let lam := loadv ld.
Let N := L * K.
Hypotheses (HL2 : 2 <= L) (HL : L <= nf) (Hlam : (0 < lam)%R) (HK : 0 < K)
  (He : forall c, c < K -> (energy nf (smp (rchan refs c)) <= 1)%R).
Lemma block_delays_energy p : p < N -> (energy nf (a p) <= 1)%R.
Proof.
  intros Hp. destruct (lag_split K L p Hp) as (l & c & Hl & Hc & ->).
  unfold a, all_cdelays. rewrite lag_div, lag_mod by auto.
  pose (po := Opts L None false None ld).
  assert (Hm : Nat.min (filter_length po) nf = L) by (cbn; lia).
  apply (delays_energy po nf (rchan refs c)); rewrite ?Hm; auto; lia.
Qed.
Lemma block_load_bounds u : (lam * energy N u <= form N (bmat K L acf) u u <= (INR N + lam) * energy N u)%R.
Proof.
  rewrite (form_mat N _ (gram nf a lam)) by (intros; apply (bm_gram nf L ld refs HL2 HL); auto).
  unfold form. rewrite gram_form. fold (energy nf (comb N a u)).
  change (Rsum N (fun i => u i * u i)%R) with (energy N u).
  pose proof (energy_nonneg nf (comb N a u)) as P0.
  assert (P : (energy nf (comb N a u) <= INR N * energy N u)%R).
  { unfold energy at 1, dot.
    apply Rle_trans with (Rsum nf (fun t => energy N u * Rsum N (fun k => a k t * a k t)))%R.
    - apply Rsum_le. intros t Ht. apply (dot_cs N u (fun k => a k t)).
    - rewrite Rsum_scal_l, Rsum_swap, (Rmult_comm (INR N)). apply Rmult_le_compat_l; [apply energy_nonneg|].
      rewrite <- (Rmult_1_r (INR N)), <- Rsum_const. apply Rsum_le. intros k Hk. apply (block_delays_energy k Hk). }
  split; lra.
Qed.
Lemma block_load_between : block_between b K L acf (lam / (INR N + lam)) ((INR N + lam) / lam).
Proof.
  assert (Hld : (0 <= loadv ld)%R) by (fold lam; lra).
  assert (Hns : nonsingular N (bmat K L acf)).
  { apply (bm_ns nf L ld refs HL2 HL). apply gram_nonsingular_loaded. exact Hlam. }
  assert (PN : (0 <= INR N)%R) by apply pos_INR.
  assert (HL0 : 0 < L) by lia.
  pose proof (bm_sym nf L ld refs HL2 HL) as Ts. pose proof (bm_psd nf L ld refs HL2 HL Hld) as Tp.
  apply (block_between_iff b nf L ld refs HL2 HL Hld Hns). intros u.
  apply (spectral_between N (bmat K L acf) (pmat K L acf) lam (INR N + lam)).
  - apply (pmat_sym K L acf HL0 Ts Tp Hns).
  - apply (pmat_psd K L acf HL0 Ts Tp Hns).
  - exact Hlam.
  - lra.
  - apply block_load_bounds.
  - intros v. apply (pmat_bounds K L acf HL0 Ts Tp Hns lam (INR N + lam) Hlam block_load_bounds); lra.
Qed.
End LoadBlock.

Theorem sar_load_total b o it ref est xs m s m' s' d y lam : wf ref -> wf est ->
  load_diag o = Some lam -> (0 < lam)%R -> 0 < n_chan ref ->
  2 <= filter_length o <= Nat.max (a_len ref) (a_len est) -> has_chans ref xs -> has_chan est d y ->
  sq_cos b (with_cg o (Some it)) ref est = Ok (m, s) -> sq_cos b (with_cg o None) ref est = Ok (m', s') ->
  let N := INR (filter_length o * n_chan ref) in
  exists q q', nth d s NaN = Fin q /\ nth d s' NaN = Fin q' /\
    ((q - q') ^ 2 <= q' * Rmax (2 * (1 - lam / (N + lam)) ^ it * (2 * INR (n_chan ref) - 1) ^ 2) (cg_eps * ((N + lam) / lam) ^ 2))%R.
Proof.
  intros Hwr Hwe El Pl HK HL Hx Hy Em Em' N.
  assert (Ev : loadv (load_diag o) = lam) by (rewrite El; reflexivity).
  assert (Hld : (0 <= loadv (load_diag o))%R) by (rewrite Ev; lra).
  pose proof (gl_nf2 o ref est Hwr HL) as HLn.
  set (nf := n_fft (a_len ref) (a_len est)) in *.
  pose proof (gl_K o ref) as EK.
  assert (PN : (0 < N)%R) by (apply lt_0_INR; nia).
  assert (Hb : block_between b (n_chan ref) (filter_length o) (sar_acf nf (filter_length o) (load_diag o) (prep_arr (zero_mean o) ref))
     (lam / (N + lam)) ((N + lam) / lam)).
  { pose proof (block_load_between b nf (filter_length o) (load_diag o) (prep_arr (zero_mean o) ref) (proj1 HL) HLn) as H.
    rewrite EK, Ev in H. apply H; auto. intros c Hc. rewrite (gl_rchan o ref xs Hwr Hx) by auto.
    destruct (has_chan_pchan (zero_mean o) ref c (xs c) Hwr (has_chans_at ref xs c Hx Hc)) as [Px _].
    apply (pchan_energy_le1 (zero_mean o) ref c); auto. apply nf_ge_ref. apply Hwr. }
  assert (Hq : (0 < lam / (N + lam) <= 1)%R).
  { split; [apply Rdiv_lt_0_compat; lra|]. apply (Rmult_le_reg_r (N + lam)); [lra|].
    unfold Rdiv. rewrite Rmult_assoc, Rinv_l by lra. lra. }
  assert (Hq1 : (1 <= (N + lam) / lam)%R).
  { apply (Rmult_le_reg_r lam); auto. unfold Rdiv. rewrite Rmult_assoc, Rinv_l by lra. lra. }
  assert (Hml : (lam / (N + lam) <= (N + lam) / lam)%R) by lra.
  destruct (sar_rate_total b o it ref est xs m s m' s' d y _ _ Hwr Hwe Hld HL Hx Hy Em Em' (proj1 Hq) Hml Hb)
    as (q & q' & E1 & E2 & H).
  exists q, q'. split; auto. split; auto.
  assert (Es : sqrt (lam / (N + lam) / ((N + lam) / lam)) = (lam / (N + lam))%R).
  { replace (lam / (N + lam) / ((N + lam) / lam))%R with (lam / (N + lam) * (lam / (N + lam)))%R by (field; lra).
    apply sqrt_square. lra. }
  rewrite Es, Rmin_right in H by lra.
  replace (cg_eps / (lam / (N + lam) * (lam / (N + lam))))%R with (cg_eps * ((N + lam) / lam) ^ 2)%R in H by (field; lra).
  exact H.
Qed.

(** ** Which inputs the iterative bss_eval_sources refuses *)
Theorem bss_cg_duplicate b sp o it ref est xs i j : wf ref -> wf est -> loadv (load_diag o) = 0%R ->
  2 <= filter_length o <= Nat.max (a_len ref) (a_len est) -> has_chans ref xs ->
  i < j -> j < n_chan ref -> xs i = xs j ->
  bss_eval_sources b sp (with_cg o (Some it)) ref est = Raise LinAlgError.
Proof.
  intros Hwr Hwe Hld HL Hx Hij Hj E. unfold bss_eval_sources.
  destruct (block_cg_raises b o it ref est xs Hwr Hwe Hld HL Hx) as [He Hi].
  destruct (sq_cos b (with_cg o (Some it)) ref est) as [c|e] eqn:Ec.
  - exfalso. refine (repeated_dependent _ _ _ i j _ Hj _ _ (proj1 Hi (ex_intro _ c eq_refl))); try lia.
    intros t Ht. rewrite E. reflexivity.
  - rewrite (He e eq_refl). reflexivity.
Qed.
Theorem bss_cg_too_many b sp o it ref est xs : wf ref -> wf est -> loadv (load_diag o) = 0%R ->
  2 <= filter_length o <= Nat.max (a_len ref) (a_len est) -> has_chans ref xs ->
  a_len ref < n_chan ref ->
  bss_eval_sources b sp (with_cg o (Some it)) ref est = Raise LinAlgError.
Proof.
  intros Hwr Hwe Hld HL Hx Hn. unfold bss_eval_sources.
  destruct (block_cg_raises b o it ref est xs Hwr Hwe Hld HL Hx) as [He Hi].
  destruct (sq_cos b (with_cg o (Some it)) ref est) as [c|e] eqn:Ec.
  - exfalso. refine (too_many_dependent _ _ _ Hn (proj1 Hi (ex_intro _ c eq_refl))).
  - rewrite (He e eq_refl). reflexivity.
Qed.
(** short signals: the direct solver refuses what the iterative one accepts *)
Theorem bss_cg_short b sp o it ref est xs : wf ref -> wf est -> loadv (load_diag o) = 0%R ->
  2 <= filter_length o <= Nat.max (a_len ref) (a_len est) -> has_chans ref xs ->
  a_len ref + filter_length o - 1 < filter_length o * n_chan ref ->
  independent (n_chan ref) (a_len ref) (fun c => smp (pre (zero_mean o) (xs c))) ->
  bss_eval_sources b sp (with_cg o None) ref est = Raise LinAlgError /\
  is_ok (sq_cos b (with_cg o (Some it)) ref est).
Proof.
  intros Hwr Hwe Hld HL Hx Hn Hi. split.
  - apply (bss_too_short b sp (with_cg o None) ref est xs); auto; cbn; lia.
  - apply (block_cg_raises b o it ref est xs); auto.
Qed.
