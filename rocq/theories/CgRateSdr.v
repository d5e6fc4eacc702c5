(** * Rate of convergence of the iterative SDR (C63) *)
From Coq Require Import Reals Lra.
From Coquelicot Require Import Complex.
From Verif Require Import Prelude ExtReal Slice Sums SpecSig Fft FftProofs Helpers Linalg LinalgProofs
  Cgd Metrics StatsProofs LeastSq PrepProofs MetricsProofs SarProofs ProjTheorems MetricTheorems
  CgdOps CgdPrecond CgProofs CgCirc Cells CgTheorems CgRate CgRateToep.
Local Open Scope nat_scope.

(** The preconditioned matrix of the system lies between mu and Lam: for every vector u, with w the
    output of the preconditioner on u, mu <u,w> <= <w, T w> <= Lam <u,w>. *)
Definition preconditioned_between (b : backend) (acf : list R) (mu Lam : R) : Prop :=
  exists P, circulant_precond b acf = Ok P /\
  forall u, length u = length acf ->
    (mu * Rsum (length acf) (fun i => smp u i * smp (P u) i)
     <= Rsum (length acf) (fun i => smp (P u) i * Rmv (length acf) (ent (toeplitz b acf)) (smp (P u)) i)
     <= Lam * Rsum (length acf) (fun i => smp u i * smp (P u) i))%R.

Lemma between_bounds b acf mu Lam : preconditioned_between b acf mu Lam <-> precond_bounds acf mu Lam.
Proof.
  destruct (circulant_precond_ok b acf) as (P & E & HP).
  assert (K : forall u, length u = length acf ->
    dotl (length acf) (circ_prec acf u) (dense_toeplitz acf (circ_prec acf u)) =
    Rsum (length acf) (fun i => smp (circ_prec acf u) i *
      Rmv (length acf) (ent (toeplitz b acf)) (smp (circ_prec acf u)) i)%R).
  { intros u Hu. apply Rsum_ext. intros i Hi. rewrite (dense_acts b) by (auto; apply length_circ_prec). reflexivity. }
  split.
  - intros (P' & E' & H) u Hu. rewrite E in E'. injection E' as <-. specialize (H u Hu). rewrite HP in H.
    cbv zeta. rewrite K by auto. exact H.
  - intros H. exists P. split; auto. intros u Hu. specialize (H u Hu). cbv zeta in H. rewrite K in H by auto.
    rewrite HP. exact H.
Qed.

Lemma form_mat n B B' u w : (forall i j, i < n -> j < n -> B i j = B' i j) -> form n B u w = form n B' u w.
Proof.
  intros H. apply Rsum_ext. intros i Hi. f_equal. apply Rsum_ext. intros j Hj. rewrite H; auto.
Qed.

(** ** Toeplitz systems *)
Section Toep.
Variables (b : backend) (acf xc : list R) (xs : nat -> R) (mu Lam : R).
Let n := length acf.
Let T := ent (toeplitz b acf).
Hypotheses (Hn : 0 < n) (Hl : length xc = n) (Hp : psd_mat n T) (Hns : nonsingular n T)
  (Hxs : forall i, i < n -> Rmv n T xs i = nth i xc 0%R)
  (Hmu : (0 < mu)%R) (HLam : (mu <= Lam)%R) (Hb : preconditioned_between b acf mu Lam).

Lemma T_eq i j : i < n -> j < n -> T i j = nth (adist i j) acf 0%R.
Proof. intros. apply toeplitz_entry; auto. Qed.
Lemma T'_psd : psd_mat n (fun i j => nth (adist i j) acf 0%R).
Proof. apply (psd_ext n T); auto. exact T_eq. Qed.
Lemma Rmv_T' v i : i < n -> Rmv n (fun i j => nth (adist i j) acf 0%R) v i = Rmv n T v i.
Proof. intros Hi. apply Rsum_ext. intros j Hj. rewrite T_eq; auto. Qed.
Lemma T'_ns : nonsingular n (fun i j => nth (adist i j) acf 0%R).
Proof. intros v Hv. apply Hns. intros i Hi. rewrite <- Rmv_T' by auto. auto. Qed.

Theorem toep_rate it s : toeplitz_cg b acf xc it = Ok s ->
  (forall k, k < it -> cg_inactive acf xc k) ->
  (sq_err n T xs (smp s) <= 2 * (1 - sqrt (mu / Lam)) ^ it * form n T xs xs)%R.
Proof.
  intros E Hin. rewrite toeplitz_cg_ok in E. destruct (length acf =? length xc); [|discriminate]. injection E as <-.
  unfold sq_err. rewrite !(form_mat n T _ _ _ T_eq).
  apply (toeplitz_rate acf Hn T'_psd T'_ns); auto; [apply (between_bounds b); auto|].
  intros i Hi. fold n. fold n in Hi. rewrite Rmv_T' by auto. auto.
Qed.
Theorem toep_rate_total it s : toeplitz_cg b acf xc it = Ok s ->
  (sq_err n T xs (smp s) <=
   Rmax (2 * (1 - sqrt (mu / Lam)) ^ it * form n T xs xs) (cg_eps / (mu * Rmin 1 mu)))%R.
Proof.
  intros E. rewrite toeplitz_cg_ok in E. destruct (length acf =? length xc); [|discriminate]. injection E as <-.
  unfold sq_err. rewrite !(form_mat n T _ _ _ T_eq).
  apply (toeplitz_rate_total acf Hn T'_psd T'_ns); auto; [apply (between_bounds b); auto|].
  intros i Hi. fold n. fold n in Hi. rewrite Rmv_T' by auto. auto.
Qed.
End Toep.

(** ** One pair *)
Section Pair.
Variables (b : backend) (o : opts) (nf : nat) (x y : list R).
Hypothesis Hld : (0 <= loadv (load_diag o))%R.
Let L := Nat.min (filter_length o) nf.
Let acf := sdr_acf o nf x.
Let xc := stats_xcorr nf (filter_length o) x y.
Let a := cdelayed nf x.
Let lam := loadv (load_diag o).
Let T := ent (toeplitz b acf).
Let sol it := toeplitz_cg_spec acf xc it.
Let coh it := sdr_cell (Some it) acf xc.
Hypothesis HL : 0 < L.
Hypothesis Hns : nonsingular L T.
Variables mu Lam q' : R.
Hypotheses (Hmu : (0 < mu)%R) (HLam : (mu <= Lam)%R) (Hb : preconditioned_between b acf mu Lam).
Hypothesis Hq : lsq L nf a lam (smp y) q'.

Let len : length acf = L := pair_len o nf x.
Lemma pr_T i j : i < L -> j < L -> T i j = gram nf a lam i j.
Proof. apply (pair_ent o nf x b). Qed.
Lemma pr_sym : symmetric_mat L T.
Proof. unfold T. rewrite <- len. apply toeplitz_sym. Qed.

(** the error of the iterate and the missing coherence *)
Lemma pr_err it : exists h, (forall i, i < L -> Rmv L T h i = nth i xc 0%R) /\ form L T h h = q' /\
  (q' - coh it = form L T h (fun i => h i - smp (sol it) i))%R.
Proof.
  destruct Hq as (h & Hh & Eq). exists h.
  assert (E0 : forall i, i < L -> Rmv L T h i = nth i xc 0%R).
  { intros i Hi. unfold xc. rewrite (pair_xc o nf x y i Hi). fold a. rewrite <- (Hh i Hi).
    apply Rsum_ext. intros j Hj. rewrite pr_T; auto. }
  assert (E1 : forall g, form L T h g = qval L nf a (smp y) g).
  { intros g. rewrite sym_form by apply pr_sym. unfold form, qval. apply Rsum_ext. intros i Hi.
    rewrite E0 by auto. unfold xc. rewrite (pair_xc o nf x y i Hi). fold a. ring. }
  split; auto. split; [rewrite E1; auto|].
  unfold coh, acf, xc. rewrite coh_qval. rewrite Eq. fold L a acf xc. fold (sol it). rewrite <- !E1.
  rewrite (form_ext L T h h (fun i => h i - smp (sol it) i)%R (comb2 1 h (-1) (smp (sol it))))
    by (intros; unfold comb2; ring).
  rewrite form_lin_r by apply pr_sym. ring.
Qed.
Theorem pair_rate_total it :
  ((q' - coh it) ^ 2 <= q' * Rmax (2 * (1 - sqrt (mu / Lam)) ^ it * q') (cg_eps / (mu * Rmin 1 mu)))%R.
Proof.
  destruct (pr_err it) as (h & E0 & Eh & Ed). rewrite Ed.
  assert (Hp : psd_mat L T) by (unfold T; rewrite <- len; apply (pair_psd o nf x Hld b)).
  pose proof (form_cs L T h (fun i => h i - smp (sol it) i)%R pr_sym Hp) as C. rewrite Eh in C.
  assert (Hxc : length xc = length acf) by apply pair_len_xc.
  assert (Ok1 : toeplitz_cg b acf xc it = Ok (sol it)) by apply sol_ok.
  rewrite <- len in Hns, E0, HL, Hp.
  pose proof (toep_rate_total b acf xc h mu Lam HL Hxc Hp Hns E0 Hmu HLam Hb it (sol it) Ok1) as R.
  fold T in R. rewrite len in R. rewrite Eh in R.
  assert (Es : sq_err L T h (smp (sol it)) = form L T (fun i => h i - smp (sol it) i)%R (fun i => h i - smp (sol it) i)%R).
  { unfold sq_err. rewrite (form_ext L T (fun i => smp (sol it) i - h i)%R
      (comb2 (-1) (fun i => h i - smp (sol it) i)%R 0 (fun i => h i - smp (sol it) i)%R)
      (fun i => smp (sol it) i - h i)%R (comb2 (-1) (fun i => h i - smp (sol it) i)%R 0 (fun i => h i - smp (sol it) i)%R))
      by (intros; unfold comb2; ring).
    rewrite form_lin, !form_lin_r by apply pr_sym. ring. }
  rewrite Es in R.
  assert (0 <= q')%R by (rewrite <- Eh, <- len; apply Hp).
  simpl. rewrite Rmult_1_r. eapply Rle_trans; [exact C|]. apply Rmult_le_compat_l; auto.
Qed.
Theorem pair_rate it : (forall k, k < it -> cg_inactive acf xc k) ->
  (0 <= q' - coh it <= 2 * (1 - sqrt (mu / Lam)) ^ it * q')%R.
Proof.
  intros Hin. destruct (pr_err it) as (h & E0 & Eh & Ed).
  assert (Hbel : (coh it <= q')%R) by exact (pair_below o nf x y Hld it q' Hin Hq).
  split; [lra|].
  assert (Hp : psd_mat L T) by (unfold T; rewrite <- len; apply (pair_psd o nf x Hld b)).
  assert (Hxc : length xc = length acf) by apply pair_len_xc.
  assert (Ok1 : toeplitz_cg b acf xc it = Ok (sol it)) by apply sol_ok.
  (* q' - coh = error of the iterate *)
  assert (Eg : sq_err L T h (smp (sol it)) = (q' - coh it)%R).
  { pose proof (pair_galerkin o nf x y it Hin) as G. rewrite (pair_obj o nf x y b) in G.
    fold acf xc L in G. fold (sol it) (coh it) T in G. unfold quad_err in G.
    fold (form L T (smp (sol it)) (smp (sol it))) in G.
    assert (E2 : form L T (smp (sol it)) h = Rsum L (fun i => nth i xc 0 * nth i (sol it) 0)%R).
    { apply Rsum_ext. intros i Hi. rewrite E0 by auto. unfold smp. ring. }
    rewrite <- E2 in G. unfold sq_err.
    rewrite (form_ext L T _ (comb2 1 (smp (sol it)) (-1) h) _ (comb2 1 (smp (sol it)) (-1) h))
      by (intros; unfold comb2; ring).
    rewrite form_lin, !form_lin_r, Eh, (sym_form L T h (smp (sol it))) by apply pr_sym. lra. }
  rewrite <- len in Hns, E0, HL, Hp.
  pose proof (toep_rate b acf xc h mu Lam HL Hxc Hp Hns E0 Hmu HLam Hb it (sol it) Ok1 Hin) as R.
  fold T in R. rewrite len in R. rewrite Eh, Eg in R. exact R.
Qed.
End Pair.

(** the loaded system: explicit bounds *)
Section Load.
Variables (b : backend) (o : opts) (nf : nat) (x : list R).
Let L := Nat.min (filter_length o) nf.
Let acf := sdr_acf o nf x.
Let a := cdelayed nf x.
Let lam := loadv (load_diag o).
Hypotheses (HL : 0 < L) (Hlam : (0 < lam)%R) (Hx : (energy nf (smp x) <= 1)%R).

Lemma delays_energy i : i < L -> (energy nf (a i) <= 1)%R.
Proof.
  intros Hi. assert (E : energy nf (a i) = energy nf (a 0)).
  { pose proof (pair_ent o nf x NumPy i i Hi Hi) as E1. pose proof (pair_ent o nf x NumPy 0 0 HL HL) as E2.
    rewrite toeplitz_entry in E1, E2 by (rewrite pair_len; auto).
    replace (adist i i) with (adist 0 0) in E1 by (unfold adist; lia). rewrite E2 in E1.
    unfold gram in E1. rewrite !Nat.eqb_refl in E1. fold a in E1. unfold energy. lra. }
  rewrite E. rewrite (energy_ext nf (a 0) (smp x)); auto. intros t Ht. apply cdelayed_0; auto.
Qed.
Lemma comb_energy v : (energy nf (comb L a v) <= INR L * energy L v)%R.
Proof.
  unfold energy at 1, dot.
  apply Rle_trans with (Rsum nf (fun t => energy L v * Rsum L (fun k => a k t * a k t)))%R.
  - apply Rsum_le. intros t Ht. apply (dot_cs L v (fun k => a k t)).
  - rewrite Rsum_scal_l, Rsum_swap, (Rmult_comm (INR L)). apply Rmult_le_compat_l; [apply energy_nonneg|].
    rewrite <- (Rmult_1_r (INR L)), <- Rsum_const. apply Rsum_le. intros k Hk. apply (delays_energy k Hk).
Qed.
Lemma load_bounds u : (lam * energy L u <= form L (ent (toeplitz b acf)) u u <= (INR L + lam) * energy L u)%R.
Proof.
  rewrite (form_mat L _ (gram nf a lam)) by (intros; apply (pair_ent o nf x b); auto).
  unfold form. rewrite gram_form. fold (energy nf (comb L a u)).
  change (Rsum L (fun i => u i * u i)%R) with (energy L u).
  pose proof (energy_nonneg nf (comb L a u)). pose proof (comb_energy u). split; lra.
Qed.
Lemma load_nonsingular : nonsingular L (ent (toeplitz b acf)).
Proof.
  intros u Hu i Hi. pose proof (load_bounds u) as [H _].
  assert (Z : form L (ent (toeplitz b acf)) u u = 0%R).
  { apply Rsum_zero. intros j Hj. rewrite Hu by auto. ring. }
  rewrite Z in H. pose proof (energy_nonneg L u). apply (energy_zero L u); auto. nra.
Qed.
Lemma load_between : (/ 10 ^ 3 <= lam)%R ->
  preconditioned_between b acf (lam / (INR L + lam)) ((INR L + lam) / lam).
Proof.
  intros H3. apply between_bounds.
  assert (len : length acf = L) by apply pair_len.
  assert (Heps : (cg_eps <= lam * lam)%R).
  { assert (/ 10 ^ 3 * / 10 ^ 3 <= lam * lam)%R.
    { apply Rmult_le_compat; auto; left; apply Rinv_0_lt_compat; lra. }
    replace cg_eps with (/ 10 ^ 3 * / 10 ^ 3)%R; auto. unfold cg_eps. field. }
  assert (HF : forall u, form L (fun i j => nth (adist i j) acf 0%R) u u = form L (ent (toeplitz b acf)) u u).
  { intros u. apply form_mat. intros i j Hi Hj. symmetry. apply toeplitz_entry; rewrite len; auto. }
  apply bounds_from_spectrum; auto; rewrite ?len; auto.
  - intros u. fold (form L (fun i j => nth (adist i j) acf 0%R) u u). rewrite HF.
    pose proof (load_bounds u) as [H _]. pose proof (energy_nonneg L u). nra.
  - intros u Hu. apply load_nonsingular. intros i Hi. etransitivity; [|exact (Hu i Hi)]. apply Rsum_ext. intros j Hj.
    rewrite toeplitz_entry by (rewrite len; auto). reflexivity.
  - intros u. rewrite HF. apply load_bounds.
Qed.
End Load.

(** ** The matrix of coherences *)
Lemma acf_nonsingular b o ref est m c x : sdr_coh b (with_cg o None) ref est = Ok m -> filter_length o <> 1 ->
  pchan (zero_mean o) ref c = Some x ->
  let nf := n_fft (a_len ref) (a_len est) in
  nonsingular (Nat.min (filter_length o) nf) (ent (toeplitz b (sdr_acf o nf x))).
Proof.
  intros E N1 Px nf. rewrite sdr_coh_cells in E by exact N1.
  assert (Hc' : c < length (prep_arr (zero_mean o) ref)).
  { rewrite length_prep. exact (pchan_lt _ _ _ _ Px). }
  assert (Hx : In (Some x) (prep_arr (zero_mean o) ref)).
  { unfold pchan in Px. rewrite <- Px. apply nth_In. auto. }
  destruct (mapM_ok_all _ _ _ (Some x) E Hx) as (row & Er).
  unfold sdr_row_cells, solvable in Er. cbn [use_cg_iter with_cg load_diag filter_length zero_mean bind] in Er.
  fold nf in Er.
  destruct (Rsolve (Nat.min (filter_length o) nf) (ent (toeplitz NumPy (add_load (load_diag o) (stats_acf nf (filter_length o) x))))
    (fun _ => 0%R)) as [x0|] eqn:Es; [|discriminate].
  intros v Hv. apply (Rsolve_inj _ _ _ _ v Es). intros i Hi. etransitivity; [|exact (Hv i Hi)].
  apply Rsum_ext. intros j Hj. unfold sdr_acf.
  rewrite !toeplitz_entry by (rewrite length_loaded; auto). reflexivity.
Qed.

Section Matrix.
Variables (b : backend) (o : opts) (it : nat) (ref est : arr) (m m' : list (list xr)) (c d : nat) (x y : list R).
Hypotheses (Hwr : wf ref) (Hwe : wf est) (Hld : (0 <= loadv (load_diag o))%R) (HL : 2 <= filter_length o)
  (Hx : has_chan ref c x) (Hy : has_chan est d y)
  (Em : sdr_coh b (with_cg o (Some it)) ref est = Ok m)
  (Em' : sdr_coh b (with_cg o None) ref est = Ok m').
Let nf := n_fft (a_len ref) (a_len est).
Let acf := sdr_acf o nf (unit_of (pre (zero_mean o) x)).
Variables mu Lam : R.
Hypotheses (Hmu : (0 < mu)%R) (HLam : (mu <= Lam)%R) (Hb : preconditioned_between b acf mu Lam).

Lemma mx_len : 0 < Nat.min (filter_length o) nf.
Proof. pose proof (n_fft_pos (a_len ref) (a_len est)). unfold nf. lia. Qed.
Theorem sdr_rate : never_guarded o ref est it ->
  exists q q', mat_of m c d = Fin q /\ mat_of m' c d = Fin q' /\
    ((1 - 2 * (1 - sqrt (mu / Lam)) ^ it) * q' <= q <= q')%R.
Proof.
  intros Hg. assert (N1 : filter_length o <> 1) by lia.
  destruct (has_chan_pchan (zero_mean o) ref c x Hwr Hx) as [Px Lx].
  destruct (has_chan_pchan (zero_mean o) est d y Hwe Hy) as [Py Ly].
  destruct (sdr_entry b (with_cg o None) ref est m' c d _ _ Em' eq_refl N1 (proj1 Hx) (proj1 Hy) Px Py)
    as (q' & Hq & Eq).
  eexists. exists q'. split; [apply (cg_entry b (with_cg o (Some it)) it ref est m c d _ _ eq_refl N1 Px Py Em)|].
  split; auto.
  pose proof (pair_rate b o nf _ (unit_of (pre (zero_mean o) y)) Hld mx_len (acf_nonsingular b o ref est m' c _ Em' N1 Px)
    mu Lam q' Hmu HLam Hb Hq it (Hg c d _ _ Px Py)) as H.
  unfold nf in H. change (sdr_acf (with_cg o (Some it))) with (sdr_acf o).
  change (filter_length (with_cg o (Some it))) with (filter_length o). lra.
Qed.
Theorem sdr_rate_total :
  exists q q', mat_of m c d = Fin q /\ mat_of m' c d = Fin q' /\
    ((q - q') ^ 2 <= q' * Rmax (2 * (1 - sqrt (mu / Lam)) ^ it * q') (cg_eps / (mu * Rmin 1 mu)))%R.
Proof.
  assert (N1 : filter_length o <> 1) by lia.
  destruct (has_chan_pchan (zero_mean o) ref c x Hwr Hx) as [Px Lx].
  destruct (has_chan_pchan (zero_mean o) est d y Hwe Hy) as [Py Ly].
  destruct (sdr_entry b (with_cg o None) ref est m' c d _ _ Em' eq_refl N1 (proj1 Hx) (proj1 Hy) Px Py)
    as (q' & Hq & Eq).
  eexists. exists q'. split; [apply (cg_entry b (with_cg o (Some it)) it ref est m c d _ _ eq_refl N1 Px Py Em)|].
  split; auto.
  pose proof (pair_rate_total b o nf _ (unit_of (pre (zero_mean o) y)) Hld mx_len (acf_nonsingular b o ref est m' c _ Em' N1 Px)
    mu Lam q' Hmu HLam Hb Hq it) as H.
  unfold nf in H. change (sdr_acf (with_cg o (Some it))) with (sdr_acf o).
  change (filter_length (with_cg o (Some it))) with (filter_length o). lra.
Qed.
End Matrix.

(** number of iterations for a given accuracy, in terms of the loading only *)
Lemma pow_exp r k : (0 <= r <= 1)%R -> ((1 - r) ^ k <= exp (- (r * INR k)))%R.
Proof.
  intros Hr. replace (exp (- (r * INR k)))%R with (exp (- r) ^ k)%R.
  - apply pow_incr. split; [lra|]. pose proof (exp_ineq1_le (- r)). lra.
  - induction k as [|k IH].
    + simpl. rewrite Rmult_0_r, Ropp_0, exp_0. reflexivity.
    + rewrite S_INR. simpl pow. rewrite IH, <- exp_plus. f_equal. ring.
Qed.
Theorem sdr_iterations b o it ref est m m' c d x y delta lam : wf ref -> wf est ->
  load_diag o = Some lam -> (/ 10 ^ 3 <= lam)%R -> 2 <= filter_length o ->
  has_chan ref c x -> has_chan est d y ->
  sdr_coh b (with_cg o (Some it)) ref est = Ok m ->
  sdr_coh b (with_cg o None) ref est = Ok m' ->
  never_guarded o ref est it ->
  (0 < delta)%R -> ((INR (filter_length o) + lam) / lam * ln (2 / delta) <= INR it)%R ->
  exists q q', mat_of m c d = Fin q /\ mat_of m' c d = Fin q' /\ ((1 - delta) * q' <= q <= q')%R.
Proof.
  intros Hwr Hwe El Hlam HL Hx Hy Em Em' Hg Hd Hit.
  assert (Pl : (0 < lam)%R) by (assert (0 < / 10 ^ 3)%R by (apply Rinv_0_lt_compat; lra); lra).
  assert (Ev : loadv (load_diag o) = lam) by (rewrite El; reflexivity).
  assert (Hld : (0 <= loadv (load_diag o))%R) by (rewrite Ev; lra).
  destruct (has_chan_pchan (zero_mean o) ref c x Hwr Hx) as [Px Lx].
  set (nf := n_fft (a_len ref) (a_len est)).
  assert (Hwe0 : 0 < a_len est) by apply Hwe.
  assert (Hwr0 : 0 < a_len ref) by apply Hwr.
  pose proof (pchan_energy_le1 _ _ _ _ nf Hwr Px (nf_ge_ref (a_len ref) (a_len est) Hwr0)) as He.
  pose proof (mx_len o ref est HL) as HL0. fold nf in HL0.
  set (K := INR (Nat.min (filter_length o) nf)).
  assert (PK : (0 < K)%R) by (apply lt_0_INR; auto).
  assert (HK : (K <= INR (filter_length o))%R) by (apply le_INR; lia).
  pose proof (load_between b o nf (unit_of (pre (zero_mean o) x)) HL0 ltac:(rewrite Ev; auto) He ltac:(rewrite Ev; auto)) as Hb.
  rewrite Ev in Hb. fold K in Hb.
  assert (Hq : (0 < lam / (K + lam) <= 1)%R).
  { split; [apply Rdiv_lt_0_compat; lra|]. apply (Rmult_le_reg_r (K + lam)); [lra|].
    unfold Rdiv. rewrite Rmult_assoc, Rinv_l by lra. lra. }
  assert (Hq1 : (1 <= (K + lam) / lam)%R).
  { apply (Rmult_le_reg_r lam); auto. unfold Rdiv. rewrite Rmult_assoc, Rinv_l by lra. lra. }
  assert (Hml : (lam / (K + lam) <= (K + lam) / lam)%R) by lra.
  destruct (sdr_rate b o it ref est m m' c d x y Hwr Hwe Hld HL Hx Hy Em Em' _ _ (proj1 Hq) Hml Hb Hg)
    as (q & q' & E1 & E2 & H1 & H2).
  exists q, q'. split; auto. split; auto. split; auto.
  eapply Rle_trans; [|exact H1].
  assert (P0 : (0 <= q')%R).
  { destruct (has_chan_pchan (zero_mean o) est d y Hwe Hy) as [Py Ly].
    destruct (sdr_entry b (with_cg o None) ref est m' c d _ _ Em' eq_refl ltac:(cbn; lia) (proj1 Hx) (proj1 Hy) Px Py)
      as (q2 & (h & Hh & Eq2) & Eq). rewrite E2 in Eq. injection Eq as <-.
    rewrite Eq2, (q_energy _ _ _ _ _ _ Hh). apply Rplus_le_le_0_compat; [apply energy_nonneg|].
    apply Rmult_le_pos; [exact Hld|apply sq_nonneg]. }
  apply Rmult_le_compat_r; auto.
  assert (Es : sqrt (lam / (K + lam) / ((K + lam) / lam)) = (lam / (K + lam))%R).
  { replace (lam / (K + lam) / ((K + lam) / lam))%R with (lam / (K + lam) * (lam / (K + lam)))%R by (field; lra).
    apply sqrt_square. lra. }
  rewrite Es. set (r := (lam / (K + lam))%R) in *.
  pose proof (pow_exp r it ltac:(lra)) as Hp.
  assert (Hle : (exp (- (r * INR it)) <= delta / 2)%R).
  { rewrite <- (exp_ln (delta / 2)) by lra.
    assert (- (r * INR it) <= ln (delta / 2))%R.
    { replace (delta / 2)%R with (/ (2 / delta))%R by (field; lra).
      rewrite ln_Rinv by (apply Rdiv_lt_0_compat; lra). apply Ropp_le_contravar.
      destruct (Rle_dec (ln (2 / delta)) 0) as [Z|Z].
      - apply Rle_trans with 0%R; auto. apply Rmult_le_pos; [lra|apply pos_INR].
      - assert (H3 : ((K + lam) / lam * ln (2 / delta) <= INR it)%R).
        { eapply Rle_trans; [|exact Hit]. apply Rmult_le_compat_r; [lra|].
          unfold Rdiv. apply Rmult_le_compat_r; [left; apply Rinv_0_lt_compat; auto|lra]. }
        apply (Rmult_le_compat_l r) in H3; [|lra].
        replace (r * ((K + lam) / lam * ln (2 / delta)))%R with (ln (2 / delta)) in H3; auto.
        unfold r. field. lra. }
    destruct (Req_EM_T (- (r * INR it)) (ln (delta / 2))) as [->|]; [apply Rle_refl|].
    left. apply exp_increasing. lra. }
  lra.
Qed.

(** the same without a condition on the safeguards *)
Theorem sdr_load_total b o it ref est m m' c d x y lam : wf ref -> wf est ->
  load_diag o = Some lam -> (/ 10 ^ 3 <= lam)%R -> 2 <= filter_length o ->
  has_chan ref c x -> has_chan est d y ->
  sdr_coh b (with_cg o (Some it)) ref est = Ok m ->
  sdr_coh b (with_cg o None) ref est = Ok m' ->
  let K := INR (Nat.min (filter_length o) (n_fft (a_len ref) (a_len est))) in
  exists q q', mat_of m c d = Fin q /\ mat_of m' c d = Fin q' /\
    ((q - q') ^ 2 <= q' * Rmax (2 * (1 - lam / (K + lam)) ^ it * q') (cg_eps * ((K + lam) / lam) ^ 2))%R.
Proof.
  intros Hwr Hwe El Hlam HL Hx Hy Em Em' K.
  assert (Pl : (0 < lam)%R) by (assert (0 < / 10 ^ 3)%R by (apply Rinv_0_lt_compat; lra); lra).
  assert (Ev : loadv (load_diag o) = lam) by (rewrite El; reflexivity).
  assert (Hld : (0 <= loadv (load_diag o))%R) by (rewrite Ev; lra).
  destruct (has_chan_pchan (zero_mean o) ref c x Hwr Hx) as [Px Lx].
  set (nf := n_fft (a_len ref) (a_len est)) in *.
  assert (Hwr0 : 0 < a_len ref) by apply Hwr.
  pose proof (pchan_energy_le1 _ _ _ _ nf Hwr Px (nf_ge_ref (a_len ref) (a_len est) Hwr0)) as He.
  pose proof (mx_len o ref est HL) as HL0. fold nf in HL0.
  assert (PK : (0 < K)%R) by (apply lt_0_INR; auto).
  pose proof (load_between b o nf (unit_of (pre (zero_mean o) x)) HL0 ltac:(rewrite Ev; auto) He ltac:(rewrite Ev; auto)) as Hb.
  rewrite Ev in Hb. fold K in Hb.
  assert (Hq : (0 < lam / (K + lam) <= 1)%R).
  { split; [apply Rdiv_lt_0_compat; lra|]. apply (Rmult_le_reg_r (K + lam)); [lra|].
    unfold Rdiv. rewrite Rmult_assoc, Rinv_l by lra. lra. }
  assert (Hq1 : (1 <= (K + lam) / lam)%R).
  { apply (Rmult_le_reg_r lam); auto. unfold Rdiv. rewrite Rmult_assoc, Rinv_l by lra. lra. }
  assert (Hml : (lam / (K + lam) <= (K + lam) / lam)%R) by lra.
  destruct (sdr_rate_total b o it ref est m m' c d x y Hwr Hwe Hld HL Hx Hy Em Em' _ _ (proj1 Hq) Hml Hb)
    as (q & q' & E1 & E2 & H).
  exists q, q'. split; auto. split; auto.
  assert (Es : sqrt (lam / (K + lam) / ((K + lam) / lam)) = (lam / (K + lam))%R).
  { replace (lam / (K + lam) / ((K + lam) / lam))%R with (lam / (K + lam) * (lam / (K + lam)))%R by (field; lra).
    apply sqrt_square. lra. }
  rewrite Es, Rmin_right in H by lra.
  replace (cg_eps / (lam / (K + lam) * (lam / (K + lam))))%R with (cg_eps * ((K + lam) / lam) ^ 2)%R in H by (field; lra).
  exact H.
Qed.
