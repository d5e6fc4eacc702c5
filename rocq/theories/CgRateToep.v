(** * Rate of convergence for the Toeplitz system of the SDR (C63) *)
From Coq Require Import Reals Lra.
From Coquelicot Require Import Complex.
From Verif Require Import Prelude ExtReal Slice Sums SpecSig Fft FftProofs Helpers Linalg LinalgProofs
  Cgd Metrics StatsProofs LeastSq PrepProofs MetricsProofs SarProofs ProjTheorems MetricTheorems
  CgdOps CgdPrecond CgProofs CgCirc Cells CgTheorems CgRate.
Local Open Scope nat_scope.

(** ** Quadratic forms *)
Lemma form_unit n B u k : k < n -> form n B (fun i => if Nat.eqb i k then 1 else 0)%R u = Rmv n B u k.
Proof.
  intros Hk. unfold form. rewrite (Rsum_single n k); auto.
  - rewrite Nat.eqb_refl. ring.
  - intros i Hi Hne. destruct (Nat.eqb_spec i k); [lia|ring].
Qed.
Lemma form_zero n B u : symmetric_mat n B -> psd_mat n B -> form n B u u = 0%R ->
  forall i, i < n -> Rmv n B u i = 0%R.
Proof.
  intros Hs Hp H i Hi. pose proof (form_cs n B (fun j => if Nat.eqb j i then 1 else 0)%R u Hs Hp) as C.
  rewrite H, form_unit, Rmult_0_r in C by auto. nra.
Qed.
Lemma form_dot n B u w : form n B u w = dot n u (Rmv n B w).
Proof. reflexivity. Qed.
Lemma dot_cs n u w : (dot n u w * dot n u w <= energy n u * energy n w)%R.
Proof.
  assert (Hs : symmetric_mat n (fun i j => if Nat.eqb i j then 1 else 0)%R).
  { intros i j _ _. rewrite Nat.eqb_sym. reflexivity. }
  assert (E : forall u w, form n (fun i j => if Nat.eqb i j then 1 else 0)%R u w = dot n u w).
  { intros a c. apply Rsum_ext. intros i Hi. f_equal. unfold Rmv. rewrite (Rsum_single n i); auto.
    - rewrite Nat.eqb_refl. ring.
    - intros j Hj Hne. destruct (Nat.eqb_spec i j); [congruence|ring]. }
  pose proof (form_cs n _ u w Hs) as C. rewrite !E in C. apply C.
  intros v. fold (form n (fun i j => if Nat.eqb i j then 1 else 0)%R v v). rewrite E. apply energy_nonneg.
Qed.

(** ** The preconditioner as a matrix *)
Section Circ.
Variable col : list R.
Let n := length col.
Hypothesis Hn : 0 < n.

Definition qmat (t s : nat) : R :=
  (/ INR (length col) * Rsum (length col) (fun k => gain_at col k *
     Re (Cmult (Cconj (E (length col) (k * s))) (E (length col) (k * t)))))%R.

Lemma q_acts : acts_as n (circ_prec col) qmat.
Proof.
  intros v t Hv Ht. rewrite circ_prec_full by auto. fold n. unfold Rmv, qmat. fold n.
  rewrite (Rsum_ext n (fun j => / INR n * _ * smp v j)%R
    (fun s => / INR n * Rsum n (fun k => gain_at col k * Re (Cmult (Cconj (E n (k * s))) (E n (k * t))) * smp v s))%R)
    by (intros; rewrite Rsum_scal_r; ring).
  rewrite Rsum_scal_l. f_equal. rewrite Rsum_swap. apply Rsum_ext. intros k Hk.
  rewrite (Rsum_ext n _ (fun s => gain_at col k * (smp v s * Re (Cmult (Cconj (E n (k * s))) (E n (k * t)))))%R)
    by (intros; ring).
  rewrite Rsum_scal_l. f_equal. unfold dft. rewrite <- Csum_scal_r, Re_Csum. apply Rsum_ext. intros s Hs.
  unfold Re, Cmult, RtoC, Cconj. simpl. ring.
Qed.
Lemma q_sym : symmetric_mat n qmat.
Proof.
  intros i j _ _. unfold qmat. f_equal. apply Rsum_ext. intros k Hk. f_equal.
  unfold Re, Cmult, Cconj. simpl. ring.
Qed.
Lemma q_form u w : form n qmat u w = dotl n (tab n u) (circ_prec col (tab n w)).
Proof.
  unfold form, dotl. apply Rsum_ext. intros i Hi. rewrite nth_tab by auto.
  rewrite q_acts by (auto; apply length_tab). f_equal. apply Rmv_ext. intros j Hj.
  unfold smp. rewrite nth_tab; auto.
Qed.
(** <u, P u> between multiples of |u|^2 *)
Lemma parseval (u : nat -> R) : (/ INR n * Rsum n (fun k => Re (Cmult (dft n u k) (Cconj (dft n u k)))))%R = energy n u.
Proof.
  pose proof (dft_corr n u u 0 Hn) as H.
  apply (f_equal Re) in H. rewrite Re_Csum in H.
  assert (0 < INR n)%R by (apply lt_0_INR; auto).
  apply (Rmult_eq_reg_l (INR n)); [|lra]. rewrite <- Rmult_assoc, Rinv_r, Rmult_1_l by lra.
  transitivity (INR n * Rsum n (fun t => u t * u ((t + 0) mod n)%nat))%R.
  - etransitivity; [|exact H]. apply Rsum_ext. intros k Hk. rewrite Nat.mul_0_r, E_0.
    unfold Re, Cmult, Cconj, RtoC. simpl. ring.
  - f_equal. apply Rsum_ext. intros t Ht. rewrite Nat.add_0_r, Nat.mod_small by auto. reflexivity.
Qed.
Lemma q_form_dft u : form n qmat u u =
  (/ INR n * Rsum n (fun k => gain_at col k * Re (Cmult (dft n u k) (Cconj (dft n u k)))))%R.
Proof.
  rewrite q_form. unfold n. rewrite circ_form. fold n. f_equal. apply Rsum_ext. intros k Hk. f_equal.
  assert (D : dft n (smp (tab n u)) k = dft n u k).
  { unfold dft. apply Csum_ext. intros t Ht. unfold smp. rewrite nth_tab by auto. reflexivity. }
  rewrite D. reflexivity.
Qed.
Lemma sq_mod_nonneg z : (0 <= Re (Cmult z (Cconj z)))%R.
Proof. destruct z as [a b]. unfold Re, Cmult, Cconj. simpl. nra. Qed.
Lemma q_lower g u : (forall k, k < n -> (g <= gain_at col k)%R) -> (g * energy n u <= form n qmat u u)%R.
Proof.
  intros Hg. rewrite q_form_dft, <- parseval. assert (0 < INR n)%R by (apply lt_0_INR; auto).
  rewrite <- Rmult_assoc, (Rmult_comm g), Rmult_assoc.
  apply Rmult_le_compat_l; [left; apply Rinv_0_lt_compat; auto|].
  rewrite <- Rsum_scal_l. apply Rsum_le. intros k Hk. apply Rmult_le_compat_r; auto. apply sq_mod_nonneg.
Qed.
Lemma q_upper g u : (forall k, k < n -> (gain_at col k <= g)%R) -> (form n qmat u u <= g * energy n u)%R.
Proof.
  intros Hg. rewrite q_form_dft, <- parseval. assert (0 < INR n)%R by (apply lt_0_INR; auto).
  rewrite <- Rmult_assoc, (Rmult_comm g), Rmult_assoc.
  apply Rmult_le_compat_l; [left; apply Rinv_0_lt_compat; auto|].
  rewrite <- Rsum_scal_l. apply Rsum_le. intros k Hk. apply Rmult_le_compat_r; auto. apply sq_mod_nonneg.
Qed.

(** ** Positive definite system *)
Let T := fun i j => nth (adist i j) col 0%R.
Lemma T_sym : symmetric_mat n T.
Proof. intros i j _ _. unfold T. rewrite adist_sym. reflexivity. Qed.
(** Rayleigh quotients bound the eigenvalues of the circulant *)
Lemma spec_bounds lo hi k : (forall u, lo * energy n u <= form n T u u <= hi * energy n u)%R ->
  (lo <= spec col k <= hi)%R.
Proof.
  intros H. unfold n in Hn. rewrite spec_rayleigh by auto. cbv zeta. fold n. fold n in Hn. fold T.
  set (cv := fun i => cos (ang n (k * i))). set (sv := fun i => sin (ang n (k * i))).
  change (Rsum n (fun i => cos (ang n (k * i)) * Rmv n T cv i)%R) with (form n T cv cv).
  change (Rsum n (fun i => sin (ang n (k * i)) * Rmv n T sv i)%R) with (form n T sv sv).
  pose proof (H cv) as H1. pose proof (H sv) as H2.
  assert (E1 : (energy n cv + energy n sv = INR n)%R).
  { unfold energy, dot. rewrite <- Rsum_plus. rewrite (Rsum_ext n _ (fun _ => 1%R)), Rsum_const; [ring|].
    intros i Hi. unfold cv, sv. pose proof (sin2_cos2 (ang n (k * i))) as S. unfold Rsqr in S. lra. }
  assert (P : (0 < INR n)%R) by (apply lt_0_INR; auto).
  split; apply (Rmult_le_reg_l (INR n)); auto; rewrite <- Rmult_assoc, Rinv_r, Rmult_1_l by lra;
    rewrite <- E1; lra.
Qed.
Hypothesis Tpsd : psd_mat n T.
Hypothesis Tns : nonsingular n T.
Lemma spec_pos k : (0 < spec col k)%R.
Proof.
  unfold n in Hn. rewrite spec_rayleigh by auto. cbv zeta. fold n. fold n in Hn. fold T.
  apply Rmult_lt_0_compat; [apply Rinv_0_lt_compat, lt_0_INR; auto|].
  set (cv := fun i => cos (ang n (k * i))). set (sv := fun i => sin (ang n (k * i))).
  change (Rsum n (fun i => cos (ang n (k * i)) * Rmv n T cv i)%R) with (form n T cv cv).
  change (Rsum n (fun i => sin (ang n (k * i)) * Rmv n T sv i)%R) with (form n T sv sv).
  pose proof (Tpsd cv) as H1. fold (form n T cv cv) in H1. pose proof (Tpsd sv) as H2. fold (form n T sv sv) in H2.
  assert (form n T cv cv <> 0)%R; [|lra].
  intros Z. pose proof (Tns cv (form_zero n T cv T_sym Tpsd Z) 0 Hn) as C.
  unfold cv in C. rewrite Nat.mul_0_r in C. unfold ang in C. simpl in C.
  replace (2 * PI * 0 / INR n)%R with 0%R in C by (unfold Rdiv; ring). rewrite cos_0 in C. lra.
Qed.
Lemma gain_pos k : (0 < gain_at col k)%R.
Proof. unfold gain_at. apply Rdiv_lt_0_compat; [apply spec_pos|apply max_eps_pos]. Qed.
Lemma min_pos m (f : nat -> R) : (forall k, 0 < f k)%R -> exists g, (0 < g)%R /\ forall k, k < m -> (g <= f k)%R.
Proof.
  intros H. induction m as [|m (g & Hg & IH)].
  - exists 1%R. split; [lra|]. intros; lia.
  - exists (Rmin g (f m)). split; [apply Rmin_pos; auto|]. intros k Hk.
    destruct (Nat.eq_dec k m) as [->|]; [apply Rmin_r|].
    eapply Rle_trans; [apply Rmin_l|]. apply IH. lia.
Qed.
Lemma q_psd : psd_mat n qmat.
Proof.
  intros u. fold (form n qmat u u). pose proof (q_lower 0 u (fun k _ => Rlt_le _ _ (gain_pos k))). lra.
Qed.
Lemma q_nonsingular : nonsingular n qmat.
Proof.
  intros u Hu i Hi. destruct (min_pos n (gain_at col) gain_pos) as (g & Hg & Hmin).
  pose proof (q_lower g u Hmin) as H.
  assert (Z : form n qmat u u = 0%R).
  { apply Rsum_zero. intros j Hj. rewrite Hu by auto. ring. }
  rewrite Z in H. pose proof (energy_nonneg n u) as H0.
  apply (energy_zero n u); auto. nra.
Qed.

(** bounds on the preconditioned matrix, stated on vectors *)
Definition precond_bounds (mu Lam : R) : Prop := forall u, length u = length col ->
  let w := circ_prec col u in
  (mu * dotl (length col) u w <= dotl (length col) w (dense_toeplitz col w) <= Lam * dotl (length col) u w)%R.

Lemma pb_form mu Lam u : precond_bounds mu Lam ->
  (mu * form n qmat u u <= form n T (Rmv n qmat u) (Rmv n qmat u) <= Lam * form n qmat u u)%R.
Proof.
  intros H. specialize (H (tab n u) (length_tab _ _)). cbv zeta in H. fold n in H.
  rewrite <- q_form in H.
  assert (Hw : forall i, i < n -> smp (circ_prec col (tab n u)) i = Rmv n qmat u i).
  { intros i Hi. unfold smp. rewrite q_acts by (auto; apply length_tab). apply Rmv_ext. intros j Hj.
    unfold smp. rewrite nth_tab; auto. }
  assert (E1 : dotl n (circ_prec col (tab n u)) (dense_toeplitz col (circ_prec col (tab n u))) =
     form n T (Rmv n qmat u) (Rmv n qmat u)).
  { rewrite <- (form_ext n T _ _ _ _ Hw Hw). unfold form, dotl. apply Rsum_ext. intros i Hi. f_equal.
    rewrite (dense_acts NumPy col) by (auto; apply length_circ_prec). apply Rsum_ext. intros j Hj.
    rewrite toeplitz_entry by auto. reflexivity. }
  rewrite <- E1. exact H.
Qed.

Lemma zero_start xs : sq_err n T xs (smp (repeat 0%R n)) = form n T xs xs.
Proof.
  unfold sq_err.
  rewrite (form_ext n T _ (comb2 (-1) xs 0 xs) _ (comb2 (-1) xs 0 xs))
    by (intros; unfold comb2, smp; rewrite nth_repeat; ring).
  rewrite form_lin, !form_lin_r by apply T_sym. ring.
Qed.
Theorem toeplitz_rate xc it xs mu Lam : length xc = n ->
  (0 < mu)%R -> (mu <= Lam)%R -> precond_bounds mu Lam ->
  (forall i, i < n -> Rmv n T xs i = nth i xc 0%R) ->
  (forall k, k < it -> cg_inactive col xc k) ->
  (sq_err n T xs (smp (toeplitz_cg_spec col xc it)) <= 2 * (1 - sqrt (mu / Lam)) ^ it * form n T xs xs)%R.
Proof.
  intros Hl Hmu HLam Hb Hxs Hin.
  destruct (Rsolve_some n qmat (fun i => smp (repeat 0%R n) i - xs i)%R q_nonsingular) as (u0 & Eu).
  pose proof (Rsolve_ok _ _ _ _ Eu) as Hu0.
  assert (HA : acts_as n (dense_toeplitz col) T).
  { intros v i Hv Hi. unfold n. rewrite (dense_acts NumPy col) by auto. apply Rsum_ext. intros j Hj.
    rewrite toeplitz_entry by auto. reflexivity. }
  pose proof (rate n (dense_toeplitz col) (circ_prec col) T qmat xc (repeat 0%R n) xs u0 HA q_acts
    (repeat_length _ _) (fun v _ => length_circ_prec col v) T_sym q_sym Tpsd q_psd Hxs Hu0 mu Lam Hmu HLam
    (fun u => proj1 (pb_form mu Lam u Hb)) (fun u => proj2 (pb_form mu Lam u Hb)) it
    (fun k Hk Hz => Hin k Hk (not_zero_ex _ _ Hz))) as H.
  rewrite zero_start in H. exact H.
Qed.

Theorem toeplitz_rate_total xc it xs mu Lam : length xc = n ->
  (0 < mu)%R -> (mu <= Lam)%R -> precond_bounds mu Lam ->
  (forall i, i < n -> Rmv n T xs i = nth i xc 0%R) ->
  (sq_err n T xs (smp (toeplitz_cg_spec col xc it)) <=
   Rmax (2 * (1 - sqrt (mu / Lam)) ^ it * form n T xs xs) (cg_eps / (mu * Rmin 1 mu)))%R.
Proof.
  intros Hl Hmu HLam Hb Hxs.
  destruct (Rsolve_some n qmat (fun i => smp (repeat 0%R n) i - xs i)%R q_nonsingular) as (u0 & Eu).
  pose proof (Rsolve_ok _ _ _ _ Eu) as Hu0.
  assert (HA : acts_as n (dense_toeplitz col) T).
  { intros v i Hv Hi. unfold n. rewrite (dense_acts NumPy col) by auto. apply Rsum_ext. intros j Hj.
    rewrite toeplitz_entry by auto. reflexivity. }
  pose proof (rate_total n (dense_toeplitz col) (circ_prec col) T qmat xc (repeat 0%R n) xs u0 HA q_acts
    (repeat_length _ _) (fun v _ => length_circ_prec col v) T_sym q_sym Tpsd q_psd Hxs Hu0 mu Lam Hmu HLam
    (fun u => proj1 (pb_form mu Lam u Hb)) (fun u => proj2 (pb_form mu Lam u Hb)) it) as H.
  rewrite zero_start in H. exact H.
Qed.

(** bounds of the matrix itself give bounds for the preconditioned one *)
Lemma bounds_from_spectrum lo hi : (0 < lo)%R -> (cg_eps <= lo * lo)%R ->
  (forall u, lo * energy n u <= form n T u u <= hi * energy n u)%R ->
  precond_bounds (lo / hi) (hi / lo).
Proof.
  intros Hlo He Hb u Hu. cbv zeta. fold n. fold n in Hu.
  assert (Hlh : (lo <= hi)%R) by (pose proof (spec_bounds lo hi 0 Hb); lra).
  assert (G : forall k, (/ hi <= gain_at col k <= / lo)%R).
  { intros k. pose proof (spec_bounds lo hi k Hb) as [S1 S2]. unfold gain_at.
    rewrite Rmax_left.
    - replace (spec col k / spec col k ^ 2)%R with (/ spec col k)%R by (field; lra).
      split; apply Rinv_le_contravar; lra.
    - simpl. nra. }
  set (w := circ_prec col u).
  assert (Hw : forall i, i < n -> smp w i = Rmv n qmat (smp u) i) by (intros i Hi; apply q_acts; auto).
  assert (EN : dotl n u w = form n qmat (smp u) (smp u)).
  { apply Rsum_ext. intros i Hi. fold (smp w i). rewrite Hw by auto. reflexivity. }
  assert (ET : dotl n w (dense_toeplitz col w) = form n T (smp w) (smp w)).
  { unfold form, dotl. apply Rsum_ext. intros i Hi. f_equal. unfold n.
    rewrite (dense_acts NumPy col) by (auto; apply length_circ_prec). apply Rsum_ext. intros j Hj.
    rewrite toeplitz_entry by auto. reflexivity. }
  rewrite EN, ET. destruct (Hb (smp w)) as [B1 B2].
  set (N := form n qmat (smp u) (smp u)) in *. set (W := energy n (smp w)) in *.
  assert (PN : (0 <= N)%R) by apply q_psd. assert (PW : (0 <= W)%R) by apply energy_nonneg.
  assert (EW : W = form n qmat (smp u) (smp w)).
  { rewrite sym_form by apply q_sym. unfold W, energy, dot, form. apply Rsum_ext. intros i Hi. f_equal. auto. }
  (* W <= N / lo *)
  assert (U1 : (W <= / lo * N)%R).
  { pose proof (form_cs n qmat (smp u) (smp w) q_sym q_psd) as C. rewrite <- EW in C. fold N in C.
    pose proof (q_upper (/ lo) (smp w) (fun k _ => proj2 (G k))) as U. fold W in U.
    assert (W * W <= N * (/ lo * W))%R by (eapply Rle_trans; [exact C|]; apply Rmult_le_compat_l; auto).
    assert (0 < / lo)%R by (apply Rinv_0_lt_compat; auto).
    destruct (Req_EM_T W 0) as [Z|NZ].
    - rewrite Z. apply Rmult_le_pos; lra.
    - apply (Rmult_le_reg_r W); lra. }
  (* N / hi <= W *)
  assert (U2 : (/ hi * N <= W)%R).
  { pose proof (dot_cs n (smp u) (smp w)) as C. fold W in C.
    assert (dot n (smp u) (smp w) = N) as EDN by (rewrite <- EN; reflexivity). rewrite EDN in C.
    pose proof (q_lower (/ hi) (smp u) (fun k _ => proj1 (G k))) as U. fold N in U.
    pose proof (energy_nonneg n (smp u)) as PU.
    assert (0 < / hi)%R by (apply Rinv_0_lt_compat; lra).
    destruct (Req_EM_T N 0) as [Z|NZ].
    - rewrite Z, Rmult_0_r. auto.
    - apply (Rmult_le_reg_r N); [lra|].
      assert (/ hi * N * N <= / hi * (energy n (smp u) * W))%R by (rewrite Rmult_assoc; apply Rmult_le_compat_l; lra).
      assert (/ hi * energy n (smp u) * W <= N * W)%R by (apply Rmult_le_compat_r; auto). lra. }
  split.
  - replace (lo / hi * N)%R with (lo * (/ hi * N))%R by (unfold Rdiv; ring).
    eapply Rle_trans; [|exact B1]. apply Rmult_le_compat_l; lra.
  - replace (hi / lo * N)%R with (hi * (/ lo * N))%R by (unfold Rdiv; ring).
    eapply Rle_trans; [exact B2|]. apply Rmult_le_compat_l; lra.
Qed.
End Circ.
