(** * The backward rules for the references are the adjoints of the forward operations *)
From Coq Require Import Reals Lra.
From Coquelicot Require Import Complex.
From Verif Require Import Prelude ExtReal Slice Sums Fft FftProofs Helpers Linalg LinalgProofs Cgd Metrics SpecSig StatsProofs PrepProofs
  LeastSq MetricsProofs Autograd AutogradFft AutogradEntry AutogradRef.
Local Open Scope nat_scope.

(** ** toeplitz *)
Lemma hankel_adjoint n g z : 0 < n ->
  Rsum (2 * n - 1) (fun p => nth p (hankel_bw n g) 0 * z p)%R = Rsum n (fun i => Rsum n (fun j => g i j * z (i + j)%nat))%R.
Proof.
  intros Hn.
  rewrite (Rsum_ext _ _ (fun p => Rsum n (fun i => (if ((i <=? p) && (p - i <? n))%nat then g i (p - i)%nat else 0) * z p))%R)
    by (intros p Hp; unfold hankel_bw; rewrite nth_tab by auto; rewrite Rsum_scal_r; reflexivity).
  rewrite Rsum_swap. apply Rsum_ext. intros i Hi.
  replace (2 * n - 1) with (i + (2 * n - 1 - i)) by lia. rewrite Rsum_add.
  rewrite Rsum_zero by (intros p Hp; destruct (Nat.leb_spec i p); [lia|]; cbn [andb]; ring).
  rewrite Rplus_0_l. rewrite (Rsum_trunc _ n).
  - apply Rsum_ext. intros j Hj. destruct (Nat.leb_spec i (i + j)); [|lia]. replace (i + j - i) with j by lia.
    destruct (Nat.ltb_spec j n); [|lia]. reflexivity.
  - lia.
  - intros j Hj Hj'. replace (i + j - i) with j by lia. destruct (Nat.ltb_spec j n); [lia|]. rewrite Bool.andb_false_r. ring.
Qed.
Lemma toeplitz_adjoint n g h : 0 < n ->
  Rsum n (fun l => nth l (toeplitz_bw n g) 0 * h l)%R = Rsum n (fun i => Rsum n (fun j => g i j * h (adist i j)))%R.
Proof.
  intros Hn. rewrite (Rsum_rev n (fun i => Rsum n (fun j => g i j * h (adist i j)))%R).
  rewrite (Rsum_ext n (fun i => Rsum n (fun j => g (n - 1 - i)%nat j * h (adist (n - 1 - i) j)))%R
     (fun i => Rsum n (fun j => g (n - 1 - i)%nat j * h (adist (i + j) (n - 1))))%R)
    by (intros i Hi; apply Rsum_ext; intros j Hj; f_equal; f_equal; unfold adist; lia).
  rewrite <- (hankel_adjoint n (fun i j => g (n - 1 - i) j) (fun p => h (adist p (n - 1)))) by auto.
  unfold toeplitz_bw. set (two := hankel_bw n (fun i j => g (n - 1 - i) j)).
  rewrite (Rsum_ext n _ (fun l => nth (n - 1 + l) two 0 * h l + (if Nat.eqb l 0 then 0 else nth (n - 1 - l) two 0) * h l)%R)
    by (intros l Hl; rewrite nth_tab by auto; ring).
  rewrite Rsum_plus. destruct n as [|m]; [lia|]. replace (2 * S m - 1) with (m + S m) by lia. rewrite Rsum_add.
  replace (S m - 1) with m by lia.
  rewrite (Rplus_comm (Rsum (S m) _)). f_equal.
  - rewrite Rsum_S_l. cbn [Nat.eqb]. rewrite Rmult_0_l, Rplus_0_l.
    rewrite (Rsum_rev m (fun p => nth p two 0 * h (adist p m))%R). apply Rsum_ext. intros i Hi.
    replace (m - 1 - i) with (m - S i) by lia. f_equal. f_equal. unfold adist. lia.
  - apply Rsum_ext. intros l Hl. f_equal. f_equal. unfold adist. lia.
Qed.

(** ** The correlations *)
Lemma irfft_plus n Z1 Z2 Z l : 0 < n -> l < n ->
  (forall k, k <= n / 2 -> nth k Z (RtoC 0) = Cplus (nth k Z1 (RtoC 0)) (nth k Z2 (RtoC 0))) ->
  nth l (irfft n Z) 0%R = (nth l (irfft n Z1) 0 + nth l (irfft n Z2) 0)%R.
Proof.
  intros Hn Hl H. rewrite !irfft_sum by auto. rewrite <- Rsum_plus. apply Rsum_ext. intros k Hk.
  rewrite H by lia. destruct (nth k Z1 (RtoC 0)), (nth k Z2 (RtoC 0)). destruct (cis (ang n (k * l))).
  unfold Cmult, Cplus, Re. simpl. ring.
Qed.

(** derivative of the Gram matrix and of the right-hand side at x, in direction k *)
Definition dgram (nf : nat) (x k : list R) (i j : nat) : R :=
  (dot nf (cdelayed nf x i) (cdelayed nf k j) + dot nf (cdelayed nf k i) (cdelayed nf x j))%R.
Lemma dgram_ccorr nf x k i j : i < nf -> j < nf -> dgram nf x k i j = (ccorr nf x k (adist i j) + ccorr nf k x (adist i j))%R.
Proof.
  intros Hi Hj. unfold dgram. destruct (Nat.le_ge_cases i j) as [H|H].
  - rewrite !dot_cdelayed2 by auto. replace (adist i j) with (j - i) by (unfold adist; lia). ring.
  - rewrite (dot_comm nf (cdelayed nf x i)), (dot_comm nf (cdelayed nf k i)), !dot_cdelayed2 by auto.
    replace (adist i j) with (i - j) by (unfold adist; lia). ring.
Qed.

Lemma nth_tabC n f i : i < n -> nth i (tab n f) (RtoC 0) = f i.
Proof. apply nth_tab. Qed.

Section Freq.
  Variables (nf : nat) (x k : list R) (nd : nat) (ys : nat -> list R) (ga : list R) (gx : nat -> list R).
  Hypotheses (Hnf : 0 < nf) (Hk : length k <= nf).
  Hypotheses (Hga : length ga <= nf) (Hgx : forall d, d < nd -> length (gx d) <= nf).

  Let gX := tab (length (rfft nf x)) (fun f =>
    Cplus (Cmult (RtoC (2 * fst (nth f (irfft_bw nf ga) (RtoC 0)))) (nth f (rfft nf x) (RtoC 0)))
          (Csum nd (fun d => Cmult (Cconj (nth f (irfft_bw nf (gx d)) (RtoC 0))) (nth f (rfft nf (ys d)) (RtoC 0))))).

  Lemma freq_adjoint : Rsum (length k) (fun t => nth t (rfft_bw nf (length k) gX) 0 * nth t k 0)%R =
    (Rsum (length ga) (fun l => nth l ga 0 * (ccorr nf x k l + ccorr nf k x l))
     + Rsum nd (fun d => Rsum (length (gx d)) (fun l => nth l (gx d) 0 * dot nf (cdelayed nf k l) (smp (ys d)))))%R.
  Proof.
    assert (LG : length gX = nf / 2 + 1) by (unfold gX; rewrite length_tab; apply length_rfft).
    rewrite rfft_adjoint by auto.
    set (Z := tab (nf / 2 + 1) (fun f => Cplus (Cmult (Cconj (nth f (rfft nf x) (RtoC 0))) (nth f (rfft nf k) (RtoC 0)))
                                               (Cmult (Cconj (nth f (rfft nf k) (RtoC 0))) (nth f (rfft nf x) (RtoC 0))))).
    set (W := fun d => zip_with (fun a b => Cmult (Cconj a) b) (rfft nf k) (rfft nf (ys d))).
    rewrite (Rsum_ext _ _ (fun f => Re (Cmult (nth f (irfft_bw nf ga) (RtoC 0)) (Cconj (nth f Z (RtoC 0))))
        + Rsum nd (fun d => Re (Cmult (nth f (irfft_bw nf (gx d)) (RtoC 0)) (Cconj (nth f (W d) (RtoC 0))))))%R).
    - rewrite Rsum_plus. f_equal.
      + rewrite <- irfft_adjoint by (auto; unfold Z; apply length_tab).
        rewrite (Rsum_trunc nf (length ga)) by (auto; intros i Hi _; rewrite (nth_overflow ga) by auto; ring).
        apply Rsum_ext. intros l Hl. f_equal.
        rewrite (irfft_plus nf (zip_with (fun a b => Cmult (Cconj a) b) (rfft nf x) (rfft nf k))
          (zip_with (fun a b => Cmult (Cconj a) b) (rfft nf k) (rfft nf x)) Z l) by
          (try lia; intros f Hf; rewrite !nth_corr_spec by auto; unfold Z; rewrite nth_tabC by lia; reflexivity).
        f_equal; apply irfft_corr; try lia; intros; apply nth_corr_spec; auto.
      + rewrite Rsum_swap. apply Rsum_ext. intros d Hd.
        rewrite <- irfft_adjoint by (auto; unfold W; rewrite length_zip, !length_rfft; lia).
        rewrite (Rsum_trunc nf (length (gx d))) by (auto; intros i Hi _; rewrite (nth_overflow (gx d)) by auto; ring).
        apply Rsum_ext. intros l Hl. f_equal. specialize (Hgx d Hd).
        rewrite dot_cdelayed by lia. apply irfft_corr; try lia. intros; apply nth_corr_spec; auto.
    - intros f Hf. unfold gX, Z. rewrite !nth_tabC by (rewrite ?length_rfft; auto).
      set (U := nth f (rfft nf x) (RtoC 0)). set (V := nth f (rfft nf k) (RtoC 0)). set (a := nth f (irfft_bw nf ga) (RtoC 0)).
      rewrite Cmult_plus_distr_r. unfold Re at 1. cbn [fst Cplus]. fold (Re (Cmult (Cmult (RtoC (2 * fst a)) U) (Cconj V))).
      f_equal.
      + destruct U, V, a. unfold Re, Cmult, Cconj, Cplus, RtoC. simpl. ring.
      + rewrite <- Csum_scal_r. change (fst ?z) with (Re z). rewrite Re_Csum. apply Rsum_ext. intros d Hd.
        unfold W. rewrite nth_corr_spec by lia. fold V.
        destruct V, (nth f (irfft_bw nf (gx d)) (RtoC 0)), (nth f (rfft nf (ys d)) (RtoC 0)).
        unfold Re, Cmult, Cconj. simpl. ring.
  Qed.
End Freq.

(** ** One row *)
Definition rsol (nf K : nat) (lam : R) (x : list R) (y : nat -> R) : nat -> R :=
  sol K (gram nf (cdelayed nf x) lam) (fun i => dot nf (cdelayed nf x i) y).
(** derivative of the coherence of x and y, when x moves in direction k *)
Definition dcoh (nf K : nat) (lam : R) (x k : list R) (y : nat -> R) : R :=
  let s := rsol nf K lam x y in
  (2 * Rsum K (fun i => dot nf (cdelayed nf k i) y * s i) - Rsum K (fun i => s i * Rmv K (dgram nf x k) s i))%R.

Section Row.
  Variables (b : backend) (nf L : nat) (ld : option R) (x : list R) (nd : nat) (ys : nat -> list R).
  Let K := Nat.min L nf.
  Let a := cdelayed nf x.
  Let lam := loadv ld.
  Hypotheses (Hnf : 0 < nf) (HL : 0 < L) (HN : nonsingular K (gram nf a lam)).

  Lemma xc_dot v i : i < K -> nth i (stats_xcorr nf L x v) 0%R = dot nf (a i) (smp v).
  Proof. intros Hi. apply sdr_crhs; unfold K in Hi; lia. Qed.
  Lemma toep_ent i j : i < K -> j < K -> ent (toeplitz b (add_load ld (stats_acf nf L x))) i j = gram nf a lam i j.
  Proof. intros Hi Hj. rewrite (stats_acf_min nf L x). apply toep_gram; auto. unfold K; lia. Qed.
  Lemma row_solve A B : (forall i j, i < K -> j < K -> A i j = gram nf a lam i j) ->
    exists X, solve_cols K nd A B = Ok X /\ forall d i, i < K -> X i d = sol K (gram nf a lam) (fun i => B i d) i.
  Proof.
    intros HA. assert (HNA : nonsingular K A) by (apply (nonsingular_ext K (gram nf a lam)); auto; intros; symmetry; auto).
    destruct (solve_cols_ok K nd A B HNA) as (X & E & HX). exists X. split; auto. intros d i Hi.
    apply (Rsolve_uniq K (gram nf a lam) (fun i => B i d) _ (fun j => X j d) (proj1 (sol_ok K _ _ HN))); auto.
    intros l Hl. rewrite <- (HX d l Hl). apply Rsum_ext. intros j Hj. rewrite HA; auto.
  Qed.
  Lemma sol_scal g (r r0 : nat -> R) : (forall i, i < K -> r i = (g * r0 i)%R) ->
    forall i, i < K -> sol K (gram nf a lam) r i = (g * sol K (gram nf a lam) r0 i)%R.
  Proof.
    intros Hr i Hi. symmetry.
    apply (Rsolve_uniq K (gram nf a lam) r _ (fun i => g * sol K (gram nf a lam) r0 i)%R (proj1 (sol_ok K _ _ HN))); auto.
    intros l Hl. rewrite Hr by auto. rewrite <- (proj2 (sol_ok K _ r0 HN) l Hl).
    unfold mulmv. change (gsum 0%R Rplus) with Rsum. rewrite <- Rsum_scal_l. apply Rsum_ext. intros; ring.
  Qed.
  Lemma row_sol B : (forall i d, i < K -> B i d = nth i (stats_xcorr nf L x (ys d)) 0%R) ->
    exists X, solve_cols K nd (ent (toeplitz b (add_load ld (stats_acf nf L x)))) B = Ok X /\
      forall d i, i < K -> X i d = rsol nf K lam x (smp (ys d)) i.
  Proof.
    intros HB. destruct (row_solve _ B toep_ent) as (X & E & HX). exists X. split; auto. intros d i Hi.
    rewrite HX by auto. unfold rsol. fold a.
    rewrite (sol_scal 1%R (fun i => B i d) (fun i => dot nf (a i) (smp (ys d)))) by (auto; intros j Hj; cbv beta; rewrite HB, xc_dot by auto; ring).
    ring.
  Qed.

  Lemma row_adjoint len sl g : len <= nf ->
    (forall d i, i < K -> sl i d = rsol nf K lam x (smp (ys d)) i) ->
    exists v, coh_ref_bw b nf L len ld x nd ys sl g = Ok v /\ length v = len /\
      forall k, length k = len ->
        Rsum len (fun t => nth t v 0 * smp k t)%R = Rsum nd (fun d => g d * dcoh nf K lam x k (smp (ys d)))%R.
  Proof.
    intros Hlen Hsl. unfold coh_ref_bw. cbv zeta. rewrite length_loaded. fold K.
    destruct (row_solve (fun i j => ent (toeplitz b (add_load ld (stats_acf nf L x))) j i)
      (fun l d => g d * nth l (stats_xcorr nf L x (ys d)) 0)%R) as (B & EB & HB).
    { intros i j Hi Hj. rewrite toep_ent by auto. unfold gram. rewrite dot_comm, Nat.eqb_sym. reflexivity. }
    rewrite EB. cbn [bind].
    assert (HB' : forall d i, i < K -> B i d = (g d * rsol nf K lam x (smp (ys d)) i)%R).
    { intros d i Hi. rewrite HB by auto. apply sol_scal; auto. intros j Hj. cbv beta. rewrite xc_dot by auto. reflexivity. }
    assert (K0 : 0 < K) by (unfold K; lia).
    eexists. split; [reflexivity|]. split; [unfold rfft_bw; apply length_tab|]. intros k Hk. subst len. unfold smp at 1.
    rewrite (freq_adjoint nf x k nd ys (toeplitz_bw K (fun i j => - Rsum nd (fun d => B i d * sl j d))%R)
      (fun d => tab K (fun l => g d * sl l d + B l d)%R) Hnf Hlen);
      [|unfold toeplitz_bw; rewrite length_tab; unfold K; lia|intros; rewrite length_tab; unfold K; lia].
    assert (LT : length (toeplitz_bw K (fun i j => - Rsum nd (fun d => B i d * sl j d))%R) = K) by apply length_tab.
    rewrite LT, toeplitz_adjoint by auto.
    rewrite (Rsum_ext K _ (fun i => Rsum nd (fun d => - g d * (rsol nf K lam x (smp (ys d)) i
       * Rmv K (dgram nf x k) (rsol nf K lam x (smp (ys d))) i)))%R).
    2:{ intros i Hi. unfold mulmv. change (gsum 0%R Rplus) with Rsum.
        rewrite (Rsum_ext nd _ (fun d => Rsum K (fun j => - g d * (rsol nf K lam x (smp (ys d)) i * (dgram nf x k i j * rsol nf K lam x (smp (ys d)) j))))%R)
          by (intros d Hd; rewrite Rsum_scal_l, Rsum_scal_l; reflexivity).
        rewrite Rsum_swap. apply Rsum_ext. intros j Hj. rewrite <- dgram_ccorr by (unfold K in *; lia).
        rewrite <- Rsum_opp, <- Rsum_scal_r. apply Rsum_ext. intros d Hd. rewrite HB', Hsl by auto. ring. }
    rewrite Rsum_swap, <- Rsum_plus. apply Rsum_ext. intros d Hd. rewrite length_tab. unfold dcoh. cbv zeta.
    rewrite Rsum_scal_l.
    rewrite (Rsum_ext K (fun l => nth l (tab K (fun l => g d * sl l d + B l d)) 0 * dot nf (cdelayed nf k l) (smp (ys d)))%R
      (fun l => 2 * g d * (dot nf (cdelayed nf k l) (smp (ys d)) * rsol nf K lam x (smp (ys d)) l))%R)
      by (intros l Hl; rewrite nth_tab, HB', Hsl by auto; ring).
    rewrite Rsum_scal_l. ring.
  Qed.
End Row.
