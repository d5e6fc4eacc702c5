(** * Error of the correlations from the error of the Fourier transforms (C99) *)
From Coq Require Import Reals Lra Psatz.
From Coquelicot Require Import Complex.
From Verif Require Import Prelude ExtReal Sums SpecSig Fft FftProofs Cgd Helpers Metrics LeastSq PrepProofs MetricsProofs ProjTheorems MetricTheorems
  Sensitivity StatsProofs Inexact FftRound.
Local Open Scope nat_scope.

Local Notation z0 := (RtoC 0).
Definition wgt (n k : nat) : R := if Nat.eqb k 0 then 1%R else if Nat.eqb (2 * k) n then 1%R else 2%R.
Lemma wgt_pos n k : (0 <= wgt n k)%R.
Proof. unfold wgt. destruct (Nat.eqb k 0); [lra|]. destruct (Nat.eqb (2 * k) n); lra. Qed.
Lemma ss_eq n f : spectral_sum n f = Rsum (n / 2 + 1) (fun k => wgt n k * f k)%R.
Proof. reflexivity. Qed.
Lemma ss_ext n f g : (forall k, k <= n / 2 -> f k = g k) -> spectral_sum n f = spectral_sum n g.
Proof. intros H. apply Rsum_ext. intros k Hk. rewrite H by lia. reflexivity. Qed.
Lemma ss_le n f g : (forall k, k <= n / 2 -> (f k <= g k)%R) -> (spectral_sum n f <= spectral_sum n g)%R.
Proof. intros H. rewrite !ss_eq. apply Rsum_le. intros k Hk. apply Rmult_le_compat_l; [apply wgt_pos|apply H; lia]. Qed.
Lemma ss_nonneg n f : (forall k, k <= n / 2 -> (0 <= f k)%R) -> (0 <= spectral_sum n f)%R.
Proof. intros H. rewrite ss_eq. apply Rsum_nonneg. intros k Hk. apply Rmult_le_pos; [apply wgt_pos|apply H; lia]. Qed.
Lemma ss_plus n f g : spectral_sum n (fun k => f k + g k)%R = (spectral_sum n f + spectral_sum n g)%R.
Proof. rewrite !ss_eq, <- Rsum_plus. apply Rsum_ext. intros. ring. Qed.
Lemma ss_minus n f g : spectral_sum n (fun k => f k - g k)%R = (spectral_sum n f - spectral_sum n g)%R.
Proof. rewrite !ss_eq, <- Rsum_minus. apply Rsum_ext. intros. ring. Qed.
Lemma ss_scal n c f : spectral_sum n (fun k => c * f k)%R = (c * spectral_sum n f)%R.
Proof. rewrite !ss_eq, <- Rsum_scal_l. apply Rsum_ext. intros. ring. Qed.
Lemma ss_abs n f : (Rabs (spectral_sum n f) <= spectral_sum n (fun k => Rabs (f k)))%R.
Proof.
  rewrite !ss_eq. induction (n / 2 + 1) as [|m IH]; simpl; [rewrite Rabs_R0; lra|].
  eapply Rle_trans; [apply Rabs_triang|]. apply Rplus_le_compat; [exact IH|].
  rewrite Rabs_mult, (Rabs_right (wgt n m)) by (apply Rle_ge, wgt_pos). lra.
Qed.
(** Cauchy-Schwarz *)
Lemma ss_cauchy n f g : (spectral_sum n (fun k => f k * g k) <= sqrt (spectral_sum n (fun k => f k ^ 2)) * sqrt (spectral_sum n (fun k => g k ^ 2)))%R.
Proof.
  set (F := fun k => (sqrt (wgt n k) * f k)%R). set (G := fun k => (sqrt (wgt n k) * g k)%R). set (m := n / 2 + 1).
  assert (W : forall k, (sqrt (wgt n k) * sqrt (wgt n k) = wgt n k)%R) by (intros; apply sqrt_sqrt, wgt_pos).
  assert (E1 : spectral_sum n (fun k => f k * g k)%R = dot m F G).
  { rewrite ss_eq. apply Rsum_ext. intros k _. unfold F, G. rewrite <- (W k) at 1. ring. }
  assert (E2 : spectral_sum n (fun k => f k ^ 2)%R = energy m F).
  { rewrite ss_eq. apply Rsum_ext. intros k _. unfold F. rewrite <- (W k) at 1. ring. }
  assert (E3 : spectral_sum n (fun k => g k ^ 2)%R = energy m G).
  { rewrite ss_eq. apply Rsum_ext. intros k _. unfold G. rewrite <- (W k) at 1. ring. }
  rewrite E1, E2, E3. eapply Rle_trans; [apply Rle_abs|]. exact (dot_le_nrm m F G).
Qed.
Lemma sq_nonneg (x : R) : (0 <= x ^ 2)%R. Proof. apply pow2_ge_0. Qed.
(** the norm of a spectrum *)
Definition sn (n : nat) (Z : nat -> C) : R := sqrt (spectral_sum n (fun k => Cmod (Z k) ^ 2)%R).
Lemma sn_pos n Z : (0 <= sn n Z)%R. Proof. apply sqrt_pos. Qed.
Lemma sn_sq n Z : (sn n Z ^ 2 = spectral_sum n (fun k => Cmod (Z k) ^ 2))%R.
Proof. unfold sn. rewrite pow2_sqrt; auto. apply ss_nonneg. intros. apply sq_nonneg. Qed.
Lemma sn_prod n X Y : (spectral_sum n (fun k => Cmod (X k) * Cmod (Y k)) <= sn n X * sn n Y)%R.
Proof. apply ss_cauchy. Qed.
Lemma sn_triangle n X D : (sn n (fun k => Cplus (X k) (D k)) <= sn n X + sn n D)%R.
Proof.
  pose proof (sn_pos n X) as PX. pose proof (sn_pos n D) as PD.
  rewrite <- (sqrt_pow2 (sn n X + sn n D)) by lra. apply sqrt_le_1_alt.
  apply Rle_trans with (spectral_sum n (fun k => Cmod (X k) ^ 2 + 2 * (Cmod (X k) * Cmod (D k)) + Cmod (D k) ^ 2)%R).
  - apply ss_le. intros k _. pose proof (Cmod_triangle (X k) (D k)) as T. pose proof (Cmod_ge_0 (Cplus (X k) (D k))) as T0.
    replace (Cmod (X k) ^ 2 + 2 * (Cmod (X k) * Cmod (D k)) + Cmod (D k) ^ 2)%R with ((Cmod (X k) + Cmod (D k)) ^ 2)%R by ring.
    apply pow_incr. auto.
  - rewrite (ss_plus n (fun k => Cmod (X k) ^ 2 + 2 * (Cmod (X k) * Cmod (D k)))%R), (ss_plus n (fun k => Cmod (X k) ^ 2)%R), ss_scal.
    rewrite <- !sn_sq. pose proof (sn_prod n X D). lra.
Qed.

Lemma Cmod_cis a : Cmod (cis a) = 1%R.
Proof. unfold Cmod, cis. simpl fst. simpl snd. rewrite <- sqrt_1. f_equal. pose proof (sin2_cos2 a) as H. unfold Rsqr in H. lra. Qed.
Lemma Re_le_Cmod z : (Rabs (Re z) <= Cmod z)%R.
Proof. eapply Rle_trans; [|apply Rmax_Cmod]. apply Rmax_l. Qed.

(** irfft as a sum over frequencies *)
Lemma irfft_ss n Z t : 0 < n -> t < n ->
  nth t (irfft n Z) 0%R = (/ INR n * spectral_sum n (fun k => Re (Cmult (nth k Z z0) (cis (ang n (k * t))))))%R.
Proof.
  intros Hn Ht. unfold irfft. rewrite nth_tab by auto. f_equal. unfold spectral_sum.
  replace (n / 2 + 1) with (S (n / 2)) by lia. rewrite Rsum_S_l. f_equal.
  - change (0 * t) with 0. simpl Nat.eqb. cbv iota. unfold ang, cis, Cmult, Re. simpl fst. change (INR 0) with 0%R. replace (2 * PI * 0 / INR n)%R with 0%R by (unfold Rdiv; ring). rewrite cos_0, sin_0. unfold Re; simpl; ring.
  - apply Rsum_ext. intros k' Hk'. cbv zeta. change (Nat.eqb (S k') 0) with false. cbv iota.
    destruct (Nat.eqb_spec (2 * S k') n) as [H|H]; [|reflexivity].
    assert (EE : cis (ang n (S k' * t)) = cis (PI * INR t)).
    { unfold ang. f_equal. rewrite mult_INR. rewrite <- H at 1. rewrite mult_INR. simpl (INR 2). field. apply not_0_INR. lia. }
    rewrite EE. unfold cis, Cmult, Re; simpl. rewrite sin_PI_INR. ring.
Qed.
Lemma irfft_bound n Z t : 0 < n -> t < n -> (Rabs (nth t (irfft n Z) 0) <= / INR n * spectral_sum n (fun k => Cmod (nth k Z z0)))%R.
Proof.
  intros Hn Ht. rewrite irfft_ss by auto. pose proof (lt_0_INR n Hn) as P. pose proof (Rinv_0_lt_compat _ P) as Pi.
  rewrite Rabs_mult, (Rabs_right (/ INR n)) by lra. apply Rmult_le_compat_l; [lra|].
  eapply Rle_trans; [apply ss_abs|]. apply ss_le. intros k _. eapply Rle_trans; [apply Re_le_Cmod|].
  rewrite Cmod_mult, Cmod_cis. lra.
Qed.
Lemma irfft_diff n Z Z' t : 0 < n -> t < n ->
  (Rabs (nth t (irfft n Z) 0 - nth t (irfft n Z') 0) <= / INR n * spectral_sum n (fun k => Cmod (Cminus (nth k Z z0) (nth k Z' z0))))%R.
Proof.
  intros Hn Ht. rewrite !irfft_ss by auto. pose proof (lt_0_INR n Hn) as P. pose proof (Rinv_0_lt_compat _ P) as Pi.
  rewrite <- Rmult_minus_distr_l, <- ss_minus. rewrite Rabs_mult, (Rabs_right (/ INR n)) by lra. apply Rmult_le_compat_l; [lra|].
  eapply Rle_trans; [apply ss_abs|]. apply ss_le. intros k _.
  replace (Re (Cmult (nth k Z z0) (cis (ang n (k * t)))) - Re (Cmult (nth k Z' z0) (cis (ang n (k * t)))))%R
    with (Re (Cmult (Cminus (nth k Z z0) (nth k Z' z0)) (cis (ang n (k * t))))) by (unfold Re, Cmult, Cminus, Cplus, Copp; simpl; ring).
  eapply Rle_trans; [apply Re_le_Cmod|]. rewrite Cmod_mult, Cmod_cis. lra.
Qed.

(** Parseval *)
Lemma Cmod_conj z : Cmod (Cconj z) = Cmod z.
Proof. unfold Cmod, Cconj. simpl. f_equal. ring. Qed.
Lemma Cmod_sq z : (Cmod z ^ 2 = fst z ^ 2 + snd z ^ 2)%R.
Proof. unfold Cmod. rewrite pow2_sqrt; auto. pose proof (sq_nonneg (fst z)). pose proof (sq_nonneg (snd z)). lra. Qed.
Lemma parseval n x : 0 < n -> spectral_sum n (fun k => Cmod (nth k (rfft n x) z0) ^ 2)%R = (INR n * energy n (smp x))%R.
Proof.
  intros Hn. pose proof (lt_0_INR n Hn) as P.
  set (Z := map (fun z => Cmult (Cconj z) z) (rfft n x)).
  assert (HZ : forall k, k <= n / 2 -> nth k Z z0 = Cmult (Cconj (nth k (rfft n x) z0)) (nth k (rfft n x) z0)).
  { intros k Hk. unfold Z. rewrite (nth_indep _ z0 (Cmult (Cconj z0) z0)).
    - exact (map_nth (fun z => Cmult (Cconj z) z) (rfft n x) z0 k).
    - rewrite map_length, length_rfft. lia. }
  pose proof (irfft_corr n x x Z 0 Hn Hn HZ) as E. rewrite irfft_ss in E by auto.
  apply Rmult_eq_reg_l with (/ INR n)%R; [|apply Rinv_neq_0_compat; lra].
  rewrite <- Rmult_assoc, Rinv_l, Rmult_1_l by lra.
  transitivity (/ INR n * spectral_sum n (fun k => Re (Cmult (nth k Z z0) (cis (ang n (k * 0))))))%R.
  - f_equal. apply ss_ext. intros k Hk. rewrite HZ by auto. rewrite Nat.mul_0_r. unfold ang. change (INR 0) with 0%R.
    replace (2 * PI * 0 / INR n)%R with 0%R by (unfold Rdiv; ring). rewrite cis_0, Cmod_sq.
    unfold Re, Cmult, Cconj, RtoC. simpl. ring.
  - rewrite E. apply Rsum_ext. intros t Ht. rewrite Nat.add_0_r, Nat.mod_small by auto. reflexivity.
Qed.

Section Near.
  Variables (n : nat) (u v : R) (rf : list R -> list C) (irf : list C -> list R).
  Hypotheses (Hn : 0 < n) (Hu : (0 <= u)%R) (Hv : (0 <= v)%R) (Hrf : rfft_near n u rf) (Hirf : irfft_near n u irf).
  Let F x k := nth k (rfft n x) z0.
  Let F' x k := nth k (rf x) z0.
  Let N x := nrm n (smp x).
  Let rn := sqrt (INR n).
  Lemma n_pos : (0 < INR n)%R. Proof. apply lt_0_INR; auto. Qed.
  Lemma rn_sq : (rn * rn = INR n)%R. Proof. apply sqrt_sqrt. pose proof n_pos. lra. Qed.
  Lemma rn_pos : (0 < rn)%R. Proof. apply sqrt_lt_R0, n_pos. Qed.
  Lemma N_pos x : (0 <= N x)%R. Proof. apply sqrt_pos. Qed.
  Lemma sn_exact x : sn n (F x) = (rn * N x)%R.
  Proof. unfold sn, F. rewrite parseval by auto. apply sqrt_mult; [pose proof n_pos; lra|apply energy_nonneg]. Qed.
  Lemma sn_err x : (sn n (fun k => Cminus (F' x k) (F x k)) <= u * (rn * N x))%R.
  Proof.
    rewrite <- sn_exact. pose proof (sn_pos n (F x)) as P.
    rewrite <- (sqrt_pow2 (u * sn n (F x))) by (apply Rmult_le_pos; lra). apply sqrt_le_1_alt.
    rewrite Rpow_mult_distr, sn_sq. apply (proj2 (Hrf x)).
  Qed.
  Lemma sn_comp x : (sn n (F' x) <= (1 + u) * (rn * N x))%R.
  Proof.
    apply Rle_trans with (sn n (fun k => Cplus (F x k) (Cminus (F' x k) (F x k)))).
    - right. unfold sn. f_equal. apply ss_ext. intros k _. do 2 f_equal. unfold F', F. ring.
    - eapply Rle_trans; [apply sn_triangle|]. pose proof (sn_err x). rewrite sn_exact in *. lra.
  Qed.

  (** Products near conj X Y: error of the inverse transform *)
  Lemma near_corr x y P Z l : l < n ->
    (forall k, k <= n / 2 -> (Cmod (Cminus (nth k P z0) (Cmult (Cconj (F' x k)) (F' y k))) <= v * (Cmod (F' x k) * Cmod (F' y k)))%R) ->
    (forall k, k <= n / 2 -> nth k Z z0 = Cmult (Cconj (F x k)) (F y k)) ->
    (Rabs (nth l (irf P) 0 - nth l (irfft n Z) 0) <= corr_error n u v * (N x * N y))%R.
  Proof.
    intros Hl HP HZ. pose proof n_pos as Pn. pose proof rn_pos as Pr. pose proof rn_sq as Sr. pose proof (N_pos x) as Nx. pose proof (N_pos y) as Ny.
    pose proof (Rinv_0_lt_compat _ Pn) as Pi.
    set (A := spectral_sum n (fun k => Cmod (F' x k) * Cmod (F' y k))%R).
    assert (HA : (A <= INR n * ((1 + u) ^ 2 * (N x * N y)))%R).
    { eapply Rle_trans; [apply sn_prod|]. eapply Rle_trans; [apply Rmult_le_compat; [apply sn_pos|apply sn_pos|apply sn_comp|apply sn_comp]|].
      right. rewrite <- Sr. ring. }
    assert (A0 : (0 <= A)%R) by (apply ss_nonneg; intros; apply Rmult_le_pos; apply Cmod_ge_0).
    (* sum of the moduli of the computed products *)
    assert (H1 : (spectral_sum n (fun k => Cmod (nth k P z0)) <= (1 + v) * A)%R).
    { unfold A. rewrite <- ss_scal. apply ss_le. intros k Hk. specialize (HP k Hk).
      replace (nth k P z0) with (Cplus (Cmult (Cconj (F' x k)) (F' y k)) (Cminus (nth k P z0) (Cmult (Cconj (F' x k)) (F' y k)))) by ring.
      eapply Rle_trans; [apply Cmod_triangle|]. rewrite Cmod_mult, Cmod_conj. lra. }
    (* distance to the exact products *)
    assert (H2 : (spectral_sum n (fun k => Cmod (Cminus (nth k P z0) (nth k Z z0))) <= v * A + INR n * ((2 * u + u ^ 2) * (N x * N y)))%R).
    { apply Rle_trans with (spectral_sum n (fun k => v * (Cmod (F' x k) * Cmod (F' y k)) +
        (Cmod (Cminus (F' x k) (F x k)) * Cmod (F' y k) + Cmod (F x k) * Cmod (Cminus (F' y k) (F y k))))%R).
      - apply ss_le. intros k Hk. specialize (HP k Hk). rewrite HZ by auto.
        replace (Cminus (nth k P z0) (Cmult (Cconj (F x k)) (F y k)))
          with (Cplus (Cminus (nth k P z0) (Cmult (Cconj (F' x k)) (F' y k)))
            (Cplus (Cmult (Cconj (Cminus (F' x k) (F x k))) (F' y k)) (Cmult (Cconj (F x k)) (Cminus (F' y k) (F y k))))).
        2:{ unfold Cminus. unfold Cconj, Cmult, Cplus, Copp. simpl. f_equal; ring. }
        eapply Rle_trans; [apply Cmod_triangle|]. apply Rplus_le_compat; [exact HP|].
        eapply Rle_trans; [apply Cmod_triangle|]. rewrite !Cmod_mult, !Cmod_conj. lra.
      - rewrite (ss_plus n (fun k => v * (Cmod (F' x k) * Cmod (F' y k)))%R), ss_scal. fold A. apply Rplus_le_compat_l.
        rewrite (ss_plus n (fun k => Cmod (Cminus (F' x k) (F x k)) * Cmod (F' y k))%R).
        eapply Rle_trans; [apply Rplus_le_compat; [apply (sn_prod n (fun k => Cminus (F' x k) (F x k)) (F' y))|apply (sn_prod n (F x) (fun k => Cminus (F' y k) (F y k)))]|].
        rewrite sn_exact.
        apply Rle_trans with (u * (rn * N x) * ((1 + u) * (rn * N y)) + rn * N x * (u * (rn * N y)))%R.
        + apply Rplus_le_compat.
          * apply Rmult_le_compat; [apply sn_pos|apply sn_pos|apply sn_err|apply sn_comp].
          * apply Rmult_le_compat_l; [apply Rmult_le_pos; lra|apply sn_err].
        + right. rewrite <- Sr. ring. }
    pose proof (irfft_diff n P Z l Hn Hl) as H3.
    (* the inverse transform *)
    assert (H4 : (Rabs (nth l (irf P) 0 - nth l (irfft n P) 0) <= rn * u * (/ INR n * ((1 + v) * A)))%R).
    { set (B := (/ INR n * ((1 + v) * A))%R).
      assert (HB : forall t, t < n -> (nth t (irfft n P) 0 ^ 2 <= B ^ 2)%R).
      { intros t Ht. rewrite <- pow2_abs. apply pow_incr. split; [apply Rabs_pos|].
        eapply Rle_trans; [apply irfft_bound; auto|]. apply Rmult_le_compat_l; lra. }
      assert (B0 : (0 <= B)%R) by (apply Rmult_le_pos; [lra|apply Rmult_le_pos; lra]).
      destruct (Hirf P) as [_ HI].
      assert (S1 : ((nth l (irf P) 0 - nth l (irfft n P) 0) ^ 2 <= u ^ 2 * (INR n * B ^ 2))%R).
      { eapply Rle_trans; [|eapply Rle_trans; [exact HI|]].
        - rewrite <- (Rsum_delta n l (fun t => (nth t (irf P) 0 - nth t (irfft n P) 0) ^ 2)%R Hl). apply Rsum_le. intros t _.
          pose proof (sq_nonneg (nth t (irf P) 0%R - nth t (irfft n P) 0%R)). destruct (Nat.eqb t l); lra.
        - apply Rmult_le_compat_l; [apply sq_nonneg|]. rewrite <- Rsum_const. apply Rsum_le. exact HB. }
      rewrite <- pow2_abs in S1.
      apply Rsqr_incr_0_var; [|apply Rmult_le_pos; [apply Rmult_le_pos; lra|exact B0]]. unfold Rsqr.
      replace (rn * u * B * (rn * u * B))%R with (u ^ 2 * (INR n * B ^ 2))%R by (rewrite <- Sr; ring). lra. }
    assert (HA' : (/ INR n * A <= (1 + u) ^ 2 * (N x * N y))%R).
    { apply Rmult_le_reg_l with (INR n); auto. rewrite <- Rmult_assoc, Rinv_r, Rmult_1_l by lra. exact HA. }
    replace (nth l (irf P) 0 - nth l (irfft n Z) 0)%R with ((nth l (irf P) 0 - nth l (irfft n P) 0) + (nth l (irfft n P) 0 - nth l (irfft n Z) 0))%R by ring.
    eapply Rle_trans; [apply Rabs_triang|].
    apply Rle_trans with (rn * u * ((1 + v) * (/ INR n * A)) + (v * (/ INR n * A) + (2 * u + u ^ 2) * (N x * N y)))%R.
    - apply Rplus_le_compat; [eapply Rle_trans; [exact H4|]; right; ring|].
      eapply Rle_trans; [exact H3|]. eapply Rle_trans; [apply Rmult_le_compat_l; [lra|exact H2]|].
      right. rewrite Rmult_plus_distr_l. f_equal; [ring|]. rewrite <- Rmult_assoc, Rinv_l by lra. ring.
    - unfold corr_error. fold rn.
      assert (T1 : (rn * u * ((1 + v) * (/ INR n * A)) <= rn * u * ((1 + v) * ((1 + u) ^ 2 * (N x * N y))))%R).
      { apply Rmult_le_compat_l; [apply Rmult_le_pos; lra|]. apply Rmult_le_compat_l; lra. }
      assert (T2 : (v * (/ INR n * A) <= v * ((1 + u) ^ 2 * (N x * N y)))%R) by (apply Rmult_le_compat_l; lra).
      eapply Rle_trans; [apply Rplus_le_compat; [exact T1|apply Rplus_le_compat_r; exact T2]|]. right. ring.
  Qed.
End Near.

Lemma corr_error_pos n u v : (0 <= u)%R -> (0 <= v)%R -> (0 <= corr_error n u v)%R.
Proof.
  intros Hu Hv. unfold corr_error. pose proof (sqrt_pos (INR n)) as S. pose proof (sq_nonneg u) as U. pose proof (sq_nonneg (1 + u)%R) as U1.
  assert (0 <= v * (1 + u) ^ 2)%R by (apply Rmult_le_pos; lra).
  assert (0 <= sqrt (INR n) * u * ((1 + v) * (1 + u) ^ 2))%R by (apply Rmult_le_pos; apply Rmult_le_pos; lra). lra.
Qed.

(** ** compute_stats *)
Theorem xcorr_near n u v rf mulc irf L x y l : 0 < n -> (0 <= u)%R -> (0 <= v)%R ->
  rfft_near n u rf -> irfft_near n u irf -> mulc_near v mulc -> l < L -> l < n ->
  (Rabs (nth l (stats_xcorr_with rf mulc irf L x y) 0 - nth l (stats_xcorr n L x y) 0) <=
   corr_error n u v * (sqrt (energy n (smp x)) * sqrt (energy n (smp y))))%R.
Proof.
  intros Hn Hu Hv Hrf Hirf Hm HL Hl. unfold stats_xcorr_with, stats_xcorr. rewrite !nth_cut by auto.
  apply (near_corr n u v rf irf Hn Hu Hv Hrf Hirf x y); auto.
  - intros k Hk. rewrite (nth_zip_with _ _ _ k z0 z0) by (rewrite ?(proj1 (Hrf x)), ?(proj1 (Hrf y)); lia). apply Hm.
  - intros k Hk. rewrite (nth_zip_with _ _ _ k z0 z0) by (rewrite length_rfft; lia). reflexivity.
Qed.
Theorem acf_near n u v rf sq irf L x l : 0 < n -> (0 <= u)%R -> (0 <= v)%R ->
  rfft_near n u rf -> irfft_near n u irf -> sq_near v sq -> l < L -> l < n ->
  (Rabs (nth l (stats_acf_with rf sq irf L x) 0 - nth l (stats_acf n L x) 0) <= corr_error n u v * energy n (smp x))%R.
Proof.
  intros Hn Hu Hv Hrf Hirf Hm HL Hl. unfold stats_acf_with, stats_acf. rewrite !nth_cut by auto.
  assert (E : (energy n (smp x) = nrm n (smp x) * nrm n (smp x))%R) by (unfold nrm; rewrite sqrt_sqrt; [reflexivity|apply energy_nonneg]).
  rewrite E. apply (near_corr n u v rf irf Hn Hu Hv Hrf Hirf x x); auto.
  - intros k Hk. set (z := nth k (rf x) z0).
    rewrite (nth_indep _ z0 (RtoC (sq z0))) by (rewrite map_length, (proj1 (Hrf x)); lia).
    rewrite (map_nth (fun z => RtoC (sq z)) (rf x) z0 k). fold z.
    replace (Cminus (RtoC (sq z)) (Cmult (Cconj z) z)) with (RtoC (sq z - (fst z ^ 2 + snd z ^ 2))%R)
      by (unfold Cminus, RtoC, Cconj, Cmult, Cplus, Copp; simpl; f_equal; ring).
    rewrite Cmod_R. pose proof (Hm z) as Q. rewrite <- Cmod_sq in Q |- *. replace (Cmod z * Cmod z)%R with (Cmod z ^ 2)%R by ring. exact Q.
  - intros k Hk.
    rewrite (nth_indep _ z0 (RtoC (fst z0 ^ 2 + snd z0 ^ 2)%R)) by (rewrite map_length, length_rfft; lia).
    rewrite (map_nth (fun z => RtoC (fst z ^ 2 + snd z ^ 2)%R) (rfft n x) z0 k).
    assert (G : forall z : C, RtoC (fst z ^ 2 + snd z ^ 2)%R = Cmult (Cconj z) z)
      by (intros [a1 a2]; unfold RtoC, Cconj, Cmult; simpl; f_equal; ring).
    apply G.
Qed.

(** ** The SDR *)
Section Sdr.
  Variables (b : backend) (o : opts) (ref est : arr) (m : list (list xr)) (c d : nat) (x y : list R)
    (rf : list R -> list C) (mulc : C -> C -> C) (sq : C -> R) (irf : list C -> list R) (u v : R).
  Let L := filter_length o.
  Let n := n_fft (a_len ref) (a_len est).
  Let ux := unit_of (pre (zero_mean o) x).
  Let uy := unit_of (pre (zero_mean o) y).
  Hypotheses (Wr : wf ref) (We : wf est) (HL : 2 <= filter_length o <= Nat.max (a_len ref) (a_len est))
    (Hx : has_chan ref c x) (Hy : has_chan est d y) (Hu : (0 <= u)%R) (Hv : (0 <= v)%R)
    (Hrf : rfft_near n u rf) (Hirf : irfft_near n u irf) (Hm : mulc_near v mulc) (Hs : sq_near v sq).
  Let e := corr_error n u v.
  Lemma sizes : length ux = a_len ref /\ length uy = a_len est /\ a_len ref + L - 1 <= n /\ a_len est <= n /\ 0 < n /\ L <= n.
  Proof.
    pose proof (n_fft_ge (a_len ref) (a_len est) (proj1 Wr)) as G. pose proof (proj1 Wr) as P.
    destruct (has_chan_pchan (zero_mean o) ref c x Wr Hx) as [_ Lx]. destruct (has_chan_pchan (zero_mean o) est d y We Hy) as [_ Ly].
    unfold ux, uy. rewrite !length_unit_of, !length_pre. unfold n, L. lia.
  Qed.
  Lemma unit_corr_near l : l < L -> (Rabs (nth l (stats_xcorr_with rf mulc irf L ux uy) 0 - xcorr ux uy l) <= e)%R.
  Proof.
    intros Hl. destruct sizes as (S1 & S2 & S3 & S4 & S5 & S6).
    rewrite <- (stats_xcorr_plain n L ux uy l) by lia.
    eapply Rle_trans; [apply (xcorr_near n u v); auto; lia|].
    assert (E0 : (0 <= e)%R) by (apply corr_error_pos; auto).
    assert (B : forall z, length z <= n -> (0 <= sqrt (energy n (smp (unit_of z))) <= 1)%R).
    { intros z Hz. split; [apply sqrt_pos|]. rewrite <- sqrt_1. apply sqrt_le_1_alt, energy_unit_le1; auto. }
    pose proof (B (pre (zero_mean o) x)) as B1. pose proof (B (pre (zero_mean o) y)) as B2.
    unfold ux, uy in S1, S2. rewrite length_unit_of in S1, S2. specialize (B1 ltac:(lia)). specialize (B2 ltac:(lia)).
    fold e. fold ux in B1. fold uy in B2. rewrite <- (Rmult_1_r e) at 2. apply Rmult_le_compat_l; auto.
    rewrite <- (Rmult_1_r 1%R). apply Rmult_le_compat; lra.
  Qed.
  Lemma unit_acf_near l : l < L -> (Rabs (nth l (stats_acf_with rf sq irf L ux) 0 - xcorr ux ux l) <= e)%R.
  Proof.
    intros Hl. destruct sizes as (S1 & S2 & S3 & S4 & S5 & S6).
    rewrite <- (stats_acf_plain n L ux l) by lia.
    eapply Rle_trans; [apply (acf_near n u v); auto; lia|].
    assert (E0 : (0 <= e)%R) by (apply corr_error_pos; auto).
    fold e. rewrite <- (Rmult_1_r e) at 2. apply Rmult_le_compat_l; auto. apply energy_unit_le1.
    unfold ux in S1. rewrite length_unit_of in S1. lia.
  Qed.

  (** the rest of the program: the load is added with an error tau, the solver leaves a residual rho, the sum has an error gam *)
  Variables (acf' sol' : nat -> R) (c' tau rho gam : R).
  Let xc' l := nth l (stats_xcorr_with rf mulc irf L ux uy) 0%R.
  Hypotheses
    (Hacf : forall l, l < L -> (Rabs (acf' l - (nth l (stats_acf_with rf sq irf L ux) 0 + if Nat.eqb l 0 then loadv (load_diag o) else 0)) <= tau)%R)
    (Hr : forall i, i < L -> (Rabs (Rsum L (fun j => acf' (if (i <=? j)%nat then (j - i)%nat else (i - j)%nat) * sol' j) - xc' i) <= rho)%R)
    (Hc : (Rabs (c' - Rsum L (fun l => xc' l * sol' l)) <= gam)%R)
    (Hcg : use_cg_iter o = None) (Hco : sdr_coh b o ref est = Ok m).
  Let S := Rsum L (fun l => Rabs (sol' l)).
  Lemma acf_total l : l < L -> (Rabs (acf' l - (xcorr ux ux l + if Nat.eqb l 0 then loadv (load_diag o) else 0)) <= e + tau)%R.
  Proof.
    intros Hl. pose proof (unit_acf_near l Hl) as A. pose proof (Hacf l Hl) as B.
    set (w := (if Nat.eqb l 0 then loadv (load_diag o) else 0)%R) in *. set (q := nth l (stats_acf_with rf sq irf L ux) 0%R) in *.
    replace (acf' l - (xcorr ux ux l + w))%R with ((q - xcorr ux ux l) + (acf' l - (q + w)))%R by ring.
    eapply Rle_trans; [apply Rabs_triang|]. lra.
  Qed.
  Theorem fft_sdr_loaded lam : load_diag o = Some lam -> (0 < lam)%R ->
    exists q, mat_of m c d = Fin q /\
      (Rabs (c' - q) <= gam + e * S + (e + rho + (e + tau) * S) * sqrt (INR L / lam))%R.
  Proof.
    intros Hld Hlam. apply (sdr_inexact_loaded b o ref est m c d x y acf' xc' sol' c' e (e + tau) rho gam lam); auto.
    - exact unit_corr_near.
    - intros l Hl. pose proof (acf_total l Hl) as A. rewrite Hld in A. exact A.
  Qed.
  Theorem fft_sdr lam M : (0 <= loadv (load_diag o))%R -> a_len ref + L - 1 <= M -> a_len est <= M -> (0 < lam)%R ->
    (forall v, (lam * energy L v <= energy M (fun t => Rsum L (fun k => v k * delayed ux k t)) + loadv (load_diag o) * energy L v)%R) ->
    exists q, mat_of m c d = Fin q /\ (0 <= q <= 1)%R /\
      (Rabs (c' - q) <= gam + e * S + (e + rho + (e + tau) * S) * sqrt (INR L * q / lam))%R.
  Proof.
    intros Hld HM HM' Hlam Hc0. apply (sdr_inexact b o ref est m c d x y M acf' xc' sol' c' e (e + tau) rho gam lam); auto.
    - exact unit_corr_near.
    - exact acf_total.
  Qed.
End Sdr.

(** the same with the correlations themselves, when the FFT is long enough *)
Lemma xcorr_near_plain n u v rf mulc irf L x y l : (0 <= u)%R -> (0 <= v)%R ->
  rfft_near n u rf -> irfft_near n u irf -> mulc_near v mulc -> l < L -> l < n -> length x + l <= n ->
  (Rabs (nth l (stats_xcorr_with rf mulc irf L x y) 0 - xcorr x y l) <=
   corr_error n u v * (sqrt (energy n (smp x)) * sqrt (energy n (smp y))))%R.
Proof. intros. rewrite <- (stats_xcorr_plain n L x y l) by auto. apply xcorr_near; auto. lia. Qed.
Lemma acf_near_plain n u v rf sq irf L x l : (0 <= u)%R -> (0 <= v)%R ->
  rfft_near n u rf -> irfft_near n u irf -> sq_near v sq -> l < L -> l < n -> length x + l <= n ->
  (Rabs (nth l (stats_acf_with rf sq irf L x) 0 - xcorr x x l) <= corr_error n u v * energy n (smp x))%R.
Proof. intros. rewrite <- (stats_acf_plain n L x l) by auto. apply acf_near; auto. lia. Qed.
