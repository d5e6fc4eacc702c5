(** * Error of the SAR from the error of the Fourier transforms *)
From Coq Require Import Reals Lra Psatz FunctionalExtensionality.
From Coquelicot Require Import Complex.
From Verif Require Import Prelude ExtReal Slice Sums SpecSig Fft FftProofs Helpers Cgd Metrics Linalg LinalgProofs LeastSq StatsProofs PrepProofs ProjTheorems
  MetricTheorems MetricsProofs Inexact FftRound FftRoundProofs FftRoundSar.
Local Open Scope nat_scope.

Lemma zip_with_flip {A B D} (f : A -> B -> D) l1 : forall l2, zip_with f l1 l2 = zip_with (fun b a => f a b) l2 l1.
Proof.
  unfold zip_with. induction l1 as [|a l1 IH]; intros [|b l2]; simpl; auto. f_equal. apply IH.
Qed.
Lemma length_acf2_with n u rf mul2 irf L x1 x2 : irfft_near n u irf -> 0 < L -> length (stats2_acf_with rf mul2 irf L x1 x2) = 2 * Nat.min L n.
Proof.
  intros Hi HL. unfold stats2_acf_with. cbv zeta. rewrite app_length, length_cut.
  rewrite (slice_last _ L 0%R) by auto. rewrite length_tab, (proj1 (Hi _)). lia.
Qed.
Lemma nth_two_ends (a : list R) n L p : length a = n -> 0 < L <= n -> p < 2 * L ->
  nth p (cut L a ++ pyslice (Some (- Z.of_nat L)%Z) None 1 a) 0%R = nth (if p <? L then p else n - L + (p - L)) a 0%R.
Proof.
  intros Ha HL Hp. destruct (Nat.ltb_spec p L) as [H|H].
  - rewrite app_nth1 by (rewrite length_cut; lia). apply nth_cut. auto.
  - rewrite app_nth2 by (rewrite length_cut; lia). rewrite length_cut, Ha, Nat.min_l by lia.
    rewrite (slice_last a L 0%R) by lia. rewrite Ha, nth_tab by lia. reflexivity.
Qed.
Lemma acf2_near n u v rf mul2 irf L x1 x2 p : (0 <= u)%R -> (0 <= v)%R ->
  rfft_near n u rf -> irfft_near n u irf -> mul2_near v mul2 -> 0 < L <= n -> p < 2 * L ->
  (Rabs (nth p (stats2_acf_with rf mul2 irf L x1 x2) 0 - nth p (stats2_acf n L x1 x2) 0) <=
   corr_error n u v * (sqrt (energy n (smp x2)) * sqrt (energy n (smp x1))))%R.
Proof.
  intros Hu Hv Hrf Hirf Hm HL Hp. unfold stats2_acf_with, stats2_acf. cbv zeta.
  rewrite (nth_two_ends _ n L p) by (auto; apply (proj1 (Hirf _))).
  rewrite (nth_two_ends _ n L p) by (auto; apply length_irfft).
  set (t := if p <? L then p else n - L + (p - L)). assert (Ht : t < n) by (unfold t; destruct (Nat.ltb_spec p L); lia).
  clearbody t.
  assert (Hm' : mulc_near v (fun b a => mul2 a b)).
  { intros a b. pose proof (Hm b a) as Q. rewrite (Cmult_comm (Cconj a) b), (Rmult_comm (Cmod a)). exact Q. }
  pose proof (xcorr_near n u v rf (fun b a => mul2 a b) irf n x2 x1 t ltac:(lia) Hu Hv Hrf Hirf Hm' Ht Ht) as Q.
  unfold stats_xcorr_with, stats_xcorr in Q. rewrite !nth_cut in Q by auto.
  rewrite (zip_with_flip mul2), (zip_with_flip (fun a b => Cmult a (Cconj b))).
  replace (fun b a : C => Cmult a (Cconj b)) with (fun a b : C => Cmult (Cconj a) b); [exact Q|].
  extensionality a. extensionality b. apply Cmult_comm.
Qed.

(** both ends against the correlations themselves *)
Lemma acf2_near_plain n u v rf mul2 irf L x1 x2 l : (0 <= u)%R -> (0 <= v)%R ->
  rfft_near n u rf -> irfft_near n u irf -> mul2_near v mul2 -> l < L -> L <= n ->
  length x1 + l <= n -> length x2 + l <= n ->
  let e := (corr_error n u v * (sqrt (energy n (smp x2)) * sqrt (energy n (smp x1))))%R in
  (Rabs (nth l (stats2_acf_with rf mul2 irf L x1 x2) 0 - xcorr x2 x1 l) <= e)%R /\
  (0 < l -> (Rabs (nth (2 * L - l) (stats2_acf_with rf mul2 irf L x1 x2) 0 - xcorr x1 x2 l) <= e)%R).
Proof.
  intros Hu Hv Hrf Hirf Hm Hl HL H1 H2 e. split.
  - rewrite <- (stats2_acf_first n L x1 x2 l) by lia. apply acf2_near; auto; lia.
  - intros H0. rewrite <- (stats2_acf_last n L x1 x2 l) by lia. rewrite Nat.min_l by lia. apply acf2_near; auto; lia.
Qed.

Section Sar.
  Variables (b : backend) (o : opts) (ref est : arr) (m : list (list xr)) (sar : list xr) (d : nat) (xs : nat -> list R) (y : list R)
    (rf : list R -> list C) (mulc mul2 : C -> C -> C) (irf : list C -> list R) (u v : R).
  Let L := filter_length o.
  Let k := n_chan ref.
  Let K := L * k.
  Let n := n_fft (a_len ref) (a_len est).
  Let ux c := unit_of (pre (zero_mean o) (xs c)).
  Let uy := unit_of (pre (zero_mean o) y).
  Hypotheses (Wr : wf ref) (We : wf est) (HL : 2 <= filter_length o <= Nat.max (a_len ref) (a_len est))
    (Hx : has_chans ref xs) (H0 : 0 < n_chan ref) (Hy : has_chan est d y) (Hu : (0 <= u)%R) (Hv : (0 <= v)%R)
    (Hrf : rfft_near n u rf) (Hirf : irfft_near n u irf) (Hm : mulc_near v mulc) (Hm2 : mul2_near v mul2).
  Let e := corr_error n u v.
  Lemma sar_sizes : (forall c, c < k -> length (ux c) = a_len ref) /\ length uy = a_len est /\ a_len ref + L - 1 <= n /\ a_len est <= n /\ 0 < n /\ L <= n.
  Proof.
    pose proof (n_fft_ge (a_len ref) (a_len est) (proj1 Wr)) as G. pose proof (proj1 Wr) as P.
    destruct (has_chan_pchan (zero_mean o) est d y We Hy) as [_ Ly]. split.
    - intros c Hc. destruct (has_chan_pchan (zero_mean o) ref c (xs c) Wr (has_chans_at ref xs c Hx Hc)) as [_ Lx].
      unfold ux. rewrite !length_unit_of, !length_pre. auto.
    - unfold uy. rewrite !length_unit_of, !length_pre. unfold n, L. lia.
  Qed.
  Lemma unit_norm_le z : length (unit_of z) <= n -> (0 <= sqrt (energy n (smp (unit_of z))) <= 1)%R.
  Proof.
    intros Hz. rewrite length_unit_of in Hz. split; [apply sqrt_pos|]. rewrite <- sqrt_1. apply sqrt_le_1_alt, energy_unit_le1; auto.
  Qed.
  Lemma e_two r s : (0 <= r <= 1)%R -> (0 <= s <= 1)%R -> (e * (r * s) <= e)%R.
  Proof.
    intros Hr Hs. assert (E0 : (0 <= e)%R) by (apply corr_error_pos; auto). rewrite <- (Rmult_1_r e) at 2. apply Rmult_le_compat_l; auto.
    rewrite <- (Rmult_1_r 1%R). apply Rmult_le_compat; lra.
  Qed.
  Lemma sar_rhs_near p M : p < K -> a_len ref + L - 1 <= M ->
    (Rabs (nth p (flatten k L (fun c => stats_xcorr_with rf mulc irf L (ux c) uy)) 0 - dot M (all_delays k ux p) (smp uy)) <= e)%R.
  Proof.
    intros Hp HM. destruct sar_sizes as (S1 & S2 & S3 & S4 & S5 & S6).
    rewrite <- (sar_rhs (a_len ref) (a_len est) L k ux uy M p); auto; try (unfold L; lia); [|exact (proj1 Wr)].
    destruct (lag_split k L p Hp) as (l & c & Hl & Hc & ->). rewrite !nth_flatten by auto.
    eapply Rle_trans; [apply (xcorr_near n u v); auto; lia|].
    apply e_two; apply unit_norm_le; fold uy; fold (ux c); rewrite ?S1 by auto; lia.
  Qed.
  Lemma sar_mat_near B p q M : block_toeplitz b (2 * L) k k (block_acf_with rf mul2 irf L (load_diag o) ux) = Ok B ->
    p < K -> q < K -> a_len ref + L - 1 <= M ->
    (Rabs (B p q - (dot M (all_delays k ux p) (all_delays k ux q) + if Nat.eqb p q then loadv (load_diag o) else 0)) <= e)%R.
  Proof.
    intros HB Hp Hq HM. destruct sar_sizes as (S1 & S2 & S3 & S4 & S5 & S6).
    destruct (sar_system_gram b (a_len ref) (a_len est) L (load_diag o) k ux M) as (B0 & E0 & G); auto; try (unfold L; lia); [exact (proj1 Wr)|].
    rewrite <- G by auto. fold n in E0.
    destruct (block_toeplitz_ok b (2 * L) k k (block_acf n L (load_diag o) ux)) as (B1 & E1 & G1).
    { unfold L. lia. } { intros r c Hr Hc. rewrite length_block_acf by (unfold L; lia). lia. }
    rewrite E0 in E1. injection E1 as <-.
    destruct (block_toeplitz_ok b (2 * L) k k (block_acf_with rf mul2 irf L (load_diag o) ux)) as (B2 & E2 & G2).
    { unfold L. lia. }
    { intros r c Hr Hc. unfold block_acf_with. destruct (r =? c); rewrite ?length_add_load; rewrite (length_acf2_with n u) by (auto; unfold L; lia); lia. }
    rewrite HB in E2. injection E2 as <-.
    rewrite Nat.mul_comm, Nat.div_mul in G1, G2 by lia.
    destruct (lag_split k L p Hp) as (i & r & Hi & Hr & ->). destruct (lag_split k L q Hq) as (j & c & Hj & Hc & ->).
    rewrite G1, G2 by auto.
    assert (N : forall t, t < 2 * L -> (Rabs (nth t (block_acf_with rf mul2 irf L (load_diag o) ux r c) 0 - nth t (block_acf n L (load_diag o) ux r c) 0) <= e)%R).
    { intros t Ht. rewrite nth_block_acf by (unfold L in *; lia).
      assert (Q : nth t (block_acf_with rf mul2 irf L (load_diag o) ux r c) 0%R =
        (nth t (stats2_acf_with rf mul2 irf L (ux r) (ux c)) 0 + if Nat.eqb r c && Nat.eqb t 0 then loadv (load_diag o) else 0)%R).
      { unfold block_acf_with. destruct (Nat.eqb_spec r c) as [->|H]; simpl; [|ring].
        rewrite nth_add_load by (rewrite (length_acf2_with n u) by (auto; unfold L; lia); lia).
        destruct (load_diag o); simpl; destruct (t =? 0); ring. }
      rewrite Q. set (w := if (r =? c) && (t =? 0) then loadv (load_diag o) else 0%R).
      replace (nth t (stats2_acf_with rf mul2 irf L (ux r) (ux c)) 0 + w - (nth t (stats2_acf n L (ux r) (ux c)) 0 + w))%R
        with (nth t (stats2_acf_with rf mul2 irf L (ux r) (ux c)) 0 - nth t (stats2_acf n L (ux r) (ux c)) 0)%R by ring.
      eapply Rle_trans; [apply (acf2_near n u v); auto; unfold L in *; lia|].
      apply e_two; apply unit_norm_le; [fold (ux c)|fold (ux r)]; rewrite S1 by auto; lia. }
    destruct (Nat.ltb_spec j i); apply N; unfold L in *; lia.
  Qed.

  Theorem fft_sar_loaded B A' sol' c' tau rho gam lam : 
    block_toeplitz b (2 * L) k k (block_acf_with rf mul2 irf L (load_diag o) ux) = Ok B ->
    let b' p := nth p (flatten k L (fun c => stats_xcorr_with rf mulc irf L (ux c) uy)) 0%R in
    (forall p q, p < K -> q < K -> (Rabs (A' p q - B p q) <= tau)%R) ->
    (forall i, i < K -> (Rabs (Rsum K (fun j => A' i j * sol' j) - b' i) <= rho)%R) ->
    (Rabs (c' - Rsum K (fun i => b' i * sol' i)) <= gam)%R ->
    use_cg_iter o = None -> sq_cos b o ref est = Ok (m, sar) -> load_diag o = Some lam -> (0 < lam)%R ->
    let S := Rsum K (fun i => Rabs (sol' i)) in
    exists q, nth d sar NaN = Fin q /\
      (Rabs (c' - q) <= gam + e * S + (e + rho + (e + tau) * S) * sqrt (INR K / lam))%R.
  Proof.
    intros HB b' HA Hr Hc Hcg Hco Hld Hlam S. pose proof (proj1 Wr) as P.
    apply (sar_inexact_loaded b o ref est m sar d xs y (a_len ref + L + a_len est) A' b' sol' c' e (e + tau) rho gam lam); auto; try (unfold L; lia).
    - intros i Hi. apply sar_rhs_near; auto. lia.
    - intros i j Hi Hj. pose proof (sar_mat_near B i j (a_len ref + L + a_len est) HB Hi Hj ltac:(lia)) as Q. pose proof (HA i j Hi Hj) as T.
      rewrite Hld in Q. change (loadv (Some lam)) with lam in Q. change (fun c => unit_of (pre (zero_mean o) (xs c))) with ux. fold k.
      set (w := (dot (a_len ref + L + a_len est) (all_delays k ux i) (all_delays k ux j) + (if i =? j then lam else 0))%R) in *.
      replace (A' i j - w)%R with ((B i j - w) + (A' i j - B i j))%R by ring. eapply Rle_trans; [apply Rabs_triang|]. lra.
  Qed.
End Sar.
