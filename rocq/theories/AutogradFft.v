(** * The backward rules are the adjoints of the forward operations *)
From Coq Require Import Reals Lra.
From Coquelicot Require Import Complex.
From Verif Require Import Prelude ExtReal Slice Sums Fft FftProofs Helpers Linalg Cgd Metrics SpecSig StatsProofs PrepProofs LeastSq Autograd.
Local Open Scope nat_scope.

(** ** irfft, rfft *)
(** weight of a frequency in irfft *)
Definition wt (n k : nat) : R := if (1 <=? k) && (k <? 1 + (n - (n / 2 + 1))) then 2%R else 1%R.

Lemma wt_double n k : 0 < k -> k <= n / 2 -> 2 * k <> n -> wt n k = 2%R.
Proof.
  intros Hk Hn H. unfold wt. pose proof (Nat.div_mod n 2 ltac:(lia)). pose proof (Nat.mod_upper_bound n 2 ltac:(lia)).
  destruct (Nat.leb_spec 1 k); [|lia]. destruct (Nat.ltb_spec k (1 + (n - (n / 2 + 1)))); [reflexivity|lia].
Qed.
Lemma wt_end n k : k = 0 \/ 2 * k = n -> wt n k = 1%R.
Proof.
  intros H. unfold wt. destruct (Nat.leb_spec 1 k); [|reflexivity].
  destruct H as [H|H]; [lia|].
  assert (n / 2 = k) by (subst n; rewrite Nat.mul_comm; apply Nat.div_mul; lia).
  destruct (Nat.ltb_spec k (1 + (n - (n / 2 + 1)))); [lia|reflexivity].
Qed.
Lemma irfft_sum n Z t : 0 < n -> t < n ->
  nth t (irfft n Z) 0%R = Rsum (n / 2 + 1) (fun k =>
    / INR n * wt n k * Re (Cmult (nth k Z (RtoC 0)) (cis (ang n (k * t)))))%R.
Proof.
  intros Hn Ht. unfold irfft. rewrite nth_tab by auto.
  rewrite Nat.add_1_r, Rsum_S_l. rewrite (wt_end n 0) by auto.
  assert (A0 : cis (ang n (0 * t)) = RtoC 1).
  { unfold ang. simpl. rewrite <- cis_0. f_equal. unfold Rdiv. ring. }
  rewrite A0, Cmult_1_r, Rmult_plus_distr_l. f_equal; [ring|].
  rewrite <- Rsum_scal_l. apply Rsum_ext. intros k Hk. cbv zeta.
  destruct (Nat.eqb_spec (2 * S k) n) as [E|E].
  - rewrite (wt_end n (S k)) by auto.
    assert (A : ang n (S k * t) = (PI * INR t)%R).
    { unfold ang. rewrite <- E, !mult_INR. assert (INR (S k) <> 0)%R by (apply not_0_INR; lia).
      simpl (INR 2). field. auto. }
    rewrite A. unfold cis. destruct (nth (S k) Z (RtoC 0)) as [u v]. unfold Cmult, Re. cbn [fst snd].
    rewrite sin_PI_INR. ring.
  - rewrite wt_double by lia. ring.
Qed.

Lemma nth_irfft_bw n g k : k < n / 2 + 1 ->
  nth k (irfft_bw n g) (RtoC 0) = Cmult (RtoC (/ INR n * wt n k)) (nth k (rfft n g) (RtoC 0)).
Proof.
  intros Hk. unfold irfft_bw. rewrite nth_tab by (rewrite length_rfft; auto). cbv zeta. rewrite length_rfft. unfold wt.
  destruct ((1 <=? k) && (k <? 1 + (n - (n / 2 + 1)))).
  - rewrite Cmult_assoc, <- RtoC_mult. f_equal. f_equal. ring.
  - rewrite Rmult_1_r. reflexivity.
Qed.
Lemma length_irfft_bw n g : length (irfft_bw n g) = n / 2 + 1.
Proof. unfold irfft_bw. rewrite length_tab. apply length_rfft. Qed.

Lemma nth_zip {A B D} (f : A -> B -> D) l l' k da db dd : k < length l -> k < length l' ->
  nth k (zip_with f l l') dd = f (nth k l da) (nth k l' db).
Proof.
  unfold zip_with. revert l' k. induction l as [|a l IH]; intros [|b l'] [|k] H H'; simpl in *; try lia; auto.
  apply IH; lia.
Qed.
Lemma length_zip {A B D} (f : A -> B -> D) l l' : length (zip_with f l l') = Nat.min (length l) (length l').
Proof. unfold zip_with. rewrite map_length, combine_length. reflexivity. Qed.

Lemma rfft_at n x k : k < n / 2 + 1 ->
  nth k (rfft n x) (RtoC 0) = Csum n (fun t => Cmult (RtoC (nth t x 0%R)) (cis (- ang n (k * t)))).
Proof.
  intros H. exact (nth_tab (n / 2 + 1) (fun k => Csum n (fun t => Cmult (RtoC (nth t x 0%R)) (cis (- ang n (k * t))))) k (RtoC 0) H).
Qed.

Lemma rfft_conj n x k : k < n / 2 + 1 ->
  Cconj (nth k (rfft n x) (RtoC 0)) = Csum n (fun t => Cmult (RtoC (nth t x 0%R)) (cis (ang n (k * t)))).
Proof.
  intros H. rewrite rfft_at by auto. rewrite Cconj_Csum. apply Csum_ext. intros t _.
  rewrite Cconj_mult, Cconj_RtoC, cis_neg, Cconj_conj. reflexivity.
Qed.

Lemma Re_RtoC_mult r z : Re (Cmult (RtoC r) z) = (r * Re z)%R.
Proof. destruct z. unfold Cmult, RtoC, Re. simpl. ring. Qed.

(** irfft_bw is the adjoint of irfft *)
Lemma irfft_adjoint n g Z : 0 < n -> length Z = n / 2 + 1 ->
  Rsum n (fun t => nth t g 0 * nth t (irfft n Z) 0)%R =
  Rsum (n / 2 + 1) (fun k => Re (Cmult (nth k (irfft_bw n g) (RtoC 0)) (Cconj (nth k Z (RtoC 0))))).
Proof.
  intros Hn HZ.
  rewrite (Rsum_ext _ _ (fun t => Rsum (n / 2 + 1) (fun k => nth t g 0 *
    (/ INR n * wt n k * Re (Cmult (nth k Z (RtoC 0)) (cis (ang n (k * t)))))))%R)
    by (intros t Ht; rewrite irfft_sum by auto; rewrite Rsum_scal_l; reflexivity).
  rewrite Rsum_swap. apply Rsum_ext. intros k Hk. rewrite nth_irfft_bw by auto.
  rewrite <- Cmult_assoc, Re_RtoC_mult.
  rewrite <- (Re_conj (Cmult _ _)), Cconj_mult, Cconj_conj, rfft_conj by auto.
  rewrite <- Csum_scal_r, Re_Csum, <- Rsum_scal_l. apply Rsum_ext. intros t _.
  rewrite <- Cmult_assoc, Re_RtoC_mult. rewrite (Cmult_comm (cis _)). ring.
Qed.

(** rfft_bw is the adjoint of rfft *)
Lemma rfft_adjoint n G h : 0 < n -> length G = n / 2 + 1 -> length h <= n ->
  Rsum (length h) (fun t => nth t (rfft_bw n (length h) G) 0 * nth t h 0)%R =
  Rsum (n / 2 + 1) (fun k => Re (Cmult (nth k G (RtoC 0)) (Cconj (nth k (rfft n h) (RtoC 0))))).
Proof.
  intros Hn HG Hh.
  assert (Hn2 : n / 2 + 1 <= n \/ n = 1).
  { pose proof (Nat.div_mod n 2 ltac:(lia)). pose proof (Nat.mod_upper_bound n 2 ltac:(lia)). lia. }
  assert (Hle : n / 2 + 1 <= n) by (destruct Hn2 as [Q|Q]; [auto|rewrite Q; simpl; lia]).
  rewrite <- (Rsum_trunc n (length h)); [|auto|intros i Hi _; rewrite (nth_overflow h) by auto; ring].
  rewrite (Rsum_ext _ _ (fun t => Rsum (n / 2 + 1) (fun k =>
     Re (Cmult (nth k G (RtoC 0)) (cis (ang n (k * t)))) * nth t h 0))%R).
  - rewrite Rsum_swap. apply Rsum_ext. intros k Hk. rewrite rfft_conj by auto.
    rewrite <- Csum_scal_l, Re_Csum. apply Rsum_ext. intros t _.
    destruct (nth k G (RtoC 0)) as [u v]. destruct (cis (ang n (k * t))) as [u' v']. unfold Cmult, RtoC, Re. simpl. ring.
  - intros t Ht. destruct (Nat.lt_ge_cases t (length h)) as [H|H].
    + unfold rfft_bw. rewrite nth_tab by auto. destruct (Nat.ltb_spec t n); [|lia].
      change (fst ?z) with (Re z). rewrite Re_Csum.
      rewrite (Rsum_trunc n (n / 2 + 1)) by (auto; intros i Hi _; rewrite (nth_overflow G) by lia;
        rewrite Cmult_0_l; reflexivity).
      rewrite Rsum_scal_r. reflexivity.
    + rewrite (nth_overflow h) by auto. rewrite Rmult_0_r. symmetry. apply Rsum_zero. intros; ring.
Qed.

(** ** The cross-correlation *)
Theorem xcorr_adjoint nf L x g h : 0 < nf -> length h <= nf -> length g <= L -> length g <= nf ->
  Rsum (length h) (fun t => nth t (xcorr_bw nf (length h) x g) 0 * nth t h 0)%R =
  Rsum (length g) (fun l => nth l g 0 * nth l (stats_xcorr nf L x h) 0)%R.
Proof.
  intros Hn Hh HL Hg. unfold xcorr_bw.
  rewrite rfft_adjoint; auto; [|rewrite length_zip, length_irfft_bw, length_rfft; lia].
  rewrite <- (Rsum_trunc nf (length g)) by (auto; intros i Hi _; rewrite (nth_overflow g) by auto; ring).
  rewrite (Rsum_ext nf _ (fun l => nth l g 0 * nth l (irfft nf (zip_with (fun a b => Cmult (Cconj a) b) (rfft nf x) (rfft nf h))) 0)%R).
  - rewrite irfft_adjoint by (auto; rewrite length_zip, !length_rfft; lia).
    apply Rsum_ext. intros k Hk.
    rewrite (nth_zip _ _ _ _ (RtoC 0) (RtoC 0)) by (rewrite ?length_irfft_bw, ?length_rfft; auto).
    rewrite (nth_zip _ _ _ _ (RtoC 0) (RtoC 0)) by (rewrite ?length_rfft; auto).
    rewrite Cconj_mult, Cconj_conj, Cmult_assoc. reflexivity.
  - intros l Hl. destruct (Nat.lt_ge_cases l (length g)) as [H|H].
    + unfold stats_xcorr. rewrite nth_cut by lia. reflexivity.
    + rewrite (nth_overflow g) by auto. ring.
Qed.

(** ** Mean removal and normalisation *)
Lemma remove_mean_adjoint g h : length g = length h -> 0 < length h ->
  Rsum (length h) (fun t => nth t (remove_mean_bw g) 0 * smp h t)%R =
  Rsum (length h) (fun t => nth t g 0 * smp (centered h) t)%R.
Proof.
  intros Hl H0. unfold remove_mean_bw. rewrite Hl.
  assert (Hn : INR (length h) <> 0%R) by (apply not_0_INR; lia).
  rewrite (Rsum_ext _ _ (fun t => nth t g 0 * smp h t + (- Rsum (length h) (fun s => nth s g 0) / INR (length h)) * smp h t)%R)
    by (intros t Ht; rewrite nth_tab by auto; ring).
  rewrite Rsum_plus, Rsum_scal_l.
  rewrite (Rsum_ext _ (fun t => nth t g 0 * smp (centered h) t)%R (fun t => nth t g 0 * smp h t - mean h * nth t g 0)%R)
    by (intros t Ht; unfold centered; unfold smp at 1; rewrite nth_map_R by auto; unfold smp; ring).
  rewrite Rsum_minus, Rsum_scal_l. unfold mean. field. auto.
Qed.

Lemma normalize_adjoint y g h : length h = length y ->
  Rsum (length y) (fun t => nth t (normalize_bw y g) 0 * smp h t)%R =
  (gain y * Rsum (length y) (fun t => nth t g 0 * smp h t)
   - if Rlt_dec (norm2 y) norm_eps then 0
     else gain y ^ 3 * Rsum (length y) (fun t => nth t g 0 * smp y t) * Rsum (length y) (fun t => smp y t * smp h t))%R.
Proof.
  intros Hl. unfold normalize_bw.
  assert (En : sqrt (Rsum (length y) (fun t => nth t y 0 * nth t y 0)%R) = norm2 y).
  { unfold norm2. f_equal. apply Rsum_ext. intros; unfold smp; ring. }
  rewrite En. pose proof eps_pos as Pe. pose proof (gain_den y) as Pd.
  set (n := norm2 y) in *. set (c := Rmax n norm_eps) in *.
  assert (Gc : gain y = (/ c)%R) by reflexivity. rewrite Gc.
  destruct (Rlt_dec n norm_eps) as [Hlt|Hge].
  - rewrite (Rsum_ext _ _ (fun t => / c * (nth t g 0 * smp h t))%R); [rewrite Rsum_scal_l; ring|].
    intros t Ht. rewrite nth_tab by auto. destruct (Rle_dec norm_eps n); [lra|].
    destruct (Req_EM_T n 0); unfold Rdiv; ring.
  - assert (c = n) as E by (unfold c; rewrite Rmax_left; lra).
    rewrite E in *. destruct (Rle_dec norm_eps n) as [_|]; [|lra].
    rewrite (Rsum_ext _ _ (fun t => / n * (nth t g 0 * smp h t)
      + Rsum (length y) (fun s => - nth s g 0 * (nth s y 0 / n / n)) / n * (smp y t * smp h t))%R)
      by (intros t Ht; rewrite nth_tab by auto; destruct (Req_EM_T n 0); [lra|]; unfold smp, Rdiv; ring).
    rewrite Rsum_plus, !Rsum_scal_l.
    rewrite (Rsum_ext _ (fun s => - nth s g 0 * (nth s y 0 / n / n))%R (fun s => - (/ n * / n) * (nth s g 0 * smp y s))%R)
      by (intros; unfold smp, Rdiv; ring).
    rewrite Rsum_scal_l. field. lra.
Qed.
