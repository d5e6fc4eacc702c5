(** * FFT statistics are correlations and Gram matrices *)
From Coq Require Import Reals Lra.
From Coquelicot Require Import Complex.
From Verif Require Import Prelude ExtReal Slice Sums Fft FftProofs Helpers HelpersProofs Linalg
  LinalgProofs Cgd Metrics SpecSig.
Local Open Scope nat_scope.

Lemma length_zip_with {A B D} (f : A -> B -> D) l1 l2 :
  length (zip_with f l1 l2) = Nat.min (length l1) (length l2).
Proof. unfold zip_with. rewrite map_length, combine_length. reflexivity. Qed.
Lemma nth_zip_with {A B D} (f : A -> B -> D) l1 l2 i d1 d2 d :
  i < length l1 -> i < length l2 -> nth i (zip_with f l1 l2) d = f (nth i l1 d1) (nth i l2 d2).
Proof.
  revert l2 i. induction l1 as [|a l1 IH]; intros [|b l2] i H1 H2; simpl in *; try lia.
  destruct i; simpl; auto. apply IH; lia.
Qed.

Lemma length_cut L l : length (cut L l) = Nat.min L (length l).
Proof. unfold cut. rewrite (slice_to l L 0%R), length_tab. reflexivity. Qed.
Lemma nth_cut L l i : i < L -> nth i (cut L l) 0%R = nth i l 0%R.
Proof.
  intros Hi. unfold cut. rewrite (slice_to l L 0%R).
  destruct (Nat.lt_ge_cases i (length l)) as [H|H].
  - rewrite nth_tab by lia. reflexivity.
  - rewrite nth_tab_ge by lia. rewrite nth_overflow by lia. reflexivity.
Qed.
Lemma nth_cut_ge L l i : L <= i -> nth i (cut L l) 0%R = 0%R.
Proof. intros Hi. apply nth_overflow. rewrite length_cut. lia. Qed.

(** ** FFT size *)
Lemma n_fft_pos lx ly : 0 < n_fft lx ly.
Proof. unfold n_fft. apply Nat.neq_0_lt_0, Nat.pow_nonzero. lia. Qed.
Lemma n_fft_ge lx ly : 0 < lx -> lx + Nat.max lx ly - 1 <= n_fft lx ly.
Proof.
  intros H. unfold n_fft. set (m := lx + Nat.max lx ly - 1).
  destruct (Nat.eq_dec m 1) as [->|H1]; [simpl; lia|].
  apply Nat.log2_up_spec. lia.
Qed.

(** ** Circular correlation without wrap-around *)
Lemma circ_plain n x y l : length x + l <= n ->
  Rsum n (fun t => nth t x 0 * nth ((t + l) mod n)%nat y 0)%R = xcorr x y l.
Proof.
  intros H. unfold xcorr. rewrite (Rsum_trunc n (length x)) by
    (try lia; intros i Hi _; rewrite (nth_overflow x) by auto; ring).
  apply Rsum_ext. intros t Ht. unfold smp. rewrite Nat.mod_small by lia. reflexivity.
Qed.

(** the spectra have n/2+1 entries *)
Lemma nth_corr_spec nf x y k : k <= nf / 2 ->
  nth k (zip_with (fun a b => Cmult (Cconj a) b) (rfft nf x) (rfft nf y)) (RtoC 0) =
  Cmult (Cconj (nth k (rfft nf x) (RtoC 0))) (nth k (rfft nf y) (RtoC 0)).
Proof.
  intros Hk. rewrite (nth_zip_with _ _ _ k (RtoC 0) (RtoC 0)) by (rewrite length_rfft; lia). auto.
Qed.
Lemma nth_corr_spec2 nf x y k : k <= nf / 2 ->
  nth k (zip_with (fun a b => Cmult a (Cconj b)) (rfft nf x) (rfft nf y)) (RtoC 0) =
  Cmult (Cconj (nth k (rfft nf y) (RtoC 0))) (nth k (rfft nf x) (RtoC 0)).
Proof.
  intros Hk. rewrite (nth_zip_with _ _ _ k (RtoC 0) (RtoC 0)) by (rewrite length_rfft; lia). ring.
Qed.
Lemma nth_mag_spec nf x k : k <= nf / 2 ->
  nth k (map (fun z : C => RtoC (fst z ^ 2 + snd z ^ 2)) (rfft nf x)) (RtoC 0) =
  Cmult (Cconj (nth k (rfft nf x) (RtoC 0))) (nth k (rfft nf x) (RtoC 0)).
Proof.
  intros Hk. rewrite (nth_indep _ (RtoC 0) (RtoC (fst (RtoC 0) ^ 2 + snd (RtoC 0) ^ 2)))
    by (rewrite map_length, length_rfft; lia).
  rewrite (map_nth (fun z : C => RtoC (fst z ^ 2 + snd z ^ 2)) (rfft nf x) (RtoC 0)). set (z := nth k (rfft nf x) (RtoC 0)).
  unfold Cmult, Cconj, RtoC. simpl. f_equal; ring.
Qed.

(** Values for any lag (circular). *)
Lemma stats_xcorr_circ nf L x y l : 0 < nf -> l < L -> l < nf ->
  nth l (stats_xcorr nf L x y) 0%R = Rsum nf (fun t => nth t x 0 * nth ((t + l) mod nf)%nat y 0)%R.
Proof.
  intros Hn HL Hl. unfold stats_xcorr. rewrite nth_cut by auto.
  apply irfft_corr; auto. intros k Hk. apply nth_corr_spec; auto.
Qed.
Lemma stats_acf_circ nf L x l : 0 < nf -> l < L -> l < nf ->
  nth l (stats_acf nf L x) 0%R = Rsum nf (fun t => nth t x 0 * nth ((t + l) mod nf)%nat x 0)%R.
Proof.
  intros Hn HL Hl. unfold stats_acf. rewrite nth_cut by auto.
  apply irfft_corr; auto. intros k Hk. apply nth_mag_spec; auto.
Qed.
Lemma length_stats_acf nf L x : length (stats_acf nf L x) = Nat.min L nf.
Proof. unfold stats_acf. rewrite length_cut, length_irfft. reflexivity. Qed.
Lemma length_stats_xcorr nf L x y : length (stats_xcorr nf L x y) = Nat.min L nf.
Proof. unfold stats_xcorr. rewrite length_cut, length_irfft. reflexivity. Qed.
Lemma length_stats2_acf nf L x y : 0 < L -> length (stats2_acf nf L x y) = 2 * Nat.min L nf.
Proof.
  intros H. unfold stats2_acf. rewrite app_length, length_cut, length_irfft.
  rewrite (slice_last _ L 0%R) by auto. rewrite length_tab, length_irfft. lia.
Qed.
Lemma length_add_load ld l : length (add_load ld l) = length l.
Proof. destruct ld, l; reflexivity. Qed.

(** C15 *)
Theorem stats_xcorr_plain nf L x y l : l < L -> l < nf -> length x + l <= nf ->
  nth l (stats_xcorr nf L x y) 0%R = xcorr x y l.
Proof.
  intros HL Hn H. rewrite stats_xcorr_circ by lia. apply circ_plain; auto.
Qed.
Theorem stats_acf_plain nf L x l : l < L -> l < nf -> length x + l <= nf ->
  nth l (stats_acf nf L x) 0%R = xcorr x x l.
Proof.
  intros HL Hn H. rewrite stats_acf_circ by lia. apply circ_plain; auto.
Qed.
(** first half: lag l of (x2, x1); second half, m from the end: lag m of (x1, x2) *)
Theorem stats2_acf_first nf L x1 x2 l : l < L -> l < nf -> length x2 + l <= nf ->
  nth l (stats2_acf nf L x1 x2) 0%R = xcorr x2 x1 l.
Proof.
  intros HL Hn H. unfold stats2_acf. cbv zeta.
  rewrite app_nth1 by (rewrite length_cut, length_irfft; lia).
  rewrite nth_cut by auto.
  rewrite (irfft_corr nf x2 x1) by (try lia; intros k Hk; apply nth_corr_spec2; auto).
  apply circ_plain; auto.
Qed.
Theorem stats2_acf_last nf L x1 x2 m : 0 < m -> m <= L -> m <= nf -> length x1 + m <= nf ->
  nth (2 * Nat.min L nf - m) (stats2_acf nf L x1 x2) 0%R = xcorr x1 x2 m.
Proof.
  intros Hm HL Hn H. unfold stats2_acf. cbv zeta.
  set (a := irfft nf _). assert (Ha : length a = nf) by apply length_irfft.
  rewrite app_nth2 by (rewrite length_cut, Ha; lia). rewrite length_cut, Ha.
  rewrite (slice_last a L 0%R) by lia. rewrite Ha. rewrite nth_tab by lia.
  replace (nf - L + (2 * Nat.min L nf - m - Nat.min L nf)) with (nf - m) by lia.
  unfold a. rewrite (irfft_corr nf x2 x1) by (try lia; intros k Hk; apply nth_corr_spec2; auto).
  rewrite <- (circ_plain nf x1 x2 m H).
  rewrite <- (Rsum_cyclic nf m (fun t => nth t x2 0 * nth ((t + (nf - m)) mod nf)%nat x1 0)%R) by lia.
  apply Rsum_ext. intros t Ht. rewrite Nat.add_mod_idemp_l by lia.
  replace (t + m + (nf - m)) with (t + 1 * nf) by lia. rewrite Nat.mod_add by lia.
  rewrite (Nat.mod_small t nf) by auto. ring.
Qed.

(** ** Correlations are inner products of delayed signals *)
Lemma dot_delayed M x y i : length x + i <= M ->
  dot M (delayed x i) (smp y) = xcorr x y i.
Proof.
  intros H. unfold dot, xcorr. replace M with (i + (M - i)) by lia. rewrite Rsum_add.
  rewrite Rsum_zero by (intros t Ht; unfold delayed; apply Nat.ltb_lt in Ht; rewrite Ht; ring).
  rewrite Rplus_0_l. rewrite (Rsum_trunc (M - i) (length x)).
  - apply Rsum_ext. intros t Ht. unfold delayed.
    destruct (Nat.ltb_spec (i + t) i); [lia|]. f_equal; f_equal; lia.
  - lia.
  - intros t Ht _. unfold delayed. destruct (Nat.ltb_spec (i + t) i); [lia|].
    unfold smp. rewrite (nth_overflow x) by lia. ring.
Qed.
Lemma dot_comm M u v : dot M u v = dot M v u.
Proof. apply Rsum_ext. intros; ring. Qed.
Lemma dot_delayed2 M x y i j : i <= j -> length y + j <= M ->
  dot M (delayed x i) (delayed y j) = xcorr y x (j - i).
Proof.
  intros Hij H. unfold dot, xcorr. replace M with (j + (M - j)) by lia. rewrite Rsum_add.
  rewrite Rsum_zero.
  2:{ intros t Ht; unfold delayed at 2. apply Nat.ltb_lt in Ht. rewrite Ht. ring. }
  rewrite Rplus_0_l. rewrite (Rsum_trunc (M - j) (length y)).
  - apply Rsum_ext. intros t Ht. unfold delayed.
    destruct (Nat.ltb_spec (j + t) j); [lia|]. destruct (Nat.ltb_spec (j + t) i); [lia|].
    rewrite Rmult_comm. f_equal; f_equal; lia.
  - lia.
  - intros t Ht _. unfold delayed at 2. destruct (Nat.ltb_spec (j + t) j); [lia|].
    unfold smp. rewrite (nth_overflow y) by lia. ring.
Qed.

(** entries of the loaded auto-correlation *)
Lemma nth_add_load ld l i : 0 < length l ->
  nth i (add_load ld l) 0%R = (nth i l 0 + match ld with Some d => if Nat.eqb i 0 then d else 0 | None => 0 end)%R.
Proof.
  intros H. destruct ld as [d|]; simpl; [|ring].
  destruct l as [|a r]; simpl in *; [lia|]. destruct i; simpl; ring.
Qed.

Definition loadv (ld : option R) : R := match ld with Some d => d | None => 0%R end.

(** C17, SDR system: Gram matrix of the delayed reference, plus the loading. *)
Theorem sdr_system_gram b lx ly L ld x M i j :
  length x = lx -> 0 < lx -> L <= Nat.max lx ly -> i < L -> j < L -> lx + L - 1 <= M ->
  let acf := add_load ld (stats_acf (n_fft lx ly) L x) in
  length acf = L /\
  ent (toeplitz b acf) i j =
    (dot M (delayed x i) (delayed x j) + if Nat.eqb i j then loadv ld else 0)%R.
Proof.
  intros Hx Hlx HL Hi Hj HM acf. set (nf := n_fft lx ly) in *.
  pose proof (n_fft_ge lx ly Hlx) as Hnf. fold nf in Hnf.
  assert (Hlen : length acf = L).
  { unfold acf. rewrite length_add_load, length_stats_acf. lia. }
  split; auto. rewrite toeplitz_entry by lia. unfold acf.
  rewrite nth_add_load by (rewrite length_stats_acf; lia).
  assert (Ha : adist i j < L) by (unfold adist; lia).
  rewrite stats_acf_plain by lia. f_equal.
  - destruct (Nat.le_ge_cases i j) as [H|H].
    + rewrite (dot_delayed2 M x x i j) by lia. f_equal. unfold adist. lia.
    + rewrite dot_comm, (dot_delayed2 M x x j i) by lia. f_equal. unfold adist. lia.
  - unfold loadv. destruct ld; [|destruct (i =? j); auto].
    destruct (Nat.eqb_spec i j); destruct (Nat.eqb_spec (adist i j) 0); auto;
      unfold adist in *; lia.
Qed.
Theorem sdr_rhs lx ly L x y M l :
  length x = lx -> 0 < lx -> L <= Nat.max lx ly -> l < L -> lx + L - 1 <= M ->
  nth l (stats_xcorr (n_fft lx ly) L x y) 0%R = dot M (delayed x l) (smp y).
Proof.
  intros Hx Hlx HL Hl HM. pose proof (n_fft_ge lx ly Hlx) as Hnf.
  rewrite stats_xcorr_plain by lia. rewrite dot_delayed by lia. reflexivity.
Qed.

(** ** The block system (SIR / SAR) *)
Definition block_acf (nf L : nat) (ld : option R) (xs : nat -> list R) (c d : nat) : list R :=
  (if Nat.eqb c d then add_load ld else fun l => l) (stats2_acf nf L (xs c) (xs d)).
Lemma length_block_acf nf L ld xs c d : 0 < L ->
  length (block_acf nf L ld xs c d) = 2 * Nat.min L nf.
Proof.
  intros H. unfold block_acf. destruct (c =? d); rewrite ?length_add_load; apply length_stats2_acf; auto.
Qed.
Lemma nth_block_acf nf L ld xs c d i : 0 < L -> 0 < nf ->
  nth i (block_acf nf L ld xs c d) 0%R =
  (nth i (stats2_acf nf L (xs c) (xs d)) 0 + if Nat.eqb c d && Nat.eqb i 0 then loadv ld else 0)%R.
Proof.
  intros HL Hn. unfold block_acf. destruct (Nat.eqb_spec c d) as [->|H]; simpl; [|ring].
  rewrite nth_add_load by (rewrite length_stats2_acf by auto; lia).
  destruct ld; simpl; destruct (i =? 0); ring.
Qed.

(** quotient and remainder of lag-major indices *)
Lemma lag_div k l c : c < k -> (l * k + c) / k = l.
Proof. intros H. rewrite Nat.add_comm, Nat.div_add, Nat.div_small; lia. Qed.
Lemma lag_mod k l c : c < k -> (l * k + c) mod k = c.
Proof. intros H. rewrite Nat.add_comm, Nat.mod_add, Nat.mod_small; lia. Qed.
Lemma lag_split k L p : p < L * k -> exists l c, l < L /\ c < k /\ p = l * k + c.
Proof.
  intros H. assert (0 < k) by (destruct k; lia).
  exists (p / k), (p mod k). repeat split.
  - apply Nat.div_lt_upper_bound; lia.
  - apply Nat.mod_upper_bound; lia.
  - rewrite Nat.mul_comm. apply Nat.div_mod. lia.
Qed.
Lemma lag_inj k l c l' c' : c < k -> c' < k -> l * k + c = l' * k + c' -> l = l' /\ c = c'.
Proof.
  intros H H' E. split.
  - rewrite <- (lag_div k l c H), <- (lag_div k l' c' H'), E. auto.
  - rewrite <- (lag_mod k l c H), <- (lag_mod k l' c' H'), E. auto.
Qed.

Theorem sar_system_gram b lx ly L ld k xs M :
  (forall c, c < k -> length (xs c) = lx) -> 0 < lx -> 2 <= L -> L <= Nat.max lx ly ->
  lx + L - 1 <= M ->
  exists B, block_toeplitz b (2 * L) k k (block_acf (n_fft lx ly) L ld xs) = Ok B /\
    forall p q, p < L * k -> q < L * k ->
      B p q = (dot M (all_delays k xs p) (all_delays k xs q) + if Nat.eqb p q then loadv ld else 0)%R.
Proof.
  intros Hx Hlx HL2 HL HM. set (nf := n_fft lx ly).
  pose proof (n_fft_ge lx ly Hlx) as Hnf. fold nf in Hnf.
  destruct (block_toeplitz_ok b (2 * L) k k (block_acf nf L ld xs)) as (B & E & HB).
  { lia. }
  { intros r c Hr Hc. rewrite length_block_acf by lia. lia. }
  exists B. split; auto. intros p q Hp Hq.
  destruct (lag_split k L p Hp) as (i & r & Hi & Hr & ->).
  destruct (lag_split k L q Hq) as (j & c & Hj & Hc & ->).
  rewrite Nat.mul_comm, Nat.div_mul in HB by lia.
  rewrite HB by auto. unfold all_delays.
  rewrite !lag_div, !lag_mod by auto.
  destruct (Nat.ltb_spec j i) as [H|H].
  - rewrite nth_block_acf by lia.
    replace (Nat.eqb (L * 2 - (i - j)) 0) with false by (symmetry; apply Nat.eqb_neq; lia).
    rewrite andb_false_r.
    replace (L * 2 - (i - j)) with (2 * Nat.min L nf - (i - j)) by lia.
    rewrite stats2_acf_last by (rewrite ?Hx by auto; lia).
    rewrite dot_comm, dot_delayed2 by (rewrite ?Hx by auto; lia). f_equal.
    destruct (Nat.eqb_spec (i * k + r) (j * k + c)) as [E2|E2]; auto.
    apply lag_inj in E2; auto. lia.
  - rewrite nth_block_acf by lia. rewrite stats2_acf_first by (rewrite ?Hx by auto; lia).
    rewrite dot_delayed2 by (rewrite ?Hx by auto; lia). f_equal.
    destruct (Nat.eqb_spec r c); destruct (Nat.eqb_spec (j - i) 0);
      destruct (Nat.eqb_spec (i * k + r) (j * k + c)) as [E2|E2]; simpl; auto;
      try (apply lag_inj in E2; auto; lia).
    exfalso. apply E2. subst. f_equal. f_equal. lia.
Qed.

Lemma length_flatten k n f : length (flatten k n f) = n * k.
Proof. apply length_tab. Qed.
Lemma nth_flatten k n f l c : l < n -> c < k -> nth (l * k + c) (flatten k n f) 0%R = nth l (f c) 0%R.
Proof.
  intros Hl Hc. unfold flatten. rewrite nth_tab by nia. rewrite lag_div, lag_mod by auto. auto.
Qed.
Theorem sar_rhs lx ly L k xs y M p :
  (forall c, c < k -> length (xs c) = lx) -> 0 < lx -> L <= Nat.max lx ly ->
  lx + L - 1 <= M -> p < L * k ->
  nth p (flatten k L (fun c => stats_xcorr (n_fft lx ly) L (xs c) y)) 0%R
  = dot M (all_delays k xs p) (smp y).
Proof.
  intros Hx Hlx HL HM Hp. destruct (lag_split k L p Hp) as (l & c & Hl & Hc & ->).
  rewrite nth_flatten by auto. unfold all_delays. rewrite lag_div, lag_mod by auto.
  apply sdr_rhs; auto.
Qed.

(** The SDR auto-correlation inside square_cosine_metrics is the one of compute_stats. *)
Lemma stats2_diag nf L x l : 0 < L -> l < Nat.min L nf ->
  nth l (stats2_acf nf L x x) 0%R = nth l (stats_acf nf L x) 0%R.
Proof.
  intros HL Hl. unfold stats2_acf. cbv zeta.
  rewrite app_nth1 by (rewrite length_cut, length_irfft; lia).
  rewrite nth_cut by lia.
  rewrite (irfft_corr nf x x) by (try lia; intros k Hk; apply nth_corr_spec2; auto).
  rewrite stats_acf_circ by lia. reflexivity.
Qed.
Theorem acf_sdr_eq nf L ld x : 0 < L -> L <= nf ->
  acf_sdr nf L ld x = add_load ld (stats_acf nf L x).
Proof.
  intros HL Hn. unfold acf_sdr.
  assert (H2 : length (stats2_acf nf L x x) = 2 * L) by (rewrite length_stats2_acf by auto; lia).
  assert (H1 : length (stats_acf nf L x) = L) by (rewrite length_stats_acf; lia).
  apply nth_ext with (d := 0%R) (d' := 0%R).
  - rewrite length_cut, !length_add_load, H1, H2. lia.
  - intros i Hi. rewrite length_cut, length_add_load, H2 in Hi.
    rewrite nth_cut by lia. rewrite !nth_add_load by lia. rewrite stats2_diag by lia. reflexivity.
Qed.

(** ** Circular version, valid for every L <= n_fft (also with aliasing)

    The system matrices are always Gram matrices, of the circular delays. *)
Definition cdelayed (nf : nat) (x : list R) (i t : nat) : R := nth ((t + (nf - i)) mod nf) x 0%R.
Definition ccorr (nf : nat) (x y : list R) (l : nat) : R :=
  Rsum nf (fun t => nth t x 0 * nth ((t + l) mod nf)%nat y 0)%R.
Definition all_cdelays (nf K : nat) (xs : nat -> list R) (k : nat) : nat -> R :=
  cdelayed nf (xs (k mod K)) (k / K).

Lemma dot_cdelayed nf x y i : i < nf -> dot nf (cdelayed nf x i) (smp y) = ccorr nf x y i.
Proof.
  intros H. unfold dot, ccorr, cdelayed, smp.
  rewrite <- (Rsum_cyclic nf i (fun t => nth ((t + (nf - i)) mod nf)%nat x 0 * nth t y 0)%R) by lia.
  apply Rsum_ext. intros t Ht. rewrite Nat.add_mod_idemp_l by lia.
  replace (t + i + (nf - i)) with (t + 1 * nf) by lia. rewrite Nat.mod_add by lia.
  rewrite (Nat.mod_small t) by auto. reflexivity.
Qed.
Lemma dot_cdelayed2 nf x y i j : i <= j -> j < nf ->
  dot nf (cdelayed nf x i) (cdelayed nf y j) = ccorr nf y x (j - i).
Proof.
  intros Hij H. unfold dot, ccorr, cdelayed.
  rewrite <- (Rsum_cyclic nf j
    (fun t => nth ((t + (nf - i)) mod nf)%nat x 0 * nth ((t + (nf - j)) mod nf)%nat y 0)%R) by lia.
  apply Rsum_ext. intros t Ht. rewrite !Nat.add_mod_idemp_l by lia.
  replace (t + j + (nf - j)) with (t + 1 * nf) by lia. rewrite Nat.mod_add by lia.
  rewrite (Nat.mod_small t) by auto. rewrite Rmult_comm. do 2 f_equal.
  replace (t + j + (nf - i)) with (t + (j - i) + 1 * nf) by lia. rewrite Nat.mod_add by lia. auto.
Qed.
Lemma stats2_acf_first_c nf L x1 x2 l : l < L -> l < nf ->
  nth l (stats2_acf nf L x1 x2) 0%R = ccorr nf x2 x1 l.
Proof.
  intros HL Hn. unfold stats2_acf. cbv zeta.
  rewrite app_nth1 by (rewrite length_cut, length_irfft; lia).
  rewrite nth_cut by auto.
  apply (irfft_corr nf x2 x1); try lia; intros k Hk; apply nth_corr_spec2; auto.
Qed.
Lemma stats2_acf_last_c nf L x1 x2 m : 0 < m -> m <= L -> m <= nf ->
  nth (2 * Nat.min L nf - m) (stats2_acf nf L x1 x2) 0%R = ccorr nf x1 x2 m.
Proof.
  intros Hm HL Hn. unfold stats2_acf. cbv zeta.
  set (a := irfft nf _). assert (Ha : length a = nf) by apply length_irfft.
  rewrite app_nth2 by (rewrite length_cut, Ha; lia). rewrite length_cut, Ha.
  rewrite (slice_last a L 0%R) by lia. rewrite Ha. rewrite nth_tab by lia.
  replace (nf - L + (2 * Nat.min L nf - m - Nat.min L nf)) with (nf - m) by lia.
  unfold a. rewrite (irfft_corr nf x2 x1) by (try lia; intros k Hk; apply nth_corr_spec2; auto).
  unfold ccorr.
  rewrite <- (Rsum_cyclic nf m (fun t => nth t x2 0 * nth ((t + (nf - m)) mod nf)%nat x1 0)%R) by lia.
  apply Rsum_ext. intros t Ht. rewrite Nat.add_mod_idemp_l by lia.
  replace (t + m + (nf - m)) with (t + 1 * nf) by lia. rewrite Nat.mod_add by lia.
  rewrite (Nat.mod_small t nf) by auto. ring.
Qed.

Theorem sdr_system_cgram b nf L ld x i j : L <= nf -> i < L -> j < L ->
  let acf := add_load ld (stats_acf nf L x) in
  length acf = L /\
  ent (toeplitz b acf) i j =
    (dot nf (cdelayed nf x i) (cdelayed nf x j) + if Nat.eqb i j then loadv ld else 0)%R.
Proof.
  intros HL Hi Hj acf.
  assert (Hlen : length acf = L).
  { unfold acf. rewrite length_add_load, length_stats_acf. lia. }
  split; auto. rewrite toeplitz_entry by lia. unfold acf.
  rewrite nth_add_load by (rewrite length_stats_acf; lia).
  assert (Ha : adist i j < L) by (unfold adist; lia).
  rewrite stats_acf_circ by lia. f_equal.
  - destruct (Nat.le_ge_cases i j) as [H|H].
    + rewrite dot_cdelayed2 by lia. unfold ccorr. replace (j - i) with (adist i j) by (unfold adist; lia). auto.
    + rewrite dot_comm, dot_cdelayed2 by lia. unfold ccorr.
      replace (i - j) with (adist i j) by (unfold adist; lia). auto.
  - unfold loadv. destruct ld; [|destruct (i =? j); auto].
    destruct (Nat.eqb_spec i j); destruct (Nat.eqb_spec (adist i j) 0); auto;
      unfold adist in *; lia.
Qed.
Theorem sdr_crhs nf L x y l : l < L -> l < nf ->
  nth l (stats_xcorr nf L x y) 0%R = dot nf (cdelayed nf x l) (smp y).
Proof.
  intros HL Hl. rewrite stats_xcorr_circ by lia. rewrite dot_cdelayed by lia. reflexivity.
Qed.
Theorem sar_system_cgram b nf L ld k xs : 2 <= L -> L <= nf ->
  exists B, block_toeplitz b (2 * L) k k (block_acf nf L ld xs) = Ok B /\
    forall p q, p < L * k -> q < L * k ->
      B p q = (dot nf (all_cdelays nf k xs p) (all_cdelays nf k xs q)
               + if Nat.eqb p q then loadv ld else 0)%R.
Proof.
  intros HL2 HL.
  destruct (block_toeplitz_ok b (2 * L) k k (block_acf nf L ld xs)) as (B & E & HB).
  { lia. }
  { intros r c Hr Hc. rewrite length_block_acf by lia. lia. }
  exists B. split; auto. intros p q Hp Hq.
  destruct (lag_split k L p Hp) as (i & r & Hi & Hr & ->).
  destruct (lag_split k L q Hq) as (j & c & Hj & Hc & ->).
  rewrite Nat.mul_comm, Nat.div_mul in HB by lia.
  rewrite HB by auto. unfold all_cdelays.
  rewrite !lag_div, !lag_mod by auto.
  destruct (Nat.ltb_spec j i) as [H|H].
  - rewrite nth_block_acf by lia.
    replace (Nat.eqb (L * 2 - (i - j)) 0) with false by (symmetry; apply Nat.eqb_neq; lia).
    rewrite andb_false_r.
    replace (L * 2 - (i - j)) with (2 * Nat.min L nf - (i - j)) by lia.
    rewrite stats2_acf_last_c by lia.
    rewrite dot_comm, dot_cdelayed2 by lia. f_equal.
    destruct (Nat.eqb_spec (i * k + r) (j * k + c)) as [E2|E2]; auto.
    apply lag_inj in E2; auto. lia.
  - rewrite nth_block_acf by lia. rewrite stats2_acf_first_c by lia.
    rewrite dot_cdelayed2 by lia. f_equal.
    destruct (Nat.eqb_spec r c); destruct (Nat.eqb_spec (j - i) 0);
      destruct (Nat.eqb_spec (i * k + r) (j * k + c)) as [E2|E2]; simpl; auto;
      try (apply lag_inj in E2; auto; lia).
    exfalso. apply E2. subst. f_equal. f_equal. lia.
Qed.
Theorem sar_crhs nf L k xs y p : L <= nf -> p < L * k ->
  nth p (flatten k L (fun c => stats_xcorr nf L (xs c) y)) 0%R
  = dot nf (all_cdelays nf k xs p) (smp y).
Proof.
  intros HL Hp. destruct (lag_split k L p Hp) as (l & c & Hl & Hc & ->).
  rewrite nth_flatten by auto. unfold all_cdelays. rewrite lag_div, lag_mod by auto.
  apply sdr_crhs; lia.
Qed.

(** Without aliasing the circular delays are the plain ones. *)
Lemma cdelayed_plain nf x i t : i < nf -> t < nf -> length x + i <= nf ->
  cdelayed nf x i t = delayed x i t.
Proof.
  intros Hi Ht H. unfold cdelayed, delayed, smp. destruct (Nat.ltb_spec t i) as [Hlt|Hge].
  - rewrite Nat.mod_small by lia. apply nth_overflow. lia.
  - replace (t + (nf - i)) with (t - i + 1 * nf) by lia. rewrite Nat.mod_add by lia.
    rewrite Nat.mod_small by lia. reflexivity.
Qed.
