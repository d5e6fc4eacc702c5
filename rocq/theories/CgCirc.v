(** * The circulant preconditioner as a quadratic form; the SDR system (C42, C43) *)
From Coq Require Import Reals Lra.
From Coquelicot Require Import Complex.
From Verif Require Import Prelude ExtReal Slice Sums SpecSig Fft FftProofs Helpers Linalg LinalgProofs
  Cgd Metrics StatsProofs LeastSq PrepProofs MetricsProofs SarProofs CgdOps CgdPrecond CgProofs.
Local Open Scope nat_scope.

(** ** Spectrum of the circulant approximation *)
Definition spec (col : list R) (k : nat) : R := Re (dft (length col) (smp (sym_col col)) k).
Definition gain_at (col : list R) (k : nat) : R := (spec col k / Rmax (spec col k ^ 2) cg_eps)%R.

Lemma sym_col_sym col k : 0 < k -> k < length col ->
  smp (sym_col col) (length col - k) = smp (sym_col col) k.
Proof.
  intros H0 Hk. unfold smp, sym_col. cbv zeta. rewrite !nth_tab by lia.
  destruct (Nat.eqb_spec (length col - k) 0); [lia|]. destruct (Nat.eqb_spec k 0); [lia|].
  replace (length col - (length col - k)) with k by lia. rewrite minus_INR by lia. f_equal. ring.
Qed.

Lemma dft_conj_idx n x k : 0 < n ->
  Cconj (dft n x k) = dft n (fun t => x ((n - t) mod n)) k.
Proof.
  intros Hn. unfold dft.
  rewrite Cconj_Csum. destruct n as [|n]; [lia|]. rewrite !Csum_S_l. f_equal.
  - rewrite Nat.sub_0_r, Nat.mod_same by lia. rewrite !Nat.mul_0_r, E_0.
    unfold Cconj, Cmult, RtoC. simpl. f_equal; ring.
  - assert (Hr : forall m (f : nat -> C), Csum m f = Csum m (fun i => f (m - 1 - i))).
    { intros m f. apply injective_projections.
      - rewrite (Re_Csum m f : fst _ = _), (Re_Csum m (fun i => f (m - 1 - i)) : fst _ = _). apply Rsum_rev.
      - rewrite (Im_Csum m f : snd _ = _), (Im_Csum m (fun i => f (m - 1 - i)) : snd _ = _). apply Rsum_rev. }
    rewrite (Hr n). apply Csum_ext. intros i Hi.
    rewrite Cconj_mult, Cconj_RtoC, Cconj_conj.
    replace ((S n - S i) mod S n) with (n - i) by (rewrite Nat.mod_small by lia; lia).
    replace (S (n - 1 - i)) with (n - i) by lia. f_equal.
    rewrite <- (Cconj_conj (E (S n) (k * (n - i)))). f_equal.
    apply E_conj_eq with (k := k); [lia|]. nia.
Qed.

Lemma spec_real col k : 0 < length col ->
  dft (length col) (smp (sym_col col)) k = RtoC (spec col k).
Proof.
  intros Hn. unfold spec.
  assert (H : Cconj (dft (length col) (smp (sym_col col)) k) = dft (length col) (smp (sym_col col)) k).
  { rewrite dft_conj_idx by auto. unfold dft. apply Csum_ext. intros t Ht. f_equal. f_equal.
    destruct t as [|t].
    - rewrite Nat.sub_0_r, Nat.mod_same by lia. reflexivity.
    - rewrite Nat.mod_small by lia. apply sym_col_sym; lia. }
  destruct (dft (length col) (smp (sym_col col)) k) as [a c]. unfold Cconj in H. simpl in H.
  injection H as H. unfold RtoC. simpl. f_equal. lra.
Qed.
Lemma precond_real (s : R) : precond_freq NumPy (RtoC s) = RtoC (s / Rmax (s ^ 2) cg_eps)%R.
Proof.
  unfold precond_freq. cbv zeta. rewrite Cconj_RtoC. change (fst (RtoC s)) with s. change (snd (RtoC s)) with 0%R.
  replace (s ^ 2 + 0 ^ 2)%R with (s ^ 2)%R by ring. unfold Cdiv.
  rewrite <- RtoC_inv, <- RtoC_mult. 2:{ apply Rgt_not_eq. apply max_eps_pos. }
  reflexivity.
Qed.
Lemma spec_mirror col k : 0 < k -> k < length col -> spec col (length col - k) = spec col k.
Proof. intros H0 Hk. unfold spec. rewrite dft_sym by auto. apply Re_conj. Qed.

(** The preconditioner in the frequency domain. *)
Lemma circ_prec_full col v t : t < length col ->
  nth t (circ_prec col v) 0%R =
  (/ INR (length col) * Rsum (length col) (fun k => gain_at col k *
     Re (Cmult (dft (length col) (smp v) k) (E (length col) (k * t)))))%R.
Proof.
  intros Ht. set (n := length col) in *. assert (Hn : 0 < n) by lia.
  unfold circ_prec. fold n. cbv zeta.
  rewrite (irfft_full n (fun k => Cmult (RtoC (gain_at col k)) (dft n (smp v) k))); auto.
  - f_equal. rewrite Re_Csum. apply Rsum_ext. intros k Hk.
    rewrite <- Cmult_assoc. unfold Re, Cmult, RtoC. simpl. ring.
  - intros k Hk.
    assert (Hk1 : k < length (map (precond_freq NumPy) (rfft n (sym_col col)))) by (rewrite map_length, length_rfft; lia).
    rewrite (nth_zip_with Cmult _ _ _ (precond_freq NumPy (RtoC 0)) (RtoC 0)) by (auto; rewrite length_rfft; lia).
    rewrite (map_nth (precond_freq NumPy) (rfft n (sym_col col)) (RtoC 0)).
    rewrite !rfft_dft by auto. fold (smp v). f_equal.
    change (fun t0 : nat => nth t0 (sym_col col) 0%R) with (smp (sym_col col)).
    unfold n. rewrite spec_real by (fold n; lia). rewrite precond_real. reflexivity.
  - intros k H0 Hk. rewrite dft_sym by auto. rewrite Cconj_mult, Cconj_RtoC. f_equal.
    unfold gain_at, n. rewrite spec_mirror by (fold n; auto). reflexivity.
Qed.

(** <u, P v> as a weighted inner product of spectra. *)
Lemma circ_form col u v :
  dotl (length col) u (circ_prec col v) =
  (/ INR (length col) * Rsum (length col) (fun k => gain_at col k *
     Re (Cmult (dft (length col) (smp v) k) (Cconj (dft (length col) (smp u) k)))))%R.
Proof.
  set (n := length col). unfold dotl.
  rewrite (Rsum_ext n _ (fun t => / INR n * Rsum n (fun k => gain_at col k *
       (nth t u 0 * Re (Cmult (dft n (smp v) k) (E n (k * t))))))%R).
  2:{ intros t Ht. rewrite circ_prec_full by auto. fold n.
      rewrite <- Rmult_assoc, (Rmult_comm (nth t u 0%R)), Rmult_assoc. f_equal.
      rewrite <- Rsum_scal_l. apply Rsum_ext. intros k Hk. ring. }
  rewrite Rsum_scal_l. f_equal. rewrite Rsum_swap. apply Rsum_ext. intros k Hk.
  rewrite Rsum_scal_l. f_equal.
  replace (Cconj (dft n (smp u) k)) with (Csum n (fun t => Cmult (RtoC (smp u t)) (E n (k * t)))).
  - rewrite <- Csum_scal_l, Re_Csum. apply Rsum_ext. intros t Ht.
    change (nth t u 0%R) with (smp u t).
    destruct (dft n (smp v) k) as [a c], (E n (k * t)) as [d e]. unfold Re, Cmult, RtoC. simpl. ring.
  - unfold dft. rewrite Cconj_Csum. apply Csum_ext. intros t Ht.
    rewrite Cconj_mult, Cconj_RtoC, Cconj_conj. reflexivity.
Qed.

Theorem circ_prec_sym col u v :
  dotl (length col) (circ_prec col u) v = dotl (length col) u (circ_prec col v).
Proof.
  rewrite dotl_comm, !circ_form. f_equal. apply Rsum_ext. intros k Hk. f_equal.
  unfold Re, Cmult, Cconj. simpl. ring.
Qed.
Lemma dft_zero n x k : (forall t, t < n -> x t = 0%R) -> dft n x k = RtoC 0.
Proof. intros H. apply Csum_zero. intros t Ht. rewrite H by auto. apply Cmult_0_l. Qed.
Theorem circ_prec_zero col v : zero_vec (length col) v -> zero_vec (length col) (circ_prec col v).
Proof.
  intros H t Ht. rewrite circ_prec_full by auto. rewrite Rsum_zero; [ring|].
  intros k Hk. rewrite dft_zero by auto. rewrite Cmult_0_l. simpl. ring.
Qed.

(** ** Positivity *)
Lemma spec_rayleigh col k : 0 < length col ->
  let n := length col in
  let T := fun i j => nth (adist i j) col 0%R in
  spec col k = (/ INR n * (Rsum n (fun i => cos (ang n (k * i)) * Rmv n T (fun j => cos (ang n (k * j))) i) +
                           Rsum n (fun i => sin (ang n (k * i)) * Rmv n T (fun j => sin (ang n (k * j))) i)))%R.
Proof.
  intros Hn n T.
  assert (Hn0 : INR n <> 0%R) by (apply not_0_INR; unfold n; lia).
  (* right-hand side as a double sum over differences *)
  assert (E1 : (Rsum n (fun i => cos (ang n (k * i)) * Rmv n T (fun j => cos (ang n (k * j))) i) +
                Rsum n (fun i => sin (ang n (k * i)) * Rmv n T (fun j => sin (ang n (k * j))) i))%R =
     Rsum n (fun j => Rsum n (fun m => T ((m + j) mod n)%nat j * cos (ang n (k * m))))%R).
  { rewrite <- Rsum_plus.
    rewrite (Rsum_ext n _ (fun i => Rsum n (fun j => T i j * cos (ang n (k * i) - ang n (k * j)))%R)).
    2:{ intros i Hi. unfold Rmv. rewrite <- !Rsum_scal_l, <- Rsum_plus. apply Rsum_ext. intros j Hj.
        rewrite cos_minus. ring. }
    rewrite Rsum_swap. apply Rsum_ext. intros j Hj.
    rewrite <- (Rsum_cyclic n j (fun i => T i j * cos (ang n (k * i) - ang n (k * j)))%R) by lia.
    apply Rsum_ext. intros m Hm. f_equal.
    (* cos depends on m only *)
    assert (HE : Cmult (E n (k * ((m + j) mod n))) (Cconj (E n (k * j))) = E n (k * m)).
    { replace (E n (k * ((m + j) mod n))) with (E n (k * m + k * j)).
      - rewrite E_add, <- Cmult_assoc. unfold E at 2 3. rewrite Cmod1. apply Cmult_1_r.
      - assert (Hd : k * m + k * j = k * ((m + j) mod n) + k * ((m + j) / n) * n).
        { rewrite <- Nat.mul_add_distr_l. rewrite (Nat.div_mod (m + j) n) at 1 by lia. nia. }
        apply (E_period n _ _ (k * ((m + j) / n))); [lia|]. exact Hd. }
    assert (HR : forall a b, (cos (a - b) = Re (Cmult (cis a) (Cconj (cis b))))%R).
    { intros a c. rewrite cos_minus. unfold cis, Re, Cmult, Cconj. simpl. ring. }
    rewrite HR. fold (E n (k * ((m + j) mod n))) (E n (k * j)). rewrite HE. reflexivity. }
  rewrite E1, Rsum_swap. unfold spec. fold n.
  unfold dft. rewrite Re_Csum, <- Rsum_scal_l. apply Rsum_ext. intros m Hm.
  rewrite Rsum_scal_r. rewrite <- Rmult_assoc.
  replace (Re (Cmult (RtoC (smp (sym_col col) m)) (Cconj (E n (k * m)))))%R
    with (smp (sym_col col) m * cos (ang n (k * m)))%R by
    (unfold Re, Cmult, RtoC, Cconj, E, cis; simpl; ring).
  f_equal.
  (* the column is the mean of the diagonals *)
  unfold smp, sym_col. fold n. cbv zeta. rewrite nth_tab by auto. unfold T.
  destruct (Nat.eqb_spec m 0) as [->|N].
  - rewrite (Rsum_ext n _ (fun _ => nth 0 col 0%R)).
    + rewrite Rsum_const. field. auto.
    + intros j Hj. rewrite Nat.mod_small by lia. unfold adist. f_equal. lia.
  - rewrite (diag_split n m _ (nth m col 0%R) (nth (n - m) col 0%R)); auto.
    + field. auto.
    + intros j Hj. rewrite Nat.mod_small by lia. unfold adist. f_equal. lia.
    + intros j Hj1 Hj2. replace ((m + j) mod n) with (m + j - n).
      * unfold adist. f_equal. lia.
      * symmetry. replace (m + j) with (m + j - n + 1 * n) at 1 by lia.
        rewrite Nat.mod_add by lia. apply Nat.mod_small. lia.
Qed.

Theorem circ_prec_pos col v : psd_mat (length col) (fun i j => nth (adist i j) col 0%R) ->
  (0 <= dotl (length col) v (circ_prec col v))%R.
Proof.
  intros Hpsd. destruct col as [|c0 col']; [unfold dotl; simpl; lra|]. set (col := c0 :: col') in *.
  assert (Hn : 0 < length col) by (simpl; lia). assert (0 < INR (length col))%R by (apply lt_0_INR; auto).
  rewrite circ_form. apply Rmult_le_pos; [left; apply Rinv_0_lt_compat; auto|].
  apply Rsum_nonneg. intros k Hk. apply Rmult_le_pos.
  - unfold gain_at. apply Rmult_le_pos.
    + rewrite spec_rayleigh by auto. cbv zeta.
      apply Rmult_le_pos; [left; apply Rinv_0_lt_compat; auto|]. apply Rplus_le_le_0_compat; apply Hpsd.
    + left. apply Rinv_0_lt_compat, max_eps_pos.
  - destruct (dft (length col) (smp v) k) as [a b]. unfold Re, Cmult, Cconj. simpl. nra.
Qed.

(** ** The dense operator *)
Lemma dense_acts b acf : acts_as (length acf) (dense_toeplitz acf) (ent (toeplitz b acf)).
Proof.
  intros v i Hv Hi. rewrite <- (toeplitz_op_dense b) by lia. apply toeplitz_op_matrix; auto.
Qed.
Lemma toeplitz_sym b acf : symmetric_mat (length acf) (ent (toeplitz b acf)).
Proof. intros i j Hi Hj. rewrite !toeplitz_entry by auto. rewrite adist_sym. reflexivity. Qed.
Lemma psd_ext n M M' : (forall i j, i < n -> j < n -> M i j = M' i j) -> psd_mat n M -> psd_mat n M'.
Proof.
  intros H Hp v. rewrite (Rsum_ext n _ (fun i => v i * Rmv n M v i)%R); [apply Hp|].
  intros i Hi. f_equal. apply Rsum_ext. intros j Hj. rewrite H by auto. reflexivity.
Qed.
Lemma gram_psd K M a lam : (0 <= lam)%R -> psd_mat K (gram M a lam).
Proof.
  intros Hl v. rewrite gram_form. pose proof (energy_nonneg M (comb K a v)). unfold energy in H.
  pose proof (sq_nonneg K v). pose proof (Rmult_le_pos _ _ Hl H0). unfold sq in *. lra.
Qed.
Lemma sdr_system_psd b nf L ld x : (0 <= loadv ld)%R ->
  psd_mat (length (add_load ld (stats_acf nf L x))) (ent (toeplitz b (add_load ld (stats_acf nf L x)))).
Proof.
  intros Hl. rewrite length_loaded. apply (psd_ext _ (gram nf (cdelayed nf x) (loadv ld))).
  - intros i j Hi Hj. rewrite stats_acf_min. symmetry. apply toep_gram; lia.
  - apply gram_psd; auto.
Qed.

(** C42 for the SDR system. *)
Definition quad_err (n : nat) (M : nat -> nat -> R) (b : list R) (x : list R) : R :=
  (Rsum n (fun i => smp x i * Rmv n M (smp x) i) - 2 * Rsum n (fun i => nth i b 0 * nth i x 0))%R.
Theorem toeplitz_cg_descent b acf xc it s s' :
  psd_mat (length acf) (ent (toeplitz b acf)) ->
  toeplitz_cg b acf xc it = Ok s -> toeplitz_cg b acf xc (S it) = Ok s' ->
  (quad_err (length acf) (ent (toeplitz b acf)) xc s' <= quad_err (length acf) (ent (toeplitz b acf)) xc s)%R.
Proof.
  intros Hp H1 H2. rewrite toeplitz_cg_ok in H1, H2.
  destruct (length acf =? length xc); [|discriminate].
  injection H1 as <-. injection H2 as <-. unfold toeplitz_cg_spec, conjugate_gradient.
  pose proof (cg_monotone (length acf) (dense_toeplitz acf) (circ_prec acf) (ent (toeplitz b acf)) xc
    (repeat 0%R (length acf)) (dense_acts b acf) (repeat_length _ _)
    (fun v _ => length_circ_prec acf v) (toeplitz_sym b acf) Hp) as Hm.
  specialize (Hm (fun v _ => circ_prec_pos acf v
    (psd_ext _ _ _ (fun i j Hi Hj => toeplitz_entry b acf i j Hi Hj) Hp)) it 1).
  rewrite Nat.add_1_r in Hm. exact Hm.
Qed.

(** C43: enough iterations give the direct solution. *)
Definition cg_inactive (acf xc : list R) (k : nat) : Prop :=
  let s := cg_run (length acf) (dense_toeplitz acf) (circ_prec acf) xc (repeat 0%R (length acf)) k in
  (exists i, i < length acf /\ nth i (cg_r s) 0%R <> 0%R) ->
  (cg_eps <= dotl (length acf) (cg_p s) (dense_toeplitz acf (cg_p s)))%R /\ (cg_eps <= cg_rs s)%R.
Lemma not_zero_ex n v : ~ zero_vec n v -> exists i, i < n /\ nth i v 0%R <> 0%R.
Proof.
  intros H. induction n as [|n IH].
  - exfalso. apply H. intros i Hi. lia.
  - destruct (Req_EM_T (nth n v 0%R) 0) as [E|E].
    + destruct IH as (i & Hi & Hv); [|exists i; split; [lia|auto]].
      intros Hz. apply H. intros i Hi. destruct (Nat.eq_dec i n) as [->|]; auto. apply Hz. lia.
    + exists n. auto.
Qed.
Theorem toeplitz_cg_exact b acf xc it : length xc = length acf -> length acf <= it ->
  (forall k, k < length acf -> cg_inactive acf xc k) ->
  exists s, toeplitz_cg b acf xc it = Ok s /\ length s = length acf /\
    forall i, i < length acf -> Rmv (length acf) (ent (toeplitz b acf)) (smp s) i = nth i xc 0%R.
Proof.
  intros Hl Hit Hin. rewrite toeplitz_cg_ok, Hl, Nat.eqb_refl. eexists. split; [reflexivity|].
  unfold toeplitz_cg_spec, conjugate_gradient.
  split; [apply cg_run_len; [apply repeat_length|intros; apply length_circ_prec]|].
  apply (cg_exact (length acf) (dense_toeplitz acf) (circ_prec acf) (ent (toeplitz b acf)) xc
    (repeat 0%R (length acf)) (dense_acts b acf) (repeat_length _ _)
    (fun v _ => length_circ_prec acf v) (toeplitz_sym b acf)); auto.
  - intros v _. apply circ_prec_zero.
  - intros u v _ _. apply circ_prec_sym.
  - intros k Hk Hz. apply (Hin k Hk). apply not_zero_ex. exact Hz.
Qed.
