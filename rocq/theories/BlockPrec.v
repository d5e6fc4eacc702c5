(** * The block circulant preconditioner is symmetric positive definite (C64) *)
From Coq Require Import Reals Lra FunctionalExtensionality.
From Coquelicot Require Import Complex.
From Verif Require Import Prelude ExtReal Slice Sums SpecSig Fft FftProofs Helpers Linalg LinalgProofs
  Cgd Metrics StatsProofs LeastSq PrepProofs MetricsProofs SarProofs ProjTheorems MetricTheorems
  CgdOps CgdPrecond CgProofs CgCirc Cells CgTheorems CgRate CgRateToep.
Local Open Scope nat_scope.

Lemma Csum_prod n m f : Csum (n * m) f = Csum n (fun i => Csum m (fun j => f (i * m + j))).
Proof. apply (gsum_prod _ _ _ _ _ _ Crt). Qed.
Lemma Csum_cyclic n k f : k <= n -> Csum n (fun i => f ((i + k) mod n)) = Csum n f.
Proof. apply (gsum_cyclic _ _ _ _ _ _ Crt). Qed.

(** ** Sums over the entries of a matrix, by diagonals *)
Lemma E_diff n f m j : 0 < n -> Cmult (Cconj (E n (f * ((m + j) mod n)))) (E n (f * j)) = Cconj (E n (f * m)).
Proof.
  intros Hn.
  assert (HE : Cmult (E n (f * ((m + j) mod n))) (Cconj (E n (f * j))) = E n (f * m)).
  { replace (E n (f * ((m + j) mod n))) with (E n (f * m + f * j)).
    - rewrite E_add, <- Cmult_assoc. unfold E at 2 3. rewrite Cmod1. apply Cmult_1_r.
    - assert (Hd : f * m + f * j = f * ((m + j) mod n) + f * ((m + j) / n) * n).
      { rewrite <- Nat.mul_add_distr_l. rewrite (Nat.div_mod (m + j) n) at 1 by lia. nia. }
      apply (E_period n _ _ (f * ((m + j) / n))); [lia|]. exact Hd. }
  rewrite <- HE, Cconj_mult, Cconj_conj. reflexivity.
Qed.
Lemma diag_sums n f (T : nat -> nat -> R) : 0 < n ->
  Csum n (fun i => Csum n (fun j => Cmult (RtoC (T i j)) (Cmult (Cconj (E n (f * i))) (E n (f * j))))) =
  Csum n (fun m => Cmult (RtoC (Rsum n (fun j => T ((m + j) mod n) j))) (Cconj (E n (f * m)))).
Proof.
  intros Hn. rewrite Csum_swap.
  rewrite (Csum_ext n _ (fun j => Csum n (fun m => Cmult (RtoC (T ((m + j) mod n) j)) (Cconj (E n (f * m)))))).
  - rewrite Csum_swap. apply Csum_ext. intros m Hm. rewrite <- Csum_RtoC, <- Csum_scal_r. reflexivity.
  - intros j Hj. rewrite <- (Csum_cyclic n j) by lia. apply Csum_ext. intros m Hm. rewrite E_diff by auto. reflexivity.
Qed.

Section Block.
Variables (k n : nat) (col : nat -> nat -> list R).
Hypothesis Hn : 0 < n.

(** the system matrix, rows and columns in lag-major order *)
Definition bmat (p q : nat) : R := blk_ent (2 * n) col (p mod k) (p / k) (q mod k) (q / k).
(** the frequency blocks of the preconditioner *)
Definition fblk (f r s : nat) : C := dft n (smp (nonsym_col n (col r s))) f.

Lemma fblk_sums f r s : fblk f r s =
  Cmult (RtoC (/ INR n)) (Csum n (fun i => Csum n (fun j => Cmult (RtoC (blk_ent (2 * n) col r i s j))
    (Cmult (Cconj (E n (f * i))) (E n (f * j)))))).
Proof.
  assert (Hn0 : INR n <> 0%R) by (apply not_0_INR; lia).
  rewrite diag_sums by auto. rewrite <- Csum_scal_l. unfold fblk, dft. apply Csum_ext. intros m Hm.
  rewrite Cmult_assoc. f_equal. rewrite <- RtoC_mult. f_equal.
  unfold smp, nonsym_col. rewrite nth_tab by auto.
  destruct (Nat.eqb_spec m 0) as [->|N].
  - rewrite (Rsum_ext n _ (fun _ => nth 0 (col r s) 0%R)).
    + rewrite Rsum_const. field. auto.
    + intros j Hj. rewrite Nat.mod_small by lia. unfold blk_ent. destruct (Nat.ltb_spec j (0 + j)); [lia|]. f_equal. lia.
  - rewrite (diag_split n m _ (nth (2 * n - m) (col r s) 0%R) (nth (n - m) (col r s) 0%R)); auto.
    + field. auto.
    + intros j Hj. rewrite Nat.mod_small by lia. unfold blk_ent. destruct (Nat.ltb_spec j (m + j)); [|lia]. f_equal. lia.
    + intros j Hj1 Hj2. replace ((m + j) mod n) with (m + j - n).
      * unfold blk_ent. destruct (Nat.ltb_spec j (m + j - n)); [lia|]. f_equal. lia.
      * symmetry. replace (m + j) with (m + j - n + 1 * n) at 1 by lia.
        rewrite Nat.mod_add by lia. apply Nat.mod_small. lia.
Qed.

(** ** Quadratic forms of the frequency blocks *)
Definition hform (f : nat) (w : nat -> C) : C :=
  Csum k (fun r => Cmult (Cconj (w r)) (Cmv k (fblk f) w r)).
Definition wave (f : nat) (w : nat -> C) (p : nat) : C := Cmult (E n (f * (p / k))) (w (p mod k)).

Lemma hform_sums f w : hform f w = Cmult (RtoC (/ INR n))
  (Csum (n * k) (fun p => Csum (n * k) (fun q => Cmult (RtoC (bmat p q)) (Cmult (Cconj (wave f w p)) (wave f w q))))).
Proof.
  unfold hform, mulmv.
  rewrite Csum_prod, Csum_swap, <- Csum_scal_l. apply Csum_ext. intros r Hr.
  rewrite (Csum_ext n _ (fun i => Csum k (fun s => Csum n (fun j => Cmult (Cmult (Cconj (w r)) (w s))
    (Cmult (RtoC (blk_ent (2 * n) col r i s j)) (Cmult (Cconj (E n (f * i))) (E n (f * j)))))))).
  2:{ intros i Hi. rewrite Csum_prod, Csum_swap. apply Csum_ext. intros s Hs. apply Csum_ext. intros j Hj.
      unfold bmat, wave. rewrite !lag_div, !lag_mod by auto. rewrite Cconj_mult. ring. }
  rewrite Csum_swap, <- !Csum_scal_l. apply Csum_ext. intros s Hs.
  rewrite (Csum_ext n (fun i => Csum n _) (fun i => Cmult (Cmult (Cconj (w r)) (w s)) (Csum n (fun j =>
    Cmult (RtoC (blk_ent (2 * n) col r i s j)) (Cmult (Cconj (E n (f * i))) (E n (f * j)))))))
    by (intros; apply Csum_scal_l).
  rewrite Csum_scal_l, fblk_sums. ring.
Qed.
Lemma hform_real f w : Re (hform f w) =
  (/ INR n * (form (n * k) bmat (fun p => Re (wave f w p)) (fun p => Re (wave f w p)) +
              form (n * k) bmat (fun p => Im (wave f w p)) (fun p => Im (wave f w p))))%R.
Proof.
  rewrite hform_sums.
  assert (E1 : forall a z, Re (Cmult (RtoC a) z) = (a * Re z)%R).
  { intros a [x y]. unfold Re, Cmult, RtoC. simpl. ring. }
  rewrite E1. f_equal. rewrite Re_Csum. unfold form. rewrite <- Rsum_plus. apply Rsum_ext. intros p Hp.
  rewrite Re_Csum. unfold mulmv. rewrite <- !Rsum_scal_l, <- Rsum_plus. apply Rsum_ext. intros q Hq. rewrite E1.
  destruct (wave f w p) as [a c], (wave f w q) as [a' c']. unfold Re, Im, Cmult, Cconj. simpl. ring.
Qed.

(** ** Symmetric positive definite systems *)
Hypotheses (Hsym : symmetric_mat (n * k) bmat) (Hpsd : psd_mat (n * k) bmat).

Lemma blk_sym r i s j : r < k -> s < k -> i < n -> j < n ->
  blk_ent (2 * n) col r i s j = blk_ent (2 * n) col s j r i.
Proof.
  intros Hr Hs Hi Hj. pose proof (Hsym (i * k + r) (j * k + s)) as H. unfold bmat in H.
  rewrite !lag_div, !lag_mod in H by auto. apply H; nia.
Qed.
Lemma fblk_herm f r s : r < k -> s < k -> fblk f s r = Cconj (fblk f r s).
Proof.
  intros Hr Hs. rewrite !fblk_sums. rewrite Cconj_mult, Cconj_RtoC. f_equal.
  rewrite Cconj_Csum, Csum_swap. apply Csum_ext. intros i Hi. rewrite Cconj_Csum. apply Csum_ext. intros j Hj.
  rewrite !Cconj_mult, Cconj_RtoC, Cconj_conj. rewrite (blk_sym r i s j) by auto. ring.
Qed.
Lemma fblk_mirror f r s : 0 < f -> f < n -> fblk (n - f) r s = Cconj (fblk f r s).
Proof. intros. apply dft_sym; auto. Qed.

Lemma hform_nonneg f w : (0 <= Re (hform f w))%R.
Proof.
  rewrite hform_real. apply Rmult_le_pos; [left; apply Rinv_0_lt_compat, lt_0_INR; auto|].
  apply Rplus_le_le_0_compat; apply Hpsd.
Qed.
Lemma hform_kernel f w : Re (hform f w) = 0%R -> forall p, p < n * k ->
  Rmv (n * k) bmat (fun p => Re (wave f w p)) p = 0%R /\ Rmv (n * k) bmat (fun p => Im (wave f w p)) p = 0%R.
Proof.
  intros H. rewrite hform_real in H.
  assert (P : (0 < / INR n)%R) by (apply Rinv_0_lt_compat, lt_0_INR; auto).
  set (a := fun p => Re (wave f w p)) in *. set (c := fun p => Im (wave f w p)) in *.
  assert (Pa : (0 <= form (n * k) bmat a a)%R) by apply Hpsd.
  assert (Pc : (0 <= form (n * k) bmat c c)%R) by apply Hpsd.
  assert (Za : form (n * k) bmat a a = 0%R) by nra. assert (Zc : form (n * k) bmat c c = 0%R) by nra.
  intros p Hp. split; apply form_zero; auto.
Qed.
(** a singular frequency block is a sinusoid in the kernel of the system *)
Lemma fblk_kernel f w : (forall r, r < k -> Cmv k (fblk f) w r = RtoC 0) <->
  (forall p, p < n * k -> Rmv (n * k) bmat (fun p => Re (wave f w p)) p = 0%R /\
                          Rmv (n * k) bmat (fun p => Im (wave f w p)) p = 0%R).
Proof.
  split.
  - intros H. apply hform_kernel. unfold hform. rewrite Csum_zero; [reflexivity|].
    intros r Hr. rewrite H by auto. apply Cmult_0_r.
  - intros H r Hr.
    assert (HC : forall i, i < n -> Csum (n * k) (fun q => Cmult (RtoC (bmat (i * k + r) q)) (wave f w q)) = RtoC 0).
    { intros i Hi. destruct (H (i * k + r) ltac:(nia)) as [H1 H2].
      assert (E1 : forall a z, Re (Cmult (RtoC a) z) = (a * Re z)%R) by
        (intros a [u v]; unfold Re, Cmult, RtoC; simpl; ring).
      assert (E2 : forall a z, Im (Cmult (RtoC a) z) = (a * Im z)%R) by
        (intros a [u v]; unfold Im, Cmult, RtoC; simpl; ring).
      apply injective_projections.
      - change (fst (RtoC 0)) with 0%R. etransitivity; [apply (Re_Csum (n * k))|]. etransitivity; [|exact H1]. apply Rsum_ext.
        intros q Hq. apply E1.
      - change (snd (RtoC 0)) with 0%R. etransitivity; [apply (Im_Csum (n * k))|]. etransitivity; [|exact H2]. apply Rsum_ext.
        intros q Hq. apply E2. }
    unfold mulmv.
    rewrite (Csum_ext k _ (fun s => Csum n (fun i => Cmult (Cmult (RtoC (/ INR n)) (Cconj (E n (f * i))))
       (Csum n (fun j => Cmult (RtoC (blk_ent (2 * n) col r i s j)) (Cmult (E n (f * j)) (w s))))))).
    2:{ intros s Hs. rewrite fblk_sums, <- Csum_scal_l, <- Csum_scal_r. apply Csum_ext. intros i Hi.
        rewrite <- !Csum_scal_l, <- Csum_scal_r. apply Csum_ext. intros j Hj. ring. }
    rewrite Csum_swap. apply Csum_zero. intros i Hi. rewrite Csum_scal_l.
    match goal with |- Cmult _ ?u = _ => replace u with (RtoC 0); [apply Cmult_0_r|] end.
    symmetry. etransitivity; [|exact (HC i Hi)]. rewrite Csum_prod, Csum_swap. apply Csum_ext. intros s Hs. apply Csum_ext. intros j Hj.
    unfold bmat, wave. rewrite !lag_div, !lag_mod by auto. reflexivity.
Qed.
Definition nonzero_w (w : nat -> C) : Prop := exists r, r < k /\ w r <> RtoC 0.
Definition sing_at (f : nat) : Prop := exists w, nonzero_w w /\ forall p, p < n * k ->
  Rmv (n * k) bmat (fun p => Re (wave f w p)) p = 0%R /\ Rmv (n * k) bmat (fun p => Im (wave f w p)) p = 0%R.
Lemma fblk_solve_iff f b : (exists x, Csolve k (fblk f) b = Some x) <-> ~ sing_at f.
Proof.
  split.
  - intros (x & E) (w & (r & Hr & Hw) & Hz). apply Hw. apply (Csolve_inj _ _ _ _ w E); auto.
    apply (proj2 (fblk_kernel f w) Hz).
  - intros H. destruct (Csolve k (fblk f) b) as [x|] eqn:E; [eauto|]. exfalso. apply H.
    destruct (Csolve_none _ _ _ E) as (w & Hw & Hz). exists w. split; auto. apply (fblk_kernel f w). exact Hz.
Qed.
Lemma fblk_eq f : f <= n / 2 -> (fun r s => nth f (rfft n (nonsym_col n (col r s))) (RtoC 0)) = fblk f.
Proof.
  intros Hf. apply functional_extensionality. intros r. apply functional_extensionality. intros s.
  unfold fblk, smp. apply rfft_dft. lia.
Qed.
(** the per-frequency inverses fail exactly on such sinusoids *)
Theorem prec_inv_raises : (forall e, prec_inv k n col = Raise e -> e = LinAlgError) /\
  ((exists inv, prec_inv k n col = Ok inv) <-> forall f, f <= n / 2 -> ~ sing_at f).
Proof.
  assert (HF : forall f, f <= n / 2 -> ~ sing_at f -> exists G, cinv k (fun r s => nth f (rfft n (nonsym_col n (col r s))) (RtoC 0)) = Ok G).
  { intros f Hf H. rewrite fblk_eq by auto. unfold cinv.
    destruct (proj2 (fblk_solve_iff f (fun _ => RtoC 0)) H) as (x & ->). eauto. }
  split; [|split].
  - unfold prec_inv. generalize (seq 0 (n / 2 + 1)). intros l. induction l as [|f l IH]; [discriminate|].
    cbn [mapM]. intros e H. unfold cinv in H at 1.
    destruct (Csolve k _ _); cbn [bind] in H; [|congruence].
    match type of H with context [mapM ?g l] => destruct (mapM g l) as [t|e'] eqn:E end; cbn [bind] in H; [discriminate|].
    injection H as <-. apply IH. reflexivity.
  - intros (inv & H) f Hf. assert (Hin : In f (seq 0 (n / 2 + 1))) by (apply in_seq; lia).
    destruct (mapM_ok_all _ _ _ f H Hin) as (G & E). rewrite fblk_eq in E by auto. unfold cinv in E.
    apply (fblk_solve_iff f (fun _ => RtoC 0)). destruct (Csolve k (fblk f) (fun _ => RtoC 0)); [eauto|discriminate].
  - intros H. unfold prec_inv.
    assert (HL : forall f, In f (seq 0 (n / 2 + 1)) -> f <= n / 2) by (intros f Hf; apply in_seq in Hf; lia).
    revert HL. generalize (seq 0 (n / 2 + 1)). intros l. induction l as [|f l IH]; intros HL; [eexists; reflexivity|].
    cbn [mapM]. destruct (HF f (HL f (or_introl eq_refl)) (H f (HL f (or_introl eq_refl)))) as (G & ->). cbn [bind].
    destruct IH as (t & ->); [intros g Hg; apply HL; right; auto|]. cbn [bind]. eexists. reflexivity.
Qed.

Hypothesis Hns : nonsingular (n * k) bmat.
Lemma hform_zero f w : Re (hform f w) = 0%R -> forall r, r < k -> w r = RtoC 0.
Proof.
  intros H r Hr. pose proof (hform_kernel f w H) as Z.
  assert (Hr' : 0 * k + r < n * k) by nia.
  assert (W : wave f w (0 * k + r) = w r).
  { unfold wave. rewrite lag_div, lag_mod by auto. rewrite Nat.mul_0_r, E_0. apply Cmult_1_l. }
  pose proof (Hns (fun p => Re (wave f w p)) (fun p Hp => proj1 (Z p Hp)) _ Hr') as A. cbv beta in A.
  pose proof (Hns (fun p => Im (wave f w p)) (fun p Hp => proj2 (Z p Hp)) _ Hr') as B. cbv beta in B.
  rewrite W in A, B. apply injective_projections; auto.
Qed.
Lemma fblk_inj f w : (forall r, r < k -> Cmv k (fblk f) w r = RtoC 0) -> forall r, r < k -> w r = RtoC 0.
Proof.
  intros H. apply (hform_zero f). unfold hform. rewrite Csum_zero; [reflexivity|].
  intros r Hr. rewrite H by auto. apply Cmult_0_r.
Qed.
Lemma fblk_solve f b : exists x, Csolve k (fblk f) b = Some x.
Proof.
  destruct (Csolve k (fblk f) b) as [x|] eqn:E; [eauto|].
  destruct (Csolve_none _ _ _ E) as (v & (j & Hj & Hv) & Hz). exfalso. apply Hv. apply (fblk_inj f); auto.
Qed.

(** the inverse blocks *)
Definition unit_col (s i : nat) : C := if Nat.eqb i s then RtoC 1 else RtoC 0.
Definition ginv (f r s : nat) : C := match Csolve k (fblk f) (unit_col s) with Some x => x r | None => RtoC 0 end.
Lemma ginv_right f r s : r < k -> Cmv k (fblk f) (fun i => ginv f i s) r = unit_col s r.
Proof.
  intros Hr. unfold ginv. destruct (fblk_solve f (unit_col s)) as (x & E). rewrite E.
  apply (Csolve_ok _ _ _ _ E); auto.
Qed.
Lemma ginv_uniq f s y : (forall r, r < k -> Cmv k (fblk f) y r = unit_col s r) -> forall r, r < k -> y r = ginv f r s.
Proof.
  intros H r Hr. unfold ginv. destruct (fblk_solve f (unit_col s)) as (x & E). rewrite E.
  apply (Csolve_uniq _ _ _ _ _ E); auto.
Qed.
Lemma unit_col_conj s i : Cconj (unit_col s i) = unit_col s i.
Proof. unfold unit_col. destruct (i =? s); apply Cconj_RtoC. Qed.
Lemma ginv_mirror f r s : 0 < f -> f < n -> r < k -> ginv (n - f) r s = Cconj (ginv f r s).
Proof.
  intros H0 Hf Hr. symmetry. apply (ginv_uniq (n - f) s (fun i => Cconj (ginv f i s))); auto.
  intros i Hi. rewrite <- (unit_col_conj s i), <- (ginv_right f i s) by auto. unfold mulmv. rewrite Cconj_Csum.
  apply Csum_ext. intros j Hj. rewrite fblk_mirror by auto. rewrite Cconj_mult. reflexivity.
Qed.
(** Hermitian form: (F z)^H y = z^H (F y) *)
Lemma fblk_adj f z y : Csum k (fun r => Cmult (Cconj (Cmv k (fblk f) z r)) (y r)) =
  Csum k (fun s => Cmult (Cconj (z s)) (Cmv k (fblk f) y s)).
Proof.
  unfold mulmv.
  rewrite (Csum_ext k _ (fun r => Csum k (fun s => Cmult (Cconj (z s)) (Cmult (fblk f s r) (y r))))).
  - rewrite Csum_swap. apply Csum_ext. intros s Hs. rewrite <- Csum_scal_l. reflexivity.
  - intros r Hr. rewrite Cconj_Csum, <- Csum_scal_r. apply Csum_ext. intros s Hs.
    rewrite Cconj_mult. rewrite (fblk_herm f r s) by auto. ring.
Qed.
Lemma unit_col_sum s (y : nat -> C) : s < k -> Csum k (fun r => Cmult (unit_col s r) (y r)) = y s.
Proof.
  intros Hs. rewrite (Csum_single k s); auto.
  - unfold unit_col. rewrite Nat.eqb_refl. apply Cmult_1_l.
  - intros i Hi Hne. unfold unit_col. destruct (Nat.eqb_spec i s); [contradiction|]. apply Cmult_0_l.
Qed.
Lemma ginv_herm f r s : r < k -> s < k -> ginv f r s = Cconj (ginv f s r).
Proof.
  intros Hr Hs. pose proof (fblk_adj f (fun i => ginv f i r) (fun i => ginv f i s)) as H.
  rewrite (Csum_ext k _ (fun i => Cmult (unit_col r i) (ginv f i s))) in H.
  2:{ intros i Hi. rewrite ginv_right by auto. rewrite unit_col_conj. reflexivity. }
  rewrite unit_col_sum in H by auto. rewrite H.
  rewrite (Csum_ext k _ (fun i => Cmult (unit_col s i) (Cconj (ginv f i r)))).
  2:{ intros i Hi. rewrite ginv_right by auto. apply Cmult_comm. }
  apply unit_col_sum; auto.
Qed.
(** F (G u) = u *)
Lemma ginv_apply f u r : r < k -> Cmv k (fblk f) (Cmv k (ginv f) u) r = u r.
Proof.
  intros Hr. unfold mulmv.
  rewrite (Csum_ext k _ (fun i => Csum k (fun s => Cmult (Cmult (fblk f r i) (ginv f i s)) (u s)))).
  2:{ intros i Hi. rewrite <- Csum_scal_l. apply Csum_ext. intros s Hs. ring. }
  rewrite Csum_swap. rewrite (Csum_ext k _ (fun s => Cmult (unit_col s r) (u s))).
  - rewrite (Csum_ext k _ (fun s => Cmult (unit_col r s) (u s))); [apply unit_col_sum; auto|].
    intros s Hs. unfold unit_col. rewrite Nat.eqb_sym. reflexivity.
  - intros s Hs. rewrite Csum_scal_r. f_equal. apply (ginv_right f r s); auto.
Qed.
Definition gform (f : nat) (u : nat -> C) : C := Csum k (fun r => Cmult (Cconj (u r)) (Cmv k (ginv f) u r)).
Lemma gform_hform f u : gform f u = hform f (Cmv k (ginv f) u).
Proof.
  unfold gform, hform. rewrite <- fblk_adj. apply Csum_ext. intros r Hr. rewrite ginv_apply by auto. reflexivity.
Qed.
Lemma gform_nonneg f u : (0 <= Re (gform f u))%R.
Proof. rewrite gform_hform. apply hform_nonneg. Qed.
Lemma gform_zero f u : Re (gform f u) = 0%R -> forall r, r < k -> u r = RtoC 0.
Proof.
  intros H r Hr. rewrite gform_hform in H. pose proof (hform_zero f _ H) as Z.
  rewrite <- (ginv_apply f u r) by auto. unfold mulmv at 1. apply Csum_zero. intros i Hi.
  rewrite Z by auto. apply Cmult_0_r.
Qed.

(** ** The inverses computed by the code *)
Definition inv_list : list (nat -> nat -> C) := map ginv (seq 0 (n / 2 + 1)).
Theorem prec_inv_ok : prec_inv k n col = Ok inv_list.
Proof.
  unfold prec_inv, inv_list. apply mapM_ok. intros f Hf. apply in_seq in Hf.
  unfold cinv. rewrite fblk_eq by lia. destruct (fblk_solve f (fun _ => RtoC 0)) as (x & E). rewrite E. reflexivity.
Qed.

Definition pmat (p q : nat) : R := (/ INR n * Rsum n (fun f => Re (Cmult (ginv f (p mod k) (q mod k))
  (Cmult (Cconj (E n (f * (q / k)))) (E n (f * (p / k)))))))%R.
Lemma pmat_acts : acts_as (n * k) (block_prec k n inv_list) pmat.
Proof.
  intros v p Hv Hp. destruct (lag_split k n p Hp) as (t & r & Ht & Hr & ->).
  unfold block_prec. rewrite nth_flatten by auto. unfold block_apply.
  rewrite (irfft_full n (fun f => Csum k (fun c => Cmult (ginv f r c) (dft n (smp (chan_of k n c v)) f)))); auto.
  - unfold mulmv, pmat.
    rewrite (Rsum_ext (n * k) _ (fun q => / INR n * Rsum n (fun f => Re (Cmult (ginv f r (q mod k))
       (Cmult (Cconj (E n (f * (q / k)))) (E n (f * t)))) * smp v q))%R).
    2:{ intros q Hq. rewrite lag_div, lag_mod by auto. rewrite Rsum_scal_r. ring. }
    rewrite Rsum_scal_l. f_equal. rewrite Rsum_swap, Re_Csum. apply Rsum_ext. intros f Hf.
    rewrite <- Csum_scal_r, Re_Csum. rewrite Rsum_prod, Rsum_swap. apply Rsum_ext. intros c Hc.
    unfold dft. rewrite <- Csum_scal_l, <- Csum_scal_r, Re_Csum. apply Rsum_ext. intros s Hs.
    rewrite lag_div, lag_mod by auto. unfold chan_of, smp. rewrite nth_tab by auto.
    destruct (ginv f r c) as [a b], (E n (f * s)) as [a1 b1], (E n (f * t)) as [a2 b2].
    unfold Re, Cmult, Cconj, RtoC. simpl. ring.
  - intros f Hf. rewrite nth_tab by lia. apply Csum_ext. intros c Hc. f_equal.
    + unfold inv_list. rewrite map_map. change (map (fun x => ginv x r c) (seq 0 (n / 2 + 1))) with (tab (n / 2 + 1) (fun x => ginv x r c)).
      rewrite nth_tab by lia. reflexivity.
    + rewrite rfft_dft by auto. reflexivity.
  - intros f H0 Hf. rewrite Cconj_Csum. apply Csum_ext. intros c Hc. rewrite Cconj_mult, ginv_mirror by auto.
    rewrite dft_sym by auto. reflexivity.
Qed.
Lemma mod_lt p : p < n * k -> p mod k < k.
Proof. intros H. apply Nat.mod_upper_bound. intros ->. lia. Qed.
Theorem pmat_sym : symmetric_mat (n * k) pmat.
Proof.
  intros p q Hp Hq. unfold pmat. f_equal. apply Rsum_ext. intros f Hf.
  rewrite (ginv_herm f (p mod k) (q mod k)) by (apply mod_lt; auto).
  destruct (ginv f (q mod k) (p mod k)) as [a b], (E n (f * (q / k))) as [a1 b1], (E n (f * (p / k))) as [a2 b2].
  unfold Re, Cmult, Cconj. simpl. ring.
Qed.
Definition uhat (u : nat -> R) (f c : nat) : C := dft n (fun s => u (s * k + c)) f.
Lemma pmat_form u : form (n * k) pmat u u = (/ INR n * Rsum n (fun f => Re (gform f (uhat u f))))%R.
Proof.
  unfold form, mulmv, pmat.
  rewrite (Rsum_ext (n * k) _ (fun p => / INR n * Rsum n (fun f => Rsum (n * k) (fun q =>
     u p * (Re (Cmult (ginv f (p mod k) (q mod k)) (Cmult (Cconj (E n (f * (q / k)))) (E n (f * (p / k))))) * u q))))%R).
  2:{ intros p Hp. rewrite (Rsum_swap n (n * k)), <- !Rsum_scal_l. apply Rsum_ext. intros q Hq.
      rewrite !Rsum_scal_l, Rsum_scal_r. ring. }
  rewrite Rsum_scal_l. f_equal. rewrite Rsum_swap. apply Rsum_ext. intros f Hf.
  unfold gform. rewrite Re_Csum. rewrite Rsum_prod, Rsum_swap. apply Rsum_ext. intros r Hr.
  unfold uhat at 1, dft. rewrite Cconj_Csum, <- Csum_scal_r, Re_Csum. apply Rsum_ext. intros t Ht.
  unfold mulmv. rewrite <- Csum_scal_l, Re_Csum. rewrite Rsum_prod, Rsum_swap. apply Rsum_ext. intros c Hc.
  unfold uhat, dft. rewrite <- !Csum_scal_l, Re_Csum. apply Rsum_ext. intros s Hs.
  rewrite !lag_div, !lag_mod by auto.
  destruct (ginv f r c) as [a b], (E n (f * s)) as [a1 b1], (E n (f * t)) as [a2 b2].
  unfold Re, Cmult, Cconj, RtoC. simpl. ring.
Qed.
Theorem pmat_psd : psd_mat (n * k) pmat.
Proof.
  intros u. fold (form (n * k) pmat u u). rewrite pmat_form.
  apply Rmult_le_pos; [left; apply Rinv_0_lt_compat, lt_0_INR; auto|].
  apply Rsum_nonneg. intros f Hf. apply gform_nonneg.
Qed.
Theorem pmat_nonsingular : nonsingular (n * k) pmat.
Proof.
  intros u Hu p Hp.
  assert (Z : form (n * k) pmat u u = 0%R) by (apply Rsum_zero; intros i Hi; rewrite Hu by auto; ring).
  rewrite pmat_form in Z. assert (P : (0 < INR n)%R) by (apply lt_0_INR; auto).
  assert (Z' : Rsum n (fun f => Re (gform f (uhat u f))) = 0%R).
  { apply (Rmult_eq_reg_l (/ INR n)); [rewrite Z; ring|]. apply Rgt_not_eq, Rinv_0_lt_compat; auto. }
  assert (ZF : forall f, f < n -> Re (gform f (uhat u f)) = 0%R).
  { apply Rsum_nonneg_eq0; auto. intros f Hf. apply gform_nonneg. }
  destruct (lag_split k n p Hp) as (t & c & Ht & Hc & ->).
  assert (En : energy n (fun s => u (s * k + c)) = 0%R).
  { pose proof (parseval (repeat 0%R n)) as PV. rewrite repeat_length in PV. rewrite <- (PV Hn). clear PV.
    rewrite Rsum_zero; [ring|]. intros f Hf.
    change (dft n (fun s => u (s * k + c)) f) with (uhat u f c).
    rewrite (gform_zero f _ (ZF f Hf)) by auto. rewrite Cmult_0_l. reflexivity. }
  exact (energy_zero n (fun s => u (s * k + c)) En t Ht).
Qed.

(** ** Bounds of the matrix are bounds of the preconditioner *)
Definition cnorm (w : nat -> C) : R := Rsum k (fun r => Re (Cmult (Cconj (w r)) (w r))).
Lemma cnorm_nonneg w : (0 <= cnorm w)%R.
Proof. apply Rsum_nonneg. intros r _. destruct (w r) as [a b]. unfold Re, Cmult, Cconj. simpl. nra. Qed.
Lemma wave_energy f w : (energy (n * k) (fun p => Re (wave f w p)) + energy (n * k) (fun p => Im (wave f w p)) =
  INR n * cnorm w)%R.
Proof.
  unfold energy, dot. rewrite <- Rsum_plus, Rsum_prod.
  rewrite (Rsum_ext n _ (fun _ => cnorm w)); [rewrite Rsum_const; ring|].
  intros i Hi. apply Rsum_ext. intros r Hr. unfold wave. rewrite lag_div, lag_mod by auto.
  pose proof (Cmod1 (ang n (f * i))) as H. fold (E n (f * i)) in H.
  destruct (E n (f * i)) as [a b], (w r) as [c d]. injection H as H1 _.
  unfold Re, Im, Cmult, Cconj. simpl.
  replace (a * c - b * d)%R with (a * c - b * d)%R by reflexivity.
  assert (H2 : (a * a + b * b = 1)%R) by lra.
  transitivity ((a * a + b * b) * (c * c + d * d))%R; [ring|]. rewrite H2. ring.
Qed.
Lemma hform_step f z v (c : R) : Re (hform f (fun r => Cminus (z r) (Cmult (RtoC c) (v r)))) =
  (Re (hform f z) - 2 * c * Re (Csum k (fun r => Cmult (Cconj (v r)) (Cmv k (fblk f) z r))) + c * c * Re (hform f v))%R.
Proof.
  assert (L : forall r, Cmv k (fblk f) (fun r => Cminus (z r) (Cmult (RtoC c) (v r))) r =
    Cminus (Cmv k (fblk f) z r) (Cmult (RtoC c) (Cmv k (fblk f) v r))).
  { intros r. unfold mulmv. rewrite <- Csum_scal_l.
    rewrite (Csum_ext k _ (fun i => Cplus (Cmult (fblk f r i) (z i)) (Cmult (RtoC (Ropp 1)) (Cmult (RtoC c) (Cmult (fblk f r i) (v i)))))).
    - rewrite Csum_plus, Csum_scal_l. rewrite RtoC_opp. ring.
    - intros i Hi. rewrite RtoC_opp. ring. }
  assert (A : Re (Csum k (fun r => Cmult (Cconj (z r)) (Cmv k (fblk f) v r))) =
              Re (Csum k (fun r => Cmult (Cconj (v r)) (Cmv k (fblk f) z r)))).
  { rewrite <- fblk_adj. rewrite !Re_Csum. apply Rsum_ext. intros r Hr.
    destruct (Cmv k (fblk f) z r) as [a b], (v r) as [p q]. unfold Re, Cmult, Cconj. simpl. ring. }
  unfold hform. rewrite (Re_Csum k (fun r => Cmult (Cconj (Cminus _ _)) _)).
  rewrite (Rsum_ext k _ (fun r => Re (Cmult (Cconj (z r)) (Cmv k (fblk f) z r))
     + (- c) * Re (Cmult (Cconj (v r)) (Cmv k (fblk f) z r))
     + (- c) * Re (Cmult (Cconj (z r)) (Cmv k (fblk f) v r))
     + c * c * Re (Cmult (Cconj (v r)) (Cmv k (fblk f) v r)))%R).
  - rewrite !Rsum_plus, !Rsum_scal_l, <- !Re_Csum, A. ring.
  - intros r Hr. rewrite L. destruct (Cmv k (fblk f) z r) as [a b], (Cmv k (fblk f) v r) as [a1 b1], (z r) as [a2 b2], (v r) as [a3 b3].
    unfold Re, Cmult, Cconj, Cminus, Cplus, Copp, RtoC. simpl. ring.
Qed.
Variables lo hi : R.
Hypotheses (Hlo : (0 < lo)%R)
  (Hspec : forall u, (lo * energy (n * k) u <= form (n * k) bmat u u <= hi * energy (n * k) u)%R).
Lemma hform_bounds f w : (lo * cnorm w <= Re (hform f w) <= hi * cnorm w)%R.
Proof.
  rewrite hform_real. pose proof (wave_energy f w) as H.
  pose proof (Hspec (fun p => Re (wave f w p))) as [A1 A2]. pose proof (Hspec (fun p => Im (wave f w p))) as [B1 B2].
  assert (P : (0 < INR n)%R) by (apply lt_0_INR; auto).
  split; apply (Rmult_le_reg_l (INR n)); auto; rewrite <- !Rmult_assoc, Rinv_r, Rmult_1_l by lra.
  - replace (INR n * lo * cnorm w)%R with (lo * (INR n * cnorm w))%R by ring. rewrite <- H. lra.
  - replace (INR n * hi * cnorm w)%R with (hi * (INR n * cnorm w))%R by ring. rewrite <- H. lra.
Qed.
Lemma gform_bounds f v : (0 < hi)%R -> (/ hi * cnorm v <= Re (gform f v) <= / lo * cnorm v)%R.
Proof.
  intros Hhi. set (z := Cmv k (ginv f) v).
  assert (Hz : forall r, r < k -> Cmv k (fblk f) z r = v r) by (intros; apply ginv_apply; auto).
  assert (G : Re (gform f v) = Re (hform f z)) by (rewrite gform_hform; reflexivity).
  assert (Gv : Re (gform f v) = Rsum k (fun r => Re (Cmult (Cconj (v r)) (z r)))) by (unfold gform; rewrite Re_Csum; reflexivity).
  pose proof (hform_bounds f z) as [Z1 _]. pose proof (hform_bounds f v) as [_ V2].
  split; apply Rmult_le_reg_l with (r := 1%R); try lra; rewrite !Rmult_1_l.
  - pose proof (hform_step f z v (/ hi)) as S.
    match type of S with Re (hform f ?w) = _ => pose proof (hform_nonneg f w) as N; rewrite S in N end.
    assert (E1 : Re (Csum k (fun r => Cmult (Cconj (v r)) (Cmv k (fblk f) z r))) = cnorm v).
    { rewrite Re_Csum. apply Rsum_ext. intros r Hr. rewrite Hz by auto. reflexivity. }
    rewrite E1, <- G in N.
    assert (P : (0 < / hi)%R) by (apply Rinv_0_lt_compat; auto).
    assert (/ hi * / hi * Re (hform f v) <= / hi * cnorm v)%R.
    { apply Rle_trans with (/ hi * / hi * (hi * cnorm v))%R; [apply Rmult_le_compat_l; nra|].
      replace (/ hi * / hi * (hi * cnorm v))%R with (/ hi * cnorm v)%R by (field; lra). lra. }
    lra.
  - assert (N : (0 <= Rsum k (fun r => Re (Cmult (Cconj (Cminus (v r) (Cmult (RtoC lo) (z r)))) (Cminus (v r) (Cmult (RtoC lo) (z r))))))%R)
      by apply (cnorm_nonneg (fun r => Cminus (v r) (Cmult (RtoC lo) (z r)))).
    rewrite (Rsum_ext k _ (fun r => Re (Cmult (Cconj (v r)) (v r)) + (-2 * lo) * Re (Cmult (Cconj (v r)) (z r))
      + lo * lo * Re (Cmult (Cconj (z r)) (z r)))%R) in N.
    2:{ intros r Hr. destruct (v r) as [a b], (z r) as [c d]. unfold Re, Cmult, Cconj, Cminus, Cplus, Copp, RtoC. simpl. ring. }
    rewrite !Rsum_plus, !Rsum_scal_l, <- Gv in N. fold (cnorm v) (cnorm z) in N.
    rewrite <- G in Z1. apply (Rmult_le_reg_l lo); auto. rewrite <- Rmult_assoc, Rinv_r, Rmult_1_l by lra.
    assert (lo * lo * cnorm z <= lo * Re (gform f v))%R by (rewrite Rmult_assoc; apply Rmult_le_compat_l; lra).
    lra.
Qed.
Lemma uhat_energy u : (/ INR n * Rsum n (fun f => cnorm (uhat u f)) = energy (n * k) u)%R.
Proof.
  unfold cnorm. rewrite Rsum_swap, <- Rsum_scal_l. unfold energy, dot. rewrite Rsum_prod, Rsum_swap.
  apply Rsum_ext. intros r Hr.
  pose proof (parseval (repeat 0%R n)) as PV. rewrite repeat_length in PV.
  etransitivity; [|exact (PV Hn (fun s => u (s * k + r)))]. f_equal. apply Rsum_ext. intros f Hf.
  unfold uhat. rewrite Cmult_comm. reflexivity.
Qed.
Lemma pmat_bounds u : (0 < hi)%R -> (/ hi * energy (n * k) u <= form (n * k) pmat u u <= / lo * energy (n * k) u)%R.
Proof.
  intros Hhi. rewrite pmat_form, <- uhat_energy.
  assert (P : (0 < / INR n)%R) by (apply Rinv_0_lt_compat, lt_0_INR; auto).
  split.
  - rewrite <- Rmult_assoc, (Rmult_comm (/ hi)), Rmult_assoc. apply Rmult_le_compat_l; [lra|].
    rewrite <- Rsum_scal_l. apply Rsum_le. intros f Hf. apply gform_bounds; auto.
  - rewrite <- Rmult_assoc, (Rmult_comm (/ lo)), Rmult_assoc. apply Rmult_le_compat_l; [lra|].
    rewrite <- Rsum_scal_l. apply Rsum_le. intros f Hf. apply gform_bounds; auto.
Qed.
End Block.

(** bounds of a matrix and of its preconditioner give bounds for the preconditioned matrix *)
Lemma spectral_between n M Q lo hi u : symmetric_mat n Q -> psd_mat n Q -> (0 < lo)%R -> (0 < hi)%R ->
  (forall u, lo * energy n u <= form n M u u <= hi * energy n u)%R ->
  (forall u, / hi * energy n u <= form n Q u u <= / lo * energy n u)%R ->
  (lo / hi * form n Q u u <= form n M (Rmv n Q u) (Rmv n Q u) <= hi / lo * form n Q u u)%R.
Proof.
  intros Qs Qp Hlo Hhi HM HQ. set (w := Rmv n Q u). destruct (HM w) as [B1 B2].
  set (N := form n Q u u) in *. set (W := energy n w) in *.
  assert (PN : (0 <= N)%R) by apply Qp. assert (PW : (0 <= W)%R) by apply energy_nonneg.
  assert (EW : W = form n Q u w) by (rewrite sym_form by auto; reflexivity).
  assert (U1 : (W <= / lo * N)%R).
  { pose proof (form_cs n Q u w Qs Qp) as C. rewrite <- EW in C. fold N in C.
    pose proof (proj2 (HQ w)) as U. fold W in U.
    assert (W * W <= N * (/ lo * W))%R by (eapply Rle_trans; [exact C|]; apply Rmult_le_compat_l; auto).
    assert (0 < / lo)%R by (apply Rinv_0_lt_compat; auto).
    destruct (Req_EM_T W 0) as [Z|NZ].
    - rewrite Z. apply Rmult_le_pos; lra.
    - apply (Rmult_le_reg_r W); lra. }
  assert (U2 : (/ hi * N <= W)%R).
  { pose proof (dot_cs n u w) as C. fold W in C.
    change (dot n u w) with N in C.
    pose proof (proj1 (HQ u)) as U. fold N in U.
    pose proof (energy_nonneg n u) as PU.
    assert (0 < / hi)%R by (apply Rinv_0_lt_compat; lra).
    destruct (Req_EM_T N 0) as [Z|NZ].
    - rewrite Z, Rmult_0_r. auto.
    - apply (Rmult_le_reg_r N); [lra|].
      assert (/ hi * N * N <= / hi * (energy n u * W))%R by (rewrite Rmult_assoc; apply Rmult_le_compat_l; lra).
      assert (/ hi * energy n u * W <= N * W)%R by (apply Rmult_le_compat_r; auto). lra. }
  split.
  - replace (lo / hi * N)%R with (lo * (/ hi * N))%R by (unfold Rdiv; ring).
    eapply Rle_trans; [|exact B1]. apply Rmult_le_compat_l; lra.
  - replace (hi / lo * N)%R with (hi * (/ lo * N))%R by (unfold Rdiv; ring).
    eapply Rle_trans; [exact B2|]. apply Rmult_le_compat_l; lra.
Qed.
