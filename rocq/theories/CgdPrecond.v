(** * The preconditioners of the iterative solver, backend independence (C36, C40) *)
From Coq Require Import Reals Lra FunctionalExtensionality.
From Coquelicot Require Import Complex.
From Verif Require Import Prelude ExtReal Slice Sums SpecSig Fft FftProofs Helpers Linalg LinalgProofs
  Cgd Metrics StatsProofs CgdOps.
Local Open Scope nat_scope.

(** ** Circulant columns *)
Lemma length_ramp n : length (ramp n) = n - 1.
Proof. apply length_tab. Qed.
Lemma nth_ramp n i : i < n - 1 -> nth i (ramp n) 0%R = (INR (i + 1) / INR n)%R.
Proof. intros H. unfold ramp. rewrite nth_tab by auto. reflexivity. Qed.
Lemma reversed_rev {A} b (l : list A) : reversed b l = rev l.
Proof. destruct b; [apply slice_rev|reflexivity]. Qed.
Lemma ewise_eq b f l1 l2 : length l1 = length l2 -> ewise b f l1 l2 = Ok (zip_with f l1 l2).
Proof. intros H. unfold ewise. rewrite H, Nat.eqb_refl. reflexivity. Qed.
Lemma zip_with_tab (f : R -> R -> R) n g h : zip_with f (tab n g) (tab n h) = tab n (fun i => f (g i) (h i)).
Proof.
  apply list_eq_tab with (d := 0%R).
  - rewrite length_zip_with, !length_tab. lia.
  - intros i Hi. rewrite (nth_zip_with f _ _ _ 0%R 0%R) by (rewrite length_tab; auto).
    rewrite !nth_tab by auto. reflexivity.
Qed.

Definition sym_col (col : list R) : list R :=
  let n := length col in
  tab n (fun k => if k =? 0 then nth 0 col 0%R
                  else ((INR n - INR k) * nth k col 0 + INR k * nth (n - k) col 0) / INR n)%R.

Lemma tab_S {A} n (f : nat -> A) : tab (S n) f = f 0 :: tab n (fun i => f (S i)).
Proof. unfold tab. simpl. rewrite <- seq_shift, map_map. reflexivity. Qed.

Theorem sym_precond_col_ok b col : sym_precond_col b col = Ok (sym_col col).
Proof.
  unfold sym_precond_col. cbv zeta. set (n := length col).
  assert (E1 : pyslice (Some 1%Z) None 1 col = tab (n - 1) (fun i => nth (i + 1) col 0%R)).
  { change 1%Z with (Z.of_nat 1). rewrite (slice_from _ _ 0%R). apply tab_ext. intros i _. f_equal. lia. }
  rewrite E1, reversed_rev. unfold ramp at 1. rewrite rev_tab.
  rewrite ewise_eq by (rewrite !length_tab; auto). rewrite zip_with_tab. cbn [bind].
  rewrite reversed_rev, rev_tab.
  rewrite ewise_eq by (rewrite !length_tab; auto). rewrite zip_with_tab. cbn [bind].
  unfold sym_col. fold n. f_equal.
  change 1%Z with (Z.of_nat 1) at 1. rewrite (slice_to _ _ 0%R). fold n.
  destruct n as [|m]; [reflexivity|]. rewrite Nat.min_l by lia.
  rewrite (tab_S m). cbn [tab seq map app]. f_equal.
  replace (S m - 1) with m by lia. apply tab_ext. intros i Hi.
  replace (S i =? 0) with false by reflexivity.
  replace (m - 1 - i + 1) with (m - i) by lia.
  replace (m - 1 - (m - 1 - i) + 1) with (S i) by lia.
  replace (S m - S i) with (m - i) by lia.
  replace (i + 1) with (S i) by lia.
  assert (Hm : (INR (S m) <> 0)%R) by (apply not_0_INR; lia).
  rewrite (minus_INR m i) by lia. rewrite !S_INR in *. field. exact Hm.
Qed.

Definition nonsym_col (n : nat) (r : list R) : list R :=
  tab n (fun k => if k =? 0 then nth 0 r 0%R
                  else ((INR n - INR k) * nth (2 * n - k) r 0 + INR k * nth (n - k) r 0) / INR n)%R.

Theorem nonsym_precond_col_ok b n r : length r = 2 * n -> 1 <= n -> (b = Torch -> 2 <= n) ->
  nonsym_precond_col b r = Ok (nonsym_col n r).
Proof.
  intros Hr Hn Ht. unfold nonsym_precond_col. rewrite Hr.
  replace ((2 * n + 1) / 2) with n by
    (symmetry; replace (2 * n + 1) with (1 + n * 2) by lia; rewrite Nat.div_add by lia; reflexivity).
  cbv zeta.
  assert (E1 : match b with
            | NumPy => pyslice (Some (Z.of_nat n - 1)%Z) (Some 0%Z) (-1) r
            | Torch => flip (pyslice (Some 1%Z) (Some (Z.of_nat n)) 1 r) end
     = tab (n - 1) (fun i => nth (n - 1 - i) r 0%R)).
  { destruct b.
    - replace (Z.of_nat n - 1)%Z with (Z.of_nat (n - 1)) by lia. apply slice_down0; lia.
    - change 1%Z with (Z.of_nat 1). rewrite (slice_range _ _ _ 0%R) by lia. unfold flip. rewrite rev_tab.
      apply tab_ext. intros i Hi. f_equal. lia. }
  assert (E2 : match b with
            | NumPy => pyslice None (Some (- Z.of_nat n)%Z) (-1) r
            | Torch => flip (pyslice (Some (- Z.of_nat n + 1)%Z) None 1 r) end
     = tab (n - 1) (fun i => nth (2 * n - 1 - i) r 0%R)).
  { destruct b.
    - rewrite (slice_last_rev _ _ 0%R) by lia. rewrite Hr. reflexivity.
    - specialize (Ht eq_refl).
      replace (- Z.of_nat n + 1)%Z with (- Z.of_nat (n - 1))%Z by lia.
      rewrite (slice_last _ _ 0%R) by lia. rewrite Nat.min_l by lia. unfold flip. rewrite rev_tab.
      apply tab_ext. intros i Hi. f_equal. lia. }
  rewrite E1, E2. unfold ramp.
  rewrite ewise_eq by (rewrite !length_tab; auto). rewrite zip_with_tab. cbn [bind].
  assert (E3 : map (fun v : R => (1 - v)%R) (tab (n - 1) (fun k => INR (k + 1) / INR n)%R) =
     tab (n - 1) (fun k => 1 - INR (k + 1) / INR n)%R).
  { unfold tab. rewrite map_map. reflexivity. }
  rewrite E3. rewrite ewise_eq by (rewrite !length_tab; auto). rewrite zip_with_tab. cbn [bind].
  rewrite ewise_eq by (rewrite !length_tab; auto). rewrite zip_with_tab. cbn [bind].
  unfold nonsym_col. f_equal.
  change 1%Z with (Z.of_nat 1) at 1. rewrite (slice_to _ _ 0%R). rewrite Hr.
  rewrite Nat.min_l by lia. destruct n as [|m]; [lia|].
  rewrite (tab_S m). cbn [tab seq map app]. f_equal.
  replace (S m - 1) with m by lia. apply tab_ext. intros i Hi.
  replace (S i =? 0) with false by reflexivity.
  replace (i + 1) with (S i) by lia.
  replace (2 * S m - 1 - i) with (2 * S m - S i) by lia.
  replace (S m - S i) with (m - i) by lia.
  assert (Hm : (INR (S m) <> 0)%R) by (apply not_0_INR; lia).
  field. exact Hm.
Qed.

(** ** Frobenius optimality (C40) *)
(** Squared Frobenius distance of T to the circulant matrix with first column c. *)
Definition frob (n : nat) (T : nat -> nat -> R) (c : nat -> R) : R :=
  Rsum n (fun i => Rsum n (fun j => (T i j - c ((i + n - j) mod n)) ^ 2))%R.

Lemma frob_diag n T c : frob n T c =
  Rsum n (fun k => Rsum n (fun j => (T ((k + j) mod n)%nat j - c k) ^ 2))%R.
Proof.
  unfold frob. rewrite Rsum_swap. rewrite (Rsum_swap n n (fun k j => ((T ((k + j) mod n)%nat j - c k) ^ 2)%R)).
  apply Rsum_ext. intros j Hj.
  rewrite <- (Rsum_cyclic n j (fun i => ((T i j - c ((i + n - j) mod n)) ^ 2)%R)) by lia.
  apply Rsum_ext. intros k Hk. do 3 f_equal.
  rewrite mod_diff by (try apply Nat.mod_upper_bound; lia).
  destruct (Nat.lt_ge_cases (k + j) n) as [H|H].
  - rewrite (Nat.mod_small (k + j)) by lia. replace (j <=? k + j) with true by (symmetry; apply Nat.leb_le; lia). lia.
  - replace ((k + j) mod n) with (k + j - n).
    + replace (j <=? k + j - n) with false by (symmetry; apply Nat.leb_gt; lia). lia.
    + symmetry. replace (k + j) with (k + j - n + 1 * n) at 1 by lia.
      rewrite Nat.mod_add by lia. apply Nat.mod_small. lia.
Qed.

Lemma mean_best n (a : nat -> R) m c : (Rsum n a = INR n * m)%R ->
  (Rsum n (fun j => (a j - m) ^ 2) <= Rsum n (fun j => (a j - c) ^ 2))%R.
Proof.
  intros H.
  assert (E : (Rsum n (fun j => (a j - c) ^ 2) = Rsum n (fun j => (a j - m) ^ 2) + INR n * (m - c) ^ 2)%R).
  { rewrite (Rsum_ext n (fun j => (a j - c) ^ 2)%R
       (fun j => (a j - m) ^ 2 + (2 * (m - c) * a j + (c ^ 2 - m ^ 2)))%R) by (intros; ring).
    rewrite Rsum_plus, Rsum_plus, Rsum_scal_l, Rsum_const, H. ring. }
  rewrite E. assert (0 <= INR n * (m - c) ^ 2)%R.
  { apply Rmult_le_pos; [apply pos_INR|]. apply pow2_ge_0. }
  lra.
Qed.

Theorem frob_best n T c c' :
  (forall k, k < n -> Rsum n (fun j => T ((k + j) mod n) j) = (INR n * c k)%R) ->
  (frob n T c <= frob n T c')%R.
Proof.
  intros H. rewrite !frob_diag. apply Rsum_le. intros k Hk.
  apply (mean_best n (fun j => T ((k + j) mod n)%nat j)). auto.
Qed.

Lemma diag_split n k (f : nat -> R) a b : k < n ->
  (forall j, j < n - k -> f j = a) -> (forall j, n - k <= j -> j < n -> f j = b) ->
  (Rsum n f = (INR n - INR k) * a + INR k * b)%R.
Proof.
  intros Hk Ha Hb. replace n with (n - k + k) at 1 by lia. rewrite Rsum_add.
  rewrite (Rsum_ext (n - k) f (fun _ => a)) by auto.
  rewrite (Rsum_ext k _ (fun _ => b)) by (intros j Hj; apply Hb; lia).
  rewrite !Rsum_const, minus_INR by lia. reflexivity.
Qed.

Theorem sym_col_optimal b col c' : 0 < length col ->
  exists c, sym_precond_col b col = Ok c /\ length c = length col /\
  (frob (length col) (ent (toeplitz b col)) (fun k => nth k c 0%R) <=
   frob (length col) (ent (toeplitz b col)) c')%R.
Proof.
  intros Hn. exists (sym_col col). split; [apply sym_precond_col_ok|].
  split; [apply length_tab|]. apply frob_best. intros k Hk.
  set (n := length col) in *. unfold sym_col. fold n. rewrite nth_tab by auto.
  assert (Hn0 : INR n <> 0%R) by (apply not_0_INR; lia).
  destruct (Nat.eqb_spec k 0) as [->|N].
  - rewrite (Rsum_ext n _ (fun _ => nth 0 col 0%R)); [rewrite Rsum_const; reflexivity|].
    intros j Hj. rewrite Nat.mod_small by lia. rewrite toeplitz_entry by auto.
    unfold adist. f_equal. lia.
  - rewrite (diag_split n k _ (nth k col 0%R) (nth (n - k) col 0%R)); auto.
    + field. exact Hn0.
    + intros j Hj. rewrite Nat.mod_small by lia. rewrite toeplitz_entry by (fold n; lia).
      unfold adist. f_equal. lia.
    + intros j Hj1 Hj2. replace ((k + j) mod n) with (k + j - n).
      * rewrite toeplitz_entry by (fold n; lia). unfold adist. f_equal. lia.
      * symmetry. replace (k + j) with (k + j - n + 1 * n) at 1 by lia.
        rewrite Nat.mod_add by lia. apply Nat.mod_small. lia.
Qed.

Theorem nonsym_col_optimal b n r c' : length r = 2 * n -> 2 <= n ->
  exists c, nonsym_precond_col b r = Ok c /\ length c = n /\
  (frob n (ent (bt_block n r)) (fun k => nth k c 0%R) <= frob n (ent (bt_block n r)) c')%R.
Proof.
  intros Hr Hn. exists (nonsym_col n r). split; [apply nonsym_precond_col_ok; auto; lia|].
  split; [apply length_tab|]. apply frob_best. intros k Hk.
  unfold nonsym_col. rewrite nth_tab by auto.
  assert (Hn0 : INR n <> 0%R) by (apply not_0_INR; lia).
  destruct (Nat.eqb_spec k 0) as [->|N].
  - rewrite (Rsum_ext n _ (fun _ => nth 0 r 0%R)); [rewrite Rsum_const; reflexivity|].
    intros j Hj. rewrite Nat.mod_small by lia. rewrite bt_block_entry by (auto; lia).
    replace (j <? 0 + j) with false by (symmetry; apply Nat.ltb_ge; lia). f_equal. lia.
  - rewrite (diag_split n k _ (nth (2 * n - k) r 0%R) (nth (n - k) r 0%R)); auto.
    + field. exact Hn0.
    + intros j Hj. rewrite Nat.mod_small by lia. rewrite bt_block_entry by lia.
      replace (j <? k + j) with true by (symmetry; apply Nat.ltb_lt; lia). f_equal. lia.
    + intros j Hj1 Hj2. replace ((k + j) mod n) with (k + j - n).
      * rewrite bt_block_entry by lia.
        replace (j <? k + j - n) with false by (symmetry; apply Nat.ltb_ge; lia). f_equal. lia.
      * symmetry. replace (k + j) with (k + j - n + 1 * n) at 1 by lia.
        rewrite Nat.mod_add by lia. apply Nat.mod_small. lia.
Qed.

(** ** The preconditioners do not depend on the backend *)
Lemma precond_freq_b b z : precond_freq b z = precond_freq NumPy z.
Proof.
  destruct b; auto. unfold precond_freq. cbv zeta. unfold Cdiv.
  rewrite Cconj_mult. f_equal.
  set (d := Rmax (fst z ^ 2 + snd z ^ 2) cg_eps).
  assert (Hd : d <> 0%R).
  { unfold d, cg_eps. pose proof (Rmax_r (fst z ^ 2 + snd z ^ 2) (/ 10 ^ 6)).
    assert (0 < / 10 ^ 6)%R by (apply Rinv_0_lt_compat, pow_lt; lra). lra. }
  rewrite <- RtoC_inv by exact Hd. apply Cconj_RtoC.
Qed.

Definition circ_prec (col v : list R) : list R :=
  let n := length col in
  irfft n (zip_with Cmult (map (precond_freq NumPy) (rfft n (sym_col col))) (rfft n v)).

Theorem circulant_precond_ok b col : exists P, circulant_precond b col = Ok P /\
  forall v, P v = circ_prec col v.
Proof.
  unfold circulant_precond. rewrite sym_precond_col_ok. cbn [bind]. eexists. split; [reflexivity|].
  intros v. cbv beta. unfold circ_prec. cbv zeta.
  replace (length (sym_col col)) with (length col) by (unfold sym_col; rewrite length_tab; reflexivity).
  do 2 f_equal. apply map_ext. apply precond_freq_b.
Qed.
Lemma length_circ_prec col v : length (circ_prec col v) = length col.
Proof. apply length_irfft. Qed.

(** Inverses of the frequency blocks of the block preconditioner. *)
Definition prec_inv (k n : nat) (col : nat -> nat -> list R) : res (list (nat -> nat -> C)) :=
  mapM (fun j => cinv k (fun r s => nth j (rfft n (nonsym_col n (col r s))) (RtoC 0))) (seq 0 (n / 2 + 1)).
Definition block_prec (k n : nat) (inv : list (nat -> nat -> C)) (v : list R) : list R :=
  flatten k n (block_apply n n k (fun r s => map (fun M : nat -> nat -> C => M r s) inv) v).

Lemma all_ok_eq {A} n (f : nat -> nat -> res A) g d : (forall i j, f i j = Ok (g i j)) ->
  all_ok n f d = Ok g.
Proof.
  intros H. unfold all_ok. rewrite (mapM_ok _ (fun p => g (fst p) (snd p))) by (intros; apply H).
  cbn [bind]. f_equal. apply functional_extensionality. intros i. apply functional_extensionality.
  intros j. rewrite H. reflexivity.
Qed.
Theorem block_precond_ok b k n col : (forall r c, length (col r c) = 2 * n) -> 1 <= n ->
  (b = Torch -> 2 <= n) ->
  block_precond b k col = do inv <- prec_inv k n col; Ok (block_prec k n inv).
Proof.
  intros Hl Hn Ht. unfold block_precond.
  rewrite (all_ok_eq k _ (fun r c => nonsym_col n (col r c))) by
    (intros i j; apply nonsym_precond_col_ok; auto).
  cbn [bind]. replace (length (nonsym_col n (col 0 0))) with n by (symmetry; apply length_tab).
  reflexivity.
Qed.
Lemma length_block_prec k n inv v : length (block_prec k n inv v) = n * k.
Proof. apply length_flatten. Qed.

(** ** conjugate_gradient only depends on the operators at vectors of length n *)
Definition cg_len (n : nat) (s : cg_state) : Prop :=
  length (cg_x s) = n /\ length (cg_r s) = n /\ length (cg_p s) = n.
Lemma length_axpy n x a p : length (axpy n x a p) = n.
Proof. apply length_tab. Qed.
Lemma cg_init_len n A P b x : length x = n -> (forall v, length v = n -> length (P v) = n) ->
  cg_len n (cg_init n A P b x).
Proof.
  intros Hx HP. unfold cg_init, cg_len. simpl. rewrite length_axpy. repeat split; auto.
  apply HP, length_axpy.
Qed.
Lemma cg_step_len n A P b e s : cg_len n (cg_step n A P b e s).
Proof.
  unfold cg_step, cg_len. cbv zeta. simpl. rewrite !length_axpy. repeat split; auto.
  destruct (e + 1 =? 0); apply length_axpy.
Qed.
Lemma cg_run_S n A P b x k : cg_run n A P b x (S k) = cg_step n A P b k (cg_run n A P b x k).
Proof. unfold cg_run. rewrite seq_S, fold_left_app. reflexivity. Qed.
Lemma cg_run_len n A P b x k : length x = n -> (forall v, length v = n -> length (P v) = n) ->
  cg_len n (cg_run n A P b x k).
Proof.
  intros Hx HP. destruct k as [|k]; [apply cg_init_len; auto|]. rewrite cg_run_S. apply cg_step_len.
Qed.
(** The condition of the periodic recomputation is never true. *)
Lemma never_recompute e : (e + 1 mod 5 =? 0) = false.
Proof. apply Nat.eqb_neq. simpl. lia. Qed.

Section CgExt.
Variables (n : nat) (A A' P P' : list R -> list R) (b x : list R).
Hypothesis Hx : length x = n.
Hypothesis HA : forall v, length v = n -> A v = A' v.
Hypothesis HP : forall v, length v = n -> P v = P' v.
Hypothesis HPl : forall v, length v = n -> length (P v) = n.

Lemma cg_init_ext : cg_init n A P b x = cg_init n A' P' b x.
Proof.
  unfold cg_init. cbv zeta. rewrite (HA x) by auto.
  rewrite (HP (axpy n b (-1) (A' x))) by apply length_axpy. reflexivity.
Qed.
Lemma cg_step_ext e s : cg_len n s -> cg_step n A P b e s = cg_step n A' P' b e s.
Proof.
  intros (H1 & H2 & H3). unfold cg_step. cbv zeta. rewrite never_recompute.
  rewrite (HA (cg_p s)) by auto.
  set (al := (cg_rs s / Rmax (dotl n (cg_p s) (A' (cg_p s))) cg_eps)%R).
  rewrite (HP (axpy n (cg_r s) (- al) (A' (cg_p s)))) by apply length_axpy. reflexivity.
Qed.
Lemma cg_run_ext k : cg_run n A P b x k = cg_run n A' P' b x k.
Proof.
  induction k as [|k IH].
  - apply cg_init_ext.
  - rewrite !cg_run_S, <- IH. apply cg_step_ext. apply cg_run_len; auto.
Qed.
End CgExt.

(** ** The solvers in backend independent form *)
Definition toeplitz_cg_spec (acf xc : list R) (it : nat) : list R :=
  conjugate_gradient (length acf) (dense_toeplitz acf) (circ_prec acf) xc (repeat 0%R (length acf)) it.
Theorem toeplitz_cg_ok b acf xc it :
  toeplitz_cg b acf xc it =
  if length acf =? length xc then Ok (toeplitz_cg_spec acf xc it) else Raise AssertionError.
Proof.
  unfold toeplitz_cg. destruct (circulant_precond_ok b acf) as (P & E & HP). rewrite E. cbn [bind].
  destruct (length acf =? length xc); auto. f_equal.
  unfold toeplitz_cg_spec, conjugate_gradient. f_equal. apply cg_run_ext.
  - apply repeat_length.
  - intros v Hv. apply toeplitz_op_dense. lia.
  - auto.
  - intros v Hv. rewrite HP. apply length_circ_prec.
Qed.

Definition block_cg_spec (k n : nat) (acf : nat -> nat -> list R) (inv : list (nat -> nat -> C))
    (xc x0 : list R) (it : nat) : list R :=
  conjugate_gradient (n * k) (dense_block (2 * n) k acf) (block_prec k n inv) xc x0 it.
Theorem block_cg_ok b k n acf xc x0 it : (forall r c, length (acf r c) = 2 * n) -> 1 <= n ->
  (b = Torch -> 2 <= n) ->
  (match x0 with Some x => length x = n * k | None => True end) ->
  block_toeplitz_cg b (2 * n) k acf xc x0 it =
  do inv <- prec_inv k n acf;
  if n * k =? length xc
  then Ok (block_cg_spec k n acf inv xc (match x0 with Some x => x | None => repeat 0%R (n * k) end) it)
  else Raise AssertionError.
Proof.
  intros Hl Hn Ht Hx. unfold block_toeplitz_cg. rewrite (block_precond_ok b k n) by auto.
  destruct (prec_inv k n acf) as [inv|]; auto. cbn [bind].
  replace (2 * n / 2) with n by (rewrite Nat.mul_comm, Nat.div_mul; lia).
  destruct (n * k =? length xc); auto. f_equal.
  unfold block_cg_spec, conjugate_gradient. f_equal. apply cg_run_ext.
  - destruct x0; [auto|apply repeat_length].
  - intros v Hv. apply block_toeplitz_op_dense; auto.
    + rewrite (Nat.mul_comm 2 n), Nat.div_mul; lia.
    + lia.
    + intros Eb. specialize (Ht Eb). lia.
  - auto.
  - intros v Hv. apply length_block_prec.
Qed.
