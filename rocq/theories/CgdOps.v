(** * The operators of the iterative solver (C36, C38, C39, C40) *)
From Coq Require Import Reals Lra.
From Coquelicot Require Import Complex.
From Verif Require Import Prelude ExtReal Slice Sums SpecSig Fft FftProofs Helpers Linalg LinalgProofs
  Cgd Metrics StatsProofs.
Local Open Scope nat_scope.

(** ** Linearity of irfft *)
Lemma nth_irfft n Z t : t < n -> nth t (irfft n Z) 0%R =
  (/ INR n * (Re (nth 0 Z (RtoC 0)) +
      Rsum (n / 2) (fun k' =>
        let k := S k' in
        let z := nth k Z (RtoC 0) in
        if Nat.eqb (2 * k) n then Re z * cos (PI * INR t)
        else 2 * Re (Cmult z (cis (ang n (k * t)))))))%R.
Proof. intros H. unfold irfft. rewrite nth_tab by auto. reflexivity. Qed.

Lemma irfft_ext n Z Z' : (forall k, k <= n / 2 -> nth k Z (RtoC 0) = nth k Z' (RtoC 0)) ->
  irfft n Z = irfft n Z'.
Proof.
  intros H. apply tab_ext. intros t Ht. rewrite (H 0) by lia. f_equal. f_equal.
  apply Rsum_ext. intros k Hk. cbv zeta. rewrite (H (S k)) by lia. reflexivity.
Qed.

Lemma Re_plus a b : Re (Cplus a b) = (Re a + Re b)%R.
Proof. reflexivity. Qed.

Lemma irfft_plus n Z Z1 Z2 t : t < n ->
  (forall k, k <= n / 2 -> nth k Z (RtoC 0) = Cplus (nth k Z1 (RtoC 0)) (nth k Z2 (RtoC 0))) ->
  nth t (irfft n Z) 0%R = (nth t (irfft n Z1) 0 + nth t (irfft n Z2) 0)%R.
Proof.
  intros Ht H. rewrite !nth_irfft by auto. rewrite <- Rmult_plus_distr_l. f_equal.
  rewrite (H 0) by lia. rewrite Re_plus.
  match goal with |- (?a + ?b + ?c)%R = (?a + ?d + (?b + ?e))%R => assert (E : c = (d + e)%R) end.
  2:{ rewrite E. ring. }
  rewrite <- Rsum_plus. apply Rsum_ext. intros k Hk. cbv zeta. rewrite (H (S k)) by lia.
  destruct (2 * S k =? n); rewrite ?Re_plus.
  - ring.
  - rewrite Cmult_plus_distr_r, Re_plus. ring.
Qed.

Lemma irfft_zero n Z t : t < n -> (forall k, k <= n / 2 -> nth k Z (RtoC 0) = RtoC 0) ->
  nth t (irfft n Z) 0%R = 0%R.
Proof.
  intros Ht H. rewrite nth_irfft by auto. rewrite (H 0) by lia.
  rewrite (Rsum_zero (n / 2)); [simpl; ring|].
  intros k Hk. cbv zeta. rewrite (H (S k)) by lia. rewrite Cmult_0_l.
  destruct (2 * S k =? n); simpl; ring.
Qed.

Lemma irfft_Csum n m (F : nat -> nat -> C) t : t < n ->
  nth t (irfft n (tab (n / 2 + 1) (fun k => Csum m (fun c => F c k)))) 0%R =
  Rsum m (fun c => nth t (irfft n (tab (n / 2 + 1) (F c))) 0%R).
Proof.
  intros Ht. induction m as [|m IH].
  - change (Rsum 0 _) with 0%R. apply irfft_zero; auto. intros k Hk. rewrite nth_tab by lia. reflexivity.
  - rewrite (irfft_plus n _ (tab (n / 2 + 1) (fun k => Csum m (fun c => F c k)))
       (tab (n / 2 + 1) (F m))); auto.
    + rewrite IH. reflexivity.
    + intros k Hk. rewrite !nth_tab by lia. reflexivity.
Qed.

(** ** The Toeplitz operator *)
Definition sym_circ (n : nat) (col : list R) (k : nat) : R :=
  if k <? n then nth k col 0%R else if k =? n then 0%R else nth (2 * n - k) col 0%R.

Definition sym_circ_col (b : backend) (col : list R) : list R :=
  let n_col := length col in
  let n_fft := 2 * n_col in
  let pad_len := n_fft - 2 * n_col + 1 in
  let tail := match b with
              | NumPy => pyslice None (Some 0%Z) (-1) col
              | Torch => flip (pyslice (Some 1%Z) None 1 col) end in
  col ++ repeat 0%R pad_len ++ tail.

Lemma sym_circ_col_eq b col : sym_circ_col b col = col ++ 0%R :: rev (tl col).
Proof.
  unfold sym_circ_col. cbv zeta. rewrite toeplitz_two_x. rewrite Nat.sub_diag. reflexivity.
Qed.
Lemma nth_sym_circ b col k : k < 2 * length col ->
  nth k (sym_circ_col b col) 0%R = sym_circ (length col) col k.
Proof.
  intros Hk. rewrite sym_circ_col_eq. unfold sym_circ.
  destruct (Nat.ltb_spec k (length col)).
  - rewrite app_nth1; auto.
  - rewrite app_nth2 by auto. destruct (Nat.eqb_spec k (length col)) as [->|N].
    + rewrite Nat.sub_diag. reflexivity.
    + destruct col as [|a col]; [simpl in *; lia|]. cbn [length tl] in *.
      replace (k - S (length col)) with (S (k - S (length col) - 1)) by lia. cbn [nth].
      rewrite rev_nth by lia.
      replace (2 * S (length col) - k) with (S (length col - S (k - S (length col) - 1))) by lia.
      reflexivity.
Qed.
Lemma length_sym_circ b col : 0 < length col -> length (sym_circ_col b col) = 2 * length col.
Proof.
  intros H. rewrite sym_circ_col_eq, app_length. simpl. rewrite rev_length.
  destruct col; simpl in *; lia.
Qed.

Lemma toeplitz_op_unfold b col v : toeplitz_op b col v =
  pyslice None (Some (Z.of_nat (length col))) 1
    (irfft (2 * length col) (zip_with Cmult (rfft (2 * length col) v)
       (rfft (length (sym_circ_col b col)) (sym_circ_col b col)))).
Proof. reflexivity. Qed.

Lemma nth_cmult_spec nf x y k : k <= nf / 2 ->
  nth k (zip_with Cmult (rfft nf x) (rfft nf y)) (RtoC 0) =
  Cmult (nth k (rfft nf x) (RtoC 0)) (nth k (rfft nf y) (RtoC 0)).
Proof.
  intros H. apply (nth_zip_with Cmult); rewrite length_rfft; lia.
Qed.

(** The dense matrix applied to a vector. *)
Definition dense_toeplitz (col : list R) (v : list R) : list R :=
  tab (length col) (fun i => Rsum (length col) (fun j => nth (adist i j) col 0 * nth j v 0)%R).

Lemma mod_diff i s n : i < n -> s < n -> (i + n - s) mod n = if s <=? i then i - s else n + i - s.
Proof.
  intros Hi Hs. destruct (Nat.leb_spec s i).
  - replace (i + n - s) with (i - s + 1 * n) by lia. rewrite Nat.mod_add by lia.
    apply Nat.mod_small. lia.
  - replace (i + n - s) with (n + i - s) by lia. apply Nat.mod_small. lia.
Qed.

Theorem toeplitz_op_dense b col v : length v <= length col ->
  toeplitz_op b col v = dense_toeplitz col v.
Proof.
  intros Hv. destruct col as [|a0 col'].
  { simpl. rewrite toeplitz_op_unfold. simpl. unfold irfft, dense_toeplitz. simpl. reflexivity. }
  set (col := a0 :: col') in *. assert (H0 : 0 < length col) by (simpl; lia).
  rewrite toeplitz_op_unfold, length_sym_circ by auto.
  rewrite (slice_to _ _ 0%R), length_irfft.
  replace (Nat.min (length col) (2 * length col)) with (length col) by lia.
  apply tab_ext. intros i Hi.
  rewrite (irfft_conv (2 * length col) (sym_circ_col b col) v) by
    (try lia; intros k Hk; rewrite nth_cmult_spec by auto; apply Cmult_comm).
  rewrite (Rsum_trunc _ (length col)).
  - apply Rsum_ext. intros s Hs. f_equal.
    rewrite mod_diff by lia. unfold adist. destruct (Nat.leb_spec s i).
    + rewrite nth_sym_circ by lia. unfold sym_circ.
      replace (i - s <? length col) with true by (symmetry; apply Nat.ltb_lt; lia).
      f_equal. lia.
    + rewrite nth_sym_circ by lia. unfold sym_circ.
      replace (2 * length col + i - s <? length col) with false by (symmetry; apply Nat.ltb_ge; lia).
      replace (2 * length col + i - s =? length col) with false by (symmetry; apply Nat.eqb_neq; lia).
      f_equal. lia.
  - lia.
  - intros s Hs _. rewrite (nth_overflow v) by lia. ring.
Qed.

(** C38: against the matrix built by the direct solver. *)
Theorem toeplitz_op_matrix b b' col v i : length v = length col -> i < length col ->
  nth i (toeplitz_op b col v) 0%R = Rmv (length col) (ent (toeplitz b' col)) (fun j => nth j v 0%R) i.
Proof.
  intros Hv Hi. rewrite toeplitz_op_dense by lia. unfold dense_toeplitz. rewrite nth_tab by auto.
  apply Rsum_ext. intros j Hj. rewrite toeplitz_entry by auto. reflexivity.
Qed.
Lemma length_toeplitz_op b col v : length v <= length col -> length (toeplitz_op b col v) = length col.
Proof. intros H. rewrite toeplitz_op_dense by auto. apply length_tab. Qed.

(** ** The block Toeplitz operator *)
Definition blk_circ (n nf : nat) (r : list R) (k : nat) : R :=
  if k =? 0 then nth 0 r 0%R
  else if k <? n then nth (length r - k) r 0%R
  else if k <? nf - n + 1 then 0%R
  else nth (nf - k) r 0%R.

Lemma rev_tab {A} n (f : nat -> A) : rev (tab n f) = tab n (fun i => f (n - 1 - i)).
Proof.
  destruct n as [|n]; [reflexivity|].
  apply list_eq_tab with (d := f 0).
  - rewrite rev_length, length_tab. reflexivity.
  - intros i Hi. rewrite rev_nth by (rewrite length_tab; lia). rewrite length_tab.
    rewrite nth_tab by lia. f_equal. lia.
Qed.

Lemma block_circ_parts b n nf r : length r = 2 * n -> 1 <= n -> (b = Torch -> 2 <= n) ->
  block_circ_col b n nf r =
  tab 1 (fun _ => nth 0 r 0%R) ++ tab (n - 1) (fun i => nth (2 * n - 1 - i) r 0%R) ++
  repeat 0%R (nf - 2 * n + 1) ++ tab (n - 1) (fun i => nth (n - 1 - i) r 0%R).
Proof.
  intros Hr Hn Ht. unfold block_circ_col.
  assert (E1 : pyslice None (Some 1%Z) 1 r = tab 1 (fun _ => nth 0 r 0%R)).
  { change 1%Z with (Z.of_nat 1). rewrite (slice_to _ _ 0%R). rewrite Nat.min_l by lia. reflexivity. }
  destruct b; rewrite E1; f_equal.
  - rewrite (slice_last_rev _ _ 0%R) by lia. rewrite Hr. f_equal. f_equal.
    replace (Z.of_nat n - 1)%Z with (Z.of_nat (n - 1)) by lia.
    rewrite (slice_down0 _ _ 0%R) by lia. reflexivity.
  - specialize (Ht eq_refl).
    replace (- Z.of_nat n + 1)%Z with (- Z.of_nat (n - 1))%Z by lia.
    rewrite (slice_last _ _ 0%R) by lia. rewrite Nat.min_l by lia.
    change 1%Z with (Z.of_nat 1). rewrite (slice_range _ _ _ 0%R) by lia.
    unfold flip. rewrite !rev_tab. f_equal.
    + apply tab_ext. intros i Hi. f_equal. lia.
    + f_equal. apply tab_ext. intros i Hi. f_equal. lia.
Qed.
Lemma length_block_circ b n nf r : length r = 2 * n -> 1 <= n -> (b = Torch -> 2 <= n) -> 2 * n <= nf ->
  length (block_circ_col b n nf r) = nf.
Proof.
  intros Hr Hn Ht Hf. rewrite block_circ_parts by auto.
  rewrite !app_length, !length_tab, repeat_length. lia.
Qed.
Lemma nth_block_circ b n nf r k : length r = 2 * n -> 1 <= n -> (b = Torch -> 2 <= n) -> 2 * n <= nf ->
  k < nf -> nth k (block_circ_col b n nf r) 0%R = blk_circ n nf r k.
Proof.
  intros Hr Hn Ht Hf Hk. rewrite block_circ_parts by auto. unfold blk_circ.
  destruct (Nat.eqb_spec k 0) as [->|N0]; [reflexivity|].
  rewrite app_nth2 by (rewrite length_tab; lia). rewrite length_tab.
  destruct (Nat.ltb_spec k n).
  - rewrite app_nth1 by (rewrite length_tab; lia). rewrite nth_tab by lia. f_equal. lia.
  - rewrite app_nth2 by (rewrite length_tab; lia). rewrite length_tab.
    destruct (Nat.ltb_spec k (nf - n + 1)).
    + rewrite app_nth1 by (rewrite repeat_length; lia).
      apply nth_repeat.
    + rewrite app_nth2 by (rewrite repeat_length; lia). rewrite repeat_length.
      rewrite nth_tab by lia. f_equal. lia.
Qed.

Lemma length_chan_of k n c v : length (chan_of k n c v) = n.
Proof. apply length_tab. Qed.

Lemma block_apply_conv nf n k (Cf : nat -> nat -> list C) (cc : nat -> nat -> list R) v r t :
  0 < nf -> t < nf ->
  (forall r c j, j <= nf / 2 -> nth j (Cf r c) (RtoC 0) = nth j (rfft nf (cc r c)) (RtoC 0)) ->
  nth t (block_apply nf n k Cf v r) 0%R =
  Rsum k (fun c => Rsum nf (fun s => nth ((t + nf - s) mod nf) (cc r c) 0 * nth s (chan_of k n c v) 0))%R.
Proof.
  intros Hn Ht HC. unfold block_apply.
  rewrite (irfft_Csum nf k (fun c j => Cmult (nth j (Cf r c) (RtoC 0))
      (nth j (rfft nf (chan_of k n c v)) (RtoC 0)))) by auto.
  apply Rsum_ext. intros c Hc. apply irfft_conv; auto.
  intros j Hj. rewrite nth_tab by lia. rewrite HC by auto. reflexivity.
Qed.

Lemma pow2_ge a : 0 < a -> a <= 2 ^ Nat.log2_up a.
Proof.
  intros H. destruct (Nat.le_gt_cases a 1).
  - assert (a = 1) by lia. subst. simpl. lia.
  - apply Nat.log2_up_spec. lia.
Qed.

(** The dense block matrix: row (i, r), column (j, c). *)
Definition blk_ent (top : nat) (x : nat -> nat -> list R) (r i c j : nat) : R :=
  if j <? i then nth (top - (i - j)) (x r c) 0%R else nth (j - i) (x r c) 0%R.
Definition dense_block (top k : nat) (x : nat -> nat -> list R) (v : list R) : list R :=
  flatten k (top / 2) (fun r => tab (top / 2) (fun i =>
    Rsum k (fun c => Rsum (top / 2) (fun j => blk_ent top x r i c j * nth (j * k + c) v 0)))%R).

Lemma flatten_ext k n f g : (forall r, r < k -> forall i, i < n -> nth i (f r) 0%R = nth i (g r) 0%R) ->
  flatten k n f = flatten k n g.
Proof.
  intros H. apply tab_ext. intros p Hp. destruct (lag_split k n p Hp) as (l & c & Hl & Hc & ->).
  rewrite lag_div, lag_mod by auto. apply H; auto.
Qed.

Theorem block_toeplitz_op_dense b top k col v : top = 2 * (top / 2) -> 2 <= top ->
  (b = Torch -> 4 <= top) ->
  (forall r c, r < k -> c < k -> length (col r c) = top) ->
  block_toeplitz_op b top k col v = dense_block top k col v.
Proof.
  intros Et H2 Ht Hl. set (n := top / 2) in *.
  assert (Hn : 1 <= n) by lia. assert (Hnt : b = Torch -> 2 <= n) by (intros Eb; specialize (Ht Eb); lia).
  unfold block_toeplitz_op. fold n. cbv zeta.
  set (nf := 2 ^ Nat.log2_up (2 * n)).
  assert (Hf : 2 * n <= nf) by (apply pow2_ge; lia).
  apply flatten_ext. intros r Hr i Hi. rewrite nth_tab by auto.
  rewrite (slice_to _ _ 0%R). unfold block_apply at 1. rewrite length_irfft.
  rewrite nth_tab by lia.
  set (cc := fun r c => if (r <? k) && (c <? k) then block_circ_col b n nf (col r c) else []).
  assert (Ecc : forall r c, r < k -> c < k -> cc r c = block_circ_col b n nf (col r c)).
  { intros r' c' Hr' Hc'. unfold cc. apply Nat.ltb_lt in Hr'. apply Nat.ltb_lt in Hc'. rewrite Hr', Hc'. reflexivity. }
  replace (nth i (block_apply nf n k (fun r0 c : nat =>
     rfft (length (block_circ_col b n nf (col r0 c))) (block_circ_col b n nf (col r0 c))) v r) 0%R)
    with (nth i (block_apply nf n k (fun r0 c => rfft nf (cc r0 c)) v r) 0%R).
  2:{ f_equal. unfold block_apply. f_equal. apply tab_ext. intros j Hj.
      apply Csum_ext. intros c Hc. f_equal. rewrite Ecc by auto.
      rewrite length_block_circ by (rewrite ?Hl; auto). reflexivity. }
  rewrite (block_apply_conv nf n k _ cc) by (auto; lia).
  apply Rsum_ext. intros c Hc. rewrite (Rsum_trunc _ n) by
    (try lia; intros s Hs1 Hs2; rewrite (nth_overflow (chan_of k n c v)) by (rewrite length_chan_of; lia); ring).
  apply Rsum_ext. intros s Hs. unfold chan_of. rewrite nth_tab by auto. f_equal.
  rewrite Ecc by auto.
  rewrite mod_diff by lia. unfold blk_ent.
  assert (Hlrc := Hl r c Hr Hc).
  destruct (Nat.leb_spec s i).
  - rewrite nth_block_circ by (auto; lia). unfold blk_circ. rewrite Hlrc.
    destruct (Nat.eqb_spec (i - s) 0).
    + replace (s <? i) with false by (symmetry; apply Nat.ltb_ge; lia). f_equal. lia.
    + replace (s <? i) with true by (symmetry; apply Nat.ltb_lt; lia).
      replace (i - s <? n) with true by (symmetry; apply Nat.ltb_lt; lia). reflexivity.
  - rewrite nth_block_circ by (auto; lia). unfold blk_circ.
    replace (s <? i) with false by (symmetry; apply Nat.ltb_ge; lia).
    destruct (Nat.eqb_spec (nf + i - s) 0); [lia|].
    destruct (Nat.ltb_spec (nf + i - s) n); [lia|].
    destruct (Nat.ltb_spec (nf + i - s) (nf - n + 1)); [lia|]. f_equal. lia.
Qed.

(** C39: against the matrix built by the direct solver. *)
Theorem block_toeplitz_op_matrix b b' top k col v p M : top = 2 * (top / 2) -> 4 <= top ->
  (forall r c, r < k -> c < k -> length (col r c) = top) ->
  block_toeplitz b' top k k col = Ok M -> p < top / 2 * k ->
  nth p (block_toeplitz_op b top k col v) 0%R = Rmv (top / 2 * k) M (fun q => nth q v 0%R) p.
Proof.
  intros Et H4 Hl HM Hp.
  destruct (block_toeplitz_ok b' top k k col H4 Hl) as (M' & E & HM').
  rewrite E in HM. injection HM as <-.
  rewrite block_toeplitz_op_dense by (auto; lia).
  destruct (lag_split k (top / 2) p Hp) as (i & r & Hi & Hr & ->).
  unfold dense_block. rewrite nth_flatten, nth_tab by auto.
  unfold Rmv. rewrite Rsum_prod, Rsum_swap. apply Rsum_ext. intros j Hj.
  apply Rsum_ext. intros c Hc. rewrite HM' by auto. reflexivity.
Qed.
