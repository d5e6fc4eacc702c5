(** * Properties of the conjugate gradient path (C38-C43, C52) *)
From Coq Require Import Reals Lra.
From Verif Require Import Prelude ExtReal SpecSig Sums Helpers Linalg LinalgProofs Cgd Metrics StatsProofs LeastSq PrepProofs
  MetricsProofs Invariance Symmetry SarSymmetry MetricTheorems ProjTheorems SarProofs Outputs Cells CgdOps CgdPrecond CgProofs CgCirc CgTheorems Witness SigExamples Glue.
Local Open Scope nat_scope.

(** C38: the FFT operator is the dense symmetric Toeplitz matrix of the direct solver *)
Theorem C38_toeplitz_operator b b' col v i : length v = length col -> i < length col ->
  nth i (toeplitz_op b col v) 0%R = Rmv (length col) (ent (toeplitz b' col)) (fun j => nth j v 0%R) i.
Proof. exact (toeplitz_op_matrix b b' col v i). Qed.
Print Assumptions C38_toeplitz_operator.
Example C38_example b : toeplitz_op b [3; 1]%R [2; 5]%R = [11; 17]%R.
Proof.
  rewrite toeplitz_op_dense by (simpl; lia). unfold dense_toeplitz, tab, Rsum, adist. simpl.
  repeat (f_equal; try ring).
Qed.

(** C39 *)
Theorem C39_block_operator b b' top k col v p M : top = 2 * (top / 2) -> 4 <= top ->
  (forall r c, r < k -> c < k -> length (col r c) = top) ->
  block_toeplitz b' top k k col = Ok M -> p < top / 2 * k ->
  nth p (block_toeplitz_op b top k col v) 0%R = Rmv (top / 2 * k) M (fun q => nth q v 0%R) p.
Proof. exact (block_toeplitz_op_matrix b b' top k col v p M). Qed.
Print Assumptions C39_block_operator.
Theorem C39_block_operator_dense b top k col v : top = 2 * (top / 2) -> 2 <= top ->
  (b = Torch -> 4 <= top) ->
  (forall r c, r < k -> c < k -> length (col r c) = top) ->
  block_toeplitz_op b top k col v = dense_block top k col v.
Proof. exact (block_toeplitz_op_dense b top k col v). Qed.
Print Assumptions C39_block_operator_dense.
Example C39_example b : 4 = 2 * (4 / 2) /\ (forall r c, r < 1 -> c < 1 -> length [3; 1; 0; 1]%R = 4) /\
  block_toeplitz_op b 4 1 (fun _ _ => [3; 1; 0; 1]%R) [2; 5]%R = [11; 17]%R.
Proof.
  split; [reflexivity|]. split; [reflexivity|].
  rewrite block_toeplitz_op_dense; try (intros; simpl; lia).
  unfold dense_block, flatten, tab, Rsum. simpl. unfold blk_ent. simpl. repeat (f_equal; try ring).
Qed.

(** C40: nearest circulant in Frobenius norm *)
Theorem C40_symmetric_precond b col c' : 0 < length col ->
  exists c, sym_precond_col b col = Ok c /\ length c = length col /\
  (frob (length col) (ent (toeplitz b col)) (fun k => nth k c 0%R) <=
   frob (length col) (ent (toeplitz b col)) c')%R.
Proof. exact (sym_col_optimal b col c'). Qed.
Print Assumptions C40_symmetric_precond.
Theorem C40_block_precond b n r c' : length r = 2 * n -> 2 <= n ->
  exists c, nonsym_precond_col b r = Ok c /\ length c = n /\
  (frob n (ent (bt_block n r)) (fun k => nth k c 0%R) <= frob n (ent (bt_block n r)) c')%R.
Proof. exact (nonsym_col_optimal b n r c'). Qed.
Print Assumptions C40_block_precond.
Example C40_example : 0 < length [3; 1; 2]%R /\ length [3; 1; 0; 1]%R = 2 * 2 /\ 2 <= 2.
Proof. simpl. lia. Qed.

(** C41 *)
Theorem C41_residual n A P M b x0 : acts_as n A M -> length x0 = n ->
  (forall v, length v = n -> length (P v) = n) ->
  forall k i, i < n -> nth i (cg_r (cg_run n A P b x0 k)) 0%R =
    (nth i b 0 - Rmv n M (smp (cg_x (cg_run n A P b x0 k))) i)%R.
Proof. exact (cg_residual n A P M b x0). Qed.
Print Assumptions C41_residual.
Theorem C41_exact_start n A P M b x0 : acts_as n A M -> length x0 = n ->
  (forall v, length v = n -> length (P v) = n) ->
  (forall v, length v = n -> zero_vec n v -> zero_vec n (P v)) ->
  forall k, (forall i, i < n -> Rmv n M (smp x0) i = nth i b 0%R) ->
  forall i, i < n -> nth i (cg_x (cg_run n A P b x0 k)) 0%R = nth i x0 0%R.
Proof. exact (exact_start n A P M b x0). Qed.
Print Assumptions C41_exact_start.
Theorem C41_zero_iterations b acf xc s : toeplitz_cg b acf xc 0 = Ok s -> s = repeat 0%R (length acf).
Proof. exact (toeplitz_cg_zero_iter b acf xc s). Qed.
Print Assumptions C41_zero_iterations.
Theorem C41_zero_iterations_block b top k acf xc x0 s :
  block_toeplitz_cg b top k acf xc (Some x0) 0 = Ok s -> s = x0.
Proof. exact (block_cg_zero_iter b top k acf xc x0 s). Qed.
Print Assumptions C41_zero_iterations_block.
(** the recomputation test of the loop, Python's [epoch + 1 % 5 == 0] *)
Theorem C41_no_recomputation e : (e + 1 mod 5 =? 0) = false.
Proof. exact (never_recompute e). Qed.
Print Assumptions C41_no_recomputation.
Example C41_example b : acts_as 2 (toeplitz_op b [3; 1]%R) (ent (toeplitz b [3; 1]%R)).
Proof. intros v i Hv Hi. exact (toeplitz_op_matrix b b [3; 1]%R v i Hv Hi). Qed.

(** C42 *)
Theorem C42_descent n A P M b x0 : acts_as n A M -> length x0 = n ->
  (forall v, length v = n -> length (P v) = n) -> symmetric_mat n M -> psd_mat n M ->
  (forall v, length v = n -> 0 <= dotl n v (P v))%R ->
  forall k, (err n M b (cg_x (cg_run n A P b x0 (S k))) <=
    err n M b (cg_x (cg_run n A P b x0 k)) - cg_alpha n A P b x0 k * cg_rs (cg_run n A P b x0 k))%R.
Proof. exact (cg_descent n A P M b x0). Qed.
Print Assumptions C42_descent.
Theorem C42_toeplitz_descent b acf xc it s s' : psd_mat (length acf) (ent (toeplitz b acf)) ->
  toeplitz_cg b acf xc it = Ok s -> toeplitz_cg b acf xc (S it) = Ok s' ->
  (quad_err (length acf) (ent (toeplitz b acf)) xc s' <= quad_err (length acf) (ent (toeplitz b acf)) xc s)%R.
Proof. exact (toeplitz_cg_descent b acf xc it s s'). Qed.
Print Assumptions C42_toeplitz_descent.
(** on the SDR system, the functional is the (loaded) squared distance to the estimate *)
Theorem C42_sdr_descent b o nf x y it s s' : (0 <= loadv (load_diag o))%R ->
  toeplitz_cg b (sdr_acf o nf x) (stats_xcorr nf (filter_length o) x y) it = Ok s ->
  toeplitz_cg b (sdr_acf o nf x) (stats_xcorr nf (filter_length o) x y) (S it) = Ok s' ->
  let obj := ls_obj (Nat.min (filter_length o) nf) nf (cdelayed nf x) (loadv (load_diag o)) (smp y) in
  (obj (smp s') <= obj (smp s))%R.
Proof. exact (sdr_system_descent b o nf x y it s s'). Qed.
Print Assumptions C42_sdr_descent.
Example C42_example b : psd_mat 2 (ent (toeplitz b [3; 1]%R)).
Proof.
  intros v.
  assert (E : forall i, i < 2 -> Rmv 2 (ent (toeplitz b [3; 1]%R)) v i = (if Nat.eqb i 0 then 3 * v 0%nat + v 1%nat else v 0%nat + 3 * v 1%nat)%R).
  { intros i Hi. transitivity (nth i (toeplitz_op b [3; 1]%R [v 0; v 1]) 0%R).
    - rewrite (toeplitz_op_matrix b b [3; 1]%R [v 0; v 1] i) by auto.
      apply Rsum_ext. intros j Hj. destruct j as [|[|j]]; simpl in Hj; try lia; reflexivity.
    - rewrite toeplitz_op_dense by (simpl; lia).
      destruct i as [|[|i]]; try lia; unfold dense_toeplitz, tab, Rsum, adist; simpl; ring. }
  rewrite (Rsum_ext 2 _ (fun i => v i * (if Nat.eqb i 0 then 3 * v 0%nat + v 1%nat else v 0%nat + 3 * v 1%nat))%R)
    by (intros i Hi; rewrite E by auto; reflexivity).
  unfold Rsum. simpl. pose proof (Rle_0_sqr (v 0%nat)). pose proof (Rle_0_sqr (v 1%nat)).
  pose proof (Rle_0_sqr (v 0%nat + v 1%nat)). unfold Rsqr in *. nra.
Qed.

(** C43 *)
Theorem C43_terminates n A P M b x0 : acts_as n A M -> length x0 = n ->
  (forall v, length v = n -> length (P v) = n) -> symmetric_mat n M ->
  (forall v, length v = n -> zero_vec n v -> zero_vec n (P v)) ->
  (forall u v, length u = n -> length v = n -> dotl n (P u) v = dotl n u (P v)) ->
  forall it, n <= it ->
  (forall k, k < n -> ~ zero_vec n (cg_r (cg_run n A P b x0 k)) -> inactive n A P b x0 k) ->
  forall i, i < n -> Rmv n M (smp (cg_x (cg_run n A P b x0 it))) i = nth i b 0%R.
Proof. exact (cg_exact n A P M b x0). Qed.
Print Assumptions C43_terminates.
Theorem C43_toeplitz_exact b acf xc it : length xc = length acf -> length acf <= it ->
  (forall k, k < length acf -> cg_inactive acf xc k) ->
  exists s, toeplitz_cg b acf xc it = Ok s /\ length s = length acf /\
    forall i, i < length acf -> Rmv (length acf) (ent (toeplitz b acf)) (smp s) i = nth i xc 0%R.
Proof. exact (toeplitz_cg_exact b acf xc it). Qed.
Print Assumptions C43_toeplitz_exact.
Theorem C43_equals_direct b o it ref est m : (0 <= loadv (load_diag o))%R ->
  Nat.min (filter_length o) (n_fft (a_len ref) (a_len est)) <= it ->
  never_guarded o ref est (Nat.min (filter_length o) (n_fft (a_len ref) (a_len est))) ->
  pairwise_sdr_loss b (with_cg o None) est ref = Ok m ->
  pairwise_sdr_loss b (with_cg o (Some it)) est ref = Ok m.
Proof. exact (cg_equals_direct b o it ref est m). Qed.
Print Assumptions C43_equals_direct.
Example C43_example b : never_guarded (plain_opts 2) ex_ref ex_est 2 /\
  is_ok (pairwise_sdr_loss b (with_cg (plain_opts 2) None) ex_est ex_ref).
Proof. exact (conj (ex_never_guarded 2) (ex_pairwise_ok b 2 ltac:(lia))). Qed.

(** C52 *)
Theorem C52_cg_range b o it ref est m c d x y : wf ref -> wf est ->
  use_cg_iter o = Some it -> (0 <= loadv (load_diag o))%R -> filter_length o <> 1 ->
  has_chan ref c x -> has_chan est d y ->
  sdr_coh b o ref est = Ok m ->
  exists q, mat_of m c d = Fin q /\ (0 <= q <= 2)%R /\ (never_guarded o ref est it -> q <= 1)%R.
Proof. exact (cg_coh_range b o it ref est m c d x y). Qed.
Print Assumptions C52_cg_range.
Theorem C52_cg_below_direct b o it ref est m m' c d x y : wf ref -> wf est ->
  (0 <= loadv (load_diag o))%R -> filter_length o <> 1 ->
  has_chan ref c x -> has_chan est d y ->
  sdr_coh b (with_cg o (Some it)) ref est = Ok m ->
  sdr_coh b (with_cg o None) ref est = Ok m' ->
  never_guarded o ref est it ->
  exists q q', mat_of m c d = Fin q /\ mat_of m' c d = Fin q' /\ (q <= q')%R.
Proof. exact (cg_below_direct b o it ref est m m' c d x y). Qed.
Print Assumptions C52_cg_below_direct.
Theorem C52_more_iterations b o it ref est m m' c d x y : wf ref -> wf est ->
  (0 <= loadv (load_diag o))%R -> filter_length o <> 1 ->
  has_chan ref c x -> has_chan est d y ->
  sdr_coh b (with_cg o (Some it)) ref est = Ok m ->
  sdr_coh b (with_cg o (Some (S it))) ref est = Ok m' ->
  never_guarded o ref est (S it) ->
  exists q q', mat_of m c d = Fin q /\ mat_of m' c d = Fin q' /\ (q <= q')%R.
Proof. exact (cg_more_iterations b o it ref est m m' c d x y). Qed.
Print Assumptions C52_more_iterations.
Example C52_example n : never_guarded (plain_opts 2) ex_ref ex_est n.
Proof. exact (ex_never_guarded n). Qed.
