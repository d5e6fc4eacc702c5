(** * A system of two equations for conjugate_gradient (C79) *)
From Coq Require Import Reals Lra.
From Verif Require Import Prelude ExtReal Slice Sums SpecSig Helpers Linalg LinalgProofs Cgd Metrics StatsProofs LeastSq CgdOps
  CgdPrecond CgProofs CgApi CgApiProofs CgApiTheorems.
Local Open Scope nat_scope.

Definition ex_M (i j : nat) : R := if Nat.eqb i j then (if Nat.eqb i 0 then 2 else 1)%R else 0%R.
Definition ex_b : list R := [2; 2]%R.
Definition ex_t : list R := [1; 2]%R.
Lemma ex_spd : spd 2 ex_M 1.
Proof.
  split; [|split; [lra|]].
  - intros i j _ _. unfold ex_M. rewrite (Nat.eqb_sym j i). destruct (Nat.eqb_spec i j); [subst|]; reflexivity.
  - intros v. simpl. unfold ex_M. simpl. pose proof (pow2_ge_0 (v 0)). simpl in H. lra.
Qed.
Lemma ex_1 bk : cg_call bk (dense_op bk 2 ex_M) (Vec ex_b) None None None None = Ok (Vec [4 / 3; 4 / 3]%R, None).
Proof.
  rewrite (vector_default bk (dense_op bk 2 ex_M) 2 None ex_b (dense_keeps _ _ _) (identity_keeps 2) eq_refl).
  - do 3 f_equal. unfold dense_op, precond_of, identity_op, ex_b, dotl. cbn [op_fun]. unfold ex_M. simpl.
    rewrite Rmax_left; [|unfold cg_eps; apply (Rle_trans _ 1); [|lra]; rewrite <- Rinv_1; apply Rinv_le_contravar; [lra|]; rewrite <- (pow1 6); apply pow_incr; lra].
    unfold tab. simpl. f_equal; [field|]. f_equal. field.
  - intros w Hw i Hi. unfold dense_op. cbn [op_fun]. rewrite nth_tab by auto. apply Rsum_zero. intros j Hj. rewrite Hw by auto. ring.
Qed.

Lemma eps_le_half : (cg_eps <= 1 / 2)%R.
Proof.
  unfold cg_eps. unfold Rdiv. rewrite Rmult_1_l. apply Rinv_le_contravar; [lra|]. apply (Rle_trans _ (2 ^ 6)); [simpl; lra|].
  apply pow_incr. lra.
Qed.
Lemma ex_large rr : (1 / 2 <= rr)%R -> large 1 rr.
Proof. intros H. pose proof eps_le_half. split; lra. Qed.
Lemma ex_0 bk : cg_call bk (dense_op bk 2 ex_M) (Vec ex_b) None (Some 0) None None = Ok (Vec [0; 0]%R, None).
Proof. reflexivity. Qed.
Lemma ex_len v : In v [ex_b; ex_b] -> length v = 2.
Proof. intros [<-|[<-|[]]]; reflexivity. Qed.
Lemma ex_res bk : forall k X, k < 2 -> cg_call bk (dense_op bk 2 ex_M) (Mat 2 [ex_b; ex_b]) None (Some k) None None = Ok (Mat 2 X, None) ->
  forall j, j < length [ex_b; ex_b] -> resid 2 ex_M (nth j [ex_b; ex_b] []) (nth j X []) = 0%R \/
    large 1 (resid 2 ex_M (nth j [ex_b; ex_b] []) (nth j X [])).
Proof.
  intros k X Hk E j Hj.
  destruct (columns bk (dense_op bk 2 ex_M) 2 None [ex_b; ex_b] (Some k) (dense_keeps _ _ _) (identity_keeps 2) ex_len)
    as (Y & EY & LY & HY).
  rewrite EY in E. injection E as <-. specialize (HY j Hj).
  assert (Eb : nth j [ex_b; ex_b] [] = ex_b) by (destruct j as [|[|j]]; [reflexivity|reflexivity|simpl in Hj; lia]).
  rewrite Eb in *. right. apply ex_large.
  destruct k as [|[|k]]; [| |lia].
  - rewrite ex_0 in HY. injection HY as <-. unfold resid, ex_b, ex_M. simpl. lra.
  - change (cg_call bk (dense_op bk 2 ex_M) (Vec ex_b) None None None None = Ok (Vec (nth j Y []), None)) in HY.
    rewrite ex_1 in HY. injection HY as <-. unfold resid, ex_b, ex_M. simpl. lra.
Qed.
Lemma ex_solved bk : cg_call bk (dense_op bk 2 ex_M) (Mat 2 [ex_b; ex_b]) None None None None = Ok (Mat 2 [ex_t; ex_t], None).
Proof.
  destruct (dense_exact bk 2 ex_M 1 [ex_b; ex_b] ex_spd ex_len (ex_res bk) None (le_n 2)) as (X & E & LX & HX).
  rewrite E. do 3 f_equal.
  assert (S : forall j, j < 2 -> nth j X [] = ex_t).
  { intros j Hj. destruct (HX j Hj) as (Lj & Hs).
    assert (Eb : nth j [ex_b; ex_b] [] = ex_b) by (destruct j as [|[|j]]; [reflexivity|reflexivity|lia]). rewrite Eb in Hs.
    pose proof (Hs 0 ltac:(lia)) as H0. pose proof (Hs 1 ltac:(lia)) as H1. unfold ex_M, ex_b in H0, H1. simpl in H0, H1.
    destruct (nth j X []) as [|a [|c [|? ?]]]; try discriminate. simpl in H0, H1. unfold ex_t. f_equal; [lra|]. f_equal. lra. }
  destruct X as [|u [|v [|? ?]]]; try discriminate. rewrite <- (S 0 ltac:(lia)) at 1. rewrite <- (S 1 ltac:(lia)). reflexivity.
Qed.
(** Solution as 1-D start vector. *)
Lemma ex_start bk : cg_call bk (dense_op bk 2 ex_M) (Vec ex_b) (Some (Vec ex_t)) (Some 1) None None = Ok (Vec [1; 1]%R, None).
Proof.
  unfold cg_call. cbn [add_axis length ex_b fits op_dim dense_op Nat.eqb]. cbn [ex_b length Nat.eqb].
  unfold cgm_init, matmul, bcast, cols_of. cbn. unfold ex_M. cbn.
  unfold ex_t, zip_with, dotl, cg_eps. cbn. unfold tab. cbn.
  replace (2 - (0 + 2 * 1 + 0 * 2))%R with 0%R by ring. do 3 f_equal. unfold Rdiv. f_equal; [ring|]. f_equal. ring.
Qed.
