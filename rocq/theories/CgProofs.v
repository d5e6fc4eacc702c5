(** * The conjugate gradient iteration (C41, C42, C43) *)
From Coq Require Import Reals Lra.
From Verif Require Import Prelude ExtReal Slice Sums SpecSig Fft FftProofs Helpers Linalg LinalgProofs
  Cgd Metrics StatsProofs LeastSq CgdOps CgdPrecond.
Local Open Scope nat_scope.

(** The operator A acts as the n x n matrix M. *)
Definition acts_as (n : nat) (A : list R -> list R) (M : nat -> nat -> R) : Prop :=
  forall v i, length v = n -> i < n -> nth i (A v) 0%R = Rmv n M (smp v) i.
Definition symmetric_mat (n : nat) (M : nat -> nat -> R) : Prop :=
  forall i j, i < n -> j < n -> M i j = M j i.
(** Quadratic form nonnegative. *)
Definition psd_mat (n : nat) (M : nat -> nat -> R) : Prop :=
  forall v, (0 <= Rsum n (fun i => v i * Rmv n M v i))%R.

Lemma dotl_dot n a b : dotl n a b = dot n (smp a) (smp b).
Proof. reflexivity. Qed.
Lemma nth_axpy n x a p i : i < n -> nth i (axpy n x a p) 0%R = (nth i x 0 + a * nth i p 0)%R.
Proof. intros H. unfold axpy. rewrite nth_tab by auto. reflexivity. Qed.
Lemma dotl_axpy_r n u x a p : dotl n u (axpy n x a p) = (dotl n u x + a * dotl n u p)%R.
Proof.
  unfold dotl. rewrite <- Rsum_scal_l, <- Rsum_plus. apply Rsum_ext. intros i Hi.
  rewrite nth_axpy by auto. ring.
Qed.
Lemma dotl_comm n u v : dotl n u v = dotl n v u.
Proof. apply Rsum_ext. intros. ring. Qed.
Lemma dotl_axpy_l n u x a p : dotl n (axpy n x a p) u = (dotl n x u + a * dotl n p u)%R.
Proof. rewrite dotl_comm, dotl_axpy_r, !(dotl_comm n u). reflexivity. Qed.
Lemma dotl_zero n u v : (forall i, i < n -> nth i v 0%R = 0%R) -> dotl n u v = 0%R.
Proof. intros H. apply Rsum_zero. intros i Hi. rewrite H by auto. ring. Qed.
Lemma dotl_self_0 n v : dotl n v v = 0%R -> forall i, i < n -> nth i v 0%R = 0%R.
Proof. intros H i Hi. apply (energy_zero n (smp v)); auto. Qed.

Lemma Rmv_axpy n M x a p i : Rmv n M (smp (axpy n x a p)) i = (Rmv n M (smp x) i + a * Rmv n M (smp p) i)%R.
Proof.
  unfold Rmv. rewrite <- Rsum_scal_l, <- Rsum_plus. apply Rsum_ext. intros j Hj.
  unfold smp. rewrite nth_axpy by auto. ring.
Qed.
Lemma eps_pos : (0 < cg_eps)%R.
Proof. unfold cg_eps. apply Rinv_0_lt_compat, pow_lt. lra. Qed.
Lemma max_eps_pos a : (0 < Rmax a cg_eps)%R.
Proof. pose proof eps_pos. pose proof (Rmax_r a cg_eps). lra. Qed.

Section CG.
Variables (n : nat) (A P : list R -> list R) (M : nat -> nat -> R) (b x0 : list R).
Hypothesis HA : acts_as n A M.
Hypothesis Hx0 : length x0 = n.
Hypothesis HPl : forall v, length v = n -> length (P v) = n.

Let run k := cg_run n A P b x0 k.
Let X k := cg_x (run k).
Let r k := cg_r (run k).
Let p k := cg_p (run k).
Let rs k := cg_rs (run k).
Let z k := P (r k).
Definition cg_pAp k := dotl n (p k) (A (p k)).
Definition cg_alpha k := (rs k / Rmax (cg_pAp k) cg_eps)%R.
Definition cg_beta k := (rs (S k) / Rmax (rs k) cg_eps)%R.

Lemma run_len k : cg_len n (run k).
Proof. apply cg_run_len; auto. Qed.
Lemma x_S k : X (S k) = axpy n (X k) (cg_alpha k) (p k).
Proof. unfold X, run. rewrite cg_run_S. reflexivity. Qed.
Lemma r_S k : r (S k) = axpy n (r k) (- cg_alpha k) (A (p k)).
Proof. unfold r, run. rewrite cg_run_S. unfold cg_step. rewrite never_recompute. reflexivity. Qed.
Lemma rs_eq k : rs k = dotl n (r k) (z k).
Proof.
  unfold z. destruct k as [|k]; [reflexivity|].
  rewrite r_S. unfold rs, run. rewrite cg_run_S. unfold cg_step. rewrite never_recompute. reflexivity.
Qed.
Lemma p_S k : p (S k) = axpy n (z (S k)) (cg_beta k) (p k).
Proof.
  unfold cg_beta. rewrite rs_eq. unfold z. rewrite r_S.
  unfold p, rs, run. rewrite cg_run_S. unfold cg_step. rewrite never_recompute. reflexivity.
Qed.
Lemma p_0 : p 0 = z 0.
Proof. reflexivity. Qed.
Lemma len_p k : length (p k) = n.
Proof. apply run_len. Qed.
Lemma len_r k : length (r k) = n.
Proof. apply run_len. Qed.
Lemma len_x k : length (X k) = n.
Proof. apply run_len. Qed.

(** C41: the residual is the true residual. *)
Theorem cg_residual k i : i < n -> nth i (r k) 0%R = (nth i b 0 - Rmv n M (smp (X k)) i)%R.
Proof.
  intros Hi. induction k as [|k IH].
  - unfold r, X, run, cg_run, cg_init. cbv zeta. simpl cg_r. simpl cg_x.
    rewrite nth_axpy by auto. rewrite HA by auto. ring.
  - rewrite r_S, x_S, nth_axpy by auto. rewrite HA by (auto; apply len_p).
    rewrite Rmv_axpy, IH. ring.
Qed.

Definition zero_vec (v : list R) : Prop := forall i, i < n -> nth i v 0%R = 0%R.

(** Once the residual vanishes nothing changes any more. *)
Section Converged.
Hypothesis HP0 : forall v, length v = n -> zero_vec v -> zero_vec (P v).

Lemma zero_state k : zero_vec (r k) -> zero_vec (p k) /\ rs k = 0%R.
Proof.
  intros H. assert (Hz : zero_vec (z k)) by (apply HP0; [apply len_r|auto]).
  assert (E : rs k = 0%R) by (rewrite rs_eq; apply dotl_zero; auto).
  split; auto. destruct k as [|k]; [exact Hz|].
  intros i Hi. rewrite p_S, nth_axpy by auto. unfold cg_beta. rewrite E, Hz by auto.
  unfold Rdiv. ring.
Qed.
Theorem converged_step k : zero_vec (r k) ->
  (forall i, i < n -> nth i (X (S k)) 0%R = nth i (X k) 0%R) /\ zero_vec (r (S k)).
Proof.
  intros H. destruct (zero_state k H) as (Hp & E).
  assert (Ea : cg_alpha k = 0%R) by (unfold cg_alpha; rewrite E; unfold Rdiv; ring).
  split; intros i Hi.
  - rewrite x_S, nth_axpy, Ea by auto. ring.
  - rewrite r_S, nth_axpy, Ea, H by auto. ring.
Qed.
Theorem converged_stays k j : zero_vec (r k) ->
  (forall i, i < n -> nth i (X (k + j)) 0%R = nth i (X k) 0%R) /\ zero_vec (r (k + j)).
Proof.
  intros H. induction j as [|j [IH1 IH2]].
  - rewrite Nat.add_0_r. auto.
  - rewrite Nat.add_succ_r. destruct (converged_step _ IH2) as (H1 & H2).
    split; auto. intros i Hi. rewrite H1 by auto. auto.
Qed.
(** C41: an exact start vector is kept. *)
Theorem exact_start k : (forall i, i < n -> Rmv n M (smp x0) i = nth i b 0%R) ->
  forall i, i < n -> nth i (X k) 0%R = nth i x0 0%R.
Proof.
  intros H i Hi. apply (converged_stays 0 k); auto.
  intros j Hj. rewrite cg_residual by auto. rewrite <- (H j Hj).
  change (X 0) with x0. ring.
Qed.
End Converged.

(** C42: the error functional never increases. *)
Definition err (x : list R) : R :=
  (Rsum n (fun i => smp x i * Rmv n M (smp x) i) - 2 * dotl n b x)%R.

Section Descent.
Hypothesis Hsym : symmetric_mat n M.
Hypothesis Hpsd : psd_mat n M.
Hypothesis HPpos : forall v, length v = n -> (0 <= dotl n v (P v))%R.

Lemma form_sym u v : Rsum n (fun i => u i * Rmv n M v i)%R = Rsum n (fun i => v i * Rmv n M u i)%R.
Proof.
  unfold Rmv.
  rewrite (Rsum_ext n (fun i => u i * Rsum n (fun j => M i j * v j))%R
             (fun i => Rsum n (fun j => u i * (M i j * v j)))%R) by (intros; rewrite Rsum_scal_l; reflexivity).
  rewrite Rsum_swap. apply Rsum_ext. intros j Hj. rewrite <- Rsum_scal_l. apply Rsum_ext. intros i Hi.
  rewrite (Hsym i j) by auto. ring.
Qed.
Lemma dotl_A u v : length v = n -> dotl n u (A v) = Rsum n (fun i => smp u i * Rmv n M (smp v) i)%R.
Proof. intros Hv. apply Rsum_ext. intros i Hi. rewrite HA by auto. reflexivity. Qed.
Lemma pAp_nonneg k : (0 <= cg_pAp k)%R.
Proof. unfold cg_pAp. rewrite dotl_A by apply len_p. apply Hpsd. Qed.
Lemma rs_nonneg k : (0 <= rs k)%R.
Proof. rewrite rs_eq. apply HPpos. apply len_r. Qed.
Lemma pAp_ratio k : (0 <= cg_pAp k / Rmax (cg_pAp k) cg_eps <= 1)%R.
Proof.
  pose proof (max_eps_pos (cg_pAp k)). pose proof (pAp_nonneg k). split.
  - apply Rmult_le_pos; auto. left. apply Rinv_0_lt_compat. auto.
  - apply (Rmult_le_reg_r (Rmax (cg_pAp k) cg_eps)); auto. unfold Rdiv.
    rewrite Rmult_assoc, Rinv_l by lra. rewrite Rmult_1_r, Rmult_1_l. apply Rmax_l.
Qed.
Lemma alpha_nonneg k : (0 <= cg_alpha k)%R.
Proof.
  unfold cg_alpha. apply Rmult_le_pos; [apply rs_nonneg|]. left. apply Rinv_0_lt_compat, max_eps_pos.
Qed.
Lemma alpha_pAp k : (cg_alpha k * cg_pAp k = rs k * (cg_pAp k / Rmax (cg_pAp k) cg_eps))%R.
Proof. unfold cg_alpha, Rdiv. ring. Qed.
Lemma pr_ge k : (rs k <= dotl n (p k) (r k))%R.
Proof.
  induction k as [|k IH].
  - rewrite rs_eq, dotl_comm. apply Rle_refl.
  - rewrite p_S, dotl_axpy_l. rewrite (dotl_comm n (z (S k))), <- rs_eq.
    assert (0 <= cg_beta k)%R.
    { unfold cg_beta. apply Rmult_le_pos; [apply rs_nonneg|]. left. apply Rinv_0_lt_compat, max_eps_pos. }
    assert (0 <= dotl n (p k) (r (S k)))%R.
    { rewrite r_S, dotl_axpy_r. fold (cg_pAp k).
      pose proof (alpha_pAp k). pose proof (pAp_ratio k). pose proof (rs_nonneg k).
      assert (rs k * (cg_pAp k / Rmax (cg_pAp k) cg_eps) <= rs k * 1)%R by (apply Rmult_le_compat_l; lra).
      lra. }
    pose proof (Rmult_le_pos _ _ H H0). lra.
Qed.
Lemma err_step x a q : length x = n -> length q = n ->
  (err (axpy n x a q) = err x + a ^ 2 * dotl n q (A q)
     - 2 * a * (dotl n q b - Rsum n (fun i => smp q i * Rmv n M (smp x) i)))%R.
Proof.
  intros Hx Hq. unfold err. rewrite dotl_axpy_r. rewrite dotl_A by auto.
  rewrite (Rsum_ext n (fun i => smp (axpy n x a q) i * Rmv n M (smp (axpy n x a q)) i)%R
    (fun i => smp x i * Rmv n M (smp x) i + (a * (smp x i * Rmv n M (smp q) i) +
       (a * (smp q i * Rmv n M (smp x) i) + a ^ 2 * (smp q i * Rmv n M (smp q) i))))%R).
  2:{ intros i Hi. rewrite Rmv_axpy. unfold smp at 1. rewrite nth_axpy by auto. fold (smp x i) (smp q i). ring. }
  rewrite !Rsum_plus, !Rsum_scal_l. rewrite (form_sym (smp x) (smp q)).
  rewrite (dotl_comm n q b). ring.
Qed.
Lemma qr k q : (dotl n q b - Rsum n (fun i => smp q i * Rmv n M (smp (X k)) i) = dotl n q (r k))%R.
Proof.
  unfold dotl. rewrite <- Rsum_minus. apply Rsum_ext. intros i Hi. rewrite cg_residual by auto.
  unfold smp. ring.
Qed.
Theorem cg_descent k : (err (X (S k)) <= err (X k) - cg_alpha k * rs k)%R.
Proof.
  rewrite x_S, err_step by (apply len_x || apply len_p). rewrite qr. fold (cg_pAp k).
  pose proof (alpha_nonneg k). pose proof (pr_ge k). pose proof (pAp_ratio k). pose proof (rs_nonneg k).
  assert (H3 : (cg_alpha k * (cg_alpha k * cg_pAp k) <= cg_alpha k * rs k)%R).
  { apply Rmult_le_compat_l; auto. rewrite alpha_pAp. rewrite <- (Rmult_1_r (rs k)) at 2.
    apply Rmult_le_compat_l; lra. }
  assert (H4 : (cg_alpha k * rs k <= cg_alpha k * dotl n (p k) (r k))%R) by (apply Rmult_le_compat_l; auto).
  replace (cg_alpha k ^ 2 * cg_pAp k)%R with (cg_alpha k * (cg_alpha k * cg_pAp k))%R by ring.
  lra.
Qed.
Corollary cg_monotone k j : (err (X (k + j)) <= err (X k))%R.
Proof.
  induction j as [|j IH]; [rewrite Nat.add_0_r; lra|]. rewrite Nat.add_succ_r.
  pose proof (cg_descent (k + j)). pose proof (alpha_nonneg (k + j)). pose proof (rs_nonneg (k + j)).
  pose proof (Rmult_le_pos _ _ H0 H1). lra.
Qed.
(** err is the squared A-norm error up to a constant. *)
Lemma err_is_error x xs : (forall i, i < n -> Rmv n M xs i = nth i b 0%R) ->
  (Rsum n (fun i => (smp x i - xs i) * Rmv n M (fun j => smp x j - xs j) i)
   = err x + Rsum n (fun i => xs i * nth i b 0))%R.
Proof.
  intros H. unfold err, dotl.
  rewrite (Rsum_ext n (fun i => (smp x i - xs i) * Rmv n M (fun j => smp x j - xs j) i)%R
    (fun i => smp x i * Rmv n M (smp x) i - smp x i * Rmv n M xs i - xs i * Rmv n M (smp x) i
              + xs i * Rmv n M xs i)%R).
  2:{ intros i Hi. unfold Rmv at 1.
      rewrite (Rsum_ext n (fun j => M i j * (smp x j - xs j))%R
        (fun j => M i j * smp x j - M i j * xs j)%R) by (intros; ring).
      rewrite Rsum_minus. fold (Rmv n M (smp x) i) (Rmv n M xs i). ring. }
  rewrite Rsum_plus, !Rsum_minus. rewrite (form_sym xs (smp x)).
  rewrite (Rsum_ext n (fun i => smp x i * Rmv n M xs i)%R (fun i => nth i b 0 * nth i x 0)%R) by
    (intros i Hi; rewrite H by auto; unfold smp; ring).
  rewrite (Rsum_ext n (fun i => xs i * Rmv n M xs i)%R (fun i => xs i * nth i b 0)%R) by
    (intros i Hi; rewrite H by auto; ring).
  ring.
Qed.
End Descent.

(** C43: finite termination. *)
Section Exact.
Hypothesis Hsym : symmetric_mat n M.
Hypothesis HP0 : forall v, length v = n -> zero_vec v -> zero_vec (P v).
Hypothesis HPsym : forall u v, length u = n -> length v = n -> dotl n (P u) v = dotl n u (P v).

(** The safeguards are inactive at step k. *)
Definition inactive (k : nat) : Prop := (cg_eps <= cg_pAp k)%R /\ (cg_eps <= rs k)%R.

Lemma A_sym u v : length u = n -> length v = n -> dotl n u (A v) = dotl n v (A u).
Proof.
  intros Hu Hv. rewrite !dotl_A by auto. apply form_sym; auto.
Qed.
Lemma alpha_in k : inactive k -> cg_alpha k = (rs k / cg_pAp k)%R.
Proof. intros (H & _). unfold cg_alpha. rewrite Rmax_left by auto. reflexivity. Qed.
Lemma beta_in k : inactive k -> cg_beta k = (rs (S k) / rs k)%R.
Proof. intros (_ & H). unfold cg_beta. rewrite Rmax_left by auto. reflexivity. Qed.

(** Conjugacy up to step m. *)
Definition conj_upto (m : nat) : Prop :=
  (forall k, k <= m -> dotl n (p k) (r k) = rs k) /\
  (forall j k, j < k -> k <= m -> dotl n (p j) (r k) = 0%R) /\
  (forall j k, j < k -> k <= m -> dotl n (p j) (A (p k)) = 0%R).

Lemma conjugacy m : (forall k, k < m -> inactive k) -> conj_upto m.
Proof.
  induction m as [|m IH]; intros Hin.
  - split; [|split]; try (intros; lia). intros k Hk. replace k with 0 by lia.
    rewrite rs_eq, dotl_comm. reflexivity.
  - destruct IH as (I1 & I2 & I3); [intros; apply Hin; lia|].
    assert (Hm : inactive m) by (apply Hin; lia).
    pose proof eps_pos as He.
    (* p_j orthogonal to r_{m+1} *)
    assert (J2 : forall j, j <= m -> dotl n (p j) (r (S m)) = 0%R).
    { intros j Hj. rewrite r_S, dotl_axpy_r. destruct (Nat.eq_dec j m) as [->|Nj].
      - fold (cg_pAp m). rewrite I1 by lia. rewrite alpha_in by auto.
        destruct Hm as (Ha & Hb). field. lra.
      - rewrite I2, I3 by lia. ring. }
    (* z_j orthogonal to r_{m+1} *)
    assert (J1 : forall j, j <= m -> dotl n (z j) (r (S m)) = 0%R).
    { intros j Hj. destruct j as [|j].
      - rewrite <- p_0. apply J2. lia.
      - pose proof (J2 (S j) Hj) as E. rewrite p_S, dotl_axpy_l in E.
        rewrite (J2 j) in E by lia. lra. }
    (* hence r_j orthogonal to z_{m+1} *)
    assert (J1' : forall j, j <= m -> dotl n (r j) (z (S m)) = 0%R).
    { intros j Hj. unfold z. rewrite <- HPsym by apply len_r. apply J1. auto. }
    assert (J0 : dotl n (p (S m)) (r (S m)) = rs (S m)).
    { rewrite p_S, dotl_axpy_l, (J2 m) by lia. rewrite dotl_comm, <- rs_eq. ring. }
    (* A-conjugacy *)
    assert (J3 : forall j, j <= m -> dotl n (p j) (A (p (S m))) = 0%R).
    { intros j Hj. rewrite A_sym by apply len_p. rewrite p_S, dotl_axpy_l.
      assert (Hj' : inactive j) by (apply Hin; lia).
      assert (Eal : (cg_alpha j * dotl n (z (S m)) (A (p j)) =
                     dotl n (r j) (z (S m)) - dotl n (r (S j)) (z (S m)))%R).
      { rewrite (r_S j), dotl_axpy_l, (dotl_comm n (A (p j))). ring. }
      rewrite (J1' j) in Eal by lia.
      assert (Ha0 : (0 < cg_alpha j)%R).
      { rewrite alpha_in by auto. destruct Hj' as (Ha & Hb). apply Rdiv_lt_0_compat; lra. }
      destruct (Nat.eq_dec j m) as [->|Nj].
      - rewrite <- rs_eq in Eal. fold (cg_pAp m).
        rewrite beta_in by auto. rewrite alpha_in in Eal by auto. destruct Hm as (Ha & Hb).
        assert (E2 : dotl n (z (S m)) (A (p m)) = (- rs (S m) * cg_pAp m / rs m)%R).
        { apply (Rmult_eq_reg_l (rs m / cg_pAp m)).
          - rewrite Eal. field. lra.
          - apply Rgt_not_eq. apply Rdiv_lt_0_compat; lra. }
        rewrite E2. field. lra.
      - rewrite (J1' (S j)) in Eal by lia.
        assert (E2 : dotl n (z (S m)) (A (p j)) = 0%R).
        { apply (Rmult_eq_reg_l (cg_alpha j)); [rewrite Eal; ring|lra]. }
        rewrite E2. rewrite A_sym by apply len_p. rewrite I3 by lia. ring. }
    split; [|split].
    + intros k Hk. destruct (Nat.eq_dec k (S m)) as [->|]; [auto|apply I1; lia].
    + intros j k Hj Hk. destruct (Nat.eq_dec k (S m)) as [->|]; [apply J2; lia|apply I2; lia].
    + intros j k Hj Hk. destruct (Nat.eq_dec k (S m)) as [->|]; [apply J3; lia|apply I3; lia].
Qed.

Lemma all_inactive_exact : (forall k, k < n -> inactive k) -> zero_vec (r n).
Proof.
  intros Hin. destruct (conjugacy n Hin) as (I1 & I2 & I3). pose proof eps_pos as He.
  set (B := fun i j => nth i (p j) 0%R).
  assert (HB : nonsingular n B).
  { intros c Hc j Hj.
    assert (E : Rsum n (fun k => c k * dotl n (p k) (A (p j)))%R = 0%R).
    { rewrite (Rsum_ext n _ (fun k => Rsum n (fun i => nth i (A (p j)) 0 * (B i k * c k)))%R).
      2:{ intros k Hk. unfold dotl. rewrite <- Rsum_scal_l. apply Rsum_ext. intros i Hi. unfold B. ring. }
      rewrite Rsum_swap. apply Rsum_zero. intros i Hi. rewrite Rsum_scal_l.
      fold (Rmv n B c i). rewrite Hc by auto. ring. }
    rewrite (Rsum_single n j) in E; auto.
    - fold (cg_pAp j) in E. destruct (Hin j Hj) as (Ha & _).
      apply Rmult_integral in E. destruct E as [E|E]; [auto|lra].
    - intros k Hk Nk. destruct (Nat.lt_ge_cases k j).
      + rewrite I3 by lia. ring.
      + rewrite A_sym by apply len_p. rewrite I3 by lia. ring. }
  destruct (Rsolve_some n B (fun i => nth i (r n) 0%R) HB) as (c & Ec).
  pose proof (Rsolve_ok _ _ _ _ Ec) as Hc.
  intros i0 Hi0. apply (dotl_self_0 n (r n)); auto. unfold dotl.
  rewrite (Rsum_ext n _ (fun i => Rsum n (fun j => c j * (nth i (p j) 0 * nth i (r n) 0)))%R).
  2:{ intros i Hi. transitivity (Rmv n B c i * nth i (r n) 0)%R; [f_equal; symmetry; exact (Hc i Hi)|].
      unfold Rmv. rewrite <- Rsum_scal_r. apply Rsum_ext.
      intros j Hj. unfold B. ring. }
  rewrite Rsum_swap. apply Rsum_zero. intros j Hj. rewrite Rsum_scal_l.
  change (Rsum n (fun i => nth i (p j) 0 * nth i (r n) 0)%R) with (dotl n (p j) (r n)).
  rewrite I2 by lia. ring.
Qed.

Lemma zero_dec v : zero_vec v \/ ~ zero_vec v.
Proof.
  destruct (Req_EM_T (dotl n v v) 0) as [E|E].
  - left. intros i Hi. apply (dotl_self_0 n v); auto.
  - right. intros H. apply E. apply dotl_zero. auto.
Qed.
Lemma first_zero m : (exists k, k <= m /\ zero_vec (r k)) \/ (forall k, k <= m -> ~ zero_vec (r k)).
Proof.
  induction m as [|m [(k & Hk & Hz)|H]].
  - destruct (zero_dec (r 0)); [left; exists 0; auto|right]. intros k Hk. replace k with 0 by lia. auto.
  - left. exists k. auto.
  - destruct (zero_dec (r (S m))); [left; exists (S m); auto|right].
    intros k Hk. destruct (Nat.eq_dec k (S m)) as [->|]; [auto|apply H; lia].
Qed.

Theorem cg_exact it : n <= it -> (forall k, k < n -> ~ zero_vec (r k) -> inactive k) ->
  forall i, i < n -> Rmv n M (smp (X it)) i = nth i b 0%R.
Proof.
  intros Hit Hin.
  assert (Hz : zero_vec (r it)).
  { destruct (first_zero n) as [(k & Hk & Hz)|Hn].
    - replace it with (k + (it - k)) by lia. apply converged_stays; auto.
    - replace it with (n + (it - n)) by lia. apply converged_stays; auto.
      apply all_inactive_exact. intros k Hk. apply Hin; auto. apply Hn. lia. }
  intros i Hi. specialize (Hz i Hi). rewrite cg_residual in Hz by auto. lra.
Qed.
(** C52: with inactive safeguards the iterate is orthogonal to its residual. *)
Theorem cg_galerkin it : zero_vec x0 -> (forall k, k < it -> ~ zero_vec (r k) -> inactive k) ->
  dotl n (X it) (r it) = 0%R.
Proof.
  intros H0 Hin. destruct (first_zero it) as [(k & Hk & Hz)|Hn].
  - apply dotl_zero. replace it with (k + (it - k)) by lia. apply converged_stays; auto.
  - destruct (conjugacy it) as (_ & I2 & _); [intros k Hk; apply Hin; auto; apply Hn; lia|].
    assert (G : forall k, k <= it -> dotl n (X k) (r it) = 0%R).
    { induction k as [|k IH]; intros Hk.
      - change (X 0) with x0. rewrite dotl_comm. apply dotl_zero. auto.
      - rewrite x_S, dotl_axpy_l, IH, I2 by lia. ring. }
    apply G. lia.
Qed.
End Exact.
End CG.
