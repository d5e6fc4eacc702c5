(** * conjugate_gradient called on its own: what it returns (C79) *)
From Coq Require Import Reals Lra.
From Verif Require Import Prelude ExtReal Slice Sums SpecSig Helpers Linalg LinalgProofs Cgd Metrics StatsProofs LeastSq CgdOps
  CgdPrecond CgProofs CgApi CgApiProofs.
Local Open Scope nat_scope.

(** Sum of the squared entries of b - M x. *)
Definition resid (n : nat) (M : nat -> nat -> R) (b x : list R) : R :=
  Rsum n (fun i => (nth i b 0 - Rsum n (fun j => M i j * nth j x 0)) ^ 2)%R.
(** M is symmetric with eigenvalues at least mu. *)
Definition spd (n : nat) (M : nat -> nat -> R) (mu : R) : Prop :=
  symmetric_mat n M /\ (0 < mu)%R /\
  forall v, (mu * Rsum n (fun i => v i ^ 2) <= Rsum n (fun i => v i * Rsum n (fun j => M i j * v j)))%R.
(** The squared residual is large enough for the two safeguards 1e-6 to be without effect. *)
Definition large (mu rr : R) : Prop := (cg_eps <= rr)%R /\ (cg_eps <= mu * rr)%R.

Lemma dense_keeps b n M : keeps n (dense_op b n M).
Proof. split; [apply Nat.eqb_refl|]. intros v _. apply length_tab. Qed.
Lemma toeplitz_keeps b acf : 0 < length acf -> keeps (length acf) (toeplitz_operator b acf).
Proof.
  intros H. split; [apply Nat.eqb_refl|]. intros v Hv. cbn [op_fun toeplitz_operator].
  rewrite toeplitz_op_dense by lia. apply length_tab.
Qed.

(** ** Every column is treated on its own *)
Theorem columns bk A n p bb it : keeps n A -> keeps n (precond_of p) -> (forall v, In v bb -> length v = n) ->
  exists X, cg_call bk A (Mat n bb) None it p None = Ok (Mat n X, None) /\ length X = length bb /\
    forall j, j < length bb ->
      cg_call bk A (Vec (nth j bb [])) None (Some (match it with Some k => k | None => length bb end)) p None
      = Ok (Vec (nth j X []), None).
Proof.
  intros HA HP Hb.
  exists (tab (length bb) (sol_of A p n (fun _ => repeat 0%R n) (fun j => nth j bb []) (iters (length bb) it))).
  assert (Hl : forall j, j < length bb -> length (nth j bb []) = n) by (intros j Hj; apply Hb, nth_In; auto).
  split; [|split; [apply length_tab|]].
  - pose proof (call_mat bk A p n HA HP (length bb) (fun j => nth j bb []) (fun _ => repeat 0%R n) None it None (fun _ => [])
      Hl (fun _ _ => repeat_length 0%R n) (fun _ _ => eq_refl) I) as H.
    rewrite tab_nth in H. exact H.
  - intros j Hj. rewrite nth_tab by auto.
    rewrite (call_vec bk A p n HA HP _ (repeat 0%R n) None _ None [] (Hl j Hj) (repeat_length _ _) eq_refl I). reflexivity.
Qed.

(** ** A vector gets one iteration by default *)
Theorem vector_default bk A n p v : keeps n A -> keeps n (precond_of p) -> length v = n ->
  (forall w, (forall i, i < n -> nth i w 0%R = 0%R) -> forall i, i < n -> nth i (op_fun A w) 0%R = 0%R) ->
  let z := op_fun (precond_of p) v in
  cg_call bk A (Vec v) None None p None =
  Ok (Vec (tab n (fun i => dotl n v z / Rmax (dotl n z (op_fun A z)) cg_eps * nth i z 0))%R, None).
Proof.
  intros HA HP Hv H0 z.
  rewrite (call_vec bk A p n HA HP v (repeat 0%R n) None None None [] Hv (repeat_length _ _) eq_refl I).
  do 3 f_equal. unfold sol_of, iters. rewrite cg_run_S. unfold cg_step. cbv zeta. cbn [cg_x].
  unfold axpy at 1. apply tab_ext. intros i Hi. unfold cg_run. cbn [seq fold_left].
  unfold cg_init. cbv zeta. cbn [cg_x cg_p cg_rs].
  assert (E : axpy n v (-1) (op_fun A (repeat 0%R n)) = v).
  { apply (nth_ext _ _ 0%R 0%R); [rewrite length_axpy; auto|]. intros j Hj. rewrite length_axpy in Hj.
    rewrite nth_axpy by auto. rewrite H0; auto; [ring|]. intros k Hk. rewrite nth_repeat. reflexivity. }
  rewrite E, nth_repeat. fold z. ring.
Qed.

(** ** x_true does not change the result *)
Theorem errors_mat bk A n p bb it ts : keeps n A -> keeps n (precond_of p) -> (forall v, In v bb -> length v = n) ->
  length ts = length bb -> (forall v, In v ts -> length v = n) ->
  let k := match it with Some k => k | None => length bb end in
  exists X errs, cg_call bk A (Mat n bb) None it p (Some (Mat n ts)) = Ok (Mat n X, Some errs) /\
    cg_call bk A (Mat n bb) None it p None = Ok (Mat n X, None) /\ length errs = S k /\
    forall i, i <= k -> exists Y, cg_call bk A (Mat n bb) None (Some i) p None = Ok (Mat n Y, None) /\
      nth i errs 0%R = (Rsum (length bb) (fun j => sqrt (Rsum n (fun l => (nth l (nth j Y []) 0 - nth l (nth j ts []) 0) ^ 2)))
                        / INR (length bb))%R.
Proof.
  intros HA HP Hb Lt Ht k.
  assert (Hl : forall j, j < length bb -> length (nth j bb []) = n) by (intros j Hj; apply Hb, nth_In; auto).
  assert (Hlt : forall j, j < length bb -> length (nth j ts []) = n) by (intros j Hj; apply Ht, nth_In; lia).
  assert (C : forall it t, t = None \/ t = Some (Mat n ts) ->
    cg_call bk A (Mat n bb) None it p t = Ok (Mat n (tab (length bb) (sol_of A p n (fun _ => repeat 0%R n) (fun j => nth j bb []) (iters (length bb) it))),
      match t with Some _ => Some (errs_of A p n (length bb) (fun _ => repeat 0%R n) (fun j => nth j bb []) (fun j => nth j ts []) (iters (length bb) it)) | None => None end)).
  { intros it' t Et. rewrite <- (tab_nth [] bb) at 1. apply (call_mat bk A p n HA HP); auto.
    - intros. apply repeat_length.
    - destruct Et as [->| ->]; [exact I|]. split; [|exact Hlt]. rewrite <- Lt, tab_nth. reflexivity. }
  eexists. eexists. split; [rewrite (C it (Some (Mat n ts))) by auto; reflexivity|].
  split; [rewrite (C it None) by auto; reflexivity|]. split; [unfold errs_of; apply length_tab|].
  intros i Hi. eexists. split; [rewrite (C (Some i) None) by auto; reflexivity|]. unfold errs_of. rewrite nth_tab by (unfold iters; fold k; lia).
  f_equal. apply Rsum_ext. intros j Hj. rewrite nth_tab by auto. reflexivity.
Qed.

Theorem errors_vec bk A n p v it t : keeps n A -> keeps n (precond_of p) -> length v = n -> length t = n ->
  let k := match it with Some k => k | None => 1 end in
  exists x errs, cg_call bk A (Vec v) None it p (Some (Vec t)) = Ok (Vec x, Some errs) /\
    cg_call bk A (Vec v) None it p None = Ok (Vec x, None) /\ length errs = S k /\
    forall i, i <= k -> exists y, cg_call bk A (Vec v) None (Some i) p None = Ok (Vec y, None) /\
      nth i errs 0%R = sqrt (Rsum n (fun l => (nth l y 0 - nth l t 0) ^ 2))%R.
Proof.
  intros HA HP Hv Ht k.
  assert (Hz : length (repeat 0%R n) = n) by apply repeat_length.
  eexists. eexists. split; [rewrite (call_vec bk A p n HA HP v (repeat 0%R n) None it (Some (Vec t)) t) by auto; reflexivity|].
  split; [rewrite (call_vec bk A p n HA HP v (repeat 0%R n) None it None t) by auto; reflexivity|].
  split; [unfold errs_of; apply length_tab|].
  intros i Hi. eexists.
  split; [rewrite (call_vec bk A p n HA HP v (repeat 0%R n) None (Some i) None t) by auto; reflexivity|].
  unfold errs_of. rewrite nth_tab by (unfold iters; fold k; lia). change (INR 1) with 1%R. cbn [Rsum]. unfold iters.
  field.
Qed.

(** ** No preconditioner, positive definite matrix *)
Section Plain.
Variables (n : nat) (M : nat -> nat -> R) (mu : R) (b x0 t : list R) (Af : list R -> list R).
Hypothesis HA : acts_as n Af M.
Hypothesis Hspd : spd n M mu.
Hypothesis Hx0 : length x0 = n.
Let P := fun v : list R => v.
Let run k := cg_run n Af P b x0 k.
Let X k := cg_x (run k).
Let r k := cg_r (run k).
Let p k := cg_p (run k).

Lemma Pl : forall v, length v = n -> length (P v) = n. Proof. auto. Qed.
Lemma P0 : forall v, length v = n -> zero_vec n v -> zero_vec n (P v). Proof. auto. Qed.
Lemma Psym : forall u v, length u = n -> length v = n -> dotl n (P u) v = dotl n u (P v). Proof. auto. Qed.
Let Msym : symmetric_mat n M := proj1 Hspd.

Lemma resid_r k : resid n M b (X k) = dotl n (r k) (r k).
Proof.
  unfold resid, dotl. apply Rsum_ext. intros i Hi.
  pose proof (cg_residual n Af P M b x0 HA Hx0 Pl k i Hi) as E.
  change (nth i (r k) 0%R = (nth i b 0 - Rmv n M (smp (X k)) i)%R) in E. rewrite E. unfold Rmv, smp. ring.
Qed.
Lemma rs_r k : cg_rs (run k) = dotl n (r k) (r k).
Proof. apply (rs_eq n Af P b x0). Qed.
Lemma pp_ge k : conj_upto n Af P b x0 k -> (dotl n (r k) (r k) <= dotl n (p k) (p k))%R.
Proof.
  intros (I1 & I2 & I3). destruct k as [|k].
  - change (p 0) with (r 0). lra.
  - unfold p, run. rewrite (p_S n Af P b x0 k). set (be := cg_beta n Af P b x0 k).
    change (P (cg_r (cg_run n Af P b x0 (S k)))) with (r (S k)). change (cg_p (cg_run n Af P b x0 k)) with (p k).
    rewrite dotl_axpy_l, !dotl_axpy_r. rewrite (dotl_comm n (r (S k)) (p k)).
    pose proof (I2 k (S k) ltac:(lia) ltac:(lia)) as E. change (dotl n (p k) (r (S k)) = 0%R) in E. rewrite E.
    assert (0 <= dotl n (p k) (p k))%R.
    { apply Rsum_nonneg. intros i Hi. apply Rle_0_sqr. }
    pose proof (Rmult_le_pos (be * be) _ (Rle_0_sqr be) H). lra.
Qed.
(** A large residual keeps the safeguards inactive. *)
Lemma large_inactive k : (forall i, i <= k -> large mu (resid n M b (X i))) -> inactive n Af P b x0 k.
Proof.
  induction k as [k' IH] using lt_wf_ind. intros H. rename k' into k.
  assert (C : conj_upto n Af P b x0 k).
  { apply (conjugacy n Af P M b x0 HA Hx0 Pl Msym Psym). intros i Hi. apply IH; auto. intros j Hj. apply H. lia. }
  destruct (H k (le_n k)) as (H1 & H2). rewrite resid_r in H1, H2. split.
  - unfold cg_pAp. fold (run k) (p k).
    rewrite (dotl_A n Af M HA) by apply (len_p n Af P b x0 Hx0 Pl).
    pose proof Hspd as (_ & Hmu & Hq). specialize (Hq (smp (p k))). unfold Rmv.
    pose proof (pp_ge k C) as G. unfold dotl in G at 2.
    rewrite (Rsum_ext n (fun i => smp (p k) i ^ 2)%R (fun i => nth i (p k) 0 * nth i (p k) 0)%R) in Hq by (intros; unfold smp; ring).
    assert (mu * dotl n (r k) (r k) <= mu * Rsum n (fun i => nth i (p k) 0 * nth i (p k) 0))%R by (apply Rmult_le_compat_l; lra).
    lra.
  - change (cg_eps <= cg_rs (run k))%R. rewrite rs_r. exact H1.
Qed.
Lemma resid_zero k : resid n M b (X k) = 0%R -> zero_vec n (r k).
Proof. rewrite resid_r. intros E i Hi. apply (dotl_self_0 n (r k)); auto. Qed.

Lemma spd_inj u v : (forall i, i < n -> Rmv n M (smp u) i = Rmv n M (smp v) i) -> forall i, i < n -> nth i u 0%R = nth i v 0%R.
Proof.
  intros H i Hi. pose proof Hspd as (_ & Hmu & Hq). specialize (Hq (fun i => nth i u 0 - nth i v 0)%R).
  assert (E : Rsum n (fun i => (nth i u 0 - nth i v 0) * Rsum n (fun j => M i j * (nth j u 0 - nth j v 0)))%R = 0%R).
  { apply Rsum_zero. intros k Hk. specialize (H k Hk). unfold Rmv, smp in H.
    rewrite (Rsum_ext n _ (fun j => M k j * nth j u 0 - M k j * nth j v 0)%R) by (intros; ring).
    rewrite Rsum_minus, H. ring. }
  cbv beta in Hq. change (@gsum R 0%R Rplus) with Rsum in *. rewrite E in Hq.
  assert (N : (0 <= Rsum n (fun i => (nth i u 0 - nth i v 0) ^ 2))%R) by (apply Rsum_nonneg; intros; apply pow2_ge_0).
  assert (Z : Rsum n (fun i => (nth i u 0 - nth i v 0) ^ 2)%R = 0%R).
  { apply Rle_antisym; [|exact N]. apply (Rmult_le_reg_l mu); lra. }
  pose proof (Rsum_nonneg_eq0 n _ (fun i _ => pow2_ge_0 (nth i u 0%R - nth i v 0%R)) Z i Hi) as Zi. simpl in Zi.
  assert (nth i u 0 - nth i v 0 = 0)%R by (apply Rsqr_0_uniq; unfold Rsqr; simpl in *; lra). lra.
Qed.

(** Directions have nonnegative inner products. *)
Lemma pp_nonneg m i j : conj_upto n Af P b x0 m -> i <= j -> j <= m -> (0 <= dotl n (p i) (p j))%R.
Proof.
  intros (I1 & I2 & I3) Hij Hj. induction Hij as [|j Hij IH].
  - apply Rsum_nonneg. intros k Hk. apply Rle_0_sqr.
  - unfold p at 2, run. rewrite (p_S n Af P b x0 j). rewrite dotl_axpy_r.
    pose proof (I2 i (S j) ltac:(lia) ltac:(lia)) as E.
    change (P (cg_r (cg_run n Af P b x0 (S j)))) with (r (S j)). change (dotl n (p i) (r (S j)) = 0%R) in E.
    change (cg_p (cg_run n Af P b x0 j)) with (p j). rewrite E.
    assert (0 <= cg_beta n Af P b x0 j)%R.
    { unfold cg_beta. apply Rmult_le_pos; [|left; apply Rinv_0_lt_compat, max_eps_pos].
      change (0 <= cg_rs (run (S j)))%R. rewrite rs_r. apply Rsum_nonneg. intros k Hk. apply Rle_0_sqr. }
    pose proof (Rmult_le_pos _ _ H (IH ltac:(lia))). lra.
Qed.
Lemma alpha_pos k : (0 <= cg_alpha n Af P b x0 k)%R.
Proof.
  unfold cg_alpha. apply Rmult_le_pos; [|left; apply Rinv_0_lt_compat, max_eps_pos].
  change (0 <= cg_rs (run k))%R. rewrite rs_r. apply Rsum_nonneg. intros j Hj. apply Rle_0_sqr.
Qed.

(** The start vector 0: the norm of the iterates grows. *)
Lemma norm_grows k : (forall i, nth i x0 0%R = 0%R) -> (forall i, i < k -> large mu (resid n M b (X i))) ->
  (dotl n (X k) (X k) <= dotl n (X (S k)) (X (S k)))%R.
Proof.
  intros Z H.
  assert (C : conj_upto n Af P b x0 k).
  { apply (conjugacy n Af P M b x0 HA Hx0 Pl Msym Psym). intros i Hi. apply large_inactive. intros j Hj. apply H. lia. }
  assert (G : forall i, i <= k -> (0 <= dotl n (p k) (X i))%R).
  { induction i as [|i IH]; intros Hi.
    - unfold X, run, cg_run, cg_init. cbn [seq fold_left cg_x].
      rewrite dotl_zero; [lra|]. intros; apply Z.
    - unfold X, run. rewrite (x_S n Af P b x0 i), dotl_axpy_r. fold (run i) (X i) (p i).
      pose proof (IH ltac:(lia)). pose proof (alpha_pos i). rewrite (dotl_comm n (p k) (p i)).
      pose proof (pp_nonneg k i k C ltac:(lia) (le_n k)) as G. pose proof (Rmult_le_pos _ _ H1 G). lra. }
  specialize (G k (le_n k)).
  unfold X at 3 4, run. rewrite (x_S n Af P b x0 k). fold (run k) (X k) (p k).
  rewrite dotl_axpy_l, !dotl_axpy_r. rewrite (dotl_comm n (X k) (p k)).
  pose proof (alpha_pos k) as Ha. set (al := cg_alpha n Af P b x0 k) in *.
  pose proof (pp_nonneg k k k C (le_n k) (le_n k)) as Hp.
  pose proof (Rmult_le_pos _ _ Ha G). pose proof (Rmult_le_pos _ _ (Rmult_le_pos _ _ Ha Ha) Hp). lra.
Qed.

Hypothesis Hres : forall k, k < n -> resid n M b (X k) = 0%R \/ large mu (resid n M b (X k)).

(** First iteration with residual 0. *)
Lemma stop : exists K, K <= n /\ zero_vec n (r K) /\ (forall k, k < K -> inactive n Af P b x0 k).
Proof.
  assert (D : forall m, m <= n -> (forall i, i < m -> large mu (resid n M b (X i))) \/
              exists K, K < m /\ resid n M b (X K) = 0%R /\ forall i, i < K -> large mu (resid n M b (X i))).
  { induction m as [|m IH]; intros Hm; [left; lia|]. destruct IH as [IH|(K & HK & E & G)]; [lia| |].
    - destruct (Hres m Hm) as [E|E]; [right; exists m; auto|left].
      intros i Hi. destruct (Nat.eq_dec i m) as [->|]; [auto|apply IH; lia].
    - right. exists K. auto. }
  destruct (D n (le_n n)) as [H|(K & HK & E & G)].
  - exists n. split; [auto|].
    assert (I : forall k, k < n -> inactive n Af P b x0 k) by (intros k Hk; apply large_inactive; intros j Hj; apply H; lia).
    split; [|exact I]. apply (all_inactive_exact n Af P M b x0 HA Hx0 Pl Msym Psym). exact I.
  - exists K. split; [lia|]. split; [apply resid_zero; exact E|]. intros k Hk. apply large_inactive. intros i Hi.
    apply G. lia.
Qed.

(** n iterations give the solution. *)
Lemma plain_exact it : n <= it -> forall i, i < n -> Rmv n M (smp (X it)) i = nth i b 0%R.
Proof.
  intros Hit i Hi. destruct stop as (K & HK & Z & _).
  replace it with (K + (it - K)) by lia.
  pose proof (proj2 (converged_stays n Af P b x0 Hx0 Pl P0 K (it - K) Z) i Hi) as Z'.
  pose proof (cg_residual n Af P M b x0 HA Hx0 Pl (K + (it - K)) i Hi) as E.
  change (nth i (r (K + (it - K))) 0%R = (nth i b 0 - Rmv n M (smp (X (K + (it - K)))) i)%R) in E.
  change (nth i (r (K + (it - K))) 0%R = 0%R) in Z'. lra.
Qed.

(** The distance to the solution t does not grow (Hestenes and Stiefel). *)
Hypothesis Ht : length t = n.
Hypothesis Hsol : forall i, i < n -> Rmv n M (smp t) i = nth i b 0%R.
Definition dist2 (x : list R) : R := Rsum n (fun i => (nth i x 0 - nth i t 0) ^ 2)%R.

Lemma dist_step k : (dist2 (X (S k)) <= dist2 (X k))%R.
Proof.
  destruct stop as (K & HK & Z & Hin).
  destruct (Nat.lt_ge_cases k K) as [Hk|Hk].
  - assert (C : conj_upto n Af P b x0 K) by exact (conjugacy n Af P M b x0 HA Hx0 Pl Msym Psym K Hin).
    assert (EK : forall i, i < n -> nth i (X K) 0%R = nth i t 0%R).
    { apply spd_inj. intros i Hi. rewrite Hsol by auto. specialize (Z i Hi).
      pose proof (cg_residual n Af P M b x0 HA Hx0 Pl K i Hi) as E.
      change (nth i (r K) 0%R = (nth i b 0 - Rmv n M (smp (X K)) i)%R) in E. lra. }
    assert (xS : forall j, X (S j) = axpy n (X j) (cg_alpha n Af P b x0 j) (p j)) by (intros j; apply (x_S n Af P b x0 j)).
    assert (G : forall d i, d <= K -> i <= K - d -> (0 <= dotl n (p i) (axpy n t (-1) (X (K - d))))%R).
    { induction d as [|d IH]; intros i Hd Hi.
      - rewrite Nat.sub_0_r, dotl_zero; [lra|]. intros l Hl. rewrite nth_axpy, EK by auto. ring.
      - pose proof (IH i ltac:(lia) ltac:(lia)) as G. replace (K - d) with (S (K - S d)) in G by lia.
        rewrite xS in G. set (q := K - S d) in *. rewrite dotl_axpy_r in *. rewrite dotl_axpy_r in G.
        pose proof (Rmult_le_pos _ _ (alpha_pos q) (pp_nonneg K i q C ltac:(lia) ltac:(lia))). lra. }
    assert (Gk : (0 <= dotl n (p k) (axpy n t (-1) (X (S k))))%R).
    { pose proof (G (K - S k) k ltac:(lia) ltac:(lia)) as G'. replace (K - (K - S k)) with (S k) in G' by lia. exact G'. }
    assert (E : dist2 (X k) = (dist2 (X (S k)) + cg_alpha n Af P b x0 k *
       (2 * dotl n (p k) (axpy n t (-1) (X (S k))) + cg_alpha n Af P b x0 k * dotl n (p k) (p k)))%R).
    { rewrite xS. set (al := cg_alpha n Af P b x0 k). unfold dist2, dotl.
      rewrite Rmult_plus_distr_l, <- Rsum_scal_l, <- Rsum_scal_l, <- Rsum_scal_l, <- Rsum_scal_l, <- Rsum_plus, <- Rsum_plus.
      apply Rsum_ext. intros i Hi. rewrite !nth_axpy by auto. ring. }
    rewrite E. pose proof (alpha_pos k) as Ha. pose proof (pp_nonneg K k k C (le_n k) ltac:(lia)) as Hp.
    pose proof (Rmult_le_pos _ _ Ha Hp) as H1.
    pose proof (Rmult_le_pos _ _ Ha (Rplus_le_le_0_compat _ _ (Rmult_le_pos 2 _ ltac:(lra) Gk) H1)). lra.
  - apply Req_le. unfold dist2. apply Rsum_ext. intros i Hi. do 2 f_equal.
    pose proof (proj1 (converged_step n Af P b x0 Hx0 Pl P0 (K + (k - K)) (proj2 (converged_stays n Af P b x0 Hx0 Pl P0 K (k - K) Z))) i Hi) as E.
    replace (K + (k - K)) with k in E by lia. exact E.
Qed.
End Plain.

(** ** Positive definite matrices, at the level of the calls *)
Section Dense.
Variables (bk : backend) (n : nat) (M : nat -> nat -> R) (mu : R) (bb : list (list R)).
Hypothesis Hspd : spd n M mu.
Hypothesis Hb : forall v, In v bb -> length v = n.
Let A := dense_op bk n M.
Let B := fun j => nth j bb [].
Let Z0 := fun _ : nat => repeat 0%R n.
Lemma dense_acts : acts_as n (op_fun A) M.
Proof. intros v i Hv Hi. unfold A, dense_op. cbn [op_fun]. rewrite nth_tab by auto. reflexivity. Qed.
Lemma dense_call it : cg_call bk A (Mat n bb) None it None None =
  Ok (Mat n (tab (length bb) (sol_of A None n Z0 B (iters (length bb) it))), None).
Proof.
  rewrite <- (tab_nth [] bb) at 1.
  apply (call_mat bk A None n (dense_keeps bk n M) (identity_keeps n) (length bb) B Z0 None it None (fun _ => [])); auto.
  - intros j Hj. apply Hb, nth_In. auto.
  - intros. apply repeat_length.
Qed.
Lemma dense_call_err it ts : length ts = length bb -> (forall v, In v ts -> length v = n) ->
  cg_call bk A (Mat n bb) None it None (Some (Mat n ts)) =
  Ok (Mat n (tab (length bb) (sol_of A None n Z0 B (iters (length bb) it))),
      Some (errs_of A None n (length bb) Z0 B (fun j => nth j ts []) (iters (length bb) it))).
Proof.
  intros Lt Ht. rewrite <- (tab_nth [] bb) at 1.
  apply (call_mat bk A None n (dense_keeps bk n M) (identity_keeps n) (length bb) B Z0 None it (Some (Mat n ts)) (fun j => nth j ts [])).
  - intros j Hj. apply Hb, nth_In. auto.
  - intros. apply repeat_length.
  - auto.
  - split; [rewrite <- Lt, tab_nth; reflexivity|]. intros j Hj. apply Ht, nth_In. lia.
Qed.

Hypothesis Hres : forall k X, k < n -> cg_call bk A (Mat n bb) None (Some k) None None = Ok (Mat n X, None) ->
  forall j, j < length bb -> resid n M (nth j bb []) (nth j X []) = 0%R \/ large mu (resid n M (nth j bb []) (nth j X [])).
Lemma Hres' j : j < length bb -> forall k, k < n ->
  resid n M (B j) (sol_of A None n Z0 B k j) = 0%R \/ large mu (resid n M (B j) (sol_of A None n Z0 B k j)).
Proof.
  intros Hj k Hk. pose proof (Hres k _ Hk (dense_call (Some k)) j Hj) as H. rewrite nth_tab in H by auto. exact H.
Qed.

Theorem dense_exact it : n <= match it with Some k => k | None => length bb end ->
  exists X, cg_call bk A (Mat n bb) None it None None = Ok (Mat n X, None) /\ length X = length bb /\
    forall j, j < length bb -> length (nth j X []) = n /\
      forall i, i < n -> Rsum n (fun l => M i l * nth l (nth j X []) 0)%R = nth i (nth j bb []) 0%R.
Proof.
  intros Hit. eexists. split; [apply dense_call|]. split; [apply length_tab|]. intros j Hj. rewrite nth_tab by auto.
  split.
  { apply (cg_run_len n (op_fun A) (fun v => v) (B j) (Z0 j)); [apply repeat_length|auto]. }
  intros i Hi.
  exact (plain_exact n M mu (B j) (Z0 j) (op_fun A) dense_acts Hspd (repeat_length _ _) (Hres' j Hj) _ Hit i Hi).
Qed.
Theorem dense_errors it ts : length ts = length bb -> (forall v, In v ts -> length v = n) ->
  (forall j i, j < length bb -> i < n -> Rsum n (fun l => M i l * nth l (nth j ts []) 0)%R = nth i (nth j bb []) 0%R) ->
  let k := match it with Some k => k | None => length bb end in
  exists X errs, cg_call bk A (Mat n bb) None it None (Some (Mat n ts)) = Ok (Mat n X, Some errs) /\ length errs = S k /\
    (forall i, i < k -> (nth (S i) errs 0 <= nth i errs 0)%R) /\
    (forall i, n <= i -> i <= k -> nth i errs 0%R = 0%R).
Proof.
  intros Lt Ht Hs k. eexists. eexists. split; [apply dense_call_err; auto|].
  split; [apply length_tab|]. split.
  - intros i Hi. unfold errs_of, iters. fold k. rewrite !nth_tab by lia. unfold Rdiv.
    destruct (Nat.eq_dec (length bb) 0) as [E|E]; [rewrite E; simpl; lra|].
    apply Rmult_le_compat_r; [left; apply Rinv_0_lt_compat, lt_0_INR; lia|].
    apply Rsum_le. intros j Hj. apply sqrt_le_1_alt.
    apply (dist_step n M mu (B j) (Z0 j) (nth j ts []) (op_fun A) dense_acts Hspd (repeat_length _ _) (Hres' j Hj));
      [apply Ht, nth_In; lia|].
    intros l Hl. apply Hs; auto.
  - intros i Hn Hi. unfold errs_of, iters. fold k. rewrite nth_tab by lia. unfold Rdiv.
    rewrite Rsum_zero; [ring|]. intros j Hj. rewrite Rsum_zero; [apply sqrt_0|]. intros l Hl.
    rewrite (spd_inj n M mu Hspd (sol_of A None n Z0 B i j) (nth j ts [])); [ring| |auto].
    intros q Hq. transitivity (nth q (B j) 0%R); [|symmetry; apply Hs; auto].
    exact (plain_exact n M mu (B j) (Z0 j) (op_fun A) dense_acts Hspd (repeat_length _ _) (Hres' j Hj) i Hn q Hq).
Qed.
End Dense.

(** The norm of the result grows with the number of iterations. *)
Theorem dense_norm_grows bk n M mu b k : spd n M mu -> length b = n ->
  (forall i x, i < k -> cg_call bk (dense_op bk n M) (Vec b) None (Some i) None None = Ok (Vec x, None) ->
     large mu (resid n M b x)) ->
  exists x y, cg_call bk (dense_op bk n M) (Vec b) None (Some k) None None = Ok (Vec x, None) /\
    cg_call bk (dense_op bk n M) (Vec b) None (Some (S k)) None None = Ok (Vec y, None) /\
    (Rsum n (fun i => nth i x 0 ^ 2) <= Rsum n (fun i => nth i y 0 ^ 2))%R.
Proof.
  intros Hspd Hb H.
  assert (C : forall it, cg_call bk (dense_op bk n M) (Vec b) None (Some it) None None =
    Ok (Vec (sol_of (dense_op bk n M) None n (fun _ => repeat 0%R n) (fun _ => b) it 0), None)).
  { intros it. exact (call_vec bk (dense_op bk n M) None n (dense_keeps bk n M) (identity_keeps n) b (repeat 0%R n) None (Some it) None []
      Hb (repeat_length _ _) eq_refl I). }
  eexists. eexists. split; [apply C|]. split; [apply C|].
  assert (E : forall x, Rsum n (fun i => nth i x 0 ^ 2)%R = dotl n x x) by (intros x; apply Rsum_ext; intros; ring).
  rewrite !E.
  apply (norm_grows n M mu b (repeat 0%R n) (op_fun (dense_op bk n M)) (dense_acts bk n M) Hspd (repeat_length _ _)).
  - intros i. apply nth_repeat.
  - intros i Hi. apply (H i _ Hi (C i)).
Qed.

(** ** Start vectors *)
Theorem start_kept bk A n M p bb xs it : keeps n A -> keeps n (precond_of p) -> acts_as n (op_fun A) M ->
  (forall v, length v = n -> (forall i, i < n -> nth i v 0%R = 0%R) -> forall i, i < n -> nth i (op_fun (precond_of p) v) 0%R = 0%R) ->
  length xs = length bb -> (forall v, In v bb -> length v = n) -> (forall v, In v xs -> length v = n) ->
  (forall j i, j < length bb -> i < n -> Rsum n (fun l => M i l * nth l (nth j xs []) 0)%R = nth i (nth j bb []) 0%R) ->
  cg_call bk A (Mat n bb) (Some (Mat n xs)) it p None = Ok (Mat n xs, None).
Proof.
  intros HA HP Ha H0 Lx Hb Hx Hs.
  assert (Hbl : forall j, j < length bb -> length (nth j bb []) = n) by (intros j Hj; apply Hb, nth_In; auto).
  assert (Hxl : forall j, j < length bb -> length (nth j xs []) = n) by (intros j Hj; apply Hx, nth_In; lia).
  pose proof (call_mat bk A p n HA HP (length bb) (fun j => nth j bb []) (fun j => nth j xs []) (Some (Mat n xs)) it None (fun _ => []) Hbl Hxl) as C.
  rewrite tab_nth in C. rewrite C.
  - f_equal. f_equal. f_equal. rewrite <- (tab_nth [] xs), Lx. apply tab_ext. intros j Hj. unfold sol_of.
    apply (nth_ext _ _ 0%R 0%R).
    + destruct (cg_run_len n (op_fun A) (op_fun (precond_of p)) (nth j bb []) (nth j (tab (length bb) (fun j => nth j xs [])) []) (iters (length bb) it)) as (L & _).
      * rewrite nth_tab by auto. auto.
      * apply HP.
      * rewrite nth_tab in L by auto. rewrite nth_tab by auto. rewrite Hxl by auto. exact L.
    + intros i Hi. rewrite nth_tab in * by auto.
      destruct (cg_run_len n (op_fun A) (op_fun (precond_of p)) (nth j bb []) (nth j xs []) (iters (length bb) it) (Hxl j Hj) (proj2 HP)) as (L & _).
      rewrite L in Hi.
      apply (exact_start n (op_fun A) (op_fun (precond_of p)) M (nth j bb []) (nth j xs []) Ha (Hxl j Hj) (proj2 HP) H0); auto.
      intros l Hl. apply Hs; auto.
  - rewrite <- Lx, tab_nth. reflexivity.
  - exact I.
Qed.

(** A 1-D start vector beside a 1-D right-hand side is not given the extra axis: the fast operators refuse it. *)
Theorem vector_start_raises bk acf v x it t : length v = length acf ->
  toeplitz_cg_call bk acf (Vec v) (Some (Vec x)) it t = Raise ValueError.
Proof.
  intros Hv. unfold toeplitz_cg_call. destruct (circulant_precond_ok bk acf) as (P & E & HP). rewrite E. cbn [bind].
  unfold cg_call. cbn [add_axis]. unfold fits. cbn [op_dim toeplitz_operator]. rewrite Hv, Nat.eqb_refl. reflexivity.
Qed.
Theorem vector_start_raises_block bk top k acf v x it p t : length v = top / 2 * k ->
  cg_call bk (block_operator bk top k acf) (Vec v) (Some (Vec x)) it p t = Raise IndexError.
Proof.
  intros Hv. unfold cg_call. cbn [add_axis]. unfold fits. cbn [op_dim block_operator]. rewrite Hv, Nat.eqb_refl. reflexivity.
Qed.

(** The calls of the metrics: every column is what [toeplitz_cg] computes. *)
Theorem toeplitz_columns bk acf bb k : 0 < length acf -> (forall v, In v bb -> length v = length acf) ->
  exists X, toeplitz_cg_call bk acf (Mat (length acf) bb) None (Some k) None = Ok (Mat (length acf) X, None) /\
    length X = length bb /\ forall j, j < length bb -> toeplitz_cg bk acf (nth j bb []) k = Ok (nth j X []).
Proof.
  intros Hn Hb. unfold toeplitz_cg_call, toeplitz_cg. destruct (circulant_precond_ok bk acf) as (P & E & HP). rewrite E. cbn [bind].
  assert (Hbl : forall j, j < length bb -> length (nth j bb []) = length acf) by (intros j Hj; apply Hb, nth_In; auto).
  assert (KP : keeps (length acf) (precond_of (Some (circulant_operator acf P)))).
  { split; [apply Nat.eqb_refl|]. intros v Hv. cbn [op_fun precond_of circulant_operator]. rewrite HP. apply length_circ_prec. }
  pose proof (call_mat bk (toeplitz_operator bk acf) (Some (circulant_operator acf P)) (length acf) (toeplitz_keeps bk acf Hn) KP
    (length bb) (fun j => nth j bb []) (fun _ => repeat 0%R (length acf)) None (Some k) None (fun _ => []) Hbl
    (fun _ _ => repeat_length _ _) (fun _ _ => eq_refl) I) as C.
  rewrite tab_nth in C. eexists. split; [exact C|]. split; [apply length_tab|]. intros j Hj.
  rewrite nth_tab by auto. rewrite Hbl, Nat.eqb_refl by auto. reflexivity.
Qed.
