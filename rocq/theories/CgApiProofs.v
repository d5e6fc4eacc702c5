(** * conjugate_gradient on several right-hand sides (C79) *)
From Coq Require Import Reals Lra.
From Verif Require Import Prelude ExtReal Slice Sums SpecSig Helpers Linalg LinalgProofs Cgd Metrics StatsProofs LeastSq CgdOps
  CgdPrecond CgProofs CgApi.
Local Open Scope nat_scope.

Lemma tab_nth {A} (d : A) (l : list A) : tab (length l) (fun i => nth i l d) = l.
Proof. apply (nth_ext _ _ d d); [apply length_tab|]. intros i Hi. rewrite length_tab in Hi. rewrite nth_tab by auto. reflexivity. Qed.
Lemma tab_ext {A} n (f g : nat -> A) : (forall i, i < n -> f i = g i) -> tab n f = tab n g.
Proof. intros H. unfold tab. apply map_ext_in. intros i Hi. apply in_seq in Hi. apply H. lia. Qed.
Lemma zip_tab {A B D} (f : A -> B -> D) n u v : zip_with f (tab n u) (tab n v) = tab n (fun i => f (u i) (v i)).
Proof.
  unfold zip_with, tab. generalize (seq 0 n). induction l as [|a l IH]; [reflexivity|]. simpl. f_equal. exact IH.
Qed.
Lemma map_tab {A B} (f : A -> B) n u : map f (tab n u) = tab n (fun i => f (u i)).
Proof. unfold tab. rewrite map_map. reflexivity. Qed.
Lemma zip_lists (f : R -> R -> R) n u v : length u = n -> length v = n ->
  zip_with f u v = tab n (fun i => f (nth i u 0%R) (nth i v 0%R)).
Proof.
  intros Hu Hv. rewrite <- (tab_nth 0%R u) at 1. rewrite <- (tab_nth 0%R v) at 1. rewrite Hu, Hv. apply zip_tab.
Qed.
Lemma zip_plus n u a v : length u = n -> length v = n -> zip_with Rplus u (map (Rmult a) v) = axpy n u a v.
Proof.
  intros Hu Hv. rewrite (zip_lists Rplus n) by (rewrite ?map_length; auto). apply tab_ext. intros i Hi.
  rewrite (nth_indep (map (Rmult a) v) 0%R (a * 0)%R) by (rewrite map_length; lia). rewrite (map_nth (Rmult a)). reflexivity.
Qed.
Lemma zip_minus n u a v : length u = n -> length v = n -> zip_with Rminus u (map (Rmult a) v) = axpy n u (- a) v.
Proof.
  intros Hu Hv. rewrite (zip_lists Rminus n) by (rewrite ?map_length; auto). apply tab_ext. intros i Hi.
  rewrite (nth_indep (map (Rmult a) v) 0%R (a * 0)%R) by (rewrite map_length; lia). rewrite (map_nth (Rmult a)). ring.
Qed.
Lemma zip_sub n u v : length u = n -> length v = n -> zip_with Rminus u v = axpy n u (-1) v.
Proof. intros Hu Hv. rewrite (zip_lists Rminus n) by auto. apply tab_ext. intros i Hi. ring. Qed.

Lemma on_cols_tab b f m c d : on_cols b f (tab m c) (tab m d) = Ok (tab m (fun j => zip_with f (c j) (d j))).
Proof. unfold on_cols. rewrite !length_tab, Nat.eqb_refl, zip_tab. reflexivity. Qed.
Lemma bcast_tab b n f m c d : bcast b n f (Mat n (tab m c)) (Mat n (tab m d)) =
  Ok (tab m (fun j => zip_with f (c j) (d j))).
Proof. unfold bcast, cols_of. rewrite Nat.eqb_refl. cbn [bind]. apply on_cols_tab. Qed.
Lemma matmul_tab op n m c : fits op n = true -> matmul op (Mat n (tab m c)) = Ok (Mat n (tab m (fun j => op_fun op (c j)))).
Proof. intros H. unfold matmul. rewrite H, map_tab. reflexivity. Qed.
Lemma scale_tab m al p : scale_cols (tab m al) (tab m p) = tab m (fun j => map (Rmult (al j)) (p j)).
Proof. unfold scale_cols; rewrite zip_tab; reflexivity. Qed.

(** Root of the sum of squared differences. *)
Lemma norm2_sub n u v : length u = n -> length v = n ->
  norm2 (zip_with Rminus u v) = sqrt (Rsum n (fun i => (nth i u 0 - nth i v 0) ^ 2))%R.
Proof.
  intros Hu Hv. rewrite (zip_lists Rminus n) by auto. unfold norm2. rewrite length_tab. f_equal. apply Rsum_ext.
  intros i Hi. unfold smp. rewrite nth_tab by auto. reflexivity.
Qed.

(** An operator that can be applied to vectors of length n and gives such vectors. *)
Definition keeps (n : nat) (op : operator) : Prop :=
  fits op n = true /\ forall v, length v = n -> length (op_fun op v) = n.

Section Loop.
Variables (bk : backend) (A P : operator) (n m : nat) (B X0 : nat -> list R) (T : option (nat -> list R)).
Hypothesis HA : keeps n A.
Hypothesis HP : keeps n P.
Hypothesis HB : forall j, j < m -> length (B j) = n.
Hypothesis HX : forall j, j < m -> length (X0 j) = n.
Hypothesis HT : match T with Some t => forall j, j < m -> length (t j) = n | None => True end.

Definition crun j k := cg_run n (op_fun A) (op_fun P) (B j) (X0 j) k.
Definition merr (k : nat) : list R :=
  match T with
  | None => []
  | Some t => [(Rsum m (fun j => sqrt (Rsum n (fun i => (nth i (cg_x (crun j k)) 0 - nth i (t j) 0) ^ 2))) / INR m)%R]
  end.
Definition xt : option nd := match T with Some t => Some (Mat n (tab m t)) | None => None end.
Definition cstate (k : nat) : cgm :=
  CGM (Mat n (tab m (fun j => cg_x (crun j k)))) (tab m (fun j => cg_r (crun j k))) (tab m (fun j => cg_p (crun j k)))
    (tab m (fun j => cg_rs (crun j k))) (flat_map merr (seq 0 (S k))).

Lemma crun_len j k : j < m -> cg_len n (crun j k).
Proof. intros Hj. apply cg_run_len; [apply HX; auto|apply HP]. Qed.
Lemma crun_S j k : crun j (S k) = cg_step n (op_fun A) (op_fun P) (B j) k (crun j k).
Proof. apply cg_run_S. Qed.
Lemma error_cols k : error_of bk n (Mat n (tab m (fun j => cg_x (crun j k)))) xt = Ok (merr k).
Proof.
  unfold xt, merr. destruct T as [t|]; [|reflexivity]. unfold error_of, mean_error. rewrite bcast_tab. cbn [bind].
  rewrite length_tab. do 3 f_equal. apply Rsum_ext. intros j Hj. rewrite nth_tab by auto.
  apply norm2_sub; [apply crun_len|apply HT]; auto.
Qed.

Lemma init_cols : cgm_init bk A P n (tab m B) (Mat n (tab m X0)) xt = Ok (cstate 0).
Proof.
  destruct HA as (FA & LA). destruct HP as (FP & LP).
  unfold cgm_init. rewrite matmul_tab by auto. cbn [bind]. rewrite bcast_tab. cbn [bind].
  rewrite matmul_tab by auto. cbn [bind mat_cols].
  assert (E : error_of bk n (Mat n (tab m X0)) xt = Ok (merr 0)) by exact (error_cols 0).
  rewrite E. cbn [bind]. unfold cstate. unfold inner_prod. rewrite zip_tab. f_equal.
  assert (Er : forall j, j < m -> zip_with Rminus (B j) (op_fun A (X0 j)) = axpy n (B j) (-1) (op_fun A (X0 j))).
  { intros j Hj. apply zip_sub; auto. }
  f_equal.
  - apply tab_ext. intros j Hj. rewrite Er by auto. reflexivity.
  - apply tab_ext. intros j Hj. rewrite Er by auto. reflexivity.
  - apply tab_ext. intros j Hj. rewrite Er by auto. reflexivity.
  - cbn [seq flat_map]. rewrite app_nil_r. reflexivity.
Qed.

Lemma step_cols k : cgm_step bk A P n (tab m B) xt k (cstate k) = Ok (cstate (S k)).
Proof.
  destruct HA as (FA & LA). destruct HP as (FP & LP).
  unfold cgm_step. cbv zeta. unfold cstate. cbn [m_x m_r m_p m_rs m_err].
  rewrite matmul_tab by auto. cbn [bind mat_cols]. unfold inner_prod. rewrite !zip_tab, !scale_tab, bcast_tab. cbn [bind].
  rewrite never_recompute. rewrite bcast_tab. cbn [bind].
  rewrite matmul_tab by auto. cbn [bind mat_cols]. rewrite !zip_tab, !scale_tab, bcast_tab. cbn [bind].
  assert (Ex : forall j, j < m ->
    zip_with Rplus (cg_x (crun j k)) (map (Rmult (cg_rs (crun j k) / Rmax (dotl n (cg_p (crun j k)) (op_fun A (cg_p (crun j k)))) cg_eps)) (cg_p (crun j k)))
    = cg_x (crun j (S k))).
  { intros j Hj. destruct (crun_len j k Hj) as (L1 & L2 & L3). rewrite crun_S.
    rewrite (zip_plus n) by auto. reflexivity. }
  assert (Er : forall j, j < m ->
    zip_with Rminus (cg_r (crun j k)) (map (Rmult (cg_rs (crun j k) / Rmax (dotl n (cg_p (crun j k)) (op_fun A (cg_p (crun j k)))) cg_eps)) (op_fun A (cg_p (crun j k))))
    = cg_r (crun j (S k))).
  { intros j Hj. destruct (crun_len j k Hj) as (L1 & L2 & L3). rewrite crun_S.
    rewrite (zip_minus n) by auto. unfold cg_step. rewrite never_recompute. reflexivity. }
  rewrite (tab_ext m _ _ Ex).
  rewrite error_cols. cbn [bind]. f_equal.
  assert (Es : forall j, j < m -> dotl n (cg_r (crun j (S k))) (op_fun P (cg_r (crun j (S k)))) = cg_rs (crun j (S k))).
  { intros j Hj. rewrite crun_S. unfold cg_step. rewrite never_recompute. reflexivity. }
  f_equal.
  - apply tab_ext. exact Er.
  - apply tab_ext. intros j Hj. rewrite Er by auto. rewrite Es by auto.
    destruct (crun_len j k Hj) as (L1 & L2 & L3). destruct (crun_len j (S k) Hj) as (L4 & L5 & L6).
    rewrite (zip_plus n) by auto. rewrite crun_S. unfold cg_step.
    rewrite never_recompute. reflexivity.
  - apply tab_ext. intros j Hj. rewrite Er by auto. apply Es. auto.
  - change (flat_map merr (seq 0 (S k)) ++ merr (S k) = flat_map merr (seq 0 (S (S k)))).
    rewrite (seq_S (S k)), flat_map_app. simpl (flat_map merr [0 + S k]). rewrite app_nil_r. reflexivity.
Qed.
Lemma loop_cols k e : cgm_loop bk A P n (tab m B) xt k e (cstate e) = Ok (cstate (e + k)).
Proof.
  revert e. induction k as [|k IH]; intros e; simpl.
  - rewrite Nat.add_0_r. reflexivity.
  - rewrite step_cols. cbn [bind]. rewrite IH. do 2 f_equal. lia.
Qed.
End Loop.

(** ** The calls *)
Definition precond_of (p : option operator) : operator := match p with Some q => q | None => identity_op end.
Definition start_of (n m : nat) (x : option nd) : option (nat -> list R) :=
  match x with
  | None => Some (fun _ => repeat 0%R n)
  | Some (Mat n' xs) => if Nat.eqb n' n then if Nat.eqb (length xs) m then Some (fun j => nth j xs []) else None else None
  | _ => None
  end.
Definition iters (m : nat) (it : option nat) : nat := match it with Some k => k | None => m end.
Definition sol_of (A : operator) (p : option operator) (n : nat) (X0 B : nat -> list R) (k j : nat) : list R :=
  cg_x (cg_run n (op_fun A) (op_fun (precond_of p)) (B j) (X0 j) k).
Definition errs_of (A : operator) (p : option operator) (n m : nat) (X0 B t : nat -> list R) (it : nat) : list R :=
  tab (S it) (fun k =>
    Rsum m (fun j => sqrt (Rsum n (fun i => (nth i (sol_of A p n X0 B k j) 0 - nth i (t j) 0) ^ 2))) / INR m)%R.

Lemma identity_keeps n : keeps n identity_op.
Proof. split; auto. Qed.
Lemma flat_map_single {A} (f : nat -> A) l : flat_map (fun k => [f k]) l = map f l.
Proof. induction l; simpl; congruence. Qed.

Section Calls.
Variables (bk : backend) (A : operator) (p : option operator) (n : nat).
Hypothesis HA : keeps n A.
Hypothesis HP : keeps n (precond_of p).

Lemma call_mat m B X0 x it t T : (forall j, j < m -> length (B j) = n) -> (forall j, j < m -> length (X0 j) = n) ->
  match x with Some v => v = Mat n (tab m X0) | None => forall j, j < m -> X0 j = repeat 0%R n end ->
  match t with Some v => v = Mat n (tab m T) /\ (forall j, j < m -> length (T j) = n) | None => True end ->
  cg_call bk A (Mat n (tab m B)) x it p t =
  Ok (Mat n (tab m (sol_of A p n X0 B (iters m it))),
      match t with Some _ => Some (errs_of A p n m X0 B T (iters m it)) | None => None end).
Proof.
  intros HB HX Ex Et. unfold cg_call. rewrite (proj1 HA). fold (precond_of p). rewrite length_tab. fold (iters m it).
  assert (E0 : match x with Some v => v | None => Mat n (map (fun _ => repeat 0%R n) (tab m B)) end = Mat n (tab m X0)).
  { destruct x as [v|]; [exact Ex|]. rewrite map_tab. f_equal. apply tab_ext. intros j Hj. symmetry. auto. }
  rewrite E0. clear E0.
  set (TT := match t with Some _ => Some T | None => None end).
  assert (ET : match t with Some t0 => Some t0 | None => None end = xt n m TT).
  { unfold xt, TT. destruct t as [v|]; [|reflexivity]. destruct Et as (-> & _). reflexivity. }
  cbn iota. rewrite ET.
  assert (HT : match TT with Some t0 => forall j, j < m -> length (t0 j) = n | None => True end).
  { unfold TT. destruct t; [exact (proj2 Et)|exact I]. }
  rewrite (init_cols bk A (precond_of p) n m B X0 TT HA HP HB HX HT). cbn [bind].
  rewrite (loop_cols bk A (precond_of p) n m B X0 TT HA HP HX HT). cbn [bind]. rewrite Nat.add_0_l.
  unfold cstate. cbn [m_x m_err]. f_equal. f_equal. destruct t as [v|]; [|reflexivity].
  apply f_equal. unfold merr, TT. rewrite flat_map_single. reflexivity.
Qed.

Lemma call_vec v x0 x it t T : length v = n -> length x0 = n ->
  match x with Some w => w = Mat n [x0] | None => x0 = repeat 0%R n end ->
  match t with Some w => w = Vec T /\ length T = n | None => True end ->
  cg_call bk A (Vec v) x it p t =
  Ok (Vec (sol_of A p n (fun _ => x0) (fun _ => v) (iters 1 it) 0),
      match t with Some _ => Some (errs_of A p n 1 (fun _ => x0) (fun _ => v) (fun _ => T) (iters 1 it)) | None => None end).
Proof.
  intros Hv Hx Ex Et.
  pose proof (call_mat 1 (fun _ => v) (fun _ => x0) x it (match t with Some _ => Some (Mat n [T]) | None => None end) (fun _ => T)
    (fun _ _ => Hv) (fun _ _ => Hx)) as H.
  assert (H' : cg_call bk A (Mat n [v]) x it p (match t with Some _ => Some (Mat n [T]) | None => None end) =
    Ok (Mat n [sol_of A p n (fun _ => x0) (fun _ => v) (iters 1 it) 0],
      match t with Some _ => Some (errs_of A p n 1 (fun _ => x0) (fun _ => v) (fun _ => T) (iters 1 it)) | None => None end)).
  { etransitivity; [apply H|].
    - destruct x as [w|]; [exact Ex|]. intros _ _. exact Ex.
    - destruct t; [|exact I]. split; [reflexivity|]. intros _ _. exact (proj2 Et).
    - destruct t; reflexivity. }
  clear H. unfold cg_call in *. cbn [add_axis]. rewrite Hv. destruct (fits A n); [|discriminate]. cbn iota in *.
  set (t1 := match t with Some t0 => Some (add_axis t0) | None => None end) in *.
  assert (E1 : match (match t with Some _ => Some (Mat n [T]) | None => None end) with Some t0 => Some t0 | None => None end = t1).
  { unfold t1. destruct t as [w|]; [|reflexivity]. destruct Et as (-> & Et). cbn [add_axis]. rewrite Et. reflexivity. }
  rewrite E1 in H'.
  destruct (cgm_init _ _ _ _ _ _ _) as [s0|]; [|discriminate]. cbn [bind] in *.
  destruct (cgm_loop _ _ _ _ _ _ _ _ _) as [s|]; [|discriminate]. cbn [bind] in *.
  injection H' as E2 E3. rewrite E2. cbn [first_entry bind]. f_equal. f_equal. destruct t; exact E3.
Qed.
End Calls.
