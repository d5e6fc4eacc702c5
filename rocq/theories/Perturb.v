(** * Derivative of the value r . A^-1 r of a linear system that depends on a parameter *)
From Coq Require Import Reals Lra.
From Verif Require Import Prelude Sums Linalg LinalgProofs.
Local Open Scope nat_scope.

(** ** Limits at 0 *)
Definition lim0 (f : R -> R) (l : R) : Prop := limit1_in f (fun t => t <> 0%R) l 0%R.

Lemma lim0_iff f l : lim0 f l <->
  forall eps, (0 < eps)%R -> exists e, (0 < e)%R /\ forall t, t <> 0%R -> (Rabs t < e)%R -> (Rabs (f t - l) < eps)%R.
Proof.
  unfold lim0, limit1_in, limit_in. simpl. unfold R_dist. split; intros H eps He; destruct (H eps He) as (e & P & N); exists e; split; auto.
  - intros t Ht Hl. apply N. split; auto. rewrite Rminus_0_r. auto.
  - intros t [Ht Hl]. rewrite Rminus_0_r in Hl. auto.
Qed.
Lemma lim0_local f g l e : (0 < e)%R -> (forall t, t <> 0%R -> (Rabs t < e)%R -> f t = g t) -> lim0 f l -> lim0 g l.
Proof.
  rewrite !lim0_iff. intros Pe H Hf eps He. destruct (Hf eps He) as (e' & P & N).
  exists (Rmin e e'). split; [apply Rmin_pos; auto|]. intros t Ht Hl. apply Rmin_Rgt_l in Hl. destruct Hl.
  rewrite <- H by auto. apply N; auto.
Qed.
Lemma lim0_ext f g l : (forall t, t <> 0%R -> f t = g t) -> lim0 f l -> lim0 g l.
Proof. intros H. apply (lim0_local f g l 1); auto. lra. Qed.
Lemma lim0_bound f g l e : (0 < e)%R -> (forall t, t <> 0%R -> (Rabs t < e)%R -> (Rabs (f t - l) <= g t)%R) -> lim0 g 0 -> lim0 f l.
Proof.
  rewrite !lim0_iff. intros Pe H Hg eps He. destruct (Hg eps He) as (e' & P & N).
  exists (Rmin e e'). split; [apply Rmin_pos; auto|]. intros t Ht Hl. apply Rmin_Rgt_l in Hl. destruct Hl.
  specialize (N t Ht ltac:(auto)). specialize (H t Ht ltac:(auto)). rewrite Rminus_0_r in N.
  pose proof (Rle_abs (g t)). lra.
Qed.
Lemma lim0_eq f l l' : l' = l -> lim0 f l' -> lim0 f l.
Proof. intros ->; auto. Qed.
Lemma lim0_const c : lim0 (fun _ => c) c.
Proof. apply lim0_iff. intros eps He. exists 1%R. split; [lra|]. intros. rewrite Rminus_diag_eq, Rabs_R0 by auto. auto. Qed.
Lemma lim0_plus f g l m : lim0 f l -> lim0 g m -> lim0 (fun t => f t + g t)%R (l + m).
Proof. apply limit_plus. Qed.
Lemma lim0_minus f g l m : lim0 f l -> lim0 g m -> lim0 (fun t => f t - g t)%R (l - m).
Proof. apply limit_minus. Qed.
Lemma lim0_mult f g l m : lim0 f l -> lim0 g m -> lim0 (fun t => f t * g t)%R (l * m).
Proof. apply limit_mul. Qed.
Lemma lim0_abs f : lim0 f 0 -> lim0 (fun t => Rabs (f t)) 0.
Proof.
  rewrite !lim0_iff. intros H eps He. destruct (H eps He) as (e & P & N). exists e. split; auto. intros t Ht Hl.
  specialize (N t Ht Hl). rewrite Rminus_0_r in *. rewrite Rabs_Rabsolu. auto.
Qed.
Lemma lim0_sum n (f : nat -> R -> R) l : (forall i, i < n -> lim0 (f i) (l i)) ->
  lim0 (fun t => Rsum n (fun i => f i t)) (Rsum n l).
Proof.
  induction n as [|n IH]; intros H; [apply (lim0_const 0%R)|].
  apply (lim0_plus (fun t => Rsum n (fun i => f i t)) (f n)); auto.
Qed.
Lemma deriv_lim0 f l : derivable_pt_lim f 0 l <-> lim0 (fun t => (f t - f 0) / t)%R l.
Proof.
  rewrite lim0_iff. unfold derivable_pt_lim. split.
  - intros H eps He. destruct (H eps He) as (d & N). exists d. split; [apply cond_pos|]. intros t Ht Hl.
    specialize (N t Ht Hl). rewrite Rplus_0_l in N. auto.
  - intros H eps He. destruct (H eps He) as (e & P & N). exists (mkposreal e P). intros t Ht Hl.
    rewrite Rplus_0_l. apply N; auto.
Qed.
Lemma deriv_cont f l : derivable_pt_lim f 0 l -> lim0 (fun t => f t - f 0)%R 0.
Proof.
  intros H. apply deriv_lim0 in H.
  apply (lim0_ext (fun t => t * ((f t - f 0) / t))%R); [intros; field; auto|].
  apply (lim0_eq _ _ (0 * l)%R); [ring|]. apply (lim0_mult (fun t => t)); auto.
  apply lim0_iff. intros eps He. exists eps. split; auto. intros t _ Ht. rewrite Rminus_0_r. auto.
Qed.
Lemma deriv_sum n (f : nat -> R -> R) l : (forall i, i < n -> derivable_pt_lim (f i) 0 (l i)) ->
  derivable_pt_lim (fun t => Rsum n (fun i => f i t)) 0 (Rsum n l).
Proof.
  induction n as [|n IH]; intros H; [apply (derivable_pt_lim_const 0%R)|].
  apply (derivable_pt_lim_plus (fun t => Rsum n (fun i => f i t)) (f n)); auto.
Qed.

(** ** Perturbation of a nonsingular matrix *)
Definition n1 (n : nat) (v : nat -> R) : R := Rsum n (fun i => Rabs (v i)).
Definition m1 (n : nat) (A : nat -> nat -> R) : R := Rsum n (fun i => n1 n (A i)).

Lemma n1_nonneg n v : (0 <= n1 n v)%R.
Proof. apply Rsum_nonneg. intros. apply Rabs_pos. Qed.
Lemma n1_le n v i : i < n -> (Rabs (v i) <= n1 n v)%R.
Proof.
  unfold n1. induction n as [|n IH]; intros H; [lia|]. cbn [Rsum gsum].
  change (gsum 0%R Rplus n) with (Rsum n).
  destruct (Nat.eq_dec i n) as [->|].
  - pose proof (n1_nonneg n v) as Q. unfold n1 in Q. lra.
  - specialize (IH ltac:(lia)). pose proof (Rabs_pos (v n)). lra.
Qed.
Lemma Rabs_sum n f : (Rabs (Rsum n f) <= Rsum n (fun i => Rabs (f i)))%R.
Proof.
  induction n as [|n IH]; [simpl; rewrite Rabs_R0; lra|].
  simpl. change (gsum 0%R Rplus n) with (Rsum n) in *. pose proof (Rabs_triang (Rsum n f) (f n)). lra.
Qed.
Lemma n1_plus n u v : (n1 n (fun i => u i + v i) <= n1 n u + n1 n v)%R.
Proof. unfold n1. rewrite <- Rsum_plus. apply Rsum_le. intros. apply Rabs_triang. Qed.
Lemma n1_mv n D v : (n1 n (Rmv n D v) <= m1 n D * n1 n v)%R.
Proof.
  unfold n1 at 1, m1. rewrite <- Rsum_scal_r. apply Rsum_le. intros i Hi. unfold mulmv.
  change (gsum 0%R Rplus) with Rsum.
  eapply Rle_trans; [apply Rabs_sum|]. unfold n1 at 1. rewrite <- Rsum_scal_r. apply Rsum_le. intros j Hj.
  rewrite Rabs_mult. apply Rmult_le_compat_l; [apply Rabs_pos|apply n1_le; auto].
Qed.
Lemma mv_sum n A k (c : nat -> R) z i :
  Rmv n A (fun j => Rsum k (fun l => c l * z l j)%R) i = Rsum k (fun l => c l * Rmv n A (z l) i)%R.
Proof.
  unfold mulmv. change (gsum 0%R Rplus) with Rsum.
  rewrite (Rsum_ext n _ (fun j => Rsum k (fun l => c l * (A i j * z l j)))%R).
  - rewrite Rsum_swap. apply Rsum_ext. intros l _. apply Rsum_scal_l.
  - intros j _. rewrite <- Rsum_scal_l. apply Rsum_ext. intros; ring.
Qed.

Lemma inverse_bound n A : nonsingular n A -> exists C, (0 < C)%R /\ forall v, (n1 n v <= C * n1 n (Rmv n A v))%R.
Proof.
  intros H.
  destruct (solve_cols_ok n n A (fun i j => if Nat.eqb i j then 1%R else 0%R) H) as (Z & _ & HZ).
  exists (1 + Rsum n (fun j => n1 n (fun i => Z i j)))%R.
  assert (P : (0 <= Rsum n (fun j => n1 n (fun i => Z i j)))%R) by (apply Rsum_nonneg; intros; apply n1_nonneg).
  split; [lra|]. intros v. set (w := Rmv n A v).
  assert (E : forall i, i < n -> v i = Rsum n (fun j => w j * Z i j)%R).
  { intros i Hi. apply (nonsingular_uniq n A v (fun i => Rsum n (fun j => w j * Z i j)%R) H); auto.
    intros k Hk. rewrite (mv_sum n A n w (fun j i => Z i j) k).
    rewrite (Rsum_ext n _ (fun j => if Nat.eqb j k then w j else 0)%R).
    - rewrite Rsum_delta; auto.
    - intros j Hj. rewrite HZ by auto. rewrite Nat.eqb_sym. destruct (Nat.eqb j k); ring. }
  assert (B : (n1 n v <= Rsum n (fun j => n1 n (fun i => Z i j)) * n1 n w)%R).
  { unfold n1 at 1. rewrite (Rsum_ext n _ (fun i => Rabs (Rsum n (fun j => w j * Z i j)%R))) by (intros; rewrite E; auto).
    apply Rle_trans with (Rsum n (fun i => Rsum n (fun j => n1 n w * Rabs (Z i j))))%R.
    - apply Rsum_le. intros i Hi. eapply Rle_trans; [apply Rabs_sum|]. apply Rsum_le. intros j Hj.
      rewrite Rabs_mult. apply Rmult_le_compat_r; [apply Rabs_pos|apply n1_le; auto].
    - rewrite Rsum_swap. rewrite <- Rsum_scal_r. apply Req_le, Rsum_ext. intros j Hj. rewrite Rsum_scal_l. unfold n1. ring. }
  pose proof (n1_nonneg n w). lra.
Qed.

Lemma mv_sub n A B v i : Rmv n (fun i j => A i j - B i j)%R v i = (Rmv n A v i - Rmv n B v i)%R.
Proof. unfold mulmv. change (gsum 0%R Rplus) with Rsum. rewrite <- Rsum_minus. apply Rsum_ext. intros; ring. Qed.
Lemma mv_sub_r n A u v i : Rmv n A (fun j => u j - v j)%R i = (Rmv n A u i - Rmv n A v i)%R.
Proof. unfold mulmv. change (gsum 0%R Rplus) with Rsum. rewrite <- Rsum_minus. apply Rsum_ext. intros; ring. Qed.
Lemma n1_ext n u v : (forall i, i < n -> u i = v i) -> n1 n u = n1 n v.
Proof. intros H. apply Rsum_ext. intros i Hi. rewrite H; auto. Qed.
Lemma n1_opp n u : n1 n (fun i => - u i)%R = n1 n u.
Proof. apply Rsum_ext. intros. apply Rabs_Ropp. Qed.

Lemma perturb_nonsingular n A B C : (0 < C)%R -> (forall v, (n1 n v <= C * n1 n (Rmv n A v))%R) ->
  (C * m1 n (fun i j => B i j - A i j) < 1)%R -> nonsingular n B.
Proof.
  intros PC HC HD v Hv.
  assert (E : n1 n (Rmv n A v) = n1 n (Rmv n (fun i j => B i j - A i j)%R v)).
  { rewrite <- n1_opp. apply n1_ext. intros i Hi. rewrite mv_sub, (Hv i Hi). ring. }
  assert (Q : n1 n v = 0%R).
  { pose proof (n1_nonneg n v). pose proof (HC v) as Q. rewrite E in Q.
    pose proof (n1_mv n (fun i j => B i j - A i j)%R v) as Q'.
    assert (C * n1 n (Rmv n (fun i j => (B i j - A i j)%R) v) <= C * (m1 n (fun i j => (B i j - A i j)%R) * n1 n v))%R
      by (apply Rmult_le_compat_l; lra).
    nra. }
  intros j Hj. pose proof (n1_le n v j Hj). pose proof (Rabs_pos (v j)).
  destruct (Req_dec (v j) 0) as [|N]; auto. apply Rabs_no_R0 in N. lra.
Qed.

Section Family.
  Variables (n : nat) (A : R -> nat -> nat -> R) (A' : nat -> nat -> R).
  Hypothesis HA : forall i j, i < n -> j < n -> derivable_pt_lim (fun t => A t i j) 0 (A' i j).
  Hypothesis HN : nonsingular n (A 0%R).

  Lemma matrix_cont : lim0 (fun t => m1 n (fun i j => A t i j - A 0 i j)%R) 0.
  Proof.
    apply (lim0_eq _ _ (Rsum n (fun _ => Rsum n (fun _ => 0%R)))); [apply Rsum_zero; intros; apply Rsum_zero; auto|].
    apply (lim0_sum n (fun i t => n1 n (fun j => A t i j - A 0 i j)%R)). intros i Hi.
    apply (lim0_sum n (fun j t => Rabs (A t i j - A 0 i j))). intros j Hj.
    apply lim0_abs, (deriv_cont (fun t => A t i j) (A' i j)). auto.
  Qed.
  Lemma m1_same t : t = 0%R -> m1 n (fun i j => A t i j - A 0 i j)%R = 0%R.
  Proof.
    intros ->. apply Rsum_zero. intros. apply Rsum_zero. intros. rewrite Rminus_diag_eq, Rabs_R0; auto.
  Qed.

  Lemma nonsingular_near : exists e C, (0 < e)%R /\ (0 < C)%R /\
    (forall v, (n1 n v <= C * n1 n (Rmv n (A 0) v))%R) /\
    (forall t, (Rabs t < e)%R -> (C * m1 n (fun i j => A t i j - A 0 i j) < / 2)%R) /\
    forall t, (Rabs t < e)%R -> nonsingular n (A t).
  Proof.
    destruct (inverse_bound n (A 0%R) HN) as (C & PC & HC).
    pose proof (proj1 (lim0_iff _ _) matrix_cont (/ (2 * C))%R ltac:(apply Rinv_0_lt_compat; lra)) as (e & Pe & Ne).
    assert (HB : forall t, (Rabs t < e)%R -> (C * m1 n (fun i j => A t i j - A 0 i j) < / 2)%R).
    { intros t Ht. destruct (Req_dec t 0) as [E|N].
      - rewrite m1_same by auto. lra.
      - specialize (Ne t N Ht). rewrite Rminus_0_r in Ne. pose proof (Rle_abs (m1 n (fun i j => A t i j - A 0 i j)%R)).
        apply (Rmult_lt_reg_r (/ C)); [apply Rinv_0_lt_compat; lra|].
        replace (C * m1 n (fun i j => A t i j - A 0 i j) * / C)%R with (m1 n (fun i j => A t i j - A 0 i j)%R) by (field; lra).
        rewrite <- Rinv_mult. lra. }
    exists e, C. split; auto. split; auto. split; auto. split; auto.
    intros t Ht. apply (perturb_nonsingular n (A 0%R) _ C); auto. specialize (HB t Ht). lra.
  Qed.

  Variables (r : R -> nat -> R) (r' : nat -> R) (s : R -> nat -> R) (e0 : R).
  Hypothesis Hr : forall i, i < n -> derivable_pt_lim (fun t => r t i) 0 (r' i).
  Hypothesis Pe0 : (0 < e0)%R.
  Hypothesis Hs : forall t, (Rabs t < e0)%R -> forall i, i < n -> Rmv n (A t) (s t) i = r t i.

  Lemma rhs_cont : lim0 (fun t => n1 n (fun i => r t i - r 0 i)%R) 0.
  Proof.
    apply (lim0_eq _ _ (Rsum n (fun _ => 0%R))); [apply Rsum_zero; auto|].
    apply (lim0_sum n (fun i t => Rabs (r t i - r 0 i))). intros i Hi.
    apply lim0_abs, (deriv_cont (fun t => r t i) (r' i)). auto.
  Qed.

  Lemma solution_cont : lim0 (fun t => n1 n (fun i => s t i - s 0 i)%R) 0.
  Proof.
    destruct nonsingular_near as (e & C & Pe & PC & HC & HB & _).
    pose proof (Hs 0%R ltac:(rewrite Rabs_R0; auto)) as H0.
    apply (lim0_bound _ (fun t => 2 * C * (n1 n (fun i => r t i - r 0 i) + m1 n (fun i j => A t i j - A 0 i j) * n1 n (s 0%R)))%R 0 (Rmin e e0));
      [apply Rmin_pos; auto| |].
    2:{ apply (lim0_eq _ _ (2 * C * (0 + 0 * n1 n (s 0%R)))%R); [ring|].
        apply lim0_mult; [apply lim0_const|]. apply lim0_plus; [apply rhs_cont|]. apply lim0_mult; [apply matrix_cont|apply lim0_const]. }
    intros t _ Ht. apply Rmin_Rgt_l in Ht. destruct Ht as [Ht Ht0].
    rewrite Rminus_0_r, Rabs_right by (apply Rle_ge, n1_nonneg).
    set (d := fun i => (s t i - s 0 i)%R). set (D := fun i j => (A t i j - A 0 i j)%R).
    assert (E : forall i, i < n -> Rmv n (A 0%R) d i = ((r t i - r 0 i) + - (Rmv n D (s 0%R) i + Rmv n D d i))%R).
    { intros i Hi. unfold d, D. rewrite mv_sub_r, !mv_sub, !mv_sub_r. rewrite (Hs t Ht0 i Hi), (H0 i Hi). ring. }
    pose proof (HC d) as Q. rewrite (n1_ext n _ _ E) in Q.
    pose proof (n1_plus n (fun i => r t i - r 0 i)%R (fun i => - (Rmv n D (s 0%R) i + Rmv n D d i))%R) as Q1.
    rewrite n1_opp in Q1.
    pose proof (n1_plus n (Rmv n D (s 0%R)) (Rmv n D d)) as Q2.
    pose proof (n1_mv n D (s 0%R)) as Q3. pose proof (n1_mv n D d) as Q4. specialize (HB t Ht). fold D in HB.
    pose proof (n1_nonneg n d) as Pd.
    assert (C * (m1 n D * n1 n d) <= / 2 * n1 n d)%R by (rewrite <- Rmult_assoc; apply Rmult_le_compat_r; lra).
    assert (Q5 : (n1 n d <= C * (n1 n (fun i => (r t i - r 0 i)%R) + m1 n D * n1 n (s 0%R) + m1 n D * n1 n d))%R).
    { eapply Rle_trans; [apply Q|]. apply Rmult_le_compat_l; lra. }
    lra.
  Qed.
  Lemma solution_cont_i i : i < n -> lim0 (fun t => s t i) (s 0%R i).
  Proof.
    intros Hi. apply (lim0_bound _ (fun t => n1 n (fun i => s t i - s 0 i)%R) _ 1); [lra| |apply solution_cont].
    intros t _ _. apply (n1_le n (fun i => s t i - s 0 i)%R i Hi).
  Qed.

  Hypothesis Hsym : forall i j, i < n -> j < n -> A 0%R i j = A 0%R j i.

  Theorem solve_deriv : derivable_pt_lim (fun t => Rsum n (fun i => r t i * s t i)%R) 0
    (2 * Rsum n (fun i => r' i * s 0 i) - Rsum n (fun i => s 0 i * Rmv n A' (s 0) i))%R.
  Proof.
    apply deriv_lim0. pose proof (Hs 0%R ltac:(rewrite Rabs_R0; auto)) as H0.
    apply (lim0_local (fun t => Rsum n (fun i => (r t i - r 0 i) / t * (s t i + s 0 i))
       - Rsum n (fun i => s 0 i * Rsum n (fun j => (A t i j - A 0 i j) / t * s t j)))%R _ _ e0 Pe0).
    - intros t Nt Ht.
      assert (E1 : Rsum n (fun i => r 0 i * s t i)%R = Rsum n (fun i => s 0 i * Rmv n (A 0%R) (s t) i)%R).
      { rewrite (Rsum_ext n _ (fun i => Rsum n (fun j => A 0%R i j * s 0%R j * s t i))%R).
        - rewrite Rsum_swap. apply Rsum_ext. intros j Hj. unfold mulmv. change (gsum 0%R Rplus) with Rsum.
          rewrite <- Rsum_scal_l. apply Rsum_ext. intros i Hi. rewrite (Hsym j i) by auto. ring.
        - intros i Hi. rewrite <- (H0 i Hi). unfold mulmv. change (gsum 0%R Rplus) with Rsum. rewrite Rsum_scal_r. reflexivity. }
      assert (E2 : Rsum n (fun i => s 0 i * r t i)%R = Rsum n (fun i => s 0 i * Rmv n (A t) (s t) i)%R).
      { apply Rsum_ext. intros i Hi. rewrite (Hs t Ht i Hi). auto. }
      assert (E3 : Rsum n (fun i => s 0 i * Rsum n (fun j => (A t i j - A 0 i j) / t * s t j))%R =
        ((Rsum n (fun i => s 0 i * Rmv n (A t) (s t) i) - Rsum n (fun i => s 0 i * Rmv n (A 0) (s t) i)) / t)%R).
      { rewrite <- Rsum_minus. unfold Rdiv at 2. rewrite <- Rsum_scal_r. apply Rsum_ext. intros i Hi.
        rewrite <- Rmult_minus_distr_l, <- mv_sub. unfold mulmv. change (gsum 0%R Rplus) with Rsum.
        rewrite Rmult_assoc, <- Rsum_scal_r. f_equal. apply Rsum_ext. intros; unfold Rdiv; ring. }
      rewrite E3, <- E1, <- E2.
      assert (E4 : Rsum n (fun i => (r t i - r 0 i) / t * (s t i + s 0 i))%R =
        ((Rsum n (fun i => r t i * s t i) - Rsum n (fun i => r 0 i * s t i) + Rsum n (fun i => s 0 i * r t i) - Rsum n (fun i => r 0 i * s 0 i)) / t)%R).
      { rewrite <- !Rsum_minus, <- Rsum_plus, <- Rsum_minus. unfold Rdiv at 2. rewrite <- Rsum_scal_r. apply Rsum_ext.
        intros; unfold Rdiv; ring. }
      rewrite E4. field. auto.
    - apply lim0_minus.
      + replace (2 * Rsum n (fun i => r' i * s 0 i))%R with (Rsum n (fun i => r' i * (s 0 i + s 0 i)))%R
          by (rewrite <- Rsum_scal_l; apply Rsum_ext; intros; ring).
        apply (lim0_sum n (fun i t => (r t i - r 0 i) / t * (s t i + s 0 i))%R). intros i Hi.
        apply lim0_mult; [apply (deriv_lim0 (fun t => r t i)); auto|].
        apply lim0_plus; [apply solution_cont_i; auto|apply lim0_const].
      + apply (lim0_sum n (fun i t => s 0 i * Rsum n (fun j => (A t i j - A 0 i j) / t * s t j))%R). intros i Hi.
        apply lim0_mult; [apply lim0_const|].
        apply (lim0_sum n (fun j t => (A t i j - A 0 i j) / t * s t j)%R). intros j Hj.
        apply lim0_mult; [apply (deriv_lim0 (fun t => A t i j)); auto|apply solution_cont_i; auto].
  Qed.
End Family.
