(** * Finite sums over a commutative ring (proof tools and vocabulary)

    [gsum n f] is f 0 + ... + f (n-1).  Instances: [Rsum] (reals), [Csum] (complex). *)
From Coq Require Import Reals Lra Ring FunctionalExtensionality.
From Coquelicot Require Import Complex.
From Verif Require Import Prelude.
Local Open Scope nat_scope.

Section Generic.
  Context {T : Type} (zero one : T) (add mul sub : T -> T -> T) (opp : T -> T).
  Fixpoint gsum (n : nat) (f : nat -> T) : T :=
    match n with O => zero | S k => add (gsum k f) (f k) end.
  Hypothesis rt : ring_theory zero one add mul sub opp (@eq T).
  Add Ring Tring : rt.

  Lemma gsum_ext n f g : (forall i, i < n -> f i = g i) -> gsum n f = gsum n g.
  Proof. induction n; simpl; intros H; auto. rewrite IHn, H; auto. Qed.
  Lemma gsum_zero n f : (forall i, i < n -> f i = zero) -> gsum n f = zero.
  Proof. induction n; simpl; intros H; auto. rewrite IHn, H by auto. ring. Qed.
  Lemma gsum_plus n f g : gsum n (fun i => add (f i) (g i)) = add (gsum n f) (gsum n g).
  Proof. induction n; simpl; [|rewrite IHn]; ring. Qed.
  Lemma gsum_opp n f : gsum n (fun i => opp (f i)) = opp (gsum n f).
  Proof. induction n; simpl; [|rewrite IHn]; ring. Qed.
  Lemma gsum_minus n f g : gsum n (fun i => sub (f i) (g i)) = sub (gsum n f) (gsum n g).
  Proof. induction n; simpl; [|rewrite IHn]; ring. Qed.
  Lemma gsum_scal_l n c f : gsum n (fun i => mul c (f i)) = mul c (gsum n f).
  Proof. induction n; simpl; [|rewrite IHn]; ring. Qed.
  Lemma gsum_scal_r n c f : gsum n (fun i => mul (f i) c) = mul (gsum n f) c.
  Proof. induction n; simpl; [|rewrite IHn]; ring. Qed.
  Lemma gsum_swap n m f :
    gsum n (fun i => gsum m (fun j => f i j)) = gsum m (fun j => gsum n (fun i => f i j)).
  Proof.
    induction n; simpl.
    - symmetry. apply gsum_zero. auto.
    - rewrite IHn. rewrite <- gsum_plus. reflexivity.
  Qed.
  Lemma gsum_add n m f : gsum (n + m) f = add (gsum n f) (gsum m (fun i => f (n + i))).
  Proof.
    induction m; simpl; [rewrite Nat.add_0_r; ring|].
    rewrite Nat.add_succ_r. simpl. rewrite IHm. ring.
  Qed.
  Lemma gsum_S_l n f : gsum (S n) f = add (f 0) (gsum n (fun i => f (S i))).
  Proof. change (S n) with (1 + n). rewrite gsum_add. simpl. ring. Qed.
  Lemma gsum_rev n f : gsum n f = gsum n (fun i => f (n - 1 - i)).
  Proof.
    revert f. induction n; intros f; auto.
    rewrite gsum_S_l. rewrite IHn.
    change (gsum (S n) (fun i => f (S n - 1 - i))) with
      (add (gsum n (fun i => f (S n - 1 - i))) (f (S n - 1 - n))).
    replace (S n - 1 - n) with 0 by lia.
    rewrite (gsum_ext n (fun i => f (S n - 1 - i)) (fun i => f (S (n - 1 - i)))).
    - ring.
    - intros i Hi. f_equal. lia.
  Qed.
  Lemma gsum_single n k f : k < n -> (forall i, i < n -> i <> k -> f i = zero) -> gsum n f = f k.
  Proof.
    intros Hk H. replace n with (k + (1 + (n - k - 1))) by lia.
    rewrite gsum_add. rewrite gsum_zero by (intros; apply H; lia).
    rewrite gsum_add. simpl. rewrite Nat.add_0_r.
    rewrite (gsum_zero (n - k - 1)) by (intros; apply H; lia). ring.
  Qed.
  Lemma gsum_delta n k f : k < n -> gsum n (fun i => if Nat.eqb i k then f i else zero) = f k.
  Proof.
    intros Hk. rewrite (gsum_single n k) by
      (auto; intros i Hi Hne; apply Nat.eqb_neq in Hne; rewrite Hne; auto).
    rewrite Nat.eqb_refl. auto.
  Qed.
  (** only the first m terms matter *)
  Lemma gsum_trunc n m f : m <= n -> (forall i, m <= i -> i < n -> f i = zero) -> gsum n f = gsum m f.
  Proof.
    intros Hm H. replace n with (m + (n - m)) by lia. rewrite gsum_add.
    rewrite (gsum_zero (n - m)) by (intros; apply H; lia). ring.
  Qed.
  Lemma gsum_mul n m f g :
    mul (gsum n f) (gsum m g) = gsum n (fun i => gsum m (fun j => mul (f i) (g j))).
  Proof.
    rewrite <- gsum_scal_r. apply gsum_ext. intros i _. rewrite gsum_scal_l. auto.
  Qed.
  (** sum over a product range, row-major *)
  Lemma gsum_prod n m f : gsum (n * m) f = gsum n (fun i => gsum m (fun j => f (i * m + j))).
  Proof.
    induction n; simpl; auto.
    rewrite Nat.add_comm. rewrite gsum_add, IHn. auto.
  Qed.
  (** cyclic shift of the summation index *)
  Lemma gsum_cyclic n k f : k <= n ->
    gsum n (fun i => f ((i + k) mod n)) = gsum n f.
  Proof.
    intros Hk. destruct (Nat.eq_dec n 0) as [->|Hn]; auto.
    transitivity (add (gsum (n - k) (fun i => f (k + i))) (gsum k f)).
    - replace n with ((n - k) + k) at 1 by lia. rewrite gsum_add. f_equal.
      + apply gsum_ext. intros i Hi. rewrite Nat.mod_small by lia. f_equal. lia.
      + apply gsum_ext. intros i Hi. replace (n - k + i + k) with (i + 1 * n) by lia.
        rewrite Nat.mod_add by auto. rewrite Nat.mod_small by lia. auto.
    - replace n with (k + (n - k)) at 2 by lia. rewrite gsum_add. ring.
  Qed.
End Generic.

(** ** Reals *)
Notation Rsum := (gsum 0%R Rplus).
Definition Rrt : ring_theory 0%R 1%R Rplus Rmult Rminus Ropp (@eq R) := RTheory.
Lemma Rsum_ext n f g : (forall i, i < n -> f i = g i) -> Rsum n f = Rsum n g.
Proof. apply gsum_ext. Qed.
Lemma Rsum_zero n f : (forall i, i < n -> f i = 0%R) -> Rsum n f = 0%R.
Proof. apply (gsum_zero _ _ _ _ _ _ Rrt). Qed.
Lemma Rsum_plus n f g : Rsum n (fun i => f i + g i)%R = (Rsum n f + Rsum n g)%R.
Proof. apply (gsum_plus _ _ _ _ _ _ Rrt). Qed.
Lemma Rsum_minus n f g : Rsum n (fun i => f i - g i)%R = (Rsum n f - Rsum n g)%R.
Proof. apply (gsum_minus _ _ _ _ _ _ Rrt). Qed.
Lemma Rsum_opp n f : Rsum n (fun i => - f i)%R = (- Rsum n f)%R.
Proof. apply (gsum_opp _ _ _ _ _ _ Rrt). Qed.
Lemma Rsum_scal_l n c f : Rsum n (fun i => c * f i)%R = (c * Rsum n f)%R.
Proof. apply (gsum_scal_l _ _ _ _ _ _ Rrt). Qed.
Lemma Rsum_scal_r n c f : Rsum n (fun i => f i * c)%R = (Rsum n f * c)%R.
Proof. apply (gsum_scal_r _ _ _ _ _ _ Rrt). Qed.
Lemma Rsum_swap n m f :
  Rsum n (fun i => Rsum m (fun j => f i j)) = Rsum m (fun j => Rsum n (fun i => f i j)).
Proof. apply (gsum_swap _ _ _ _ _ _ Rrt). Qed.
Lemma Rsum_add n m f : Rsum (n + m) f = (Rsum n f + Rsum m (fun i => f (n + i)%nat))%R.
Proof. apply (gsum_add _ _ _ _ _ _ Rrt). Qed.
Lemma Rsum_S_l n f : Rsum (S n) f = (f 0%nat + Rsum n (fun i => f (S i)))%R.
Proof. apply (gsum_S_l _ _ _ _ _ _ Rrt). Qed.
Lemma Rsum_rev n f : Rsum n f = Rsum n (fun i => f (n - 1 - i)).
Proof. apply (gsum_rev _ _ _ _ _ _ Rrt). Qed.
Lemma Rsum_single n k f : k < n -> (forall i, i < n -> i <> k -> f i = 0%R) -> Rsum n f = f k.
Proof. apply (gsum_single _ _ _ _ _ _ Rrt). Qed.
Lemma Rsum_delta n k f : k < n -> Rsum n (fun i => if Nat.eqb i k then f i else 0%R) = f k.
Proof. apply (gsum_delta _ _ _ _ _ _ Rrt). Qed.
Lemma Rsum_trunc n m f : m <= n -> (forall i, m <= i -> i < n -> f i = 0%R) -> Rsum n f = Rsum m f.
Proof. apply (gsum_trunc _ _ _ _ _ _ Rrt). Qed.
Lemma Rsum_mul n m f g :
  (Rsum n f * Rsum m g)%R = Rsum n (fun i => Rsum m (fun j => f i * g j)%R).
Proof. apply (gsum_mul _ _ _ _ _ _ Rrt). Qed.
Lemma Rsum_prod n m f : Rsum (n * m) f = Rsum n (fun i => Rsum m (fun j => f (i * m + j))).
Proof. apply (gsum_prod _ _ _ _ _ _ Rrt). Qed.
Lemma Rsum_cyclic n k f : k <= n -> Rsum n (fun i => f ((i + k) mod n)) = Rsum n f.
Proof. apply (gsum_cyclic _ _ _ _ _ _ Rrt). Qed.

Lemma Rsum_nonneg n f : (forall i, i < n -> (0 <= f i)%R) -> (0 <= Rsum n f)%R.
Proof.
  induction n; simpl; intros H; [lra|].
  pose proof (H n (Nat.lt_succ_diag_r n)). assert (0 <= Rsum n f)%R by auto. lra.
Qed.
Lemma Rsum_le n f g : (forall i, i < n -> (f i <= g i)%R) -> (Rsum n f <= Rsum n g)%R.
Proof.
  induction n; simpl; intros H; [lra|].
  pose proof (H n (Nat.lt_succ_diag_r n)). assert (Rsum n f <= Rsum n g)%R by auto. lra.
Qed.
Lemma Rsum_nonneg_eq0 n f : (forall i, i < n -> (0 <= f i)%R) -> Rsum n f = 0%R ->
  forall i, i < n -> f i = 0%R.
Proof.
  induction n; simpl; intros H E i Hi; [lia|].
  assert (H1 : (0 <= Rsum n f)%R) by (apply Rsum_nonneg; auto).
  pose proof (H n (Nat.lt_succ_diag_r n)) as H2.
  destruct (Nat.eq_dec i n) as [->|Hn]; [lra|].
  apply IHn; auto; [lra|lia].
Qed.
Lemma Rsum_const n c : Rsum n (fun _ => c) = (INR n * c)%R.
Proof. induction n; [simpl; ring|]. rewrite S_INR. simpl gsum. rewrite IHn. ring. Qed.

(** ** Complex numbers *)
Notation Csum := (gsum (RtoC 0) Cplus).
Definition Crt : ring_theory (RtoC 0) (RtoC 1) Cplus Cmult Cminus Copp (@eq C).
Proof. constructor; intros; try ring. Qed.
Lemma Csum_ext n f g : (forall i, i < n -> f i = g i) -> Csum n f = Csum n g.
Proof. apply gsum_ext. Qed.
Lemma Csum_zero n f : (forall i, i < n -> f i = RtoC 0) -> Csum n f = RtoC 0.
Proof. apply (gsum_zero _ _ _ _ _ _ Crt). Qed.
Lemma Csum_plus n f g : Csum n (fun i => Cplus (f i) (g i)) = Cplus (Csum n f) (Csum n g).
Proof. apply (gsum_plus _ _ _ _ _ _ Crt). Qed.
Lemma Csum_scal_l n c f : Csum n (fun i => Cmult c (f i)) = Cmult c (Csum n f).
Proof. apply (gsum_scal_l _ _ _ _ _ _ Crt). Qed.
Lemma Csum_scal_r n c f : Csum n (fun i => Cmult (f i) c) = Cmult (Csum n f) c.
Proof. apply (gsum_scal_r _ _ _ _ _ _ Crt). Qed.
Lemma Csum_swap n m f :
  Csum n (fun i => Csum m (fun j => f i j)) = Csum m (fun j => Csum n (fun i => f i j)).
Proof. apply (gsum_swap _ _ _ _ _ _ Crt). Qed.
Lemma Csum_S_l n f : Csum (S n) f = Cplus (f 0) (Csum n (fun i => f (S i))).
Proof. apply (gsum_S_l _ _ _ _ _ _ Crt). Qed.
Lemma Csum_add n m f : Csum (n + m) f = Cplus (Csum n f) (Csum m (fun i => f (n + i))).
Proof. apply (gsum_add _ _ _ _ _ _ Crt). Qed.
Lemma Csum_single n k f : k < n -> (forall i, i < n -> i <> k -> f i = RtoC 0) -> Csum n f = f k.
Proof. apply (gsum_single _ _ _ _ _ _ Crt). Qed.
Lemma Csum_delta n k f : k < n -> Csum n (fun i => if Nat.eqb i k then f i else RtoC 0) = f k.
Proof. apply (gsum_delta _ _ _ _ _ _ Crt). Qed.
Lemma Csum_mul n m f g :
  Cmult (Csum n f) (Csum m g) = Csum n (fun i => Csum m (fun j => Cmult (f i) (g j))).
Proof. apply (gsum_mul _ _ _ _ _ _ Crt). Qed.
Lemma Csum_trunc n m f : m <= n -> (forall i, m <= i -> i < n -> f i = RtoC 0) -> Csum n f = Csum m f.
Proof. apply (gsum_trunc _ _ _ _ _ _ Crt). Qed.
Lemma Re_Csum n f : Re (Csum n f) = Rsum n (fun i => Re (f i)).
Proof. induction n; simpl; auto. rewrite <- IHn. reflexivity. Qed.
Lemma Im_Csum n f : Im (Csum n f) = Rsum n (fun i => Im (f i)).
Proof. induction n; simpl; auto. rewrite <- IHn. reflexivity. Qed.
Lemma Csum_RtoC n f : Csum n (fun i => RtoC (f i)) = RtoC (Rsum n f).
Proof. induction n; simpl; auto. rewrite IHn. rewrite RtoC_plus. reflexivity. Qed.
Lemma Cconj_Csum n f : Cconj (Csum n f) = Csum n (fun i => Cconj (f i)).
Proof.
  induction n; simpl; [unfold Cconj; simpl; rewrite Ropp_0; auto|].
  rewrite <- IHn. unfold Cconj, Cplus; simpl. f_equal. ring.
Qed.
