(** * Proofs about Linalg.v *)
From Coq Require Import Reals Lra Field FunctionalExtensionality.
From Coquelicot Require Import Complex.
From Verif Require Import Prelude ExtReal Slice Sums Helpers HelpersProofs Linalg.
Local Open Scope nat_scope.

(** ** Gaussian elimination *)
Section Solve.
  Context {T : Type} (zero one : T) (add mul sub : T -> T -> T) (opp : T -> T)
          (div : T -> T -> T) (inv : T -> T)
          (eq_dec : forall x y : T, {x = y} + {x <> y}).
  Hypothesis ft : field_theory zero one add mul sub opp div inv (@eq T).
  Add Field Tfield : ft.
  Let rt := F_R ft.
  Notation sum := (gsum zero add).
  Notation solve := (gsolve zero add mul sub div eq_dec).
  Definition mulmv (n : nat) (A : nat -> nat -> T) (v : nat -> T) (i : nat) : T :=
    sum n (fun j => mul (A i j) (v j)).

  Lemma swap0_lt p n i : p < n -> i < n -> swap0 p i < n.
  Proof. intros Hp Hi. unfold swap0. destruct (i =? 0); auto. destruct (i =? p); lia. Qed.
  Lemma swap0_inv p i : swap0 p (swap0 p i) = i.
  Proof.
    unfold swap0. destruct (Nat.eqb_spec i 0); subst.
    - destruct (Nat.eqb_spec p 0); auto. rewrite Nat.eqb_refl. auto.
    - destruct (Nat.eqb_spec i p); subst; auto.
      destruct (Nat.eqb_spec i 0); [lia|]. destruct (Nat.eqb_spec i p); [lia|]. auto.
  Qed.

  Lemma find_pivot n A p :
    find (fun i => if eq_dec (A i 0) zero then false else true) (seq 0 n) = Some p ->
    p < n /\ A p 0 <> zero.
  Proof.
    intros H. apply find_some in H. destruct H as [H1 H2]. apply in_seq in H1.
    destruct (eq_dec (A p 0) zero); [discriminate|]. split; [lia|auto].
  Qed.
  Lemma no_pivot n (A : nat -> nat -> T) :
    find (fun i => if eq_dec (A i 0) zero then false else true) (seq 0 n) = None ->
    forall i, i < n -> A i 0 = zero.
  Proof.
    intros H i Hi. pose proof (find_none _ _ H i) as H1. cbv beta in H1.
    destruct (eq_dec (A i 0) zero); auto. assert (true = false) by (apply H1, in_seq; lia). discriminate.
  Qed.

  Lemma elim_row k (A' : nat -> nat -> T) (v : nat -> T) i : A' 0 0 <> zero ->
    sum k (fun j => mul (sub (A' (S i) (S j)) (mul (div (A' (S i) 0) (A' 0 0)) (A' 0 (S j)))) (v (S j)))
    = sub (mulmv (S k) A' v (S i)) (mul (div (A' (S i) 0) (A' 0 0)) (mulmv (S k) A' v 0)).
  Proof.
    intros Hp. unfold mulmv. rewrite !(gsum_S_l _ _ _ _ _ _ rt).
    rewrite (gsum_ext _ _ k _ (fun j => sub (mul (A' (S i) (S j)) (v (S j)))
        (mul (div (A' (S i) 0) (A' 0 0)) (mul (A' 0 (S j)) (v (S j)))))).
    2:{ intros j _. field. auto. }
    rewrite (gsum_minus _ _ _ _ _ _ rt). rewrite (gsum_scal_l _ _ _ _ _ _ rt). field. auto.
  Qed.

  Theorem solve_ok n A b x : solve n A b = Some x ->
    forall i, i < n -> mulmv n A x i = b i.
  Proof.
    revert A b x. induction n as [|k IH]; intros A b x H i Hi; [lia|].
    cbn [gsolve] in H.
    destruct (find _ _) as [p|] eqn:Ef; [|discriminate].
    apply find_pivot in Ef. destruct Ef as [Hp Hpiv].
    destruct (solve k _ _) as [y|] eqn:Es; [|discriminate].
    inversion H as [Hx]. clear H.
    set (A' := fun i j => A (swap0 p i) j) in *. set (b' := fun i => b (swap0 p i)) in *.
    assert (Hpiv' : A' 0 0 <> zero) by (unfold A', swap0; simpl; auto).
    assert (H0 : mulmv (S k) A' x 0 = b' 0).
    { unfold mulmv. rewrite (gsum_S_l _ _ _ _ _ _ rt). rewrite <- Hx. cbn beta iota.
      fold (A' 0 0). unfold A', b', swap0. simpl. field. auto. }
    assert (Hall : forall i, i < S k -> mulmv (S k) A' x i = b' i).
    { intros [|i'] Hi'; auto.
      pose proof (elim_row k A' x i' Hpiv') as E.
      specialize (IH _ _ _ Es i'). unfold mulmv at 1 in IH.
      rewrite (gsum_ext _ _ k _ (fun j => mul (sub (A' (S i') (S j))
          (mul (div (A' (S i') 0) (A' 0 0)) (A' 0 (S j)))) (y j))) in IH by reflexivity.
      rewrite <- Hx in E. cbn beta iota in E. rewrite IH in E by lia.
      rewrite Hx in E. rewrite H0 in E.
      fold (A' (S i') 0) (A' 0 0) (b' (S i')) (b' 0) in E.
      assert (E2 : mulmv (S k) A' x (S i') =
        add (sub (mulmv (S k) A' x (S i')) (mul (div (A' (S i') 0) (A' 0 0)) (b' 0)))
            (mul (div (A' (S i') 0) (A' 0 0)) (b' 0))) by ring.
      rewrite E2, <- E. ring. }
    rewrite Hx. pose proof (Hall (swap0 p i) (swap0_lt p (S k) i Hp Hi)) as E.
    unfold mulmv, A', b' in E. rewrite swap0_inv in E. exact E.
  Qed.

  Theorem solve_inj n A b x v : solve n A b = Some x ->
    (forall i, i < n -> mulmv n A v i = zero) -> forall j, j < n -> v j = zero.
  Proof.
    revert A b x v. induction n as [|k IH]; intros A b x v H Hv j Hj; [lia|].
    cbn [gsolve] in H.
    destruct (find _ _) as [p|] eqn:Ef; [|discriminate].
    apply find_pivot in Ef. destruct Ef as [Hp Hpiv].
    destruct (solve k _ _) as [y|] eqn:Es; [|discriminate]. clear H.
    set (A' := fun i j => A (swap0 p i) j) in *.
    assert (Hpiv' : A' 0 0 <> zero) by (unfold A', swap0; simpl; auto).
    assert (Hv' : forall i, i < S k -> mulmv (S k) A' v i = zero).
    { intros i Hi. apply (Hv (swap0 p i)), swap0_lt; auto. }
    assert (Hw : forall l, l < k -> v (S l) = zero).
    { intros l Hl. apply (IH _ _ _ (fun l => v (S l)) Es); auto.
      intros i Hi. unfold mulmv. etransitivity; [apply (elim_row k A' v i Hpiv')|].
      rewrite !Hv' by lia. field. auto. }
    destruct j as [|l]; [|apply Hw; lia].
    pose proof (Hv' 0 ltac:(lia)) as E. unfold mulmv in E. rewrite (gsum_S_l _ _ _ _ _ _ rt) in E.
    rewrite (gsum_zero _ _ _ _ _ _ rt) in E.
    2:{ intros i Hi. rewrite Hw by auto. ring. }
    transitivity (div (add (mul (A' 0 0) (v 0)) zero) (A' 0 0)); [field; auto|].
    rewrite E. field; auto.
  Qed.

  Theorem solve_none n A b : solve n A b = None ->
    exists v, (exists j, j < n /\ v j <> zero) /\ forall i, i < n -> mulmv n A v i = zero.
  Proof.
    assert (H10 : one <> zero) by apply (F_1_neq_0 ft).
    revert A b. induction n as [|k IH]; intros A b H; [discriminate|].
    cbn [gsolve] in H.
    destruct (find _ _) as [p|] eqn:Ef.
    - apply find_pivot in Ef. destruct Ef as [Hp Hpiv].
      destruct (solve k _ _) as [y|] eqn:Es; [discriminate|]. clear H.
      apply IH in Es. destruct Es as (w & (j & Hj & Hwj) & Hw).
      set (A' := fun i j => A (swap0 p i) j) in *.
      assert (Hpiv' : A' 0 0 <> zero) by (unfold A', swap0; simpl; auto).
      set (v := fun j => match j with O => div (opp (sum k (fun l => mul (A' 0 (S l)) (w l)))) (A' 0 0)
                         | S l => w l end).
      exists v. split; [exists (S j); split; [lia|auto]|].
      assert (H0 : mulmv (S k) A' v 0 = zero).
      { unfold mulmv. rewrite (gsum_S_l _ _ _ _ _ _ rt). simpl. field. auto. }
      assert (Hall : forall i, i < S k -> mulmv (S k) A' v i = zero).
      { intros [|i'] Hi'; auto.
        pose proof (elim_row k A' v i' Hpiv') as E.
        specialize (Hw i' ltac:(lia)). unfold mulmv at 1 in Hw.
        rewrite H0 in E.
        transitivity (add (sub (mulmv (S k) A' v (S i')) (mul (div (A' (S i') 0) (A' 0 0)) zero)) zero);
          [field; auto|].
        rewrite <- E. change (add (sum k (fun j => mul (sub (A (swap0 p (S i')) (S j))
             (mul (div (A (swap0 p (S i')) 0) (A (swap0 p 0) 0))
                (A (swap0 p 0) (S j)))) (w j))) zero = zero).
        rewrite Hw. ring. }
      intros i Hi. pose proof (Hall (swap0 p i) (swap0_lt p (S k) i Hp Hi)) as E.
      unfold mulmv, A' in E. rewrite swap0_inv in E. exact E.
    - pose proof (no_pivot _ _ Ef) as H0.
      exists (fun j => if Nat.eqb j 0 then one else zero). split.
      + exists 0. split; [lia|]. exact H10.
      + intros i Hi. unfold mulmv. rewrite (gsum_S_l _ _ _ _ _ _ rt). simpl.
        rewrite H0 by auto. rewrite (gsum_zero _ _ _ _ _ _ rt); [ring|].
        intros j _. ring.
  Qed.

  (** whether the system is solvable depends on the matrix only *)
  Theorem solve_dom n A b b' x : solve n A b = Some x -> exists x', solve n A b' = Some x'.
  Proof.
    intros H. destruct (solve n A b') as [x'|] eqn:E; [exists x'; auto|].
    apply solve_none in E. destruct E as (v & (j & Hj & Hv) & H0).
    exfalso. apply Hv. apply (solve_inj n A b x v H H0 j Hj).
  Qed.

  Theorem solve_uniq n A b x y : solve n A b = Some x ->
    (forall i, i < n -> mulmv n A y i = b i) -> forall j, j < n -> y j = x j.
  Proof.
    intros H Hy j Hj.
    assert (E : sub (y j) (x j) = zero).
    { apply (solve_inj n A b x (fun j => sub (y j) (x j)) H); auto.
      intros i Hi. unfold mulmv.
      rewrite (gsum_ext _ _ n _ (fun j => sub (mul (A i j) (y j)) (mul (A i j) (x j))))
        by (intros; ring).
      rewrite (gsum_minus _ _ _ _ _ _ rt).
      fold (mulmv n A y i) (mulmv n A x i). rewrite Hy, (solve_ok n A b x H) by auto. ring. }
    transitivity (add (sub (y j) (x j)) (x j)); [ring|]. rewrite E. ring.
  Qed.

  (** an injective system is solved *)
  Theorem solve_some n A b :
    (forall v, (forall i, i < n -> mulmv n A v i = zero) -> forall j, j < n -> v j = zero) ->
    exists x, solve n A b = Some x.
  Proof.
    intros H. destruct (solve n A b) as [x|] eqn:E; [exists x; auto|].
    apply solve_none in E. destruct E as (v & (j & Hj & Hv) & H0). exfalso. auto.
  Qed.
End Solve.

(** ** Real and complex instances *)
Notation Rmv := (mulmv 0%R Rplus Rmult).
Notation Cmv := (mulmv (RtoC 0) Cplus Cmult).

Lemma Rsolve_ok n A b x : Rsolve n A b = Some x -> forall i, i < n -> Rmv n A x i = b i.
Proof. apply (solve_ok _ _ _ _ _ _ _ _ _ Rfield). Qed.
Lemma Rsolve_inj n A b x v : Rsolve n A b = Some x ->
  (forall i, i < n -> Rmv n A v i = 0%R) -> forall j, j < n -> v j = 0%R.
Proof. apply (solve_inj _ _ _ _ _ _ _ _ _ Rfield). Qed.
Lemma Rsolve_none n A b : Rsolve n A b = None ->
  exists v, (exists j, j < n /\ v j <> 0%R) /\ forall i, i < n -> Rmv n A v i = 0%R.
Proof. apply (solve_none _ _ _ _ _ _ _ _ _ Rfield). Qed.
Lemma Rsolve_dom n A b b' x : Rsolve n A b = Some x -> exists x', Rsolve n A b' = Some x'.
Proof. apply (solve_dom _ _ _ _ _ _ _ _ _ Rfield). Qed.
Lemma Rsolve_uniq n A b x y : Rsolve n A b = Some x ->
  (forall i, i < n -> Rmv n A y i = b i) -> forall j, j < n -> y j = x j.
Proof. apply (solve_uniq _ _ _ _ _ _ _ _ _ Rfield). Qed.
Lemma Rsolve_some n A b :
  (forall v, (forall i, i < n -> Rmv n A v i = 0%R) -> forall j, j < n -> v j = 0%R) ->
  exists x, Rsolve n A b = Some x.
Proof. apply (solve_some _ _ _ _ _ _ _ _ _ Rfield). Qed.

Lemma Csolve_ok n A b x : Csolve n A b = Some x -> forall i, i < n -> Cmv n A x i = b i.
Proof. apply (solve_ok _ _ _ _ _ _ _ _ _ C_field_theory). Qed.
Lemma Csolve_inj n A b x v : Csolve n A b = Some x ->
  (forall i, i < n -> Cmv n A v i = RtoC 0) -> forall j, j < n -> v j = RtoC 0.
Proof. apply (solve_inj _ _ _ _ _ _ _ _ _ C_field_theory). Qed.
Lemma Csolve_none n A b : Csolve n A b = None ->
  exists v, (exists j, j < n /\ v j <> RtoC 0) /\ forall i, i < n -> Cmv n A v i = RtoC 0.
Proof. apply (solve_none _ _ _ _ _ _ _ _ _ C_field_theory). Qed.
Lemma Csolve_dom n A b b' x : Csolve n A b = Some x -> exists x', Csolve n A b' = Some x'.
Proof. apply (solve_dom _ _ _ _ _ _ _ _ _ C_field_theory). Qed.
Lemma Csolve_uniq n A b x y : Csolve n A b = Some x ->
  (forall i, i < n -> Cmv n A y i = b i) -> forall j, j < n -> y j = x j.
Proof. apply (solve_uniq _ _ _ _ _ _ _ _ _ C_field_theory). Qed.

(** The solver only reads the n x n entries. *)
Lemma Rsolve_ext_iff n A A' b b' :
  (forall i j, i < n -> j < n -> A i j = A' i j) -> (forall i, i < n -> b i = b' i) ->
  match Rsolve n A b, Rsolve n A' b' with
  | Some x, Some x' => forall j, j < n -> x j = x' j
  | None, None => True
  | _, _ => False
  end.
Proof.
  intros HA Hb.
  assert (Hmv : forall v i, i < n -> Rmv n A v i = Rmv n A' v i).
  { intros v i Hi. apply Rsum_ext. intros j Hj. rewrite HA; auto. }
  destruct (Rsolve n A b) as [x|] eqn:E; destruct (Rsolve n A' b') as [x'|] eqn:E'; auto.
  - apply (Rsolve_uniq n A' b' x' x E'). intros i Hi. rewrite <- Hmv, <- Hb by auto.
    apply (Rsolve_ok n A b x E); auto.
  - apply Rsolve_none in E'. destruct E' as (v & (j & Hj & Hv) & H0). apply Hv.
    apply (Rsolve_inj n A b x v E); auto. intros i Hi. rewrite Hmv; auto.
  - apply Rsolve_none in E. destruct E as (v & (j & Hj & Hv) & H0). apply Hv.
    apply (Rsolve_inj n A' b' x' v E'); auto. intros i Hi. rewrite <- Hmv; auto.
Qed.

(** solve_cols: characterisation *)
Definition nonsingular (n : nat) (A : nat -> nat -> R) : Prop :=
  forall v, (forall i, i < n -> Rmv n A v i = 0%R) -> forall j, j < n -> v j = 0%R.

Lemma solve_cols_ok n m A B : nonsingular n A ->
  exists X, solve_cols n m A B = Ok X /\
    forall d i, i < n -> Rmv n A (fun j => X j d) i = B i d.
Proof.
  intros H. unfold solve_cols.
  destruct (Rsolve_some n A (fun _ => 0%R) H) as [x0 E0]. rewrite E0.
  eexists. split; [reflexivity|]. intros d i Hi.
  destruct (Rsolve_dom n A _ (fun i => B i d) x0 E0) as [x E]. rewrite E.
  apply (Rsolve_ok n A _ x E i Hi).
Qed.
Lemma solve_cols_inv n m A B X : solve_cols n m A B = Ok X ->
  nonsingular n A /\ forall d i, i < n -> Rmv n A (fun j => X j d) i = B i d.
Proof.
  intros H. assert (HN : nonsingular n A).
  { unfold solve_cols in H. destruct (Rsolve n A (fun _ => 0%R)) as [x|] eqn:E; [|discriminate].
    intros v Hv. apply (Rsolve_inj n A _ x v E Hv). }
  split; auto. destruct (solve_cols_ok n m A B HN) as (X' & E & H').
  rewrite H in E. inversion E; subst; auto.
Qed.
Lemma solve_cols_raise n m A B e : solve_cols n m A B = Raise e ->
  e = LinAlgError /\ exists v, (exists j, j < n /\ v j <> 0%R) /\ forall i, i < n -> Rmv n A v i = 0%R.
Proof.
  unfold solve_cols. destruct (Rsolve n A (fun _ => 0%R)) eqn:E; [discriminate|].
  intros H; inversion H. split; auto. apply (Rsolve_none n A _ E).
Qed.
Lemma nonsingular_uniq n A x y : nonsingular n A ->
  (forall i, i < n -> Rmv n A x i = Rmv n A y i) -> forall j, j < n -> x j = y j.
Proof.
  intros H E j Hj. assert (x j - y j = 0)%R; [|lra].
  apply (H (fun j => x j - y j)%R); auto. intros i Hi. specialize (E i Hi).
  unfold mulmv in *. rewrite (Rsum_ext n _ (fun j => A i j * x j - A i j * y j)%R) by (intros; ring).
  rewrite Rsum_minus. lra.
Qed.
Lemma nonsingular_ext n A A' : (forall i j, i < n -> j < n -> A i j = A' i j) ->
  nonsingular n A -> nonsingular n A'.
Proof.
  intros HA H v Hv. apply H. intros i Hi. etransitivity; [|apply (Hv i Hi)].
  apply Rsum_ext. intros j Hj. rewrite HA; auto.
Qed.

(** ** Toeplitz constructions *)
Definition adist (i j : nat) : nat := (i - j) + (j - i).
Lemma adist_sym i j : adist i j = adist j i.
Proof. unfold adist. lia. Qed.

Lemma toeplitz_two_x b (x : list R) :
  (match b with NumPy => pyslice None (Some 0%Z) (-1) x
   | Torch => flip (pyslice (Some 1%Z) None 1 x) end) = rev (tl x).
Proof.
  destruct b; [apply slice_tail_rev|].
  unfold flip. f_equal. destruct x as [|d x']; [reflexivity|].
  change 1%Z with (Z.of_nat 1) at 1. rewrite (slice_from (d :: x') 1 d). simpl tl.
  symmetry. apply list_eq_tab with (d := d); [simpl; lia|]. intros i Hi. reflexivity.
Qed.

Theorem toeplitz_shape b x : 0 < length x ->
  nrow (toeplitz b x) = length x /\ ncol (toeplitz b x) = length x.
Proof.
  intros H. unfold toeplitz. rewrite toeplitz_two_x. simpl. split; auto.
  rewrite app_length, rev_length. destruct x; simpl in *; lia.
Qed.

Theorem toeplitz_entry b x i j : i < length x -> j < length x ->
  ent (toeplitz b x) i j = nth (adist i j) x 0%R.
Proof.
  intros Hi Hj. unfold toeplitz. rewrite toeplitz_two_x. simpl ent.
  destruct x as [|d x']; [simpl in Hi; lia|]. simpl tl. simpl length in *.
  set (n := length x') in *.
  destruct (Nat.lt_ge_cases j i) as [H|H].
  - rewrite app_nth1 by (rewrite rev_length; fold n; lia).
    rewrite rev_nth by (fold n; lia). fold n. unfold adist.
    replace (i - j + (j - i)) with (S (n - S (S n - 1 - i + j))) by lia. reflexivity.
  - rewrite app_nth2 by (rewrite rev_length; fold n; lia).
    rewrite rev_length. fold n. unfold adist. f_equal. lia.
Qed.

Lemma bt_vec n (x : list R) : 2 <= n -> n <= length x ->
  pyslice (Some (- Z.of_nat n + 1)%Z) None 1 x ++ pyslice None (Some (Z.of_nat n)) 1 x
  = tab (n - 1) (fun k => nth (length x - (n - 1) + k) x 0%R) ++ tab n (fun k => nth k x 0%R).
Proof.
  intros Hn Hl. replace (- Z.of_nat n + 1)%Z with (- Z.of_nat (n - 1))%Z by lia.
  rewrite (slice_last x (n - 1) 0%R) by lia. rewrite (slice_to x n 0%R).
  rewrite !Nat.min_l by lia. reflexivity.
Qed.
Lemma bt_block_shape n x : 2 <= n -> n <= length x -> ncol (bt_block n x) = n.
Proof.
  intros Hn Hl. unfold bt_block. rewrite bt_vec by auto. simpl.
  rewrite app_length, !length_tab. lia.
Qed.
Lemma bt_block_entry n x i j : 2 <= n -> n <= length x -> i < n -> j < n ->
  ent (bt_block n x) i j = if j <? i then nth (length x - (i - j)) x 0%R else nth (j - i) x 0%R.
Proof.
  intros Hn Hl Hi Hj. unfold bt_block. rewrite bt_vec by auto. simpl ent.
  destruct (Nat.ltb_spec j i).
  - rewrite app_nth1 by (rewrite length_tab; lia). rewrite nth_tab by lia. f_equal. lia.
  - rewrite app_nth2 by (rewrite length_tab; lia). rewrite length_tab.
    rewrite nth_tab by lia. f_equal. lia.
Qed.
Theorem block_toeplitz_ok b top rows cols x : 4 <= top ->
  (forall r c, r < rows -> c < cols -> length (x r c) = top) ->
  exists M, block_toeplitz b top rows cols x = Ok M /\
    forall i r j c, i < top / 2 -> r < rows -> j < top / 2 -> c < cols ->
      M (i * rows + r) (j * cols + c) =
      if j <? i then nth (top - (i - j)) (x r c) 0%R else nth (j - i) (x r c) 0%R.
Proof.
  intros Ht Hx. unfold block_toeplitz.
  assert (H2 : 2 <= top / 2) by (change 2 with (4 / 2) at 1; apply Nat.div_le_mono; lia).
  assert (H3 : top / 2 <= top) by (apply Nat.div_le_upper_bound; lia).
  replace (existsb2 _ _ _) with false.
  2:{ symmetry. apply existsb2_false. intros r c Hr Hc.
      rewrite bt_block_shape by (rewrite ?Hx; auto). rewrite Nat.eqb_refl. reflexivity. }
  eexists. split; [reflexivity|]. intros i r j c Hi Hr Hj Hc. cbv beta.
  replace ((i * rows + r) mod rows) with r by
    (rewrite Nat.add_comm, Nat.mod_add, Nat.mod_small; lia).
  replace ((j * cols + c) mod cols) with c by
    (rewrite Nat.add_comm, Nat.mod_add, Nat.mod_small; lia).
  replace ((i * rows + r) / rows) with i by
    (rewrite Nat.add_comm, Nat.div_add, Nat.div_small; lia).
  replace ((j * cols + c) / cols) with j by
    (rewrite Nat.add_comm, Nat.div_add, Nat.div_small; lia).
  rewrite bt_block_entry by (rewrite ?Hx; auto). rewrite Hx by auto. reflexivity.
Qed.
(** a single block row per channel makes the assignment fail *)
Theorem block_toeplitz_one b rows cols x : 0 < rows -> 0 < cols ->
  (forall r c, r < rows -> c < cols -> length (x r c) = 2) ->
  block_toeplitz b 2 rows cols x = Raise (shape_exn b).
Proof.
  intros Hr Hc Hx. unfold block_toeplitz. replace (existsb2 _ _ _) with true; auto.
  symmetry. apply existsb2_true. exists 0, 0. repeat split; auto.
  specialize (Hx 0 0 Hr Hc). destruct (x 0 0) as [|a [|b' [|? ?]]]; simpl in Hx; try discriminate.
  reflexivity.
Qed.
