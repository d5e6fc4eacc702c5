(** * From the structural invariants to complete and optimal assignments *)
From Coq Require Import Reals Lra Permutation Sorted.
From Verif Require Import Prelude Hungarian HungarianProofs Spec.

(** ** Facts on [nonzero2] *)
Lemma nonzero2_fst n m p :
  (forall i j j', i < n -> j < m -> j' < m -> p i j = true -> p i j' = true -> j = j') ->
  map fst (nonzero2 n m p) = nonzero1 n (fun i => existsb (p i) (seq 0 m)).
Proof.
  intros H. unfold nonzero2, nonzero1.
  assert (Hrow : forall i, In i (seq 0 n) ->
    map fst (filter (fun ij => p (fst ij) (snd ij)) (map (fun y => (i, y)) (seq 0 m))) =
    if existsb (p i) (seq 0 m) then [i] else []).
  { intros i Hi. apply in_seq in Hi.
    assert (Hm : map fst (filter (fun ij => p (fst ij) (snd ij)) (map (fun y => (i, y)) (seq 0 m)))
                 = map (fun _ => i) (nonzero1 m (p i))).
    { unfold nonzero1. generalize (seq 0 m) as l. induction l as [|a l IHl]; simpl; auto.
      destruct (p i a); simpl; auto. rewrite IHl. auto. }
    rewrite Hm. destruct (existsb (p i) (seq 0 m)) eqn:Ex.
    - apply existsb_exists in Ex. destruct Ex as (j & Hj & Ep). apply in_seq in Hj.
      destruct (nonzero1 m (p i)) as [|j1 [|j2 l]] eqn:Enz; simpl; auto.
      + rewrite nonzero1_nil in Enz. rewrite Enz in Ep by lia. discriminate.
      + exfalso.
        assert (HN : NoDup (nonzero1 m (p i))) by (apply NoDup_filter, seq_NoDup).
        assert (H1 : In j1 (nonzero1 m (p i))) by (rewrite Enz; simpl; auto).
        assert (H2 : In j2 (nonzero1 m (p i))) by (rewrite Enz; simpl; auto).
        apply in_nonzero1 in H1. apply in_nonzero1 in H2.
        assert (j1 = j2). { apply (H i); try tauto; lia. } subst.
        rewrite Enz in HN. inversion HN; subst. simpl in *. tauto.
    - destruct (nonzero1 m (p i)) as [|j1 l] eqn:Enz; simpl; auto.
      apply nonzero1_cons in Enz. destruct Enz as [Hj Ep].
      assert (existsb (p i) (seq 0 m) = true); [|congruence].
      apply existsb_exists. exists j1. split; auto. apply in_seq. lia. }
  revert Hrow. generalize (seq 0 n) as rows. induction rows as [|i rows IH]; intros Hrow; simpl; auto.
  rewrite filter_app, map_app, IH by (intros; apply Hrow; simpl; auto).
  rewrite Hrow by (simpl; auto).
  destruct (existsb (p i) (seq 0 m)); reflexivity.
Qed.

Lemma NoDup_of_map {A B} (f : A -> B) l : NoDup (map f l) -> NoDup l.
Proof.
  induction l as [|x l IH]; simpl; intros H; constructor; inversion H; subst; auto.
  intros Hin. apply H2. apply in_map; auto.
Qed.

Lemma NoDup_map_inj {A B} (f : A -> B) l :
  (forall x y, In x l -> In y l -> f x = f y -> x = y) -> NoDup l -> NoDup (map f l).
Proof.
  induction l as [|x l IH]; simpl; intros H HN; constructor; inversion HN; subst.
  - intros Hin. apply in_map_iff in Hin. destruct Hin as (y & E & Hy).
    assert (y = x) by (apply H; auto). subst. auto.
  - apply IH; auto.
Qed.

Lemma seq_sorted a n : StronglySorted lt (seq a n).
Proof.
  revert a. induction n as [|n IH]; intros a; simpl; constructor; auto.
  apply Forall_forall. intros x Hx. apply in_seq in Hx. lia.
Qed.
Lemma filter_sorted (f : nat -> bool) l : StronglySorted lt l -> StronglySorted lt (filter f l).
Proof.
  induction l as [|x l IH]; simpl; intros H; auto.
  inversion H as [|? ? Hs Hf]; subst.
  destruct (f x); auto. constructor; auto.
  apply Forall_forall. intros y Hy. apply filter_In in Hy.
  rewrite Forall_forall in Hf. apply Hf. tauto.
Qed.

(** Partial matching given by a boolean matrix, all rows (n <= m) matched. *)
Lemma matching_complete n m p : n <= m ->
  (forall i j j', i < n -> j < m -> j' < m -> p i j = true -> p i j' = true -> j = j') ->
  (forall i i' j, i < n -> i' < n -> j < m -> p i j = true -> p i' j = true -> i = i') ->
  (forall i, i < n -> exists j, j < m /\ p i j = true) ->
  complete_assignment n m (nonzero2 n m p) /\ rows_increasing (nonzero2 n m p) /\
  map fst (nonzero2 n m p) = seq 0 n.
Proof.
  intros Hnm Hrow Hcol Hall.
  assert (Hfst : map fst (nonzero2 n m p) = seq 0 n).
  { rewrite nonzero2_fst by exact Hrow. unfold nonzero1.
    assert (H : forall i, In i (seq 0 n) -> existsb (p i) (seq 0 m) = true).
    { intros i Hi. apply in_seq in Hi. destruct (Hall i) as (j & Hj & E); [lia|].
      apply existsb_exists. exists j. split; auto. apply in_seq. lia. }
    revert H. generalize (seq 0 n) as l. induction l as [|x l IH]; simpl; intros H; auto.
    rewrite H by auto. rewrite IH by auto. reflexivity. }
  split; [|split; auto].
  - split; [|split; [|split]].
    + rewrite <- (map_length fst), Hfst, seq_length. lia.
    + intros i j Hij. apply in_nonzero2 in Hij. tauto.
    + rewrite Hfst. apply seq_NoDup.
    + apply NoDup_map_inj.
      * intros [i j] [i' j'] Hi Hi' E. simpl in E. subst j'.
        apply in_nonzero2 in Hi. apply in_nonzero2 in Hi'. f_equal.
        apply (Hcol i i' j); tauto.
      * apply (NoDup_of_map fst). rewrite Hfst. apply seq_NoDup.
  - unfold rows_increasing. rewrite Hfst. apply seq_sorted.
Qed.

Definition swap {A B} (p : A * B) : B * A := (snd p, fst p).
Lemma map_fst_swap {A B} (l : list (A * B)) : map fst (map swap l) = map snd l.
Proof. rewrite map_map. reflexivity. Qed.
Lemma map_snd_swap {A B} (l : list (A * B)) : map snd (map swap l) = map fst l.
Proof. rewrite map_map. reflexivity. Qed.

Lemma complete_swap n m l : complete_assignment n m l -> complete_assignment m n (map swap l).
Proof.
  intros (H1 & H2 & H3 & H4). split; [|split; [|split]].
  - rewrite map_length, Nat.min_comm. auto.
  - intros i j Hij. apply in_map_iff in Hij. destruct Hij as ([a b] & E & Hab).
    unfold swap in E; simpl in E. inversion E; subst. destruct (H2 _ _ Hab). auto.
  - rewrite map_fst_swap. auto.
  - rewrite map_snd_swap. auto.
Qed.

Lemma sumR_perm l l' : Permutation l l' -> sumR l = sumR l'.
Proof. induction 1; simpl; lra. Qed.
Lemma sumR_app l l' : sumR (l ++ l') = (sumR l + sumR l')%R.
Proof. induction l; simpl; lra. Qed.
Lemma sumR_map_plus {A} (f g : A -> R) l :
  sumR (map (fun x => (f x + g x)%R) l) = (sumR (map f l) + sumR (map g l))%R.
Proof. induction l; simpl; lra. Qed.
Lemma sumR_map_le {A} (f g : A -> R) l : (forall x, In x l -> (f x <= g x)%R) ->
  (sumR (map f l) <= sumR (map g l))%R.
Proof.
  induction l as [|x l IH]; simpl; intros H; [lra|].
  assert (f x <= g x)%R by auto. assert (sumR (map f l) <= sumR (map g l))%R by auto. lra.
Qed.
Lemma sumR_map_ext {A} (f g : A -> R) l : (forall x, In x l -> f x = g x) ->
  sumR (map f l) = sumR (map g l).
Proof. intros H. f_equal. apply map_ext_in. auto. Qed.
Lemma sumR_zero {A} (f : A -> R) l : (forall x, In x l -> f x = 0%R) -> sumR (map f l) = 0%R.
Proof.
  induction l as [|x l IH]; simpl; intros H; auto. rewrite H, IH by auto. lra.
Qed.

Lemma total_cost_perm c l l' : Permutation l l' -> total_cost c l = total_cost c l'.
Proof. intros H. apply sumR_perm. apply Permutation_map. auto. Qed.
Lemma total_cost_swap c l : total_cost c (map swap l) = total_cost (fun i j => c j i) l.
Proof. unfold total_cost. rewrite map_map. reflexivity. Qed.

Lemma complement_perm (l : list nat) m : NoDup l -> (forall x, In x l -> x < m) ->
  Permutation (seq 0 m) (l ++ filter (fun x => negb (existsb (Nat.eqb x) l)) (seq 0 m)).
Proof.
  intros HN Hl. apply NoDup_Permutation.
  - apply seq_NoDup.
  - assert (Hd : forall x, In x l -> ~ In x (filter (fun x => negb (existsb (Nat.eqb x) l)) (seq 0 m))).
    { intros x Hx Hin. apply filter_In in Hin. destruct Hin as [_ E]. apply negb_true_iff in E.
      assert (existsb (Nat.eqb x) l = true); [|congruence].
      apply existsb_exists. exists x. split; auto. apply Nat.eqb_refl. }
    revert Hd. generalize (NoDup_filter (fun x => negb (existsb (Nat.eqb x) l)) (seq_NoDup m 0)).
    generalize (filter (fun x => negb (existsb (Nat.eqb x) l)) (seq 0 m)) as r.
    clear Hl. induction HN as [|x l Hx HN IH]; intros r Hr Hd; simpl; auto.
    constructor.
    + intros Hin. apply in_app_iff in Hin. destruct Hin as [|Hin]; auto. apply (Hd x); simpl; auto.
    + apply IH; auto. intros y Hy. apply Hd. simpl; auto.
  - intros x. rewrite in_app_iff, filter_In, in_seq. split.
    + intros Hx. destruct (existsb (Nat.eqb x) l) eqn:E.
      * left. apply existsb_exists in E. destruct E as (y & Hy & E). apply Nat.eqb_eq in E. subst; auto.
      * right. simpl. split; auto.
    + intros [H|[H _]]; [specialize (Hl x H); lia|auto].
Qed.

(** Weak duality for the rectangular assignment problem, n <= m. *)
Lemma duality n m (c Cr : nat -> nat -> R) (u v : nat -> R) l : n <= m ->
  (forall i j, i < n -> j < m -> (0 <= Cr i j)%R) ->
  (forall i j, i < n -> j < m -> c i j = (Cr i j + u i + v j)%R) ->
  (forall j, j < m -> (v j <= 0)%R) ->
  (forall j, j < m -> (v j < 0)%R -> exists i, In (i, j) l) ->
  (forall i j, In (i, j) l -> Cr i j = 0%R) ->
  complete_assignment n m l -> optimal_assignment n m c l.
Proof.
  intros Hnm HC Hc Hv Hvs Hz Hl. split; auto. intros l' Hl'.
  assert (Hrows : forall l, complete_assignment n m l ->
            sumR (map (fun p => u (fst p)) l) = sumR (map u (seq 0 n))).
  { intros l0 (H1 & H2 & H3 & H4). rewrite <- map_map. apply sumR_perm, Permutation_map.
    apply NoDup_Permutation_bis; auto.
    - rewrite seq_length, map_length. lia.
    - intros x Hx. apply in_map_iff in Hx. destruct Hx as ([a b] & E & Hab). simpl in E. subst.
      apply in_seq. destruct (H2 _ _ Hab). lia. }
  assert (Hcols : forall l, complete_assignment n m l ->
            exists rest, (forall j, In j rest -> j < m /\ ~ In j (map snd l)) /\
            sumR (map v (seq 0 m)) = (sumR (map (fun p => v (snd p)) l) + sumR (map v rest))%R).
  { intros l0 (H1 & H2 & H3 & H4).
    exists (filter (fun x => negb (existsb (Nat.eqb x) (map snd l0))) (seq 0 m)). split.
    - intros j Hj. apply filter_In in Hj. destruct Hj as [Hj E]. apply in_seq in Hj. split; [lia|].
      intros Hin. apply negb_true_iff in E.
      assert (existsb (Nat.eqb j) (map snd l0) = true); [|congruence].
      apply existsb_exists. exists j. split; auto. apply Nat.eqb_refl.
    - rewrite (sumR_perm _ _ (Permutation_map v (complement_perm (map snd l0) m H4
        ltac:(intros x Hx; apply in_map_iff in Hx; destruct Hx as ([a b] & E & Hab); simpl in E; subst;
              apply (H2 _ _ Hab))))).
      rewrite map_app, sumR_app, map_map. reflexivity. }
  assert (Hsplit : forall l, complete_assignment n m l -> total_cost c l =
     (sumR (map (fun p => Cr (fst p) (snd p)) l) + sumR (map (fun p => u (fst p)) l)
      + sumR (map (fun p => v (snd p)) l))%R).
  { intros l0 (H1 & H2 & H3 & H4). unfold total_cost.
    rewrite <- !sumR_map_plus. apply sumR_map_ext. intros [i j] Hij. simpl.
    destruct (H2 _ _ Hij). apply Hc; auto. }
  rewrite (Hsplit l Hl), (Hsplit l' Hl'), (Hrows l Hl), (Hrows l' Hl').
  destruct (Hcols l Hl) as (rest & Hrest & E). destruct (Hcols l' Hl') as (rest' & Hrest' & E').
  assert (Z1 : sumR (map (fun p => Cr (fst p) (snd p)) l) = 0%R).
  { apply sumR_zero. intros [i j] Hij. apply Hz; auto. }
  assert (Z2 : (0 <= sumR (map (fun p => Cr (fst p) (snd p)) l'))%R).
  { rewrite <- (sumR_zero (fun _ : nat * nat => 0%R) l') by auto. apply sumR_map_le.
    intros [i j] Hij. simpl. destruct Hl' as (_ & H2 & _). destruct (H2 _ _ Hij). apply HC; auto. }
  assert (Z3 : sumR (map v rest) = 0%R).
  { apply sumR_zero. intros j Hj. destruct (Hrest j Hj) as [Hjm Hn].
    destruct (Rle_lt_or_eq_dec _ _ (Hv j Hjm)) as [Hlt|Heq]; auto.
    exfalso. apply Hn. destruct (Hvs j Hjm Hlt) as (i & Hi). apply in_map_iff. exists (i, j). auto. }
  assert (Z4 : (sumR (map v rest') <= 0)%R).
  { rewrite <- (sumR_zero (fun _ : nat => 0%R) rest') by auto. apply sumR_map_le.
    intros j Hj. apply Hv. apply (Hrest' j Hj). }
  lra.
Qed.

(** ** Generic completeness *)
Section Generic.
  Context {A : Type} (ops : num_ops A) (okv : nat -> A -> Prop) (K : nat).
  Hypothesis laws : num_laws ops okv K.

  Theorem lsa_complete n m (C : nat -> nat -> A) fuel :
    1 + 2 * (Nat.min n m * Nat.min n m) <= K ->
    (forall i j, i < n -> j < m -> okv 0 (C i j)) ->
    run_fuel (Nat.min n m) <= fuel ->
    exists l, linear_sum_assignment ops fuel n m C = Ok l /\
      complete_assignment n m l /\ rows_increasing l.
  Proof.
    intros HK Hok Hfuel. unfold linear_sum_assignment.
    destruct (Nat.eqb_spec (Nat.min n m) 0) as [E0|E0].
    - (* empty matrix *)
      assert (Hempty : forall p, nonzero2 n m p = []).
      { intros p. apply nonzero2_nil. intros; lia. }
      exists []. split.
      + destruct (Nat.ltb_spec m n) as [L|L].
        * replace (Nat.eqb m 0 || Nat.eqb n 0) with true.
          -- destruct fuel; simpl; rewrite Hempty; reflexivity.
          -- symmetry. apply orb_true_iff. rewrite !Nat.eqb_eq. lia.
        * replace (Nat.eqb n 0 || Nat.eqb m 0) with true.
          -- destruct fuel; simpl; rewrite Hempty; reflexivity.
          -- symmetry. apply orb_true_iff. rewrite !Nat.eqb_eq. lia.
      + split; [|constructor]. split; [auto|]. split; [intros i j []|]. split; constructor.
    - destruct (Nat.ltb_spec m n) as [L|L].
      + replace (Nat.eqb m 0 || Nat.eqb n 0) with false.
        2:{ symmetry. apply orb_false_iff. rewrite !Nat.eqb_neq. lia. }
        rewrite Nat.min_r in * by lia.
        destruct (hungarian_run ops okv K laws m n ltac:(lia) ltac:(lia) (fun _ _ => True)
          ltac:(auto) ltac:(auto) (fun i j => C j i) HK (fun i j Hi Hj => Hok j i Hj Hi) I fuel Hfuel)
          as (st & E & (k & Hcore) & Hall & _).
        rewrite E. simpl. eexists. split; [reflexivity|].
        destruct (matching_complete m n (is_star st)) as (Hc & _ & _).
        * lia.
        * intros i j j' Hi Hj Hj' E1 E2. apply (c_row _ _ _ _ _ _ Hcore i j j'); auto; apply is_star_spec; auto.
        * intros i i' j Hi Hj Hj' E1 E2. apply (c_col _ _ _ _ _ _ Hcore i i' j); auto; apply is_star_spec; auto.
        * intros i Hi. destruct (Hall i Hi) as (j & Hj & Hs). exists j. split; auto. apply is_star_spec; auto.
        * assert (Hrow : forall i j j', i < n -> j < m -> j' < m ->
             is_star st j i = true -> is_star st j' i = true -> j = j').
          { intros i j j' Hi Hj Hj' E1 E2. apply (c_col _ _ _ _ _ _ Hcore j j' i); auto; apply is_star_spec; auto. }
          assert (Hfst : map fst (nonzero2 n m (fun i j => is_star st j i)) =
                    nonzero1 n (fun i => existsb (fun j => is_star st j i) (seq 0 m))).
          { apply (nonzero2_fst n m (fun i j => is_star st j i)). exact Hrow. }
          assert (HN : NoDup (nonzero2 n m (fun i j => is_star st j i))).
          { apply (NoDup_of_map fst). rewrite Hfst. apply NoDup_filter, seq_NoDup. }
          assert (Hperm : Permutation (nonzero2 n m (fun i j => is_star st j i))
                            (map swap (nonzero2 m n (is_star st)))).
          { apply NoDup_Permutation; auto.
            - apply (NoDup_of_map snd). rewrite map_snd_swap. apply Hc.
            - intros [i j]. rewrite in_nonzero2, in_map_iff. split.
              + intros (Hi & Hj & Hs). exists (j, i). split; auto. apply in_nonzero2. auto.
              + intros ([a b] & Eab & Hab). unfold swap in Eab; simpl in Eab. inversion Eab; subst.
                apply in_nonzero2 in Hab. tauto. }
          apply complete_swap in Hc. destruct Hc as (H1 & H2 & H3 & H4).
          split; [split; [|split; [|split]]|].
          -- rewrite (Permutation_length Hperm). auto.
          -- intros i j Hij. apply in_nonzero2 in Hij. tauto.
          -- rewrite Hfst. apply NoDup_filter, seq_NoDup.
          -- apply (Permutation_NoDup (Permutation_sym (Permutation_map snd Hperm))). auto.
          -- unfold rows_increasing. rewrite Hfst. apply filter_sorted, seq_sorted.
      + replace (Nat.eqb n 0 || Nat.eqb m 0) with false.
        2:{ symmetry. apply orb_false_iff. rewrite !Nat.eqb_neq. lia. }
        rewrite Nat.min_l in * by lia.
        destruct (hungarian_run ops okv K laws n m ltac:(lia) ltac:(lia) (fun _ _ => True)
          ltac:(auto) ltac:(auto) C HK Hok I fuel Hfuel)
          as (st & E & (k & Hcore) & Hall & _).
        rewrite E. simpl. eexists. split; [reflexivity|].
        destruct (matching_complete n m (is_star st)) as (Hc & Hs & _); auto.
        * intros i j j' Hi Hj Hj' E1 E2. apply (c_row _ _ _ _ _ _ Hcore i j j'); auto; apply is_star_spec; auto.
        * intros i i' j Hi Hj Hj' E1 E2. apply (c_col _ _ _ _ _ _ Hcore i i' j); auto; apply is_star_spec; auto.
        * intros i Hi. destruct (Hall i Hi) as (j & Hj & Hs). exists j. split; auto. apply is_star_spec; auto.
  Qed.
End Generic.

(** ** Exact real arithmetic *)
Definition Rleb (x y : R) : bool := if Rle_dec x y then true else false.
Definition Ris0 (x : R) : bool := if Req_EM_T x 0 then true else false.
(** Arithmetic of tensor entries without rounding. *)
Definition R_ops : num_ops R :=
  {| n_zero := 0%R; n_add := Rplus; n_sub := Rminus; n_leb := Rleb; n_is0 := Ris0 |}.
(** Integers (executable instance, used for examples). *)
Definition Z_ops : num_ops Z :=
  {| n_zero := 0%Z; n_add := Z.add; n_sub := Z.sub; n_leb := Z.leb; n_is0 := Z.eqb 0 |}.

Lemma Ris0_true x : Ris0 x = true <-> x = 0%R.
Proof. unfold Ris0. destruct (Req_EM_T x 0); split; congruence. Qed.

Lemma R_laws K : num_laws R_ops (fun _ _ => True) K.
Proof.
  constructor; simpl; auto.
  - intros. apply Ris0_true. lra.
  - intros k x v _ _ _ H. apply Ris0_true in H. apply Ris0_true. lra.
Qed.

Lemma minimum_R_le d l x : In x l -> (minimum R_ops d l <= x)%R.
Proof.
  destruct l as [|y r]; [intros []|]. simpl. revert y.
  assert (H : forall r y, (fold_left (nmin R_ops) r y <= y)%R /\
            forall x, In x r -> (fold_left (nmin R_ops) r y <= x)%R).
  { clear. induction r as [|z r IH]; intros y; simpl; [split; [lra|tauto]|].
    destruct (IH (nmin R_ops y z)) as [H1 H2].
    assert (nmin R_ops y z <= y /\ nmin R_ops y z <= z)%R.
    { unfold nmin; simpl; unfold Rleb. destruct (Rle_dec y z); lra. }
    split; [lra|]. intros x [<-|Hx]; [lra|auto]. }
  intros y [<-|Hx]; [apply (proj1 (H r y))|apply (proj2 (H r y)); auto].
Qed.

Section RealOpt.
  Variables (n m : nat) (c : nat -> nat -> R).
  Hypothesis Hn : 0 < n.
  Hypothesis Hnm : n <= m.

  Definition Ppot (C : nat -> nat -> R) (T : nat -> Prop) : Prop :=
    (forall i j, i < n -> j < m -> (0 <= C i j)%R) /\
    exists u v : nat -> R,
      (forall i j, i < n -> j < m -> c i j = (C i j + u i + v j)%R) /\
      (forall j, j < m -> (v j <= 0)%R /\ ((v j < 0)%R -> T j)).

  Lemma run_optimal fuel : run_fuel n <= fuel ->
    exists st, run R_ops n m fuel (Some Step1) (hungary_init c) = Ok st /\
      optimal_assignment n m c (nonzero2 n m (is_star st)).
  Proof.
    intros Hfuel.
    destruct (hungarian_run R_ops (fun _ _ => True) (1 + 2 * (n * n)) (R_laws _) n m Hn Hnm Ppot) with (C := c) (fuel := fuel)
      as (st & E & (k & Hcore) & Hall & (HC & u & v & Huv & Hv)); auto.
    - intros C T T' HT (HC & u & v & Huv & Hv). split; auto. exists u, v. split; auto.
      intros j Hj. destruct (Hv j Hj). split; auto.
    - intros st k Hinv (HC & u & v & Huv & Hv).
      destruct (minval6_in R_ops _ n m Hn Hnm _ _ Hinv) as (i0 & j0 & Hi0 & Hj0 & Hr0 & Hc0 & Emin).
      assert (Hmv : (0 <= minval6 R_ops n m st)%R) by (rewrite Emin; auto).
      assert (Hmin : forall i j, i < n -> j < m -> row_uncovered st i = true -> col_uncovered st j = true ->
                (minval6 R_ops n m st <= hC st i j)%R).
      { intros i j Hi Hj Hr Hcu. unfold minval6.
        apply Rle_trans with (minimum R_ops 0%R (map (fun i => hC st i j) (nonzero1 n (row_uncovered st)))).
        - apply minimum_R_le. apply in_map_iff. exists j. split; auto. apply in_nonzero1; auto.
        - apply minimum_R_le. apply in_map_iff. exists i. split; auto. apply in_nonzero1; auto. }
      split.
      + intros i j Hi Hj. specialize (HC i j Hi Hj). specialize (Hmin i j Hi Hj).
        unfold C6. simpl.
        destruct (row_uncovered st i); destruct (col_uncovered st j);
          try specialize (Hmin eq_refl eq_refl); lra.
      + exists (fun i => if row_uncovered st i then (u i + minval6 R_ops n m st)%R else u i),
               (fun j => if col_uncovered st j then v j else (v j - minval6 R_ops n m st)%R).
        split.
        * intros i j Hi Hj. rewrite (Huv i j Hi Hj). unfold C6. simpl.
          destruct (row_uncovered st i); destruct (col_uncovered st j); lra.
        * intros j Hj. destruct (Hv j Hj) as [Hv1 Hv2].
          destruct (col_uncovered st j) eqn:Ec; [auto|]. split; [lra|]. intros _.
          destruct (i4_cov _ _ _ _ _ _ Hinv) as (t & B & Hcov).
          destruct (v_covcol _ _ _ _ _ _ Hcov j Hj Ec) as (i & Hi & Hs & _). exists i; auto.
    - split.
      + intros i j Hi Hj. unfold C1; simpl.
        assert (minimum R_ops 0%R (map (c i) (seq 0 m)) <= c i j)%R; [|lra].
        apply minimum_R_le. apply in_map. apply in_seq. lia.
      + exists (fun i => minimum R_ops 0%R (map (c i) (seq 0 m))), (fun _ => 0%R). split.
        * intros i j Hi Hj. unfold C1; simpl. lra.
        * intros j Hj. split; lra.
    - exists st. split; auto.
      destruct (matching_complete n m (is_star st)) as (Hc & _ & _); auto.
      + intros i j j' Hi Hj Hj' E1 E2. apply (c_row _ _ _ _ _ _ Hcore i j j'); auto; apply is_star_spec; auto.
      + intros i i' j Hi Hj Hj' E1 E2. apply (c_col _ _ _ _ _ _ Hcore i i' j); auto; apply is_star_spec; auto.
      + intros i Hi. destruct (Hall i Hi) as (j & Hj & Hs). exists j. split; auto. apply is_star_spec; auto.
      + apply duality with (Cr := hC st) (u := u) (v := v); auto.
        * intros j Hj. apply Hv; auto.
        * intros j Hj Hlt. destruct (Hv j Hj) as [_ H]. destruct (H Hlt) as (i & Hi & Hs).
          exists i. apply in_nonzero2. repeat split; auto. apply is_star_spec; auto.
        * intros i j Hij. apply in_nonzero2 in Hij. destruct Hij as (Hi & Hj & Es).
          apply is_star_spec in Es. apply Ris0_true. apply (c_star0 _ _ _ _ _ _ Hcore i j); auto.
  Qed.
End RealOpt.

Theorem lsa_optimal n m (c : nat -> nat -> R) fuel :
  run_fuel (Nat.min n m) <= fuel ->
  exists l, linear_sum_assignment R_ops fuel n m c = Ok l /\
    optimal_assignment n m c l /\ rows_increasing l.
Proof.
  intros Hfuel.
  destruct (lsa_complete R_ops _ _ (R_laws (1 + 2 * (Nat.min n m * Nat.min n m))) n m c fuel
    (le_n _) (fun _ _ _ _ => I) Hfuel) as (l & E & Hc & Hs).
  exists l. split; auto. split; auto.
  destruct (Nat.eqb_spec (Nat.min n m) 0) as [E0|E0].
  { split; auto. intros l' Hl'. destruct Hc as (H1 & _). destruct Hl' as (H1' & _).
    rewrite E0 in *. destruct l; [|discriminate]. destruct l'; [|discriminate]. apply Rle_refl. }
  unfold linear_sum_assignment in E.
  destruct (Nat.ltb_spec m n) as [L|L].
  - replace (Nat.eqb m 0 || Nat.eqb n 0) with false in E.
    2:{ symmetry. apply orb_false_iff. rewrite !Nat.eqb_neq. lia. }
    rewrite Nat.min_r in * by lia.
    destruct (run_optimal m n (fun i j => c j i) ltac:(lia) ltac:(lia) fuel Hfuel) as (st & E' & Hopt).
    rewrite E' in E. simpl in E. inversion E as [El]. clear E.
    assert (Hperm : Permutation l (map swap (nonzero2 m n (is_star st)))).
    { apply NoDup_Permutation.
      - apply (NoDup_of_map fst). apply Hc.
      - apply (NoDup_of_map snd). rewrite map_snd_swap. apply Hopt.
      - intros [i j]. rewrite <- El, in_nonzero2, in_map_iff. split.
        + intros (Hi & Hj & Es). exists (j, i). split; auto. apply in_nonzero2. auto.
        + intros ([a b] & Eab & Hab). unfold swap in Eab; simpl in Eab. inversion Eab; subst a b.
          apply in_nonzero2 in Hab. tauto. }
    rewrite El. split; [auto|]. intros l' Hl'. rewrite (total_cost_perm c _ _ Hperm), total_cost_swap.
    destruct Hopt as [_ Hopt]. specialize (Hopt (map swap l') (complete_swap _ _ _ Hl')).
    rewrite total_cost_swap in Hopt. exact Hopt.
  - replace (Nat.eqb n 0 || Nat.eqb m 0) with false in E.
    2:{ symmetry. apply orb_false_iff. rewrite !Nat.eqb_neq. lia. }
    rewrite Nat.min_l in * by lia.
    destruct (run_optimal n m c ltac:(lia) ltac:(lia) fuel Hfuel) as (st & E' & Hopt).
    rewrite E' in E. simpl in E. inversion E as [El]. auto.
Qed.
