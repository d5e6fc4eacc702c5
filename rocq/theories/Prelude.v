(** * Prelude: exceptions as values, list and Python-slice helpers.

    These are the modelling vocabulary; nothing here models a particular
    function of /repo. *)
From Coq Require Export List Arith ZArith Lia Bool.
Export ListNotations.

(** Python exceptions that the modelled code (or the libraries it calls) can
    raise.  [OutOfFuel] is not a Python exception: it marks a loop of the model
    that did not finish within its fuel (i.e. possible non-termination). *)
Inductive exn : Type :=
  | ValueError | LinAlgError | AssertionError | IndexError | RuntimeError
  | AttributeError | TypeError | ImportError
  | OutOfFuel.

(** Result of a call: a value, or a raised exception. *)
Inductive res (A : Type) : Type :=
  | Ok (a : A)
  | Raise (e : exn).
Arguments Ok {A} a.
Arguments Raise {A} e.

Definition bind {A B} (x : res A) (f : A -> res B) : res B :=
  match x with Ok a => f a | Raise e => Raise e end.
Notation "'do' x <- c1 ; c2" := (bind c1 (fun x => c2))
  (at level 200, x pattern, c1 at level 100, c2 at level 200, right associativity).

Definition rmap {A B} (f : A -> B) (x : res A) : res B :=
  match x with Ok a => Ok (f a) | Raise e => Raise e end.

Definition is_ok {A} (x : res A) : Prop := exists a, x = Ok a.
Definition raises {A} (x : res A) : Prop := exists e, x = Raise e.

(** Left-to-right evaluation of a list of computations; the first exception wins. *)
Fixpoint mapM {A B} (f : A -> res B) (l : list A) : res (list B) :=
  match l with
  | [] => Ok []
  | x :: r => do y <- f x; do ys <- mapM f r; Ok (y :: ys)
  end.

(** [tab n f] is the array [f 0; ...; f (n-1)]. *)
Definition tab {A} (n : nat) (f : nat -> A) : list A := map f (seq 0 n).

(** Function update, models an in-place array write [a[i] = v]. *)
Definition upd {A} (f : nat -> A) (i : nat) (v : A) : nat -> A :=
  fun x => if Nat.eqb x i then v else f x.
Definition upd2 {A} (f : nat -> nat -> A) (i j : nat) (v : A) : nat -> nat -> A :=
  fun x y => if Nat.eqb x i && Nat.eqb y j then v else f x y.

(** [mask.nonzero()] of a 1-D / 2-D boolean array: indices of the true entries in
    increasing (row-major) order. *)
Definition nonzero1 (n : nat) (p : nat -> bool) : list nat := filter p (seq 0 n).
Definition nonzero2 (n m : nat) (p : nat -> nat -> bool) : list (nat * nat) :=
  filter (fun ij => p (fst ij) (snd ij)) (list_prod (seq 0 n) (seq 0 m)).

(** ** Facts *)

Lemma length_tab {A} n (f : nat -> A) : length (tab n f) = n.
Proof. unfold tab. rewrite map_length, seq_length. reflexivity. Qed.

Lemma nth_tab {A} n (f : nat -> A) i d : i < n -> nth i (tab n f) d = f i.
Proof.
  intros H. unfold tab.
  rewrite (nth_indep _ d (f 0)) by (rewrite map_length, seq_length; exact H).
  rewrite map_nth, seq_nth by exact H. reflexivity.
Qed.

Lemma nth_tab_ge {A} n (f : nat -> A) i d : n <= i -> nth i (tab n f) d = d.
Proof. intros H. apply nth_overflow. rewrite length_tab. exact H. Qed.

Lemma tab_ext {A} n (f g : nat -> A) :
  (forall i, i < n -> f i = g i) -> tab n f = tab n g.
Proof.
  intros H. unfold tab. apply map_ext_in. intros i Hi.
  apply in_seq in Hi. apply H. lia.
Qed.

Lemma tab_nth {A} (l : list A) d : tab (length l) (fun i => nth i l d) = l.
Proof.
  apply nth_ext with (d := d) (d' := d).
  - apply length_tab.
  - intros i Hi. rewrite length_tab in Hi. rewrite nth_tab by exact Hi. reflexivity.
Qed.

Lemma list_eq_tab {A} (l : list A) n f d :
  length l = n -> (forall i, i < n -> nth i l d = f i) -> l = tab n f.
Proof.
  intros Hl H. apply nth_ext with (d := d) (d' := d).
  - rewrite length_tab; exact Hl.
  - intros i Hi. rewrite nth_tab by lia. apply H. lia.
Qed.

Lemma in_tab {A} n (f : nat -> A) x : In x (tab n f) <-> exists i, i < n /\ x = f i.
Proof.
  unfold tab. rewrite in_map_iff. split.
  - intros (i & E & Hi). apply in_seq in Hi. exists i. split; [lia|auto].
  - intros (i & Hi & E). exists i. split; [auto|]. apply in_seq. lia.
Qed.

Lemma upd_eq {A} (f : nat -> A) i v : upd f i v i = v.
Proof. unfold upd. rewrite Nat.eqb_refl. reflexivity. Qed.
Lemma upd_neq {A} (f : nat -> A) i v x : x <> i -> upd f i v x = f x.
Proof. intros H. unfold upd. apply Nat.eqb_neq in H. rewrite H. reflexivity. Qed.
Lemma upd2_eq {A} (f : nat -> nat -> A) i j v : upd2 f i j v i j = v.
Proof. unfold upd2. rewrite !Nat.eqb_refl. reflexivity. Qed.
Lemma upd2_neq {A} (f : nat -> nat -> A) i j v x y :
  (x, y) <> (i, j) -> upd2 f i j v x y = f x y.
Proof.
  intros H. unfold upd2.
  destruct (Nat.eqb_spec x i); destruct (Nat.eqb_spec y j); subst; simpl; congruence.
Qed.

Lemma in_nonzero1 n p i : In i (nonzero1 n p) <-> i < n /\ p i = true.
Proof.
  unfold nonzero1. rewrite filter_In, in_seq. split; intros [H1 H2]; split; auto; lia.
Qed.
Lemma in_nonzero2 n m p i j :
  In (i, j) (nonzero2 n m p) <-> i < n /\ j < m /\ p i j = true.
Proof.
  unfold nonzero2. rewrite filter_In, in_prod_iff, !in_seq. simpl.
  split; intros H; repeat split; try apply H; lia.
Qed.

Lemma nonzero1_nil n p : nonzero1 n p = [] <-> forall i, i < n -> p i = false.
Proof.
  split.
  - intros H i Hi. destruct (p i) eqn:E; auto.
    assert (In i (nonzero1 n p)) by (apply in_nonzero1; auto).
    rewrite H in H0. destruct H0.
  - intros H. destruct (nonzero1 n p) as [|i l] eqn:E; auto.
    assert (In i (nonzero1 n p)) by (rewrite E; left; auto).
    apply in_nonzero1 in H0. destruct H0 as [H0 H1]. rewrite H in H1; auto. discriminate.
Qed.
Lemma nonzero2_nil n m p :
  nonzero2 n m p = [] <-> forall i j, i < n -> j < m -> p i j = false.
Proof.
  split.
  - intros H i j Hi Hj. destruct (p i j) eqn:E; auto.
    assert (In (i, j) (nonzero2 n m p)) by (apply in_nonzero2; auto).
    rewrite H in H0. destruct H0.
  - intros H. destruct (nonzero2 n m p) as [|[i j] l] eqn:E; auto.
    assert (In (i, j) (nonzero2 n m p)) by (rewrite E; left; auto).
    apply in_nonzero2 in H0. destruct H0 as (H0 & H1 & H2). rewrite H in H2; auto. discriminate.
Qed.
Lemma nonzero1_cons n p i l : nonzero1 n p = i :: l -> i < n /\ p i = true.
Proof. intros E. apply in_nonzero1. rewrite E. left; auto. Qed.
Lemma nonzero2_cons n m p i j l :
  nonzero2 n m p = (i, j) :: l -> i < n /\ j < m /\ p i j = true.
Proof. intros E. apply in_nonzero2. rewrite E. left; auto. Qed.

Lemma mapM_length {A B} (f : A -> res B) l r : mapM f l = Ok r -> length r = length l.
Proof.
  revert r; induction l as [|x l IH]; simpl; intros r H.
  - inversion H; reflexivity.
  - destruct (f x); simpl in H; [|discriminate].
    destruct (mapM f l); simpl in H; [|discriminate].
    inversion H; subst; simpl. rewrite (IH a0); auto.
Qed.

Lemma mapM_nth {A B} (f : A -> res B) l r dA dB i :
  mapM f l = Ok r -> i < length l -> f (nth i l dA) = Ok (nth i r dB).
Proof.
  revert r i; induction l as [|x l IH]; simpl; intros r i H Hi; [lia|].
  destruct (f x) eqn:E; simpl in H; [|discriminate].
  destruct (mapM f l) eqn:E2; simpl in H; [|discriminate].
  inversion H; subst; simpl.
  destruct i as [|i]; simpl; auto. apply IH; auto. lia.
Qed.

Lemma mapM_ok {A B} (f : A -> res B) (g : A -> B) l :
  (forall x, In x l -> f x = Ok (g x)) -> mapM f l = Ok (map g l).
Proof.
  induction l as [|x l IH]; simpl; intros H; auto.
  rewrite H by auto. simpl. rewrite IH by auto. reflexivity.
Qed.

Lemma mapM_ext {A B} (f g : A -> res B) l :
  (forall x, In x l -> f x = g x) -> mapM f l = mapM g l.
Proof.
  induction l as [|x l IH]; simpl; intros H; auto.
  rewrite H by auto. rewrite IH by auto. reflexivity.
Qed.
