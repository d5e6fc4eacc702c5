(** * Structural correctness of the model of torch/hungarian.py

    Generic in the number type: only two laws of arithmetic are needed
    ([x - x = 0] and [(0 + v) - v = 0]), on values of bounded "level"
    (to allow for formats with a finite range). *)
From Verif Require Import Prelude Hungarian.

Section Structural.
  Context {A : Type} (ops : num_ops A).
  (** [okv k x]: x is a legal value of level k (e.g. finite and of magnitude
      at most 2^k times that of the input); [K] is the largest level allowed. *)
  Variable okv : nat -> A -> Prop.
  Variable K : nat.

  Record num_laws : Prop := {
    nl_mono : forall k x, okv k x -> okv (S k) x;
    nl_add : forall k x y, k < K -> okv k x -> okv k y -> okv (S k) (n_add ops x y);
    nl_sub : forall k x y, k < K -> okv k x -> okv k y -> okv (S k) (n_sub ops x y);
    nl_sub_self : forall k x, k < K -> okv k x -> n_is0 ops (n_sub ops x x) = true;
    nl_add_sub : forall k x v, k < K -> okv k x -> okv k v -> n_is0 ops x = true ->
      n_is0 ops (n_sub ops (n_add ops x v) v) = true
  }.
  Hypothesis laws : num_laws.

  Variables n m : nat.
  Hypothesis Hn : 0 < n.
  Hypothesis Hnm : n <= m.

  Notation hungary := (@hungary A).

  Definition star (st : hungary) i j : Prop := marked st i j = 1.
  Definition prime (st : hungary) i j : Prop := marked st i j = 2.
  Definition iszero (st : hungary) i j : Prop := n_is0 ops (hC st i j) = true.
  Definition starcol (st : hungary) j : Prop := exists i, i < n /\ star st i j.
  Definition starrow (st : hungary) i : Prop := exists j, j < m /\ star st i j.

  Record core (k : nat) (st : hungary) : Prop := {
    c_ok : forall i j, i < n -> j < m -> okv k (hC st i j);
    c_star0 : forall i j, i < n -> j < m -> star st i j -> iszero st i j;
    c_row : forall i j j', i < n -> j < m -> j' < m -> star st i j -> star st i j' -> j = j';
    c_col : forall i i' j, i < n -> i' < n -> j < m -> star st i j -> star st i' j -> i = i'
  }.

  Record inv3 (k : nat) (st : hungary) : Prop := {
    i3_core : core k st;
    i3_marks : forall i j, i < n -> j < m -> ~ prime st i j;
    i3_runc : forall i, i < n -> row_uncovered st i = true;
    i3_cunc : forall j, j < m -> col_uncovered st j = true
  }.

  (** prime of a covered row, and the next star/prime on an alternating path *)
  Definition chain (st : hungary) (t : nat -> nat) : Prop :=
    forall r, r < n -> row_uncovered st r = false ->
      exists j, j < m /\ prime st r j /\ iszero st r j /\
        (forall j', j' < m -> prime st r j' -> j' = j) /\
        (forall r', r' < n -> star st r' j -> row_uncovered st r' = false /\ t r' < t r).

  Record cover_inv (st : hungary) (t : nat -> nat) (B : nat) : Prop := {
    v_covrow : forall i, i < n -> row_uncovered st i = false ->
      exists j, j < m /\ star st i j /\ col_uncovered st j = true;
    v_covcol : forall j, j < m -> col_uncovered st j = false ->
      exists i, i < n /\ star st i j /\ row_uncovered st i = true;
    v_starunc : forall i j, i < n -> j < m -> star st i j -> col_uncovered st j = true ->
      row_uncovered st i = false;
    v_chain : chain st t;
    v_chaincol : forall r j, r < n -> j < m -> row_uncovered st r = false -> prime st r j ->
      col_uncovered st j = true;
    v_bound : forall i, i < n -> row_uncovered st i = false -> t i < B
  }.

  Record inv4 (k : nat) (st : hungary) : Prop := {
    i4_core : core k st;
    i4_cov : exists t B, cover_inv st t B;
    i4_prime : forall i j, i < n -> j < m -> prime st i j -> row_uncovered st i = false;
    i4_free : exists i, i < n /\ ~ starrow st i
  }.

  Record inv5 (k : nat) (st : hungary) : Prop := {
    i5_core : core k st;
    i5_cov : exists t B, cover_inv st t B;
    i5_r : Z0_r st < n;
    i5_c : Z0_c st < m;
    i5_prime : prime st (Z0_r st) (Z0_c st);
    i5_zero : iszero st (Z0_r st) (Z0_c st);
    i5_nostar : ~ starrow st (Z0_r st);
    i5_unc : row_uncovered st (Z0_r st) = true;
    i5_next : forall r, r < n -> star st r (Z0_c st) -> row_uncovered st r = false
  }.

  (** ** small lemmas *)
  Lemma minimum_in (d : A) l : l <> [] -> In (minimum ops d l) l.
  Proof.
    destruct l as [|x r]; [congruence|]. intros _. simpl.
    revert x; induction r as [|y r IH]; intros x; simpl; auto.
    destruct (IH (nmin ops x y)) as [E|E].
    - rewrite <- E. unfold nmin. destruct (n_leb ops x y); auto.
    - auto.
  Qed.

  Lemma is_star_spec st i j : @is_star A st i j = true <-> star st i j.
  Proof. unfold is_star, star. apply Nat.eqb_eq. Qed.
  Lemma is_star_false st i j : @is_star A st i j = false <-> ~ star st i j.
  Proof. unfold is_star, star. apply Nat.eqb_neq. Qed.

  Lemma nonzero1_upd_false (f : nat -> bool) i N :
    i < N -> f i = true ->
    S (length (nonzero1 N (upd f i false))) = length (nonzero1 N f).
  Proof.
    intros Hi Hf. unfold nonzero1.
    replace N with (i + S (N - i - 1)) by lia.
    rewrite seq_app, !filter_app, !app_length. simpl.
    rewrite upd_eq, Hf. simpl.
    rewrite (filter_ext_in (upd f i false) f (seq 0 i)).
    2:{ intros a Ha. apply in_seq in Ha. apply upd_neq. lia. }
    rewrite (filter_ext_in (upd f i false) f (seq (S i) (N - i - 1))).
    2:{ intros a Ha. apply in_seq in Ha. apply upd_neq. lia. }
    lia.
  Qed.

  Lemma nonzero1_le (f g : nat -> bool) N :
    (forall i, i < N -> f i = true -> g i = true) ->
    length (nonzero1 N f) <= length (nonzero1 N g).
  Proof.
    intros H. apply NoDup_incl_length.
    - unfold nonzero1. apply NoDup_filter, seq_NoDup.
    - intros i Hi. apply in_nonzero1 in Hi. destruct Hi. apply in_nonzero1. auto.
  Qed.
  Lemma nonzero1_lt (f g : nat -> bool) N x :
    (forall i, i < N -> f i = true -> g i = true) ->
    x < N -> f x = false -> g x = true ->
    length (nonzero1 N f) < length (nonzero1 N g).
  Proof.
    intros H Hx Hf Hg.
    rewrite <- (nonzero1_upd_false g x N Hx Hg).
    apply Nat.lt_succ_r. apply nonzero1_le. intros i Hi Hfi.
    destruct (Nat.eq_dec i x) as [->|Hne]; [congruence|].
    rewrite upd_neq by auto. auto.
  Qed.
  Lemma nonzero1_len_le f N : length (nonzero1 N f) <= N.
  Proof.
    unfold nonzero1. rewrite <- (seq_length N 0) at 2.
    generalize (seq 0 N) as l. intros l. induction l as [|x l IH]; simpl; [lia|].
    destruct (f x); simpl; lia.
  Qed.

  (** number of uncovered rows, of rows without a star *)
  Definition cntunc (st : hungary) : nat := length (nonzero1 n (row_uncovered st)).
  Definition has_star_b (st : hungary) i : bool := existsb (is_star st i) (seq 0 m).
  Definition cntfree (st : hungary) : nat :=
    length (nonzero1 n (fun i => negb (has_star_b st i))).

  Lemma has_star_b_spec st i : has_star_b st i = true <-> starrow st i.
  Proof.
    unfold has_star_b, starrow. rewrite existsb_exists. split.
    - intros (j & Hj & E). apply in_seq in Hj. apply is_star_spec in E. exists j; split; auto; lia.
    - intros (j & Hj & E). exists j. split; [apply in_seq; lia|]. apply is_star_spec; auto.
  Qed.

  (** ** Step 4 *)
  Definition same_stars (st st' : hungary) : Prop :=
    forall i j, i < n -> j < m -> (star st i j <-> star st' i j).

  Lemma step4_loop_spec : forall fuel st cov k,
    inv4 k st ->
    (forall i j, i < n -> j < m ->
       cov i j = n_is0 ops (hC st i j) && row_uncovered st i && col_uncovered st j) ->
    cntunc st < fuel ->
    exists st' s,
      step4_loop n m fuel (fun i j => n_is0 ops (hC st i j)) cov st = Ok (st', s) /\
      hC st' = hC st /\ same_stars st st' /\
      ((s = Step6 /\ inv4 k st' /\ cntunc st' <= cntunc st /\
        ((exists i j, i < n /\ j < m /\ cov i j = true) -> cntunc st' < cntunc st)) \/
       (s = Step5 /\ inv5 k st')).
  Proof.
    induction fuel as [|fuel IH]; intros st cov k Hinv Hcov Hfuel; [lia|].
    simpl.
    destruct (nonzero2 n m cov) as [|[row col] rest] eqn:Enz.
    { exists st, Step6. rewrite nonzero2_nil in Enz.
      split; [reflexivity|]. split; [reflexivity|].
      split; [intros i j _ _; tauto|]. left. split; [auto|]. split; [auto|]. split; [auto|].
      intros (i & j & Hi & Hj & E). rewrite Enz in E; auto. discriminate. }
    apply nonzero2_cons in Enz. destruct Enz as (Hrow & Hcol & Ecov).
    rewrite Hcov in Ecov by auto.
    apply andb_true_iff in Ecov. destruct Ecov as [Ecov Ecunc].
    apply andb_true_iff in Ecov. destruct Ecov as [Ezero Erunc].
    destruct Hinv as [Hcore (t & B & Hcov4) Hprime Hfree].
    assert (Hnostar : ~ star st row col).
    { intros Hs. rewrite (v_starunc _ _ _ Hcov4 row col) in Erunc; auto. discriminate. }
    set (mk := upd2 (marked st) row col 2).
    set (st1 := set_marked st mk).
    assert (Hstar1 : forall i j, star st1 i j <-> star st i j).
    { intros i j. unfold star, st1, mk. simpl.
      destruct (Nat.eq_dec i row) as [->|Hi]; [destruct (Nat.eq_dec j col) as [->|Hj]|].
      - rewrite upd2_eq. split; [discriminate|]. intros E. exfalso. apply Hnostar. exact E.
      - rewrite upd2_neq by congruence. tauto.
      - rewrite upd2_neq by congruence. tauto. }
    assert (Hprime1 : forall i j, prime st1 i j <-> prime st i j \/ (i = row /\ j = col)).
    { intros i j. unfold prime, st1, mk. simpl.
      destruct (Nat.eq_dec i row) as [->|Hi]; [destruct (Nat.eq_dec j col) as [->|Hj]|].
      - rewrite upd2_eq. tauto.
      - rewrite upd2_neq by congruence. split; [tauto|]. intros [H|[_ H]]; [auto|congruence].
      - rewrite upd2_neq by congruence. split; [tauto|]. intros [H|[H _]]; [auto|congruence]. }
    change (fun j : nat => is_star (set_marked st (upd2 (marked st) row col 2)) row j)
      with (fun j : nat => is_star st1 row j).
    destruct (nonzero1 m (fun j => is_star st1 row j)) as [|col' rest'] eqn:Enz1.
    - (* no star in the row: go to step 5 *)
      rewrite nonzero1_nil in Enz1.
      assert (Hnorow : ~ starrow st row).
      { intros (j & Hj & Hs). apply Hstar1 in Hs. apply is_star_spec in Hs.
        rewrite Enz1 in Hs; auto. discriminate. }
      exists (set_Z0 st1 row col), Step5. split; [reflexivity|]. split; [reflexivity|].
      split. { intros i j _ _. symmetry. apply (Hstar1 i j). }
      right. split; [reflexivity|].
      constructor; simpl; auto.
      + destruct Hcore as [H1 H2 H3 H4]. constructor; simpl; auto.
        * intros i j Hi Hj Hs. apply (H2 i j); auto. apply Hstar1; auto.
        * intros i j j' Hi Hj Hj' Hs Hs'. apply (H3 i j j'); auto; apply Hstar1; auto.
        * intros i i' j Hi Hj Hj' Hs Hs'. apply (H4 i i' j); auto; apply Hstar1; auto.
      + exists t, B. destruct Hcov4 as [V1 V2 V3 V4 V5 V6]. constructor; simpl; auto.
        * intros i Hi Hr. destruct (V1 i Hi Hr) as (j & Hj & Hs & Hc).
          exists j. repeat split; auto. apply Hstar1; auto.
        * intros j Hj Hr. destruct (V2 j Hj Hr) as (i & Hi & Hs & Hc).
          exists i. repeat split; auto. apply Hstar1; auto.
        * intros i j Hi Hj Hs. apply V3; auto. apply Hstar1; auto.
        * intros r Hr Hrc. simpl in Hrc. destruct (V4 r Hr Hrc) as (j & Hj & Hp & Hz & Hu & Hnx).
          assert (r <> row) by congruence.
          exists j. split; [auto|]. split; [apply Hprime1; auto|]. split; [auto|]. split.
          -- intros j' Hj' Hp'. apply Hprime1 in Hp'. destruct Hp' as [Hp'|[E _]]; auto. congruence.
          -- intros r' Hr' Hs'. apply Hnx; auto. apply Hstar1; auto.
        * intros r j Hr Hj Hrc Hp. apply Hprime1 in Hp.
          destruct Hp as [Hp|[E _]]; [apply (V5 r j); auto|congruence].
      + apply Hprime1; auto.
      + intros (j & Hj & Hs). apply Hnorow. exists j; split; auto. apply Hstar1; auto.
      + intros r Hr Hs. apply (v_starunc _ _ _ Hcov4 r col); auto. apply Hstar1; auto.
    - (* star in the row *)
      apply nonzero1_cons in Enz1. destruct Enz1 as [Hcol' Es].
      apply is_star_spec in Es. apply Hstar1 in Es.
      assert (Hcc : col' <> col) by (intros ->; auto).
      set (st2 := set_col_uncovered
                    (set_row_uncovered st1 (upd (row_uncovered st1) row false))
                    (upd (col_uncovered st1) col' true)).
      set (cov2 := fun i j => if Nat.eqb i row then false
                   else if Nat.eqb j col' then n_is0 ops (hC st i j) && row_uncovered st2 i
                   else cov i j).
      assert (Hstar2 : forall i j, star st2 i j <-> star st i j) by (intros; apply Hstar1).
      assert (Hprime2 : forall i j, prime st2 i j <-> prime st i j \/ (i = row /\ j = col))
        by (intros; apply Hprime1).
      assert (Hru2 : forall i, i <> row -> row_uncovered st2 i = row_uncovered st i).
      { intros i Hi. unfold st2; simpl. apply upd_neq; auto. }
      assert (Hrur : row_uncovered st2 row = false) by (unfold st2; simpl; apply upd_eq).
      assert (Hcu2 : forall j, j <> col' -> col_uncovered st2 j = col_uncovered st j).
      { intros j Hj. unfold st2; simpl. apply upd_neq; auto. }
      assert (Hcur : col_uncovered st2 col' = true) by (unfold st2; simpl; apply upd_eq).
      assert (Hinv2 : inv4 k st2).
      { constructor.
        - destruct Hcore as [H1 H2 H3 H4]. constructor.
          + exact H1.
          + intros i j Hi Hj Hs. apply (H2 i j); auto. apply Hstar2; auto.
          + intros i j j' Hi Hj Hj' Hs Hs'. apply (H3 i j j'); auto; apply Hstar2; auto.
          + intros i i' j Hi Hj Hj' Hs Hs'. apply (H4 i i' j); auto; apply Hstar2; auto.
        - exists (upd t row B), (S B).
          pose proof Hcov4 as [V1 V2 V3 V4 V5 V6]. constructor.
          + intros i Hi Hr. destruct (Nat.eq_dec i row) as [->|Hir].
            * exists col'. repeat split; auto. apply Hstar2; auto.
            * rewrite Hru2 in Hr by auto. destruct (V1 i Hi Hr) as (j & Hj & Hs & Hc).
              exists j. repeat split; auto. { apply Hstar2; auto. }
              destruct (Nat.eq_dec j col') as [->|]; auto. rewrite Hcu2; auto.
          + intros j Hj Hc. destruct (Nat.eq_dec j col') as [->|Hjc]; [congruence|].
            rewrite Hcu2 in Hc by auto. destruct (V2 j Hj Hc) as (i & Hi & Hs & Hr).
            exists i. repeat split; auto. { apply Hstar2; auto. }
            destruct (Nat.eq_dec i row) as [->|Hir].
            * exfalso. apply Hjc. apply (c_row _ _ Hcore row); auto.
            * rewrite Hru2; auto.
          + intros i j Hi Hj Hs Hc. apply Hstar2 in Hs.
            destruct (Nat.eq_dec i row) as [->|Hir]; auto.
            rewrite Hru2 by auto.
            destruct (Nat.eq_dec j col') as [->|Hjc].
            * exfalso. apply Hir. apply (c_col _ _ Hcore i row col'); auto.
            * rewrite Hcu2 in Hc by auto. apply (V3 i j); auto.
          + intros r Hr Hrc. destruct (Nat.eq_dec r row) as [->|Hir].
            * exists col. split; [auto|]. split; [apply Hprime2; auto|]. split; [exact Ezero|]. split.
              -- intros j' Hj' Hp. apply Hprime2 in Hp. destruct Hp as [Hp|[_ E]]; auto.
                 apply Hprime in Hp; auto. congruence.
              -- intros r' Hr' Hs'. apply Hstar2 in Hs'.
                 assert (r' <> row) by (intros ->; auto).
                 assert (Hr'c : row_uncovered st r' = false) by (apply (V3 r' col); auto).
                 split; [rewrite Hru2; auto|].
                 rewrite upd_eq, upd_neq by auto. apply V6; auto.
            * rewrite Hru2 in Hrc by auto.
              destruct (V4 r Hr Hrc) as (j & Hj & Hp & Hz & Hu & Hnx).
              exists j. split; [auto|]. split; [apply Hprime2; auto|]. split; [exact Hz|]. split.
              -- intros j' Hj' Hp'. apply Hprime2 in Hp'. destruct Hp' as [Hp'|[E _]]; auto. congruence.
              -- intros r' Hr' Hs'. apply Hstar2 in Hs'. destruct (Hnx r' Hr' Hs') as [Hc Ht].
                 assert (r' <> row) by congruence.
                 split; [rewrite Hru2; auto|].
                 rewrite !upd_neq by auto. exact Ht.
          + intros r j Hr Hj Hrc Hp. apply Hprime2 in Hp.
            assert (Hor : col_uncovered st j = true).
            { destruct Hp as [Hp|[-> ->]]; auto.
              assert (r <> row). { intros ->. apply Hprime in Hp; auto. congruence. }
              rewrite Hru2 in Hrc by auto. apply (V5 r j); auto. }
            destruct (Nat.eq_dec j col') as [->|]; auto. rewrite Hcu2; auto.
          + intros i Hi Hr. destruct (Nat.eq_dec i row) as [->|Hir].
            * rewrite upd_eq. lia.
            * rewrite Hru2 in Hr by auto. rewrite upd_neq by auto.
              specialize (V6 i Hi Hr). lia.
        - intros i j Hi Hj Hp. apply Hprime2 in Hp. destruct Hp as [Hp|[-> _]]; auto.
          destruct (Nat.eq_dec i row) as [->|Hir]; auto. rewrite Hru2 by auto.
          apply (Hprime i j); auto.
        - destruct Hfree as (i & Hi & Hf). exists i. split; auto.
          intros (j & Hj & Hs). apply Hf. exists j. split; auto. apply Hstar2; auto. }
      assert (Hcov2 : forall i j, i < n -> j < m ->
        cov2 i j = n_is0 ops (hC st2 i j) && row_uncovered st2 i && col_uncovered st2 j).
      { intros i j Hi Hj. unfold cov2.
        destruct (Nat.eqb_spec i row) as [->|Hir].
        - rewrite Hrur, andb_false_r. reflexivity.
        - destruct (Nat.eqb_spec j col') as [->|Hjc].
          + rewrite Hcur, andb_true_r. reflexivity.
          + rewrite Hcov, Hru2, Hcu2 by auto. reflexivity. }
      assert (Hcnt : S (cntunc st2) = cntunc st).
      { unfold cntunc, st2, st1. simpl. apply nonzero1_upd_false; auto. }
      destruct (IH st2 cov2 k Hinv2 Hcov2 ltac:(lia)) as (st' & s & E & EC & Hss & Hcase).
      exists st', s. split; [exact E|]. split; [rewrite EC; reflexivity|].
      split. { intros i j Hi Hj. rewrite <- (Hss i j) by auto. symmetry. apply Hstar2. }
      destruct Hcase as [(Es' & Hi' & Hle & _)|H5]; [left|right; auto].
      split; [auto|]. split; [auto|]. split; [lia|]. intros _; lia.
  Qed.

  Lemma step4_spec st k :
    inv4 k st ->
    exists st' s,
      step4 ops n m st = Ok (st', s) /\ hC st' = hC st /\ same_stars st st' /\
      ((s = Step6 /\ inv4 k st' /\ cntunc st' <= cntunc st /\
        ((exists i j, i < n /\ j < m /\ n_is0 ops (hC st i j) = true /\
            row_uncovered st i = true /\ col_uncovered st j = true) ->
         cntunc st' < cntunc st)) \/
       (s = Step5 /\ inv5 k st')).
  Proof.
    intros Hinv. unfold step4.
    destruct (step4_loop_spec (n + 1) st
      (fun i j => n_is0 ops (hC st i j) && row_uncovered st i && col_uncovered st j) k Hinv)
      as (st' & s & E & EC & Hss & Hcase).
    - reflexivity.
    - unfold cntunc. pose proof (nonzero1_len_le (row_uncovered st) n). lia.
    - exists st', s. split; [auto|]. split; [auto|]. split; [auto|].
      destruct Hcase as [(Es & Hi & Hle & Hlt)|H5]; [left|right; auto].
      split; [auto|]. split; [auto|]. split; [auto|]. intros (i & j & Hi' & Hj & Hz & Hr & Hc).
      apply Hlt. exists i, j. repeat split; auto. rewrite Hz, Hr, Hc. reflexivity.
  Qed.

  (** ** Step 6 *)
  Lemma inv4_unc_row st k : inv4 k st -> exists i, i < n /\ row_uncovered st i = true.
  Proof.
    intros [_ (t & B & Hc) _ (i & Hi & Hf)]. exists i. split; auto.
    destruct (row_uncovered st i) eqn:E; auto. exfalso. apply Hf.
    destruct (v_covrow _ _ _ Hc i Hi E) as (j & Hj & Hs & _). exists j; auto.
  Qed.

  Lemma inv4_unc_col st k : inv4 k st -> exists j, j < m /\ col_uncovered st j = true.
  Proof.
    intros [Hcore (t & B & Hc) _ (i0 & Hi0 & Hf)].
    destruct (nonzero1 m (col_uncovered st)) as [|j l] eqn:E.
    2:{ exists j. apply nonzero1_cons with (1 := E). }
    exfalso. rewrite nonzero1_nil in E.
    assert (HR : exists R, length R = m /\ NoDup R /\
              forall i, In i R -> i < n /\ i <> i0).
    { assert (HRq : forall q, q <= m -> exists R, length R = q /\ NoDup R /\
              forall i, In i R -> i < n /\ i <> i0 /\ exists j, j < q /\ star st i j).
      { induction q as [|q IH]; intros Hq.
        - exists []. split; [auto|]. split; [constructor|]. intros i [].
        - destruct IH as (R & HL & HN & HR); [lia|].
          destruct (v_covcol _ _ _ Hc q ltac:(lia) (E q ltac:(lia))) as (i & Hi & Hs & _).
          exists (i :: R). split; [simpl; lia|]. split.
          + constructor; auto. intros Hin. destruct (HR i Hin) as (_ & _ & j & Hj & Hs').
            assert (j = q) by (apply (c_row _ _ Hcore i); auto; lia). lia.
          + intros i' [<-|Hin].
            * split; auto. split; [|exists q; split; auto].
              intros ->. apply Hf. exists q; split; auto.
            * destruct (HR i' Hin) as (H1 & H2 & j & Hj & Hs').
              split; auto. split; auto. exists j. split; auto. }
      destruct (HRq m (le_n _)) as (R & HL & HN & HR). exists R. split; auto. split; auto.
      intros i Hi. destruct (HR i Hi) as (H1 & H2 & _). auto. }
    destruct HR as (R & HL & HN & HR).
    assert (Hlen : length (i0 :: R) <= length (seq 0 n)).
    { apply NoDup_incl_length.
      - constructor; auto. intros Hin. destruct (HR i0 Hin). auto.
      - intros i [<-|Hin]; apply in_seq; [lia|]. destruct (HR i Hin). lia. }
    rewrite seq_length in Hlen. simpl in Hlen. lia.
  Qed.

  (** the value found in step 6 *)
  Definition minval6 (st : hungary) : A :=
    minimum ops (n_zero ops)
      (map (fun j => minimum ops (n_zero ops)
              (map (fun i => hC st i j) (nonzero1 n (row_uncovered st))))
         (nonzero1 m (col_uncovered st))).
  Definition C6 (st : hungary) i j : A :=
    let C1 := if row_uncovered st i then hC st i j else n_add ops (hC st i j) (minval6 st) in
    if col_uncovered st j then n_sub ops C1 (minval6 st) else C1.

  Lemma step6_eq st k : inv4 k st -> step6 ops n m st = set_C st (C6 st).
  Proof.
    intros Hinv. unfold step6.
    destruct (inv4_unc_row _ _ Hinv) as (i & Hi & Hri).
    destruct (inv4_unc_col _ _ Hinv) as (j & Hj & Hcj).
    replace (existsb (row_uncovered st) (seq 0 n)) with true.
    2:{ symmetry. apply existsb_exists. exists i. split; auto. apply in_seq; lia. }
    replace (existsb (col_uncovered st) (seq 0 m)) with true.
    2:{ symmetry. apply existsb_exists. exists j. split; auto. apply in_seq; lia. }
    reflexivity.
  Qed.

  Lemma minval6_in st k : inv4 k st ->
    exists i j, i < n /\ j < m /\ row_uncovered st i = true /\ col_uncovered st j = true /\
      minval6 st = hC st i j.
  Proof.
    intros Hinv.
    destruct (inv4_unc_row _ _ Hinv) as (i0 & Hi0 & Hri0).
    destruct (inv4_unc_col _ _ Hinv) as (j0 & Hj0 & Hcj0).
    assert (Hin : In (minval6 st) (map (fun j => minimum ops (n_zero ops)
              (map (fun i => hC st i j) (nonzero1 n (row_uncovered st))))
         (nonzero1 m (col_uncovered st)))).
    { apply minimum_in. intros E. apply map_eq_nil in E. rewrite nonzero1_nil in E.
      rewrite E in Hcj0; auto. discriminate. }
    apply in_map_iff in Hin. destruct Hin as (j & Ej & Hj). apply in_nonzero1 in Hj.
    assert (Hin : In (minval6 st) (map (fun i => hC st i j) (nonzero1 n (row_uncovered st)))).
    { rewrite <- Ej. apply minimum_in. intros E. apply map_eq_nil in E. rewrite nonzero1_nil in E.
      rewrite E in Hri0; auto. discriminate. }
    apply in_map_iff in Hin. destruct Hin as (i & Ei & Hi). apply in_nonzero1 in Hi.
    exists i, j. destruct Hi, Hj. auto 6.
  Qed.

  Lemma inv_star_cases st k i j : inv4 k st -> i < n -> j < m -> star st i j ->
    (row_uncovered st i = true /\ col_uncovered st j = false) \/
    (row_uncovered st i = false /\ col_uncovered st j = true).
  Proof.
    intros [Hcore (t & B & Hc) _ _] Hi Hj Hs.
    destruct (row_uncovered st i) eqn:Er; destruct (col_uncovered st j) eqn:Ec; auto.
    - rewrite (v_starunc _ _ _ Hc i j) in Er; auto.
    - destruct (v_covrow _ _ _ Hc i Hi Er) as (j' & Hj' & Hs' & Hc').
      assert (j = j') by (apply (c_row _ _ Hcore i); auto). congruence.
  Qed.

  Lemma step6_inv st k : inv4 k st -> S k < K ->
    inv4 (S (S k)) (step6 ops n m st) /\
    (exists i j, i < n /\ j < m /\ n_is0 ops (hC (step6 ops n m st) i j) = true /\
            row_uncovered (step6 ops n m st) i = true /\
            col_uncovered (step6 ops n m st) j = true) /\
    cntunc (step6 ops n m st) = cntunc st /\
    same_stars st (step6 ops n m st).
  Proof.
    intros Hinv HK. rewrite (step6_eq _ _ Hinv).
    destruct (minval6_in _ _ Hinv) as (i0 & j0 & Hi0 & Hj0 & Hr0 & Hc0 & Emin).
    assert (Hokv : okv k (minval6 st)).
    { rewrite Emin. apply (c_ok _ _ (i4_core _ _ Hinv)); auto. }
    assert (Hz : forall i j, i < n -> j < m -> iszero st i j ->
       (row_uncovered st i = true /\ col_uncovered st j = false) \/
       (row_uncovered st i = false /\ col_uncovered st j = true) ->
       n_is0 ops (C6 st i j) = true).
    { intros i j Hi Hj Hz [[Hr Hc]|[Hr Hc]]; unfold C6; rewrite Hr, Hc; auto.
      apply (nl_add_sub laws k); auto; try lia.
      apply (c_ok _ _ (i4_core _ _ Hinv)); auto. }
    split; [|split; [|split]].
    - destruct Hinv as [[H1 H2 H3 H4] (t & B & Hc) Hp Hf]. constructor; simpl; auto.
      + constructor; simpl; auto.
        * intros i j Hi Hj. unfold C6. specialize (H1 i j Hi Hj).
          destruct (row_uncovered st i); destruct (col_uncovered st j).
          -- apply nl_mono; auto. apply nl_sub; auto; lia.
          -- apply nl_mono; auto. apply nl_mono; auto.
          -- apply nl_sub; auto; try lia. apply nl_add; auto; lia. apply nl_mono; auto.
          -- apply nl_mono; auto. apply nl_add; auto; lia.
        * intros i j Hi Hj Hs. apply Hz; auto.
          apply (inv_star_cases st k); auto. constructor; auto.
          constructor; auto. exists t, B; auto.
      + exists t, B. destruct Hc as [V1 V2 V3 V4 V5 V6]. constructor; simpl; auto.
        intros r Hr Hrc. simpl in Hrc. destruct (V4 r Hr Hrc) as (j & Hj & Hpj & Hzj & Hu & Hx).
        exists j. split; auto. split; auto. split; [|split; auto].
        unfold iszero. simpl. apply Hz; auto. right. split; auto. apply (V5 r j); auto.
    - exists i0, j0. simpl. repeat split; auto.
      unfold C6. rewrite Hr0, Hc0, Emin. apply (nl_sub_self laws k); auto; try lia.
      apply (c_ok _ _ (i4_core _ _ Hinv)); auto.
    - reflexivity.
    - intros i j _ _. reflexivity.
  Qed.

  (** ** Step 5 *)
  Lemma step5_path_spec st t : chain st t ->
    forall b fuel path count i j,
    path count = (i, j) ->
    (forall r, r < n -> star st r j -> row_uncovered st r = false /\ t r < b) ->
    let below := fun b r => negb (row_uncovered st r) && Nat.ltb (t r) b in
    length (nonzero1 n (below b)) < fuel ->
    count + 2 * length (nonzero1 n (below b)) < n + m ->
    exists path' count' q I J,
      step5_path n m fuel (marked st) path count = Ok (path', count') /\
      I 0 = i /\ J 0 = j /\ count' = count + 2 * q /\
      (forall a, a <= q -> path' (count + 2 * a) = (I a, J a)) /\
      (forall a, a < q -> path' (count + 2 * a + 1) = (I (S a), J a)) /\
      (forall a, a < q -> I (S a) < n /\ J (S a) < m /\ star st (I (S a)) (J a) /\
          prime st (I (S a)) (J (S a)) /\ iszero st (I (S a)) (J (S a)) /\
          row_uncovered st (I (S a)) = false) /\
      (forall a, a < q -> t (I (S a)) < b) /\
      (forall a, S a < q -> t (I (S (S a))) < t (I (S a))) /\
      (forall r, r < n -> ~ star st r (J q)) /\
      (forall x, x <= count -> path' x = path x).
  Proof.
    intros Hch. intros b fuel. revert b.
    induction fuel as [|fuel IH]; intros b path count i j Hp Hnext below Hfuel Hcount; [lia|].
    cbn [step5_path]. rewrite Hp. cbn [fst snd].
    destruct (nonzero1 n (fun i0 => Nat.eqb (marked st i0 j) 1)) as [|row l] eqn:Enz.
    - rewrite nonzero1_nil in Enz.
      exists path, count, 0, (fun _ => i), (fun _ => j).
      split; [reflexivity|]. split; [auto|]. split; [auto|]. split; [lia|].
      split; [|split; [|split; [|split; [|split; [|split]]]]]; try (intros a Ha; lia).
      + intros a Ha. assert (a = 0) by lia. subst a. cbn beta.
        rewrite Nat.mul_0_r, Nat.add_0_r. exact Hp.
      + intros r Hr Hs. apply Enz in Hr. apply Nat.eqb_neq in Hr. apply Hr. exact Hs.
      + auto.
    - apply nonzero1_cons in Enz. destruct Enz as [Hrow Es]. apply Nat.eqb_eq in Es.
      destruct (Hnext row Hrow Es) as [Hrc Htb].
      destruct (Hch row Hrow Hrc) as (jp & Hjp & Hpr & Hz & Hu & Hnx).
      assert (Hlt : length (nonzero1 n (below (t row))) < length (nonzero1 n (below b))).
      { apply nonzero1_lt with (x := row); auto.
        - intros x Hx. unfold below. rewrite !andb_true_iff, !Nat.ltb_lt. intros [? ?]. split; auto. lia.
        - unfold below. rewrite Nat.ltb_irrefl, andb_false_r. reflexivity.
        - unfold below. rewrite Hrc. simpl. apply Nat.ltb_lt. auto. }
      replace (Nat.ltb (count + 1) (n + m)) with true by (symmetry; apply Nat.ltb_lt; lia).
      replace (count + 1 - 1) with count by lia. rewrite Hp. cbn [fst snd].
      rewrite !upd_eq. cbn [fst snd].
      destruct (nonzero1 m (fun j0 => Nat.eqb (marked st row j0) 2)) as [|col l'] eqn:Enz.
      { rewrite nonzero1_nil in Enz. specialize (Enz jp Hjp). apply Nat.eqb_neq in Enz.
        exfalso. apply Enz. exact Hpr. }
      apply nonzero1_cons in Enz. destruct Enz as [Hcol Ep]. apply Nat.eqb_eq in Ep.
      assert (col = jp) by (apply Hu; auto). subst col.
      replace (Nat.ltb (count + 1 + 1) (n + m)) with true by (symmetry; apply Nat.ltb_lt; lia).
      replace (count + 1 + 1 - 1) with (count + 1) by lia. rewrite upd_eq. cbn [fst snd].
      set (path2 := upd (upd path (count + 1) (row, j)) (count + 1 + 1) (row, jp)).
      destruct (IH (t row) path2 (count + 1 + 1) row jp) as
        (path' & count' & q & I & J & E & EI & EJ & Ecount & He & Ho & Hmid & Htb' & Hdec & Hend & Hsame).
      + unfold path2. apply upd_eq.
      + exact Hnx.
      + change (length (nonzero1 n (below (t row))) < fuel). lia.
      + change (count + 1 + 1 + 2 * length (nonzero1 n (below (t row))) < n + m). lia.
      + exists path', count', (S q), (fun a => match a with O => i | S a => I a end),
          (fun a => match a with O => j | S a => J a end).
        split; [exact E|]. split; [auto|]. split; [auto|]. split; [lia|].
        split; [|split; [|split; [|split; [|split; [|split]]]]].
        * intros [|a] Ha.
          -- replace (count + 2 * 0) with count by lia. rewrite Hsame by lia.
             unfold path2. rewrite !upd_neq by lia. auto.
          -- replace (count + 2 * S a) with (count + 1 + 1 + 2 * a) by lia. apply He. lia.
        * intros [|a] Ha.
          -- replace (count + 2 * 0 + 1) with (count + 1) by lia. rewrite Hsame by lia.
             unfold path2. rewrite upd_neq by lia. rewrite upd_eq. rewrite EI. auto.
          -- replace (count + 2 * S a + 1) with (count + 1 + 1 + 2 * a + 1) by lia. apply Ho. lia.
        * intros [|a] Ha.
          -- rewrite EI, EJ. repeat split; auto.
          -- apply Hmid. lia.
        * intros [|a] Ha.
          -- rewrite EI. auto.
          -- specialize (Htb' a ltac:(lia)). lia.
        * intros [|a] Ha.
          -- rewrite EI. apply Htb'. lia.
          -- apply Hdec. lia.
        * exact Hend.
        * intros x Hx. rewrite Hsame by lia. unfold path2. rewrite !upd_neq by lia. auto.
  Qed.

  Definition memb (x y : nat) (l : list (nat * nat)) : bool :=
    existsb (fun c => Nat.eqb x (fst c) && Nat.eqb y (snd c)) l.
  Lemma memb_spec x y l : memb x y l = true <-> In (x, y) l.
  Proof.
    unfold memb. rewrite existsb_exists. split.
    - intros ([u v] & Hin & E). simpl in E. apply andb_true_iff in E.
      rewrite !Nat.eqb_eq in E. destruct E; subst; auto.
    - intros H. exists (x, y). split; auto. simpl. rewrite !Nat.eqb_refl. auto.
  Qed.
  Lemma flips_spec (path : nat -> nat * nat) : forall l mk x y,
    NoDup (map path l) ->
    fold_left (step5_flip path) l mk x y =
      if memb x y (map path l)
      then (if Nat.eqb (mk x y) 1 then 0 else 1) else mk x y.
  Proof.
    induction l as [|a l IH]; intros mk x y HN; simpl.
    - reflexivity.
    - inversion HN as [|? ? Hnin HN']; subst.
      rewrite IH by auto.
      assert (Hflip : step5_flip path mk a x y =
        if Nat.eqb x (fst (path a)) && Nat.eqb y (snd (path a))
        then (if Nat.eqb (mk x y) 1 then 0 else 1) else mk x y).
      { unfold step5_flip.
        destruct (Nat.eqb_spec x (fst (path a))) as [->|]; destruct (Nat.eqb_spec y (snd (path a))) as [->|]; simpl;
        destruct (Nat.eqb (mk (fst (path a)) (snd (path a))) 1); rewrite ?upd2_eq; auto;
        rewrite upd2_neq; auto; congruence. }
      rewrite Hflip.
      destruct (Nat.eqb x (fst (path a)) && Nat.eqb y (snd (path a))) eqn:Ea; simpl; auto.
      apply andb_true_iff in Ea. rewrite !Nat.eqb_eq in Ea. destruct Ea as [-> ->].
      replace (memb (fst (path a)) (snd (path a)) (map path l)) with false; auto.
      symmetry. apply not_true_iff_false. rewrite memb_spec.
      rewrite <- surjective_pairing. exact Hnin.
  Qed.

  Lemma step5_spec st k : inv5 k st ->
    exists st', step5 n m st = Ok st' /\ inv3 k st' /\ hC st' = hC st /\
      cntfree st' < cntfree st /\ (forall j, j < m -> starcol st j -> starcol st' j) /\
      (forall i, i < n -> starrow st i -> starrow st' i).
  Proof.
    intros [Hcore (t & B & Hc) Hr0 Hc0 Hp0 Hz0 Hn0 Hu0 Hnext0].
    unfold step5.
    set (path0 := upd (hpath st) 0 (Z0_r st, Z0_c st)).
    destruct (step5_path_spec st t (v_chain _ _ _ Hc) B (n + m) path0 0 (Z0_r st) (Z0_c st))
      as (path & count & q & I & J & E & EI & EJ & Ecount & He & Ho & Hmid & _ & Hdec & Hend & _).
    - unfold path0. apply upd_eq.
    - intros r Hr Hs. assert (row_uncovered st r = false) by auto. split; auto.
      apply (v_bound _ _ _ Hc); auto.
    - eapply Nat.le_lt_trans; [apply nonzero1_len_le|]. lia.
    - assert (length (nonzero1 n (fun r => negb (row_uncovered st r) && (t r <? B))) < n).
      { eapply Nat.lt_le_trans; [apply nonzero1_lt with (x := Z0_r st) (g := fun _ => true)|]; auto.
        - rewrite Hu0. reflexivity.
        - apply nonzero1_len_le. }
      lia.
    - rewrite E. simpl bind. eexists. split; [reflexivity|].
      set (cells := map path (seq 0 (count + 1))).
      assert (Hcells : forall x y, In (x, y) cells <->
        (exists a, a <= q /\ (x, y) = (I a, J a)) \/ (exists a, a < q /\ (x, y) = (I (S a), J a))).
      { intros x y. unfold cells. rewrite in_map_iff. split.
        - intros (c & Ec & Hin). apply in_seq in Hin.
          destruct (Nat.Even_or_Odd c) as [[a Ha]|[a Ha]].
          + left. exists a. split; [lia|]. rewrite <- Ec, <- He by lia. f_equal. lia.
          + right. exists a. split; [lia|]. rewrite <- Ec, <- Ho by lia. f_equal. lia.
        - intros [(a & Ha & Ec)|(a & Ha & Ec)].
          + exists (2 * a). split; [rewrite Ec; apply He; auto|]. apply in_seq. lia.
          + exists (2 * a + 1). split; [rewrite Ec; apply Ho; auto|]. apply in_seq. lia. }
      assert (HdecI : forall a b, a < b -> b < q -> t (I (S b)) < t (I (S a))).
      { intros a b Hab. induction Hab as [|b Hab IH]; intros Hb.
        - apply Hdec; auto.
        - specialize (IH ltac:(lia)). specialize (Hdec b Hb). lia. }
      assert (Iinj : forall a b, a <= q -> b <= q -> I a = I b -> a = b).
      { assert (Hhalf : forall a b, a < b -> b <= q -> I a <> I b).
        { intros a b Hab Hb Eq. destruct b as [|b]; [lia|]. destruct a as [|a].
          - destruct (Hmid b) as (_ & _ & _ & _ & _ & Hcb); [lia|].
            rewrite <- Eq, EI in Hcb. congruence.
          - specialize (HdecI a b ltac:(lia) ltac:(lia)). rewrite Eq in HdecI. lia. }
        intros a b Ha Hb Eq. destruct (Nat.lt_trichotomy a b) as [L|[L|L]]; auto; exfalso.
        - apply (Hhalf a b); auto.
        - apply (Hhalf b a); auto. }
      assert (HevenP : forall a, a <= q -> I a < n /\ J a < m /\ prime st (I a) (J a) /\ iszero st (I a) (J a)).
      { intros [|a] Ha.
        - rewrite EI, EJ. auto.
        - destruct (Hmid a) as (H1 & H2 & H3 & H4 & H5 & H6); [lia|]. auto. }
      assert (HNoDup : NoDup cells).
      { unfold cells. apply (NoDup_nth _ (0,0)). rewrite map_length, seq_length.
        intros x y Hx Hy Eq.
        rewrite !(nth_indep _ (0,0) (path 0)) in Eq by (rewrite map_length, seq_length; auto).
        rewrite !map_nth, !seq_nth in Eq by auto. simpl in Eq.
        destruct (Nat.Even_or_Odd x) as [[a Ha]|[a Ha]]; destruct (Nat.Even_or_Odd y) as [[b Hb]|[b Hb]].
        - replace x with (0 + 2 * a) in Eq by lia. replace y with (0 + 2 * b) in Eq by lia.
          rewrite !He in Eq by lia. inversion Eq. assert (a = b) by (apply Iinj; auto; lia). lia.
        - replace x with (0 + 2 * a) in Eq by lia. replace y with (0 + 2 * b + 1) in Eq by lia.
          rewrite He, Ho in Eq by lia. inversion Eq as [[E1 E2]].
          destruct (HevenP a) as (_ & _ & Hpa & _); [lia|].
          destruct (Hmid b) as (_ & _ & Hsb & _); [lia|].
          unfold prime, star in *. rewrite E1, E2 in Hpa. congruence.
        - replace x with (0 + 2 * a + 1) in Eq by lia. replace y with (0 + 2 * b) in Eq by lia.
          rewrite He, Ho in Eq by lia. inversion Eq as [[E1 E2]].
          destruct (HevenP b) as (_ & _ & Hpa & _); [lia|].
          destruct (Hmid a) as (_ & _ & Hsb & _); [lia|].
          unfold prime, star in *. rewrite <- E1, <- E2 in Hpa. congruence.
        - replace x with (0 + 2 * a + 1) in Eq by lia. replace y with (0 + 2 * b + 1) in Eq by lia.
          rewrite !Ho in Eq by lia. inversion Eq.
          assert (S a = S b) by (apply Iinj; auto; lia). lia. }
      match goal with |- inv3 k ?s /\ _ => set (st' := s) end.
      assert (Hstar' : forall x y, star st' x y <->
         (exists a, a <= q /\ (x, y) = (I a, J a)) \/
         (star st x y /\ ~ exists a, a < q /\ (x, y) = (I (S a), J a))).
      { intros x y. unfold star, st'. cbn [marked set_marked set_path clear_covers set_row_uncovered set_col_uncovered].
        rewrite flips_spec by exact HNoDup. fold cells.
        destruct (memb x y cells) eqn:Hin; [|assert (Hout : ~ In (x, y) cells)
          by (rewrite <- memb_spec, Hin; discriminate); clear Hin].
        - apply memb_spec in Hin. apply Hcells in Hin. destruct Hin as [Hin|Hin].
          + pose proof Hin as (a & Ha & Ea). injection Ea as -> ->.
            destruct (HevenP a Ha) as (_ & _ & Hpa & _). unfold prime in Hpa. rewrite Hpa. simpl.
            split; [intros _; left; exact Hin|reflexivity].
          + pose proof Hin as (a & Ha & Ea). injection Ea as -> ->.
            destruct (Hmid a Ha) as (_ & _ & Hs & _). unfold star in Hs. rewrite Hs. simpl.
            split; [discriminate|]. intros [(a' & Ha' & Ea')|[_ H]]; [|tauto].
            injection Ea' as E1 E2. destruct (HevenP a' Ha') as (_ & _ & Hpa & _).
            unfold prime in Hpa. rewrite <- E1, <- E2 in Hpa. congruence.
        - assert (Hno : ~ ((exists a, a <= q /\ (x, y) = (I a, J a)) \/
                           (exists a, a < q /\ (x, y) = (I (S a), J a)))).
          { intros Hx. apply Hout. apply Hcells. exact Hx. }
          destruct (Nat.eqb_spec (marked st x y) 2) as [E2|E2].
          + split; [discriminate|]. intros [H|[H _]]; [tauto|congruence].
          + split; [intros H; right; tauto|]. intros [H|[H _]]; [tauto|auto]. }
      (* a column of the path has no surviving old star *)
      assert (Hcolold : forall a r, a <= q -> r < n -> star st r (J a) ->
                 exists b, b < q /\ (r, J a) = (I (S b), J b)).
      { intros a r Ha Hr Hs. destruct (Nat.eq_dec a q) as [->|Hne].
        - exfalso. apply (Hend r); auto.
        - destruct (Hmid a) as (H1 & H2 & H3 & _); [lia|].
          exists a. split; [lia|]. f_equal. apply (c_col _ _ Hcore r (I (S a)) (J a)); auto.
          apply (HevenP a); auto. }
      assert (Hrowold : forall a c, a <= q -> c < m -> star st (I a) c ->
                 exists b, b < q /\ (I a, c) = (I (S b), J b)).
      { intros [|a] c Ha Hcm Hs.
        - rewrite EI in Hs. exfalso. apply Hn0. exists c. auto.
        - destruct (Hmid a) as (H1 & H2 & H3 & _); [lia|].
          exists a. split; [lia|]. f_equal. apply (c_row _ _ Hcore (I (S a)) c (J a)); auto.
          apply (HevenP a); lia. }
      assert (Jinj : forall a b, a <= q -> b <= q -> J a = J b -> a = b).
      { assert (HW : forall a b, a < q -> b <= q -> J a = J b -> a = b).
        { intros a b Ha Hb Eq. destruct (Hmid a Ha) as (H1 & H2 & H3 & _).
          destruct (Nat.eq_dec b q) as [->|Hbq].
          - rewrite Eq in H3. exfalso. apply (Hend (I (S a))); auto.
          - destruct (Hmid b) as (H1' & H2' & H3' & _); [lia|].
            rewrite Eq in H3.
            assert (I (S a) = I (S b)).
            { apply (c_col _ _ Hcore _ _ (J b)); auto. apply (HevenP b); auto. }
            assert (S a = S b) by (apply Iinj; auto; lia). lia. }
        intros a b Ha Hb Eq. destruct (Nat.eq_dec a q) as [->|Haq].
        - destruct (Nat.eq_dec b q) as [->|Hbq]; auto. symmetry. apply HW; auto. lia.
        - apply HW; auto. lia. }
      assert (Hrows' : forall i, i < n -> starrow st i -> starrow st' i).
      { intros i Hi (j & Hj & Hs).
        destruct (in_dec Nat.eq_dec i (map I (seq 0 (S q)))) as [Hin|Hout].
        - apply in_map_iff in Hin. destruct Hin as (a & Ea & Ha). apply in_seq in Ha. subst i.
          exists (J a). split; [apply HevenP; lia|]. apply Hstar'. left. exists a. split; [lia|auto].
        - exists j. split; auto. apply Hstar'. right. split; auto.
          intros (a & Ha & Ea). injection Ea as Ei _. apply Hout. rewrite Ei.
          apply in_map. apply in_seq. lia. }
      split; [|split; [|split; [|split; [|exact Hrows']]]].
      + constructor.
        * constructor.
          -- apply (c_ok _ _ Hcore).
          -- intros i j Hi Hj Hs. apply Hstar' in Hs. destruct Hs as [(a & Ha & Ea)|[Hs _]].
             ++ injection Ea as -> ->. destruct (HevenP a Ha) as (_ & _ & _ & Hz). exact Hz.
             ++ apply (c_star0 _ _ Hcore i j); auto.
          -- intros i j j' Hi Hj Hj' Hs Hs'. apply Hstar' in Hs. apply Hstar' in Hs'.
             destruct Hs as [(a & Ha & Ea)|[Hs Hns]]; destruct Hs' as [(b & Hb & Eb)|[Hs' Hns']].
             ++ injection Ea as -> ->. injection Eb as E1 ->. f_equal. apply Iinj; auto.
             ++ injection Ea as -> ->. exfalso. apply Hns'. apply Hrowold; auto.
             ++ injection Eb as -> ->. exfalso. apply Hns. apply Hrowold; auto.
             ++ apply (c_row _ _ Hcore i); auto.
          -- intros i i' j Hi Hi' Hj Hs Hs'. apply Hstar' in Hs. apply Hstar' in Hs'.
             destruct Hs as [(a & Ha & Ea)|[Hs Hns]]; destruct Hs' as [(b & Hb & Eb)|[Hs' Hns']].
             ++ injection Ea as -> ->. injection Eb as -> E1. f_equal. apply Jinj; auto.
             ++ injection Ea as -> ->. exfalso. apply Hns'. apply Hcolold; auto.
             ++ injection Eb as -> ->. exfalso. apply Hns. apply Hcolold; auto.
             ++ apply (c_col _ _ Hcore i i' j); auto.
        * intros i j Hi Hj. unfold prime, st'.
          cbn [marked set_marked set_path clear_covers set_row_uncovered set_col_uncovered].
          match goal with |- (if Nat.eqb ?z 2 then 0 else ?z) <> 2 => destruct (Nat.eqb_spec z 2) end; lia.
        * intros i Hi. reflexivity.
        * intros i Hi. reflexivity.
      + reflexivity.
      + unfold cntfree. apply nonzero1_lt with (x := Z0_r st); auto.
        * intros i Hi Hf. apply negb_true_iff in Hf. apply negb_true_iff.
          destruct (has_star_b st i) eqn:Eh; auto. exfalso.
          apply has_star_b_spec in Eh.
          assert (Hyes : has_star_b st' i = true); [|congruence].
          apply has_star_b_spec. apply Hrows'; auto.
        * apply negb_false_iff. apply has_star_b_spec. exists (Z0_c st). split; auto.
          apply Hstar'. left. exists 0. split; [lia|]. rewrite EI, EJ. auto.
        * apply negb_true_iff. destruct (has_star_b st (Z0_r st)) eqn:Eh; auto.
          apply has_star_b_spec in Eh. tauto.
      + intros j Hj (i & Hi & Hs).
        destruct (in_dec Nat.eq_dec j (map J (seq 0 (S q)))) as [Hin|Hout].
        * apply in_map_iff in Hin. destruct Hin as (a & Ea & Ha). apply in_seq in Ha. subst j.
          exists (I a). split; [apply HevenP; lia|]. apply Hstar'. left. exists a. split; [lia|auto].
        * exists i. split; auto. apply Hstar'. right. split; auto.
          intros (a & Ha & Ea). injection Ea as _ Ej. apply Hout. rewrite Ej.
          apply in_map. apply in_seq. lia.
  Qed.

  (** ** Step 3 *)
  Lemma length_nonzero2_rows (p : nat -> nat -> bool) : forall rows,
    (forall i j j', In i rows -> j < m -> j' < m -> p i j = true -> p i j' = true -> j = j') ->
    length (filter (fun ij => p (fst ij) (snd ij)) (list_prod rows (seq 0 m))) =
    length (filter (fun i => existsb (p i) (seq 0 m)) rows).
  Proof.
    induction rows as [|i rows IH]; intros H; simpl; auto.
    rewrite filter_app, app_length, IH by (intros; eapply H; eauto; right; auto).
    assert (E : length (filter (fun ij => p (fst ij) (snd ij)) (map (fun y => (i, y)) (seq 0 m))) =
            if existsb (p i) (seq 0 m) then 1 else 0).
    { assert (Hm : length (filter (fun ij => p (fst ij) (snd ij)) (map (fun y => (i, y)) (seq 0 m)))
                 = length (nonzero1 m (p i))).
      { unfold nonzero1. generalize (seq 0 m) as l. induction l as [|a l IHl]; simpl; auto.
        destruct (p i a); simpl; auto. }
      rewrite Hm. destruct (existsb (p i) (seq 0 m)) eqn:Ex.
      - apply existsb_exists in Ex. destruct Ex as (j & Hj & Ep). apply in_seq in Hj.
        destruct (nonzero1 m (p i)) as [|j1 [|j2 l]] eqn:Enz; simpl; auto.
        + rewrite nonzero1_nil in Enz. rewrite Enz in Ep by lia. discriminate.
        + exfalso.
          assert (HN : NoDup (nonzero1 m (p i))) by (apply NoDup_filter, seq_NoDup).
          assert (H1 : In j1 (nonzero1 m (p i))) by (rewrite Enz; simpl; auto).
          assert (H2 : In j2 (nonzero1 m (p i))) by (rewrite Enz; simpl; auto).
          apply in_nonzero1 in H1. apply in_nonzero1 in H2.
          assert (j1 = j2) by (apply (H i); simpl; tauto). subst.
          rewrite Enz in HN. inversion HN; subst. simpl in *. tauto.
      - destruct (nonzero1 m (p i)) as [|j1 l] eqn:Enz; simpl; auto.
        apply nonzero1_cons in Enz. destruct Enz as [Hj Ep].
        assert (existsb (p i) (seq 0 m) = true); [|congruence].
        apply existsb_exists. exists j1. split; auto. apply in_seq. lia. }
    rewrite E. destruct (existsb (p i) (seq 0 m)); simpl; lia.
  Qed.

  Lemma nonzero1_negb (f : nat -> bool) N :
    length (nonzero1 N f) + length (nonzero1 N (fun i => negb (f i))) = N.
  Proof.
    unfold nonzero1. rewrite <- (seq_length N 0) at 3.
    generalize (seq 0 N) as l. induction l as [|x l IH]; simpl; auto.
    destruct (f x); simpl; lia.
  Qed.

  Lemma cntfree_pos st i : i < n -> ~ starrow st i -> 1 <= cntfree st.
  Proof.
    intros Hi Hf. unfold cntfree.
    destruct (nonzero1 n (fun i => negb (has_star_b st i))) eqn:E; simpl; [|lia].
    rewrite nonzero1_nil in E. specialize (E i Hi). apply negb_false_iff in E.
    apply has_star_b_spec in E. tauto.
  Qed.

  Lemma cntfree_same st st' : same_stars st st' -> cntfree st = cntfree st'.
  Proof.
    intros H. unfold cntfree, nonzero1. f_equal. apply filter_ext_in.
    intros i Hi. apply in_seq in Hi. f_equal. apply Bool.eq_iff_eq_true.
    rewrite !has_star_b_spec. unfold starrow.
    split; intros (j & Hj & Hs); exists j; split; auto; apply (H i j); auto; lia.
  Qed.
  Lemma cntfree_le st : cntfree st <= n.
  Proof. apply nonzero1_len_le. Qed.
  Lemma cntunc_le st : cntunc st <= n.
  Proof. apply nonzero1_len_le. Qed.

  Lemma core_same k st st' : hC st' = hC st -> same_stars st st' -> core k st -> core k st'.
  Proof.
    intros EC Hss [H1 H2 H3 H4]. constructor.
    - intros i j Hi Hj. rewrite EC. auto.
    - intros i j Hi Hj Hs. unfold iszero. rewrite EC. apply H2; auto. apply Hss; auto.
    - intros i j j' Hi Hj Hj' Hs Hs'. apply (H3 i); auto; apply Hss; auto.
    - intros i i' j Hi Hi' Hj Hs Hs'. apply (H4 i i' j); auto; apply Hss; auto.
  Qed.

  Lemma step3_spec st k : inv3 k st ->
    exists st' s, step3 n m st = (st', s) /\ hC st' = hC st /\ same_stars st st' /\
      ((s = None /\ core k st' /\ forall i, i < n -> starrow st' i) \/
       (s = Some Step4 /\ inv4 k st')).
  Proof.
    intros [Hcore Hmarks Hr Hc]. unfold step3.
    set (cu := fun j => if existsb (fun i => is_star st i j) (seq 0 n) then false else col_uncovered st j).
    set (st' := set_col_uncovered st cu).
    assert (Hcnt : length (nonzero2 n m (is_star st)) + cntfree st = n).
    { unfold nonzero2, cntfree. rewrite length_nonzero2_rows.
      - apply (nonzero1_negb (has_star_b st)).
      - intros i j j' Hi Hj Hj' E E'. apply in_seq in Hi. apply is_star_spec in E, E'.
        apply (c_row _ _ Hcore i); auto; lia. }
    assert (Hss : same_stars st st') by (intros i j _ _; reflexivity).
    destruct (Nat.ltb_spec (length (nonzero2 n m (is_star st))) n) as [L|L].
    - exists st', (Some Step4). split; auto. split; auto. split; auto. right. split; auto.
      constructor; auto.
      + apply (core_same k st); auto.
      + exists (fun _ => 0), 1. constructor; simpl.
        * intros i Hi E. rewrite Hr in E; auto. discriminate.
        * intros j Hj E. unfold cu in E.
          destruct (existsb (fun i => is_star st i j) (seq 0 n)) eqn:Ex.
          -- apply existsb_exists in Ex. destruct Ex as (i & Hi & Es). apply in_seq in Hi.
             apply is_star_spec in Es. exists i. repeat split; auto; try lia. apply Hr. lia.
          -- rewrite Hc in E; auto. discriminate.
        * intros i j Hi Hj Hs E. unfold cu in E.
          assert (Ex : existsb (fun i => is_star st i j) (seq 0 n) = true).
          { apply existsb_exists. exists i. split; [apply in_seq; lia|]. apply is_star_spec; auto. }
          rewrite Ex in E. discriminate.
        * intros r Hr' E. simpl in E. rewrite Hr in E; auto. discriminate.
        * intros r j Hr' Hj E. rewrite Hr in E; auto. discriminate.
        * intros i Hi _. lia.
      + intros i j Hi Hj Hp. exfalso. apply (Hmarks i j); auto.
      + unfold cntfree in Hcnt.
        destruct (nonzero1 n (fun i => negb (has_star_b st i))) as [|i l] eqn:E; simpl in Hcnt; [lia|].
        apply nonzero1_cons in E. destruct E as [Hi E]. exists i. split; auto.
        intros Hs. apply negb_true_iff in E.
        assert (has_star_b st i = true) by (apply has_star_b_spec; exact Hs). congruence.
    - exists st', None. split; auto. split; auto. split; auto. left. split; auto. split.
      + apply (core_same k st); auto.
      + intros i Hi. assert (Hf : cntfree st = 0) by lia. unfold cntfree in Hf.
        destruct (nonzero1 n (fun i => negb (has_star_b st i))) eqn:E; simpl in Hf; [|lia].
        rewrite nonzero1_nil in E. specialize (E i Hi). apply negb_false_iff in E.
        apply has_star_b_spec in E. exact E.
  Qed.

  (** ** Step 1 *)
  Definition C1 (C : nat -> nat -> A) i j : A :=
    n_sub ops (C i j) (minimum ops (n_zero ops) (map (C i) (seq 0 m))).

  Record inv1 (st : hungary) : Prop := {
    i1_marks : forall i j, marked st i j = 0 \/ marked st i j = 1;
    i1_star : forall i j, star st i j -> iszero st i j /\ row_uncovered st i = false /\ col_uncovered st j = false;
    i1_row : forall i j j', star st i j -> star st i j' -> j = j';
    i1_col : forall i i' j, star st i j -> star st i' j -> i = i'
  }.

  Lemma step1_fold : forall l st, inv1 st ->
    (forall i j, In (i, j) l -> iszero st i j) ->
    inv1 (fold_left step1_star l st) /\ hC (fold_left step1_star l st) = hC st.
  Proof.
    induction l as [|[a b] l IH]; intros st Hinv Hl; cbn [fold_left]; [auto|].
    assert (Hst : inv1 (step1_star st (a, b)) /\ hC (step1_star st (a, b)) = hC st).
    { unfold step1_star. destruct (col_uncovered st b && row_uncovered st a) eqn:E; [|auto].
      apply andb_true_iff in E. destruct E as [Ec Er]. split; [|reflexivity].
      destruct Hinv as [H1 H2 H3 H4].
      assert (Hs : forall i j, upd2 (marked st) a b 1 i j = 1 -> (i = a /\ j = b) \/ star st i j).
      { intros i j. unfold upd2. destruct (Nat.eqb_spec i a); destruct (Nat.eqb_spec j b); simpl; auto. }
      constructor; unfold star; simpl.
      - intros i j. unfold upd2. destruct (Nat.eqb i a && Nat.eqb j b); auto.
      - intros i j Hij. apply Hs in Hij. destruct Hij as [[-> ->]|Hij].
        + rewrite !upd_eq. repeat split; auto. apply (Hl a b). simpl; auto.
        + destruct (H2 i j Hij) as (Hz & Hr & Hc). repeat split; auto; unfold upd.
          * destruct (Nat.eqb i a); auto.
          * destruct (Nat.eqb j b); auto.
      - intros i j j' E1 E2. apply Hs in E1. apply Hs in E2.
        destruct E1 as [[-> ->]|E1]; destruct E2 as [[E2 E3]|E2]; subst; auto.
        + destruct (H2 _ _ E2) as (_ & Hr & _). congruence.
        + destruct (H2 _ _ E1) as (_ & Hr & _). congruence.
        + apply (H3 i); auto.
      - intros i i' j E1 E2. apply Hs in E1. apply Hs in E2.
        destruct E1 as [[-> ->]|E1]; destruct E2 as [[E2 E3]|E2]; subst; auto.
        + destruct (H2 _ _ E2) as (_ & _ & Hr). congruence.
        + destruct (H2 _ _ E1) as (_ & _ & Hr). congruence.
        + apply (H4 i i' j); auto. }
    destruct Hst as [Hst1 Hst2]. destruct (IH _ Hst1) as [R1 R2].
    - intros i j Hij. unfold iszero. rewrite Hst2. apply Hl. simpl; auto.
    - split; auto. congruence.
  Qed.

  Lemma step1_spec C : 0 < K -> (forall i j, i < n -> j < m -> okv 0 (C i j)) ->
    inv3 1 (step1 ops n m (hungary_init C)) /\
    hC (step1 ops n m (hungary_init C)) = C1 C.
  Proof.
    intros HK Hok. unfold step1.
    set (st0 := set_C (hungary_init C) _).
    assert (E0 : hC st0 = C1 C) by reflexivity.
    destruct (step1_fold (nonzero2 n m (fun i j => n_is0 ops (hC st0 i j))) st0) as [Hi Hc].
    - constructor; unfold star; simpl; auto; discriminate.
    - intros i j Hij. apply in_nonzero2 in Hij. unfold iszero. tauto.
    - set (st1 := fold_left step1_star _ st0) in *.
      split; [|simpl; rewrite Hc; exact E0].
      destruct Hi as [H1 H2 H3 H4].
      constructor.
      + constructor; simpl.
        * intros i j Hi Hj. rewrite Hc, E0. unfold C1. apply nl_sub; auto.
          assert (Hin : In (minimum ops (n_zero ops) (map (C i) (seq 0 m))) (map (C i) (seq 0 m))).
          { apply minimum_in. intros E. apply map_eq_nil in E.
            apply (f_equal (@length nat)) in E. rewrite seq_length in E. simpl in E. lia. }
          apply in_map_iff in Hin. destruct Hin as (j' & Ej & Hj'). apply in_seq in Hj'.
          rewrite <- Ej. apply Hok; auto; lia.
        * intros i j Hi Hj Hs. apply (H2 i j); auto.
        * intros i j j' _ _ _. apply H3.
        * intros i i' j _ _ _. apply H4.
      + intros i j Hi Hj Hp. unfold prime in Hp. simpl in Hp.
        destruct (H1 i j) as [E|E]; rewrite E in Hp; discriminate.
      + reflexivity.
      + reflexivity.
  Qed.

  (** ** The whole run

      [P k C Tc Tr]: a property of the current matrix, at level k, and of the
      sets of columns and rows that hold a star. *)
  Variable P : nat -> (nat -> nat -> A) -> (nat -> Prop) -> (nat -> Prop) -> Prop.
  Hypothesis P_mono : forall k C (T T' S S' : nat -> Prop),
    (forall j, j < m -> T j -> T' j) -> (forall i, i < n -> S i -> S' i) -> P k C T S -> P k C T' S'.
  Hypothesis P_step6 : forall st k, inv4 k st -> S k < K ->
    P k (hC st) (starcol st) (starrow st) -> P (S (S k)) (C6 st) (starcol st) (starrow st).
  Notation PS k st := (P k (hC st) (starcol st) (starrow st)).

  Lemma starcol_same st st' : same_stars st st' -> forall j, j < m -> starcol st j -> starcol st' j.
  Proof. intros H j Hj (i & Hi & Hs). exists i. split; auto. apply H; auto. Qed.
  Lemma starrow_same st st' : same_stars st st' -> forall i, i < n -> starrow st i -> starrow st' i.
  Proof. intros H i Hi (j & Hj & Hs). exists j. split; auto. apply H; auto. Qed.

  Definition ready (s : step) (k fuel : nat) (st : hungary) : Prop :=
    match s with
    | Step1 => False
    | Step3 => inv3 k st /\ k + 2 * (n * cntfree st) <= K /\ 1 + cntfree st * (2 * n + 3) <= fuel
    | Step4 => inv4 k st /\ exists c,
        (c = n \/ (c + 1 = cntunc st /\
            exists i j, i < n /\ j < m /\ n_is0 ops (hC st i j) = true /\
            row_uncovered st i = true /\ col_uncovered st j = true)) /\
        k + 2 * (n * (cntfree st - 1) + c) <= K /\
        2 * c + 3 + (cntfree st - 1) * (2 * n + 3) <= fuel
    | Step5 => inv5 k st /\ k + 2 * (n * (cntfree st - 1)) <= K /\
        2 + (cntfree st - 1) * (2 * n + 3) <= fuel
    | Step6 => inv4 k st /\ k + 2 * (n * (cntfree st - 1) + cntunc st) <= K /\
        2 * cntunc st + 2 + (cntfree st - 1) * (2 * n + 3) <= fuel
    end.

  (** What holds whenever a step (after the first) is about to be taken. *)
  Definition at_step (s : step) (st : hungary) : Prop :=
    exists k, PS k st /\ k <= K /\ (s = Step6 -> inv4 k st /\ S k < K).
  (** [visits Q fuel s st]: Q holds of every step and state met by the driver loop. *)
  Fixpoint visits (Q : step -> hungary -> Prop) (fuel : nat) (s : option step) (st : hungary) : Prop :=
    match s with
    | None => True
    | Some s => Q s st /\
        match fuel with
        | O => True
        | S fuel => match do_step ops n m s st with
                    | Ok (st', s') => visits Q fuel s' st'
                    | Raise _ => True
                    end
        end
    end.

  Lemma run_spec : forall fuel s k st, ready s k fuel st -> PS k st ->
    (exists st' k', run ops n m fuel (Some s) st = Ok st' /\ core k' st' /\ k' <= K /\
      (forall i, i < n -> starrow st' i) /\ PS k' st') /\
    visits at_step fuel (Some s) st.
  Proof.
    induction fuel as [|fuel IH]; intros s k st Hready HP.
    { destruct s; cbn [ready] in Hready.
      - destruct Hready.
      - destruct Hready as (_ & _ & H). lia.
      - destruct Hready as (_ & c & _ & _ & H).
        generalize dependent ((cntfree st - 1) * (2 * n + 3)). intros; lia.
      - destruct Hready as (_ & _ & H).
        generalize dependent ((cntfree st - 1) * (2 * n + 3)). intros; lia.
      - destruct Hready as (_ & _ & H).
        generalize dependent ((cntfree st - 1) * (2 * n + 3)). intros; lia. }
    assert (Hat : s <> Step6 -> k <= K -> at_step s st).
    { intros Hs HkK. exists k. split; auto. split; auto. intros E; congruence. }
    destruct s; cbn [ready] in Hready; cbn [run do_step visits].
    - destruct Hready.
    - (* Step3 *)
      destruct Hready as (Hinv & HK & Hf).
      destruct (step3_spec st k Hinv) as (st' & s & E & EC & Hss & Hcase).
      rewrite E. simpl.
      assert (HP' : PS k st').
      { rewrite EC. apply P_mono with (3 := HP); [apply starcol_same|apply starrow_same]; auto. }
      destruct Hcase as [(-> & Hcore & Hall)|(-> & H4)].
      + split.
        * exists st', k. split; [destruct fuel; auto|]. split; auto. split; [lia|]. auto.
        * split; [apply Hat; [congruence|lia]|]. destruct fuel; simpl; auto.
      + destruct (IH Step4 k st') as [R1 R2]; auto.
        2:{ split; auto. split; auto. apply Hat; [congruence|lia]. }
        cbn [ready]. split; auto. exists n. split; auto.
        destruct (i4_free _ _ H4) as (i & Hi & Hfr). pose proof (cntfree_pos _ _ Hi Hfr).
        rewrite (cntfree_same _ _ Hss) in HK, Hf.
        destruct (cntfree st') as [|c]; [lia|]. simpl. rewrite Nat.sub_0_r. nia.
    - (* Step4 *)
      destruct Hready as (Hinv & c & Hc & HK & Hf).
      destruct (step4_spec st k Hinv) as (st' & s & E & EC & Hss & Hcase).
      rewrite E. simpl.
      assert (HP' : PS k st').
      { rewrite EC. apply P_mono with (3 := HP); [apply starcol_same|apply starrow_same]; auto. }
      rewrite (cntfree_same _ _ Hss) in HK, Hf.
      assert (HkK : k <= K) by nia.
      destruct Hcase as [(-> & H4 & Hle & Hlt)|(-> & H5)].
      + destruct (IH Step6 k st') as [R1 R2]; auto.
        2:{ split; auto. split; auto. apply Hat; [congruence|lia]. }
        cbn [ready]. split; auto.
        assert (Hcc : cntunc st' <= c).
        { destruct Hc as [->|[Hc Hex]]; [apply cntunc_le|]. specialize (Hlt Hex). lia. }
        split; nia.
      + destruct (IH Step5 k st') as [R1 R2]; auto.
        2:{ split; auto. split; auto. apply Hat; [congruence|lia]. }
        cbn [ready]. split; auto. split; nia.
    - (* Step5 *)
      destruct Hready as (Hinv & HK & Hf).
      destruct (step5_spec st k Hinv) as (st' & E & H3 & EC & Hlt & Hcols & Hrows).
      rewrite E. simpl. destruct (IH Step3 k st') as [R1 R2].
      + cbn [ready]. split; auto. split; nia.
      + rewrite EC. apply P_mono with (3 := HP); auto.
      + split; auto. split; auto. apply Hat; [congruence|lia].
    - (* Step6 *)
      destruct Hready as (Hinv & HK & Hf).
      assert (Hpos : 1 <= cntunc st).
      { destruct (inv4_unc_row _ _ Hinv) as (i & Hi & Hri). unfold cntunc.
        destruct (nonzero1 n (row_uncovered st)) eqn:E; simpl; [|lia].
        rewrite nonzero1_nil in E. rewrite E in Hri; auto. discriminate. }
      assert (Hk2 : S k < K).
      { generalize dependent (n * (cntfree st - 1)). intros; lia. }
      destruct (step6_inv st k Hinv Hk2) as (H4 & Hex & Hcu & Hss).
      destruct (IH Step4 (S (S k)) (step6 ops n m st)) as [R1 R2].
      + cbn [ready]. split; auto. exists (cntunc st - 1).
        rewrite <- (cntfree_same _ _ Hss).
        split; [right; split; [lia|exact Hex]|].
        generalize dependent (n * (cntfree st - 1)).
        generalize dependent ((cntfree st - 1) * (2 * n + 3)). intros; lia.
      + apply P_mono with (T := starcol st) (S := starrow st);
          [apply starcol_same; auto|apply starrow_same; auto|].
        rewrite (step6_eq _ _ Hinv). simpl. apply (P_step6 st k); auto.
      + split; auto. split; auto. exists k. split; auto. split; [lia|]. auto.
  Qed.

  Theorem hungarian_run_visits C :
    1 + 2 * (n * n) <= K ->
    (forall i j, i < n -> j < m -> okv 0 (C i j)) ->
    P 1 (C1 C) (fun _ => False) (fun _ => False) ->
    forall fuel, run_fuel n <= fuel ->
    (exists st', run ops n m fuel (Some Step1) (hungary_init C) = Ok st' /\
      exists k', core k' st' /\ k' <= K /\ (forall i, i < n -> starrow st' i) /\ PS k' st') /\
    visits (fun s st => s = Step1 /\ st = hungary_init C \/ at_step s st) fuel (Some Step1) (hungary_init C).
  Proof.
    intros HK Hok HP fuel Hfuel. unfold run_fuel in Hfuel.
    destruct fuel as [|fuel]; [lia|].
    destruct (step1_spec C ltac:(lia) Hok) as [H3 EC].
    set (st1 := step1 ops n m (hungary_init C)) in *.
    destruct (run_spec fuel Step3 1 st1) as [(st' & k' & E & Hcore & Hk' & Hall & HP') Hv].
    - cbn [ready]. split; auto. pose proof (cntfree_le st1). split; nia.
    - rewrite EC. apply P_mono with (3 := HP); tauto.
    - split; [exists st'; split; [exact E|]; exists k'; auto|].
      cbn [visits do_step]. split; [auto|]. fold st1.
      revert Hv. generalize (Some Step3) as s. generalize st1.
      clear - fuel. induction fuel as [|fuel IH]; intros st s; destruct s as [s|]; cbn [visits]; auto.
      + intros [H _]. auto.
      + intros [H Hv]. split; auto. destruct (do_step ops n m s st) as [[st' s']|]; auto.
  Qed.
End Structural.

(** The version for a property that does not depend on the level or on the rows. *)
Theorem hungarian_run {A : Type} (ops : num_ops A) (okv : nat -> A -> Prop) (K : nat)
  (laws : num_laws ops okv K) (n m : nat) (Hn : 0 < n) (Hnm : n <= m)
  (P : (nat -> nat -> A) -> (nat -> Prop) -> Prop)
  (P_mono : forall C (T T' : nat -> Prop), (forall j, j < m -> T j -> T' j) -> P C T -> P C T')
  (P_step6 : forall st k, inv4 ops okv n m k st -> P (hC st) (starcol n st) ->
     P (C6 ops n m st) (starcol n st))
  C : 1 + 2 * (n * n) <= K ->
    (forall i j, i < n -> j < m -> okv 0 (C i j)) ->
    P (C1 ops m C) (fun _ => False) ->
    forall fuel, run_fuel n <= fuel ->
    exists st', run ops n m fuel (Some Step1) (hungary_init C) = Ok st' /\
      (exists k', core ops okv n m k' st') /\ (forall i, i < n -> starrow m st' i) /\
      P (hC st') (starcol n st').
Proof.
  intros HK Hok HP fuel Hf.
  destruct (hungarian_run_visits ops okv K laws n m Hn Hnm (fun _ C T _ => P C T)) with (C := C) (fuel := fuel)
    as [(st' & E & k' & Hc & _ & Hall & HP') _]; auto.
  - intros k C0 T T' S S' HT _. apply P_mono. auto.
  - intros st k Hi _. apply (P_step6 st k); auto.
  - exists st'. eauto 6.
Qed.
