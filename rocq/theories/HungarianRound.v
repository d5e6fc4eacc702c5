(** * How far from optimal the Hungarian algorithm can be with rounded arithmetic

    The matrix kept by torch/hungarian.py is updated in place, so that the
    rounding errors accumulate.  Every entry stays below twice the spread of the
    costs (up to rounding), which bounds the accumulated error a priori, with
    no condition on the size of the matrix. *)
From Coq Require Import Reals Lra Permutation Sorted.
From Verif Require Import Prelude Hungarian HungarianProofs HungarianTop Spec.
Local Open Scope nat_scope.

Lemma abs_le_inv x y : (Rabs x <= y)%R -> (- y <= x <= y)%R.
Proof. unfold Rabs. destruct (Rcase_abs x); lra. Qed.

(** Weak duality with an error: same argument as [duality]. *)
Lemma duality_eps n m (c Cr : nat -> nat -> R) (a b : nat -> R) (e : R) l : n <= m ->
  (forall i j, i < n -> j < m -> (0 <= Cr i j)%R) ->
  (forall i j, i < n -> j < m -> (Rabs (c i j - (Cr i j + a i - b j)) <= e)%R) ->
  (forall j, j < m -> (0 <= b j)%R) ->
  (forall j, j < m -> b j <> 0%R -> exists i, In (i, j) l) ->
  (forall i j, In (i, j) l -> Cr i j = 0%R) ->
  complete_assignment n m l -> forall l', complete_assignment n m l' ->
  (total_cost c l <= total_cost c l' + 2 * INR n * e)%R.
Proof.
  intros Hnm HC Hc Hb Hbs Hz Hl l' Hl'.
  set (c' := fun i j => (Cr i j + a i - b j)%R).
  assert (Hopt : optimal_assignment n m c' l).
  { apply (duality n m c' Cr a (fun j => (- b j)%R)); auto.
    - intros j Hj. specialize (Hb j Hj). simpl. lra.
    - intros j Hj H. apply Hbs; auto. lra. }
  assert (Hdist : forall l, complete_assignment n m l ->
            (Rabs (total_cost c l - total_cost c' l) <= INR n * e)%R).
  { intros l0 (H1 & H2 & _). rewrite Nat.min_l in H1 by auto. rewrite <- H1. clear H1 Hz Hbs.
    unfold total_cost. induction l0 as [|[i j] l0 IH].
    - simpl. rewrite Rminus_diag_eq by reflexivity. rewrite Rabs_R0. lra.
    - cbn [map length fst snd]. rewrite S_INR.
      specialize (IH ltac:(intros x y Hxy; apply H2; right; exact Hxy)).
      destruct (H2 i j (or_introl eq_refl)) as [Hi Hj]. specialize (Hc i j Hi Hj).
      fold (c' i j) in Hc. cbn [sumR fold_right] in *.
      replace (c i j + sumR (map (fun p : nat * nat => c (fst p) (snd p)) l0) -
        (c' i j + sumR (map (fun p : nat * nat => c' (fst p) (snd p)) l0)))%R
        with ((c i j - c' i j) + (sumR (map (fun p : nat * nat => c (fst p) (snd p)) l0) -
                sumR (map (fun p : nat * nat => c' (fst p) (snd p)) l0)))%R by lra.
      eapply Rle_trans; [apply Rabs_triang|]. lra. }
  pose proof (Hdist l Hl) as D1. pose proof (Hdist l' Hl') as D2.
  destruct Hopt as [_ Hopt]. specialize (Hopt l' Hl').
  apply abs_le_inv in D1. apply abs_le_inv in D2. lra.
Qed.

(** Real numbers with perturbed addition and subtraction. *)
Definition near_ops (fadd fsub : R -> R -> R) : num_ops R :=
  {| n_zero := 0%R; n_add := fadd; n_sub := fsub; n_leb := Rleb; n_is0 := Ris0 |}.

Section Near.
  Variables fadd fsub : R -> R -> R.
  Variable fmt : R -> Prop.
  Variable u : R.
  Hypothesis Hu : (0 <= u <= 1)%R.
  Hypothesis fmt_add : forall x y, fmt x -> fmt y -> fmt (fadd x y).
  Hypothesis fmt_sub : forall x y, fmt x -> fmt y -> fmt (fsub x y).
  Hypothesis sub_self : forall x, fmt x -> fsub x x = 0%R.
  Hypothesis add_0 : forall v, fmt v -> fadd 0 v = v.
  Hypothesis add_err : forall x y, fmt x -> fmt y -> (Rabs (fadd x y - (x + y)) <= u * Rabs (x + y))%R.
  Hypothesis sub_err : forall x y, fmt x -> fmt y -> (Rabs (fsub x y - (x - y)) <= u * Rabs (x - y))%R.
  Hypothesis add_ge : forall x v, fmt x -> fmt v -> (0 <= x)%R -> (v <= fadd x v)%R.
  Notation ops := (near_ops fadd fsub).

  Lemma near_laws K : num_laws ops (fun _ => fmt) K.
  Proof.
    constructor; simpl; auto.
    - intros. apply Ris0_true. auto.
    - intros k x v _ Hx Hv H. apply Ris0_true in H. subst x. apply Ris0_true.
      rewrite add_0 by auto. auto.
  Qed.

  Lemma sub_nonneg x y : fmt x -> fmt y -> (y <= x)%R ->
    (0 <= fsub x y /\ Rabs (fsub x y - (x - y)) <= u * (x - y))%R.
  Proof.
    intros Hx Hy H. pose proof (sub_err x y Hx Hy) as E. rewrite (Rabs_pos_eq (x - y)) in E by lra.
    split; auto. apply abs_le_inv in E.
    assert (0 <= (1 - u) * (x - y))%R by (apply Rmult_le_pos; lra). lra.
  Qed.
  Lemma add_nonneg x y : fmt x -> fmt y -> (0 <= x)%R -> (0 <= y)%R ->
    (0 <= fadd x y /\ Rabs (fadd x y - (x + y)) <= u * (x + y))%R.
  Proof.
    intros Hx Hy Px Py. pose proof (add_err x y Hx Hy) as E. rewrite (Rabs_pos_eq (x + y)) in E by lra.
    split; auto. apply Rle_trans with y; auto.
  Qed.

  Section Run.
    Variables (n m : nat) (c : nat -> nat -> R) (D : R).
    Hypothesis Hn : 0 < n.
    Hypothesis Hnm : n <= m.
    Hypothesis c_fmt : forall i j, i < n -> j < m -> fmt (c i j).
    Hypothesis c_spread : forall i j j', i < n -> j < m -> j' < m -> (c i j - c i j' <= D)%R.

    Definition rowmin (i : nat) : R := minimum R_ops 0%R (map (c i) (seq 0 m)).
    Definition growth (k : nat) : R := ((1 + u) ^ (2 * k - 1))%R.

    Lemma D_nonneg : (0 <= D)%R.
    Proof. specialize (c_spread 0 0 0 ltac:(lia) ltac:(lia) ltac:(lia)). lra. Qed.
    Lemma growth_1 : growth 1 = (1 + u)%R.
    Proof. unfold growth. simpl. ring. Qed.
    Lemma growth_SS k : 1 <= k -> growth (S (S k)) = (growth k * ((1 + u) * (1 + u) * (1 + u) * (1 + u)))%R.
    Proof.
      intros Hk. unfold growth. replace (2 * S (S k) - 1) with ((2 * k - 1) + 4) by lia.
      rewrite pow_add. simpl. ring.
    Qed.
    Lemma growth_ge k : (1 <= growth k)%R.
    Proof. unfold growth. apply pow_R1_Rle. lra. Qed.
    Lemma growth_mono k k' : k <= k' -> (growth k <= growth k')%R.
    Proof. intros H. unfold growth. apply Rle_pow; [lra|lia]. Qed.

    Lemma rowmin_in i : exists j, j < m /\ rowmin i = c i j.
    Proof.
      assert (Hin : In (rowmin i) (map (c i) (seq 0 m))).
      { apply minimum_in. intros E. apply map_eq_nil in E.
        apply (f_equal (@length nat)) in E. rewrite seq_length in E. simpl in E. lia. }
      apply in_map_iff in Hin. destruct Hin as (j & E & Hj). apply in_seq in Hj. exists j. split; [lia|auto].
    Qed.
    Lemma rowmin_le i j : i < n -> j < m -> (0 <= c i j - rowmin i <= D)%R.
    Proof.
      intros Hi Hj. split.
      - assert (rowmin i <= c i j)%R; [|lra]. apply minimum_R_le. apply in_map. apply in_seq. lia.
      - destruct (rowmin_in i) as (j' & Hj' & E). rewrite E. apply c_spread; auto.
    Qed.

    Definition Pnear (k : nat) (C : nat -> nat -> R) (Tc Tr : nat -> Prop) : Prop :=
      1 <= k /\
      (forall i j, i < n -> j < m -> fmt (C i j) /\ (0 <= C i j)%R) /\
      exists (a b : nat -> R) (s : R), (0 <= s)%R /\
        (forall i j, i < n -> j < m ->
           (Rabs (c i j - rowmin i - (C i j + a i - b j)) <= growth k * D - D)%R) /\
        (forall i, i < n -> (0 <= a i)%R /\ (a i <> s -> Tr i)) /\
        (forall j, j < m -> (0 <= b j <= s)%R /\ (b j <> 0%R -> Tc j)).

    Notation inv := (inv4 ops (fun _ => fmt) n m).

    (** there is a column without a star *)
    Lemma inv4_free_col k st : inv k st -> exists j, j < m /\ ~ starcol n st j.
    Proof.
      intros Hinv. destruct (i4_free _ _ _ _ _ _ Hinv) as (i0 & Hi0 & Hf).
      pose proof (i4_core _ _ _ _ _ _ Hinv) as Hcore.
      set (sc := fun j => existsb (fun i => is_star st i j) (seq 0 n)).
      assert (Hsc : forall j, sc j = true <-> starcol n st j).
      { intros j. unfold sc, starcol. rewrite existsb_exists. split.
        - intros (i & Hi & Es). apply in_seq in Hi. apply is_star_spec in Es. exists i. split; [lia|auto].
        - intros (i & Hi & Hs). exists i. split; [apply in_seq; lia|]. apply is_star_spec; auto. }
      destruct (nonzero1 m (fun j => negb (sc j))) as [|j l] eqn:E.
      2:{ apply nonzero1_cons in E. destruct E as [Hj E]. exists j. split; auto.
          apply negb_true_iff in E. intros H. apply Hsc in H. congruence. }
      exfalso. rewrite nonzero1_nil in E.
      assert (HRq : forall q, q <= m -> exists L, length L = q /\ NoDup L /\
              forall i, In i L -> i < n /\ i <> i0 /\ exists j, j < q /\ star st i j).
      { induction q as [|q IH]; intros Hq.
        - exists []. split; [auto|]. split; [constructor|]. intros i [].
        - destruct IH as (L & HL & HN & HL'); [lia|].
          specialize (E q ltac:(lia)). apply negb_false_iff in E. apply Hsc in E.
          destruct E as (i & Hi & Hs).
          exists (i :: L). split; [simpl; lia|]. split.
          + constructor; auto. intros Hin. destruct (HL' i Hin) as (_ & _ & j & Hj & Hs').
            assert (j = q) by (apply (c_row _ _ _ _ _ _ Hcore i); auto; lia). lia.
          + intros i' [<-|Hin].
            * split; auto. split; [|exists q; split; auto].
              intros ->. apply Hf. exists q; split; auto.
            * destruct (HL' i' Hin) as (H1 & H2 & j & Hj & Hs').
              split; auto. split; auto. exists j. split; auto. }
      destruct (HRq m (le_n _)) as (L & HL & HN & HL').
      assert (Hlen : length (i0 :: L) <= length (seq 0 n)).
      { apply NoDup_incl_length.
        - constructor; auto. intros Hin. destruct (HL' i0 Hin) as (_ & H & _). auto.
        - intros i [<-|Hin]; apply in_seq; [lia|]. destruct (HL' i Hin). lia. }
      rewrite seq_length in Hlen. simpl in Hlen. lia.
    Qed.

    Notation mv := (minval6 ops n m).
    Lemma mv_fmt st k : inv k st -> fmt (mv st).
    Proof.
      intros Hinv. destruct (minval6_in ops _ n m Hn Hnm _ _ Hinv) as (i & j & Hi & Hj & _ & _ & E).
      rewrite E. apply (c_ok _ _ _ _ _ _ (i4_core _ _ _ _ _ _ Hinv)); auto.
    Qed.
    Lemma mv_le st i j : i < n -> j < m -> row_uncovered st i = true -> col_uncovered st j = true ->
      (mv st <= hC st i j)%R.
    Proof.
      intros Hi Hj Hr Hcu. unfold minval6.
      change (minimum R_ops 0%R (map (fun j => minimum R_ops 0%R
              (map (fun i => hC st i j) (nonzero1 n (row_uncovered st)))) (nonzero1 m (col_uncovered st)))
              <= hC st i j)%R.
      apply Rle_trans with (minimum R_ops 0%R (map (fun i => hC st i j) (nonzero1 n (row_uncovered st)))).
      - apply minimum_R_le. apply in_map_iff. exists j. split; auto. apply in_nonzero1; auto.
      - apply minimum_R_le. apply in_map_iff. exists i. split; auto. apply in_nonzero1; auto.
    Qed.

    (** the entries, and what is added to them in step 6, are bounded *)
    Lemma step6_range st k : inv k st -> Pnear k (hC st) (starcol n st) (starrow m st) ->
      (0 <= mv st <= growth k * D)%R /\
      (forall i j, i < n -> j < m -> (0 <= hC st i j /\ hC st i j + mv st <= 2 * (growth k * D))%R) /\
      forall a b s, (0 <= s)%R ->
        (forall i j, i < n -> j < m ->
           (Rabs (c i j - rowmin i - (hC st i j + a i - b j)) <= growth k * D - D)%R) ->
        (forall i, i < n -> (0 <= a i)%R /\ (a i <> s -> starrow m st i)) ->
        (forall j, j < m -> (0 <= b j <= s)%R /\ (b j <> 0%R -> starcol n st j)) ->
        (s + mv st <= growth k * D)%R.
    Proof.
      intros Hinv (Hk & HC & a & b & s & Hs & He & Ha & Hb).
      destruct (i4_cov _ _ _ _ _ _ Hinv) as (t & B & Hcov).
      destruct (i4_free _ _ _ _ _ _ Hinv) as (i0 & Hi0 & Hf0).
      destruct (inv4_free_col _ _ Hinv) as (j0 & Hj0 & Hg0).
      assert (Hr0 : row_uncovered st i0 = true).
      { destruct (row_uncovered st i0) eqn:E; auto. exfalso. apply Hf0.
        destruct (v_covrow _ _ _ _ _ _ Hcov i0 Hi0 E) as (j & Hj & Hst & _). exists j; auto. }
      assert (Hc0 : col_uncovered st j0 = true).
      { destruct (col_uncovered st j0) eqn:E; auto. exfalso. apply Hg0.
        destruct (v_covcol _ _ _ _ _ _ Hcov j0 Hj0 E) as (i & Hi & Hst & _). exists i; auto. }
      pose proof (mv_le st i0 j0 Hi0 Hj0 Hr0 Hc0) as Hm0.
      assert (Hmp : (0 <= mv st)%R).
      { destruct (minval6_in ops _ n m Hn Hnm _ _ Hinv) as (i & j & Hi & Hj & _ & _ & E).
        rewrite E. apply HC; auto. }
      assert (Hsum : forall a b s, (0 <= s)%R ->
        (forall i j, i < n -> j < m ->
           (Rabs (c i j - rowmin i - (hC st i j + a i - b j)) <= growth k * D - D)%R) ->
        (forall i, i < n -> (0 <= a i)%R /\ (a i <> s -> starrow m st i)) ->
        (forall j, j < m -> (0 <= b j <= s)%R /\ (b j <> 0%R -> starcol n st j)) ->
        (s + mv st <= growth k * D)%R).
      { clear a b s Hs He Ha Hb. intros a b s Hs He Ha Hb.
        assert (Ea : a i0 = s).
        { destruct (Req_EM_T (a i0) s) as [|Hne]; auto. exfalso. apply Hf0, Ha; auto. }
        assert (Eb : b j0 = 0%R).
        { destruct (Req_EM_T (b j0) 0) as [|Hne]; auto. exfalso. apply Hg0, Hb; auto. }
        specialize (He i0 j0 Hi0 Hj0). rewrite Ea, Eb in He. apply abs_le_inv in He.
        pose proof (rowmin_le i0 j0 Hi0 Hj0). lra. }
      pose proof (Hsum a b s Hs He Ha Hb) as Hsb.
      split; [lra|]. split; [|exact Hsum].
      intros i j Hi Hj. split; [apply HC; auto|].
      specialize (He i j Hi Hj). apply abs_le_inv in He.
      pose proof (rowmin_le i j Hi Hj). destruct (Ha i Hi) as [Ha1 _]. destruct (Hb j Hj) as [Hb1 _]. lra.
    Qed.

    Lemma Pnear_step6 st k : inv k st -> Pnear k (hC st) (starcol n st) (starrow m st) ->
      Pnear (S (S k)) (C6 ops n m st) (starcol n st) (starrow m st).
    Proof.
      intros Hinv HP.
      destruct (step6_range st k Hinv HP) as (Hmv & Hrange & Hsum).
      pose proof (mv_fmt st k Hinv) as Hmf.
      destruct HP as (Hk & HC & a & b & s & Hs & He & Ha & Hb).
      specialize (Hsum a b s Hs He Ha Hb).
      destruct (i4_cov _ _ _ _ _ _ Hinv) as (t & B & Hcov).
      set (d := mv st) in *. set (G := (growth k * D)%R) in *.
      assert (HG : (0 <= G)%R) by lra.
      assert (Hg4 : (growth (S (S k)) * D = G * ((1 + u) * (1 + u) * (1 + u) * (1 + u)))%R).
      { rewrite growth_SS by auto. unfold G. ring. }
      (* the value after rounding, and the error of one step *)
      assert (Hstep : forall i j, i < n -> j < m ->
        let ex := (hC st i j + (if row_uncovered st i then 0 else d) - (if col_uncovered st j then d else 0))%R in
        fmt (C6 ops n m st i j) /\ (0 <= C6 ops n m st i j)%R /\
        (Rabs (C6 ops n m st i j - ex) <= 2 * u * (2 + u) * G)%R).
      { intros i j Hi Hj. cbv zeta. destruct (HC i j Hi Hj) as [HCf HCp].
        destruct (Hrange i j Hi Hj) as [_ Hup].
        pose proof (mv_le st i j Hi Hj) as Hmin. fold d in Hmin.
        assert (HuG : (0 <= u * G)%R) by (apply Rmult_le_pos; lra).
        assert (HuuG : (0 <= u * u * G)%R) by (apply Rmult_le_pos; [apply Rmult_le_pos; lra|lra]).
        assert (Hbig : forall v, (0 <= v <= 2 * (1 + u) * G)%R -> (u * v <= 2 * u * G + 2 * (u * u * G))%R).
        { intros v Hv. apply Rle_trans with (u * (2 * (1 + u) * G))%R; [apply Rmult_le_compat_l; lra|lra]. }
        unfold C6. fold d. cbn [n_add n_sub near_ops].
        destruct (row_uncovered st i); destruct (col_uncovered st j).
        - specialize (Hmin eq_refl eq_refl).
          destruct (sub_nonneg (hC st i j) d HCf Hmf Hmin) as [R1 R2].
          split; [auto|]. split; auto. rewrite Rplus_0_r.
          assert (u * (hC st i j - d) <= u * (2 * G))%R by (apply Rmult_le_compat_l; lra). lra.
        - split; auto. split; auto.
          replace (hC st i j - (hC st i j + 0 - 0))%R with 0%R by lra. rewrite Rabs_R0. lra.
        - destruct (add_nonneg (hC st i j) d HCf Hmf HCp ltac:(lra)) as [R1 R2].
          pose proof (add_ge (hC st i j) d HCf Hmf HCp) as R3.
          set (w := fadd (hC st i j) d) in *.
          assert (Hwf : fmt w) by (apply fmt_add; auto).
          destruct (sub_nonneg w d Hwf Hmf R3) as [R4 R5].
          split; [auto|]. split; auto.
          assert (Hu1 : (u * (hC st i j + d) <= u * (2 * G))%R) by (apply Rmult_le_compat_l; lra).
          pose proof R2 as R2'. apply abs_le_inv in R2'.
          assert (Hu2 : (u * (w - d) <= 2 * u * G + 2 * (u * u * G))%R) by (apply Hbig; lra).
          replace (fsub w d - (hC st i j + d - d))%R with ((fsub w d - (w - d)) + (w - (hC st i j + d)))%R by lra.
          eapply Rle_trans; [apply Rabs_triang|]. lra.
        - destruct (add_nonneg (hC st i j) d HCf Hmf HCp ltac:(lra)) as [R1 R2].
          split; [auto|]. split; auto. rewrite Rminus_0_r.
          assert (u * (hC st i j + d) <= u * (2 * G))%R by (apply Rmult_le_compat_l; lra). lra. }
      assert (Hbudget : (G - D + 2 * u * (2 + u) * G <= growth (S (S k)) * D - D)%R).
      { rewrite Hg4. fold G. clear - HG Hu. clearbody G.
        assert (0 <= u * u * G)%R by (apply Rmult_le_pos; [apply Rmult_le_pos; lra|lra]).
        assert (0 <= u * u * u * G)%R by (repeat apply Rmult_le_pos; lra).
        assert (0 <= u * u * u * u * G)%R by (repeat apply Rmult_le_pos; lra).
        nra. }
      split; [lia|]. split.
      { intros i j Hi Hj. destruct (Hstep i j Hi Hj) as (H1 & H2 & _). auto. }
      exists (fun i => if row_uncovered st i then (a i + d)%R else a i),
             (fun j => if col_uncovered st j then b j else (b j + d)%R), (s + d)%R.
      split; [lra|]. split; [|split].
      - intros i j Hi Hj. destruct (Hstep i j Hi Hj) as (_ & _ & H3). specialize (He i j Hi Hj).
        match type of H3 with (Rabs (_ - ?ex) <= _)%R => set (x := ex) in * end.
        set (y := C6 ops n m st i j) in *. cbn beta.
        replace (c i j - rowmin i - (y + (if row_uncovered st i then a i + d else a i) -
           (if col_uncovered st j then b j else b j + d)))%R
          with ((c i j - rowmin i - (hC st i j + a i - b j)) - (y - x))%R.
        2:{ unfold x. destruct (row_uncovered st i); destruct (col_uncovered st j); lra. }
        unfold Rminus at 1. eapply Rle_trans; [apply Rabs_triang|]. rewrite Rabs_Ropp. lra.
      - intros i Hi. destruct (Ha i Hi) as [Ha1 Ha2]. destruct (row_uncovered st i) eqn:E.
        + split; [lra|]. intros Hne. apply Ha2. lra.
        + split; auto. intros _.
          destruct (v_covrow _ _ _ _ _ _ Hcov i Hi E) as (j & Hj & Hst & _). exists j; auto.
      - intros j Hj. destruct (Hb j Hj) as [Hb1 Hb2]. destruct (col_uncovered st j) eqn:E.
        + split; [lra|]. auto.
        + split; [lra|]. intros _.
          destruct (v_covcol _ _ _ _ _ _ Hcov j Hj E) as (i & Hi & Hst & _). exists i; auto.
    Qed.

    Lemma Pnear_start : Pnear 1 (C1 ops m c) (fun _ => False) (fun _ => False).
    Proof.
      assert (H : forall i j, i < n -> j < m -> fmt (C1 ops m c i j) /\ (0 <= C1 ops m c i j)%R /\
                 (Rabs (C1 ops m c i j - (c i j - rowmin i)) <= u * D)%R).
      { intros i j Hi Hj. change (C1 ops m c i j) with (fsub (c i j) (rowmin i)).
        destruct (rowmin_in i) as (j' & Hj' & E).
        assert (Hf : fmt (rowmin i)) by (rewrite E; auto).
        pose proof (rowmin_le i j Hi Hj).
        destruct (sub_nonneg (c i j) (rowmin i) (c_fmt i j Hi Hj) Hf ltac:(lra)) as [H1 H2].
        split; auto. split; auto. eapply Rle_trans; [apply H2|]. apply Rmult_le_compat_l; lra. }
      split; [lia|]. split.
      - intros i j Hi Hj. destruct (H i j Hi Hj) as (H1 & H2 & _). auto.
      - exists (fun _ => 0%R), (fun _ => 0%R), 0%R. split; [lra|]. split; [|split].
        + intros i j Hi Hj. destruct (H i j Hi Hj) as (_ & _ & H3). rewrite growth_1.
          rewrite <- Rabs_Ropp.
          replace (- (c i j - rowmin i - (C1 ops m c i j + 0 - 0)))%R
            with (C1 ops m c i j - (c i j - rowmin i))%R by lra. lra.
        + intros i Hi. split; [lra|]. congruence.
        + intros j Hj. split; [lra|]. congruence.
    Qed.

    Lemma Pnear_mono k C (T T' S S' : nat -> Prop) :
      (forall j, j < m -> T j -> T' j) -> (forall i, i < n -> S i -> S' i) ->
      Pnear k C T S -> Pnear k C T' S'.
    Proof.
      intros HT HS (Hk & HC & a & b & s & Hs & He & Ha & Hb).
      split; auto. split; auto. exists a, b, s. split; auto. split; auto. split.
      - intros i Hi. destruct (Ha i Hi). auto.
      - intros j Hj. destruct (Hb j Hj). auto.
    Qed.

    (** The bound for a matrix with at least as many columns as rows. *)
    Lemma run_near fuel : run_fuel n <= fuel ->
      (exists st, run ops n m fuel (Some Step1) (hungary_init c) = Ok st /\
        complete_assignment n m (nonzero2 n m (is_star st)) /\
        forall l', complete_assignment n m l' ->
          (total_cost c (nonzero2 n m (is_star st)) <=
           total_cost c l' + 2 * INR n * (((1 + u) ^ (4 * (n * n) + 1) - 1) * D))%R) /\
      visits ops n m (fun s st => s = Step1 /\ st = hungary_init c \/
        at_step ops (fun _ => fmt) (1 + 2 * (n * n)) n m Pnear s st) fuel (Some Step1) (hungary_init c).
    Proof.
      intros Hfuel.
      destruct (hungarian_run_visits ops (fun _ => fmt) (1 + 2 * (n * n)) (near_laws _) n m Hn Hnm Pnear
        Pnear_mono (fun st k Hi _ HP => Pnear_step6 st k Hi HP) c (le_n _) c_fmt Pnear_start fuel Hfuel)
        as [(st & E & k & Hcore & Hk & Hall & (Hk1 & HC & a & b & s & Hs & He & Ha & Hb)) Hv].
      split; [|exact Hv].
      exists st. split; auto.
      assert (Hcomp : complete_assignment n m (nonzero2 n m (is_star st))).
      { destruct (matching_complete n m (is_star st)) as (Hc & _ & _); auto.
        - intros i j j' Hi Hj Hj' E1 E2. apply (c_row _ _ _ _ _ _ Hcore i j j'); auto; apply is_star_spec; auto.
        - intros i i' j Hi Hj Hj' E1 E2. apply (c_col _ _ _ _ _ _ Hcore i i' j); auto; apply is_star_spec; auto.
        - intros i Hi. destruct (Hall i Hi) as (j & Hj & Hst). exists j. split; auto. apply is_star_spec; auto. }
      split; auto. intros l' Hl'.
      apply (duality_eps n m c (hC st) (fun i => rowmin i + a i)%R b); auto.
      - intros i j Hi Hj. apply HC; auto.
      - intros i j Hi Hj. specialize (He i j Hi Hj).
        replace (c i j - (hC st i j + (rowmin i + a i) - b j))%R
          with (c i j - rowmin i - (hC st i j + a i - b j))%R by lra.
        eapply Rle_trans; [apply He|].
        pose proof (growth_mono k (1 + 2 * (n * n)) Hk) as Hg. unfold growth in Hg at 2.
        replace (2 * (1 + 2 * (n * n)) - 1) with (4 * (n * n) + 1) in Hg by lia.
        pose proof D_nonneg.
        assert (growth k * D <= (1 + u) ^ (4 * (n * n) + 1) * D)%R by (apply Rmult_le_compat_r; auto). lra.
      - intros j Hj. apply Hb; auto.
      - intros j Hj Hne. destruct (Hb j Hj) as [_ H]. destruct (H Hne) as (i & Hi & Hst).
        exists i. apply in_nonzero2. repeat split; auto. apply is_star_spec; auto.
      - intros i j Hij. apply in_nonzero2 in Hij. destruct Hij as (Hi & Hj & Es).
        apply is_star_spec in Es. apply Ris0_true. apply (c_star0 _ _ _ _ _ _ Hcore i j); auto.
    Qed.
  End Run.
End Near.

(** ** From a run to [linear_sum_assignment], with the transposition *)
Definition near_assignment (n m : nat) (c : nat -> nat -> R) (b : R) (l : list (nat * nat)) : Prop :=
  complete_assignment n m l /\
  forall l', complete_assignment n m l' -> (total_cost c l <= total_cost c l' + b)%R.

Lemma NoDup_map_inj {A B} (f : A -> B) l x y : NoDup (map f l) -> In x l -> In y l -> f x = f y -> x = y.
Proof.
  induction l as [|z l IH]; simpl; intros HN Hx Hy E; [tauto|].
  inversion HN as [|? ? H1 H2]; subst.
  destruct Hx as [->|Hx]; destruct Hy as [->|Hy]; auto.
  - exfalso. apply H1. rewrite E. apply in_map. auto.
  - exfalso. apply H1. rewrite <- E. apply in_map. auto.
Qed.

Lemma lsa_from_run {A} (ops : num_ops A) n m (C : nat -> nat -> A) (c : nat -> nat -> R) (b : R) fuel :
  (0 <= b)%R ->
  (0 < n -> n <= m -> exists st, run ops n m fuel (Some Step1) (hungary_init C) = Ok st /\
     near_assignment n m c b (nonzero2 n m (is_star st))) ->
  (0 < m -> m < n -> exists st, run ops m n fuel (Some Step1) (hungary_init (fun i j => C j i)) = Ok st /\
     near_assignment m n (fun i j => c j i) b (nonzero2 m n (is_star st))) ->
  exists l, linear_sum_assignment ops fuel n m C = Ok l /\ near_assignment n m c b l /\ rows_increasing l.
Proof.
  intros Hb H1 H2. unfold linear_sum_assignment.
  assert (Hfst : forall n m (p : nat -> nat -> bool), NoDup (map fst (nonzero2 n m p)) ->
            map fst (nonzero2 n m p) = nonzero1 n (fun i => existsb (p i) (seq 0 m))).
  { intros n0 m0 p HN. apply nonzero2_fst. intros i j j' Hi Hj Hj' E1 E2.
    assert (E : (i, j) = (i, j')); [|congruence].
    apply (NoDup_map_inj fst _ _ _ HN); auto; apply in_nonzero2; auto. }
  destruct (Nat.eqb_spec (Nat.min n m) 0) as [E0|E0].
  - exists []. split; [|split; [|constructor]].
    + assert (Hempty : forall p, nonzero2 n m p = []).
      { intros p. apply nonzero2_nil. intros; lia. }
      destruct (Nat.ltb_spec m n) as [L|L].
      * replace (Nat.eqb m 0 || Nat.eqb n 0) with true.
        -- destruct fuel; simpl; rewrite Hempty; reflexivity.
        -- symmetry. apply orb_true_iff. rewrite !Nat.eqb_eq. lia.
      * replace (Nat.eqb n 0 || Nat.eqb m 0) with true.
        -- destruct fuel; simpl; rewrite Hempty; reflexivity.
        -- symmetry. apply orb_true_iff. rewrite !Nat.eqb_eq. lia.
    + split.
      * split; [auto|]. split; [intros i j []|]. split; constructor.
      * intros l' (HL & _). rewrite E0 in HL. destruct l'; [|discriminate]. lra.
  - destruct (Nat.ltb_spec m n) as [L|L].
    + replace (Nat.eqb m 0 || Nat.eqb n 0) with false.
      2:{ symmetry. apply orb_false_iff. rewrite !Nat.eqb_neq. lia. }
      destruct (H2 ltac:(lia) L) as (st & E & Hc & Hopt). rewrite E. simpl.
      eexists. split; [reflexivity|].
      assert (HN : NoDup (map fst (nonzero2 n m (fun i j => is_star st j i)))).
      { rewrite nonzero2_fst; [apply NoDup_filter, seq_NoDup|].
        intros i j j' Hi Hj Hj' E1 E2. destruct Hc as (_ & _ & _ & Hs).
        assert (Ep : (j, i) = (j', i)); [|congruence].
        apply (NoDup_map_inj snd _ _ _ Hs); auto; apply in_nonzero2; auto. }
      assert (Hperm : Permutation (nonzero2 n m (fun i j => is_star st j i))
                        (map swap (nonzero2 m n (is_star st)))).
      { apply NoDup_Permutation.
        - apply (NoDup_of_map fst). exact HN.
        - apply (NoDup_of_map snd). rewrite map_snd_swap. apply Hc.
        - intros [i j]. rewrite in_nonzero2, in_map_iff. split.
          + intros (Hi & Hj & Hs). exists (j, i). split; auto. apply in_nonzero2. auto.
          + intros ([x y] & Eab & Hab). unfold swap in Eab; simpl in Eab. inversion Eab; subst.
            apply in_nonzero2 in Hab. tauto. }
      apply complete_swap in Hc. destruct Hc as (K1 & K2 & K3 & K4).
      split; [split|].
      * split; [|split; [|split]].
        -- rewrite (Permutation_length Hperm). auto.
        -- intros i j Hij. apply in_nonzero2 in Hij. tauto.
        -- exact HN.
        -- apply (Permutation_NoDup (Permutation_sym (Permutation_map snd Hperm))). auto.
      * intros l' Hl'. rewrite (total_cost_perm c _ _ Hperm), total_cost_swap.
        specialize (Hopt (map swap l') (complete_swap _ _ _ Hl')).
        rewrite total_cost_swap in Hopt. exact Hopt.
      * unfold rows_increasing. rewrite Hfst by exact HN. apply filter_sorted, seq_sorted.
    + replace (Nat.eqb n 0 || Nat.eqb m 0) with false.
      2:{ symmetry. apply orb_false_iff. rewrite !Nat.eqb_neq. lia. }
      destruct (H1 ltac:(lia) L) as (st & E & Hc & Hopt). rewrite E. simpl.
      eexists. split; [reflexivity|]. split; [split; auto|].
      unfold rows_increasing. rewrite Hfst by apply Hc. apply filter_sorted, seq_sorted.
Qed.

(** (1 + u)^k - 1 <= 2 k u for small k u *)
Lemma pow_growth u k : (0 <= u)%R -> (INR k * u <= 1 / 2)%R -> ((1 + u) ^ k - 1 <= 2 * (INR k * u))%R.
Proof.
  intros Hu Hk.
  assert (H1 : ((1 + u) ^ k * (1 - INR k * u) <= 1)%R).
  { clear Hk. induction k as [|k IH]; [simpl; lra|].
    rewrite S_INR. cbn [pow].
    apply Rle_trans with ((1 + u) ^ k * (1 - INR k * u))%R; [|exact IH].
    assert (Hp : (0 <= (1 + u) ^ k)%R) by (apply pow_le; lra).
    replace ((1 + u) * (1 + u) ^ k * (1 - (INR k + 1) * u))%R
      with ((1 + u) ^ k * ((1 + u) * (1 - (INR k + 1) * u)))%R by ring.
    apply Rmult_le_compat_l; auto.
    pose proof (pos_INR k). assert (0 <= INR k * u * u)%R by (repeat apply Rmult_le_pos; auto).
    assert (0 <= u * u)%R by (apply Rmult_le_pos; auto). nra. }
  set (x := (INR k * u)%R) in *.
  assert (Hx : (0 <= x)%R) by (unfold x; apply Rmult_le_pos; auto; apply pos_INR).
  assert (H2 : (1 <= (1 + 2 * x) * (1 - x))%R) by nra.
  apply Rmult_le_reg_r with (1 - x)%R; [lra|].
  lra.
Qed.

Section NearLsa.
  Variables fadd fsub : R -> R -> R.
  Variable fmt : R -> Prop.
  Variable u : R.
  Hypothesis Hu : (0 <= u <= 1)%R.
  Hypothesis fmt_add : forall x y, fmt x -> fmt y -> fmt (fadd x y).
  Hypothesis fmt_sub : forall x y, fmt x -> fmt y -> fmt (fsub x y).
  Hypothesis sub_self : forall x, fmt x -> fsub x x = 0%R.
  Hypothesis add_0 : forall v, fmt v -> fadd 0 v = v.
  Hypothesis add_err : forall x y, fmt x -> fmt y -> (Rabs (fadd x y - (x + y)) <= u * Rabs (x + y))%R.
  Hypothesis sub_err : forall x y, fmt x -> fmt y -> (Rabs (fsub x y - (x - y)) <= u * Rabs (x - y))%R.
  Hypothesis add_ge : forall x v, fmt x -> fmt v -> (0 <= x)%R -> (v <= fadd x v)%R.

  Definition near_bound (N : nat) (D : R) : R :=
    (2 * INR N * (((1 + u) ^ (4 * (N * N) + 1) - 1) * D))%R.

  Theorem lsa_near n m (c : nat -> nat -> R) D fuel : (0 <= D)%R ->
    (forall i j, i < n -> j < m -> fmt (c i j)) ->
    (forall i j i' j', i < n -> j < m -> i' < n -> j' < m -> (c i j - c i' j' <= D)%R) ->
    run_fuel (Nat.min n m) <= fuel ->
    exists l, linear_sum_assignment (near_ops fadd fsub) fuel n m c = Ok l /\
      near_assignment n m c (near_bound (Nat.min n m) D) l /\ rows_increasing l.
  Proof.
    intros HD Hf Hs Hfuel. apply lsa_from_run.
    - unfold near_bound. pose proof (pos_INR (Nat.min n m)).
      assert (1 <= (1 + u) ^ (4 * (Nat.min n m * Nat.min n m) + 1))%R by (apply pow_R1_Rle; lra).
      apply Rmult_le_pos; [lra|]. apply Rmult_le_pos; lra.
    - intros Hn Hnm. rewrite Nat.min_l in * by auto.
      destruct (run_near fadd fsub fmt u Hu fmt_add fmt_sub sub_self add_0 add_err sub_err add_ge
        n m c D Hn Hnm Hf ltac:(auto) fuel Hfuel) as [(st & E & Hc & Hopt) _].
      exists st. split; auto. split; auto.
    - intros Hm Hmn. rewrite Nat.min_r in * by lia.
      destruct (run_near fadd fsub fmt u Hu fmt_add fmt_sub sub_self add_0 add_err sub_err add_ge
        m n (fun i j => c j i) D Hm ltac:(lia) (fun i j Hi Hj => Hf j i Hj Hi)
        (fun i j j' Hi Hj Hj' => Hs j i j' i Hj Hi Hj' Hi) fuel Hfuel) as [(st & E & Hc & Hopt) _].
      exists st. split; auto. split; auto.
  Qed.

  (** The bound spelled out when N^2 u is small. *)
  Lemma near_bound_small N D : (0 <= D)%R -> (INR (4 * (N * N) + 1) * u <= 1 / 2)%R ->
    (near_bound N D <= 4 * INR N * INR (4 * (N * N) + 1) * u * D)%R.
  Proof.
    intros HD Hk. unfold near_bound. pose proof (pow_growth u _ (proj1 Hu) Hk) as H.
    set (k := INR (4 * (N * N) + 1)) in *. pose proof (pos_INR N).
    replace (4 * INR N * k * u * D)%R with (2 * INR N * ((2 * (k * u)) * D))%R by ring.
    apply Rmult_le_compat_l; [lra|]. apply Rmult_le_compat_r; auto.
  Qed.
End NearLsa.
