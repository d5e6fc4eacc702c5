(** * Proofs about helpers.py: assignment with infinite entries, permutation solving *)
From Coq Require Import Reals Lra Permutation Sorted.
From Verif Require Import Prelude ExtReal Hungarian HungarianTop Helpers Spec.
Local Open Scope nat_scope.

Lemma existsb2_true n m p : existsb2 n m p = true <-> exists i j, i < n /\ j < m /\ p i j = true.
Proof.
  unfold existsb2. destruct (nonzero2 n m p) as [|[i j] l] eqn:E; split.
  - discriminate.
  - intros (i & j & Hi & Hj & H). rewrite nonzero2_nil in E. rewrite E in H; auto.
  - intros _. exists i, j. apply nonzero2_cons in E. auto.
  - auto.
Qed.
Lemma existsb2_false n m p : existsb2 n m p = false <-> forall i j, i < n -> j < m -> p i j = false.
Proof.
  unfold existsb2. destruct (nonzero2 n m p) as [|[i j] l] eqn:E; split; auto.
  - intros _. apply nonzero2_nil. auto.
  - discriminate.
  - intros H. apply nonzero2_cons in E. destruct E as (Hi & Hj & Hp). rewrite H in Hp; auto.
Qed.

Section WithScipy.
  Variable sp : scipy_lsa.
  Hypothesis Hsp : lsa_contract sp.

  Lemma lsa_spec b n m C :
    (forall i j, i < n -> j < m -> is_fin (C i j) = true) ->
    exists l, lsa b sp n m C = Ok l /\
      optimal_assignment n m (fun i j => to_R (C i j)) l /\ rows_increasing l.
  Proof.
    intros HC. unfold lsa.
    replace (existsb2 n m (fun i j => negb (is_fin (C i j)))) with false.
    2:{ symmetry. apply existsb2_false. intros i j Hi Hj. rewrite HC; auto. }
    destruct b.
    - exists (sp n m (fun i j => to_R (C i j))). split; [reflexivity|]. apply Hsp.
    - apply lsa_optimal. lia.
  Qed.

  Lemma empty_optimal n m c : n * m = 0 -> optimal_assignment n m c [] /\ rows_increasing [].
  Proof.
    intros H. assert (E : Nat.min n m = 0) by (destruct n, m; simpl in *; lia).
    split; [|constructor]. split.
    - split; [auto|]. split; [intros i j []|]. split; constructor.
    - intros l' (H1 & _). rewrite E in H1. destruct l'; [|discriminate]. apply Rle_refl.
  Qed.

  Theorem lsa_inf_finite b n m C :
    (forall i j, i < n -> j < m -> is_fin (C i j) = true) ->
    exists l, lsa_with_inf b sp n m C = Ok l /\
      optimal_assignment n m (fun i j => to_R (C i j)) l /\ rows_increasing l.
  Proof.
    intros HC. unfold lsa_with_inf.
    destruct (match b with Torch => n * m =? 0 | NumPy => false end) eqn:Eb.
    { exists []. split; auto. destruct b; [discriminate|]. apply Nat.eqb_eq in Eb.
      apply empty_optimal; auto. }
    replace (existsb2 n m (fun i j => is_neginf (C i j))) with false.
    2:{ symmetry. apply existsb2_false. intros i j Hi Hj. specialize (HC i j Hi Hj).
        destruct (C i j); auto; discriminate. }
    replace (existsb2 n m (fun i j => is_posinf (C i j))) with false.
    2:{ symmetry. apply existsb2_false. intros i j Hi Hj. specialize (HC i j Hi Hj).
        destruct (C i j); auto; discriminate. }
    simpl. apply lsa_spec; auto.
  Qed.

  (** ** NaN entries *)
  Lemma fold_xmin_nan l : forall x, x = NaN \/ In NaN l -> fold_left xmin l x = NaN.
  Proof.
    induction l as [|y l IH]; simpl; intros x [H|H]; try tauto.
    - apply IH. left. subst. auto.
    - apply IH. destruct H as [->|H]; auto. left. destruct x; auto.
  Qed.
  Lemma fold_xmax_nan l : forall x, x = NaN \/ In NaN l -> fold_left xmax l x = NaN.
  Proof.
    induction l as [|y l IH]; simpl; intros x [H|H]; try tauto.
    - apply IH. left. subst. auto.
    - apply IH. destruct H as [->|H]; auto. left. destruct x; auto.
  Qed.
  Lemma xadd_nan_r a : xadd a NaN = NaN. Proof. destruct a; auto. Qed.
  Lemma xmul_nan_r a : xmul a NaN = NaN. Proof. destruct a; auto. Qed.

  Lemma in_entries n m C v : In v (entries n m C) <-> exists i j, i < n /\ j < m /\ v = C i j.
  Proof.
    unfold entries. rewrite in_map_iff. split.
    - intros ([i j] & E & H). apply in_prod_iff in H. rewrite !in_seq in H. exists i, j.
      simpl in E. repeat split; auto; lia.
    - intros (i & j & Hi & Hj & E). exists (i, j). split; auto. apply in_prod_iff. rewrite !in_seq. lia.
  Qed.

  Theorem lsa_inf_nan b n m C i0 j0 : i0 < n -> j0 < m -> C i0 j0 = NaN ->
    lsa_with_inf b sp n m C = Raise ValueError.
  Proof.
    intros Hi Hj Hn. unfold lsa_with_inf.
    replace (match b with Torch => n * m =? 0 | NumPy => false end) with false.
    2:{ destruct b; auto. symmetry. apply Nat.eqb_neq. nia. }
    assert (HL : forall D, D i0 j0 = NaN -> lsa b sp n m D = Raise ValueError).
    { intros D HD. unfold lsa.
      replace (existsb2 n m (fun i j => negb (is_fin (D i j)))) with true; auto.
      symmetry. apply existsb2_true. exists i0, j0. rewrite HD. auto. }
    destruct (existsb2 n m (fun i j => is_neginf (C i j))) eqn:E1;
    destruct (existsb2 n m (fun i j => is_posinf (C i j))) eqn:E2; simpl; auto.
    - destruct (filter (fun v => negb (is_inf v)) (entries n m C)) as [|v l] eqn:Ef; simpl.
      + assert (Hin : In NaN (filter (fun v => negb (is_inf v)) (entries n m C))).
        { apply filter_In. split; auto. apply in_entries. exists i0, j0. auto. }
        rewrite Ef in Hin. destruct Hin.
      + apply HL. rewrite Hn. reflexivity.
    - destruct (filter (fun v => negb (is_inf v)) (entries n m C)) as [|v l] eqn:Ef; simpl.
      + assert (Hin : In NaN (filter (fun v => negb (is_inf v)) (entries n m C))).
        { apply filter_In. split; auto. apply in_entries. exists i0, j0. auto. }
        rewrite Ef in Hin. destruct Hin.
      + apply HL. rewrite Hn. reflexivity.
  Qed.

  (** ** Unhandled infinities *)
  Theorem lsa_inf_both b n m C i j i' j' :
    i < n -> j < m -> i' < n -> j' < m -> C i j = PInf -> C i' j' = NInf ->
    lsa_with_inf b sp n m C = Raise ValueError.
  Proof.
    intros Hi Hj Hi' Hj' H H'. unfold lsa_with_inf.
    replace (match b with Torch => n * m =? 0 | NumPy => false end) with false.
    2:{ destruct b; auto. symmetry. apply Nat.eqb_neq. nia. }
    replace (existsb2 n m (fun i j => is_neginf (C i j))) with true.
    2:{ symmetry. apply existsb2_true. exists i', j'. rewrite H'. auto. }
    replace (existsb2 n m (fun i j => is_posinf (C i j))) with true; auto.
    symmetry. apply existsb2_true. exists i, j. rewrite H. auto.
  Qed.

  Theorem lsa_inf_all b n m C : 0 < n -> 0 < m ->
    (forall i j, i < n -> j < m -> is_inf (C i j) = true) ->
    raises (lsa_with_inf b sp n m C).
  Proof.
    intros Hn Hm H. unfold lsa_with_inf.
    replace (match b with Torch => n * m =? 0 | NumPy => false end) with false.
    2:{ destruct b; auto. symmetry. apply Nat.eqb_neq. nia. }
    assert (Hf : filter (fun v => negb (is_inf v)) (entries n m C) = []).
    { destruct (filter (fun v => negb (is_inf v)) (entries n m C)) as [|v l] eqn:Ef; auto.
      assert (Hin : In v (filter (fun v => negb (is_inf v)) (entries n m C))) by (rewrite Ef; simpl; auto).
      apply filter_In in Hin. destruct Hin as [Hin E]. apply in_entries in Hin.
      destruct Hin as (i & j & Hi & Hj & ->). rewrite H in E; auto. discriminate. }
    rewrite Hf. simpl.
    destruct (existsb2 n m (fun i j => is_neginf (C i j))) eqn:E1;
    destruct (existsb2 n m (fun i j => is_posinf (C i j))) eqn:E2; simpl; try (eexists; reflexivity).
    exfalso. specialize (H 0 0 Hn Hm).
    rewrite existsb2_false in E1, E2. specialize (E1 0 0 Hn Hm). specialize (E2 0 0 Hn Hm).
    simpl in *. destruct (C 0 0); discriminate.
  Qed.

  (** ** One-sided infinities *)
  Lemma fold_xmin_fin l : forall x, exists r, fold_left xmin (map Fin l) (Fin x) = Fin r /\
    (r <= x)%R /\ (forall y, In y l -> (r <= y)%R) /\ (r = x \/ In r l).
  Proof.
    induction l as [|y l IH]; intros x; cbn [map fold_left].
    - exists x. split; auto. split; [lra|]. split; [intros y []|auto].
    - rewrite xmin_fin. destruct (IH (Rmin x y)) as (r & E & H1 & H2 & H3).
      pose proof (Rmin_l x y). pose proof (Rmin_r x y).
      exists r. split; auto. split; [lra|]. split.
      + intros z [<-|Hz]; [lra|auto].
      + destruct H3 as [->|H3]; [|simpl; auto]. unfold Rmin. destruct (Rle_dec x y); simpl; auto.
  Qed.
  Lemma fold_xmax_fin l : forall x, exists r, fold_left xmax (map Fin l) (Fin x) = Fin r /\
    (x <= r)%R /\ (forall y, In y l -> (y <= r)%R) /\ (r = x \/ In r l).
  Proof.
    induction l as [|y l IH]; intros x; cbn [map fold_left].
    - exists x. split; auto. split; [lra|]. split; [intros y []|auto].
    - rewrite xmax_fin. destruct (IH (Rmax x y)) as (r & E & H1 & H2 & H3).
      pose proof (Rmax_l x y). pose proof (Rmax_r x y).
      exists r. split; auto. split; [lra|]. split.
      + intros z [<-|Hz]; [lra|auto].
      + destruct H3 as [->|H3]; [|simpl; auto]. unfold Rmax. destruct (Rle_dec x y); simpl; auto.
  Qed.

  Lemma values_spec n m C i0 j0 r0 :
    (forall i j, i < n -> j < m -> is_nan (C i j) = false) ->
    i0 < n -> j0 < m -> C i0 j0 = Fin r0 ->
    exists mi ma, (forall b, values_min b (filter (fun v => negb (is_inf v)) (entries n m C)) = Ok (Fin mi)) /\
      (forall b, values_max b (filter (fun v => negb (is_inf v)) (entries n m C)) = Ok (Fin ma)) /\
      (mi <= ma)%R /\
      forall i j r, i < n -> j < m -> C i j = Fin r -> (mi <= r <= ma)%R.
  Proof.
    intros Hnan Hi Hj H0.
    set (vs := filter (fun v => negb (is_inf v)) (entries n m C)).
    assert (Hvs : vs = map Fin (map to_R vs)).
    { rewrite map_map. rewrite <- (map_id vs) at 1. apply map_ext_in. intros v Hv.
      unfold vs in Hv. apply filter_In in Hv. destruct Hv as [Hv E]. apply in_entries in Hv.
      destruct Hv as (i & j & Hi' & Hj' & ->). specialize (Hnan i j Hi' Hj').
      destruct (C i j); auto; discriminate. }
    assert (Hin : forall i j r, i < n -> j < m -> C i j = Fin r -> In r (map to_R vs)).
    { intros i j r Hi' Hj' E. apply in_map_iff. exists (Fin r). split; auto.
      unfold vs. apply filter_In. split; auto. apply in_entries. exists i, j. auto. }
    rewrite Hvs. destruct (map to_R vs) as [|x l] eqn:El.
    { destruct (Hin i0 j0 r0 Hi Hj H0). }
    cbn [map values_min values_max].
    destruct (fold_xmin_fin l x) as (mi & E1 & A1 & A2 & A3).
    destruct (fold_xmax_fin l x) as (ma & E2 & B1 & B2 & B3).
    exists mi, ma. rewrite E1, E2. split; auto. split; auto. split; [lra|].
    intros i j r Hi' Hj' E. specialize (Hin i j r Hi' Hj' E). destruct Hin as [<-|Hin]; [lra|].
    split; auto.
  Qed.

  Lemma total_split (P : R) (C : nat -> nat -> xr) (inf : xr -> bool) l :
    (forall v, inf v = true -> to_R v = 0%R) ->
    total_cost (fun i j => if inf (C i j) then P else to_R (C i j)) l =
    (INR (length (filter (fun p => inf (C (fst p) (snd p))) l)) * P + finite_sum C l)%R.
  Proof.
    intros Hinf. unfold finite_sum, total_cost. induction l as [|[i j] l IH]; simpl; [lra|].
    rewrite IH. destruct (inf (C i j)) eqn:E.
    - rewrite (Hinf _ E). cbn [length]. rewrite S_INR. lra.
    - lra.
  Qed.

  Lemma finite_sum_bounds (C : nat -> nat -> xr) (inf : xr -> bool) mi ma l :
    (forall i j, In (i, j) l -> inf (C i j) = false -> (mi <= to_R (C i j) <= ma)%R) ->
    (forall v, inf v = true -> to_R v = 0%R) ->
    let k := length (filter (fun p => inf (C (fst p) (snd p))) l) in
    k <= length l /\
    (INR (length l - k) * mi <= finite_sum C l <= INR (length l - k) * ma)%R.
  Proof.
    intros HC Hinf. unfold finite_sum, total_cost. induction l as [|[i j] l IH].
    - simpl. split; [lia|]. lra.
    - cbn [map filter fst snd sumR].
      destruct IH as [IH1 IH2]; [intros; apply HC; simpl; auto|].
      destruct (inf (C i j)) eqn:E.
      + rewrite (Hinf _ E). cbn [length]. split; [lia|]. rewrite Nat.sub_succ. lra.
      + specialize (HC i j ltac:(simpl; auto) E). cbn [length]. split; [lia|].
        rewrite Nat.sub_succ_l by lia. rewrite S_INR. lra.
  Qed.

  Lemma placeholder_pos mi ma (N : nat) : (mi <= ma)%R -> 1 <= N ->
    (0 < INR N * (ma - mi + Rabs ma + Rabs mi + 1))%R.
  Proof.
    intros H HN. apply Rmult_lt_0_compat.
    - apply lt_0_INR. lia.
    - pose proof (Rabs_pos ma). pose proof (Rabs_pos mi). lra.
  Qed.

  Theorem lsa_inf_pos b n m C i0 j0 r0 :
    (forall i j, i < n -> j < m -> is_nan (C i j) = false /\ C i j <> NInf) ->
    i0 < n -> j0 < m -> C i0 j0 = Fin r0 ->
    exists l, lsa_with_inf b sp n m C = Ok l /\
      complete_assignment n m l /\ rows_increasing l /\
      forall l', complete_assignment n m l' ->
        n_posinf C l < n_posinf C l' \/
        (n_posinf C l = n_posinf C l' /\ (finite_sum C l <= finite_sum C l')%R).
  Proof.
    intros HC Hi0 Hj0 H0.
    destruct (existsb2 n m (fun i j => is_posinf (C i j))) eqn:Emax.
    2:{ (* no infinite entry at all *)
      rewrite existsb2_false in Emax.
      assert (Hfin : forall i j, i < n -> j < m -> is_fin (C i j) = true).
      { intros i j Hi Hj. specialize (Emax i j Hi Hj). destruct (HC i j Hi Hj).
        destruct (C i j); auto; discriminate || congruence. }
      destruct (lsa_inf_finite b n m C Hfin) as (l & E & [Hc Hopt] & Hs).
      exists l. split; auto. split; auto. split; auto. intros l' Hl'.
      assert (Hz : forall l, complete_assignment n m l -> n_posinf C l = 0).
      { intros l0 (_ & Hr & _). unfold n_posinf.
        destruct (filter (fun p => is_posinf (C (fst p) (snd p))) l0) as [|[i j] q] eqn:Ef; auto.
        assert (Hin : In (i, j) (filter (fun p => is_posinf (C (fst p) (snd p))) l0)) by (rewrite Ef; simpl; auto).
        apply filter_In in Hin. destruct Hin as [Hin Ep]. destruct (Hr _ _ Hin).
        simpl in Ep. rewrite Emax in Ep; auto. discriminate. }
      right. rewrite !Hz by auto. split; [reflexivity|exact (Hopt l' Hl')]. }
    destruct (values_spec n m C i0 j0 r0) as (mi & ma & Emi & Ema & Hle & Hbd); auto.
    { intros i j Hi Hj. apply HC; auto. }
    unfold lsa_with_inf.
    replace (match b with Torch => n * m =? 0 | NumPy => false end) with false.
    2:{ destruct b; auto. symmetry. apply Nat.eqb_neq. nia. }
    replace (existsb2 n m (fun i j => is_neginf (C i j))) with false.
    2:{ symmetry. apply existsb2_false. intros i j Hi Hj. destruct (HC i j Hi Hj).
        destruct (C i j); auto. congruence. }
    rewrite Emax, Emi, Ema. cbn [andb orb bind].
    set (N := Nat.min n m). assert (HN : 1 <= N) by (unfold N; lia).
    set (pos := (INR N * (ma - mi + Rabs ma + Rabs mi + 1))%R).
    assert (Hpos : (0 < pos)%R) by (apply placeholder_pos; auto).
    set (P := (ma + (INR N - 1) * (ma - mi) + pos)%R).
    match goal with |- context [if is_inf _ then ?ph else _] => assert (Eph : ph = Fin P) end.
    { simpl. unfold P, pos. f_equal; ring. }
    rewrite Eph.
    destruct (lsa_spec b n m (fun i j => if is_inf (C i j) then Fin P else C i j)) as (l & E & [Hc Hopt] & Hs).
    { intros i j Hi Hj. destruct (HC i j Hi Hj). destruct (C i j); auto. }
    exists l. split; auto. split; auto. split; auto. intros l' Hl'.
    specialize (Hopt l' Hl').
    assert (Htot : forall l, complete_assignment n m l ->
      total_cost (fun i j => to_R (if is_inf (C i j) then Fin P else C i j)) l =
      (INR (n_posinf C l) * P + finite_sum C l)%R).
    { intros l0 (_ & Hr & _). unfold n_posinf. rewrite <- (total_split P C is_posinf l0).
      2:{ intros v. destruct v; simpl; congruence. }
      unfold total_cost. apply sumR_map_ext. intros [i j] Hij. destruct (Hr _ _ Hij) as [Hi Hj].
      destruct (HC i j Hi Hj). simpl. destruct (C i j); simpl; auto. congruence. }
    rewrite (Htot l Hc), (Htot l' Hl') in Hopt.
    assert (Hbounds : forall l, complete_assignment n m l -> n_posinf C l <= N /\
      (INR (N - n_posinf C l) * mi <= finite_sum C l <= INR (N - n_posinf C l) * ma)%R).
    { intros l0 Hl0. pose proof Hl0 as (Hlen & Hr & _). unfold N. rewrite <- Hlen.
      apply (finite_sum_bounds C is_posinf mi ma l0).
      - intros i j Hij Ep. destruct (Hr _ _ Hij) as [Hi Hj]. destruct (HC i j Hi Hj).
        specialize (Hbd i j). destruct (C i j); simpl in *; try congruence. apply Hbd; auto.
      - intros v. destruct v; simpl; congruence. }
    destruct (Hbounds l Hc) as [Hk [Hlo _]]. destruct (Hbounds l' Hl') as [Hk' [_ Hhi]].
    set (k := n_posinf C l) in *. set (k' := n_posinf C l') in *.
    destruct (Nat.lt_trichotomy k k') as [L|[L|L]]; auto.
    - right. split; auto. rewrite L in Hopt. lra.
    - exfalso. rewrite minus_INR in Hlo, Hhi by auto.
      assert (A1 : (INR k' + 1 <= INR k)%R) by (rewrite <- S_INR; apply le_INR; lia).
      assert (A2 : (1 <= INR k)%R) by (replace 1%R with (INR 1) by reflexivity; apply le_INR; lia).
      assert (A3 : (INR k <= INR N)%R) by (apply le_INR; lia).
      assert (A4 : (INR k * P - INR k' * P <= finite_sum C l' - finite_sum C l)%R) by lra.
      assert (A5 : (finite_sum C l' - finite_sum C l <= (INR N - INR k) * (ma - mi) + (INR k - INR k') * ma)%R) by lra.
      assert (A6 : ((INR k - INR k') * (P - ma) <= (INR N - INR k) * (ma - mi))%R) by lra.
      assert (A7 : (P - ma = (INR N - 1) * (ma - mi) + pos)%R) by (unfold P; ring).
      assert (A8 : (0 <= (INR N - 1) * (ma - mi))%R) by (apply Rmult_le_pos; lra).
      assert (A9 : (P - ma <= (INR k - INR k') * (P - ma))%R).
      { rewrite <- (Rmult_1_l (P - ma)) at 1. apply Rmult_le_compat_r; lra. }
      assert (A10 : ((INR N - INR k) * (ma - mi) <= (INR N - 1) * (ma - mi))%R).
      { apply Rmult_le_compat_r; lra. }
      lra.
  Qed.

  Theorem lsa_inf_neg b n m C i0 j0 r0 :
    (forall i j, i < n -> j < m -> is_nan (C i j) = false /\ C i j <> PInf) ->
    i0 < n -> j0 < m -> C i0 j0 = Fin r0 ->
    exists l, lsa_with_inf b sp n m C = Ok l /\
      complete_assignment n m l /\ rows_increasing l /\
      forall l', complete_assignment n m l' ->
        n_neginf C l > n_neginf C l' \/
        (n_neginf C l = n_neginf C l' /\ (finite_sum C l <= finite_sum C l')%R).
  Proof.
    intros HC Hi0 Hj0 H0.
    destruct (existsb2 n m (fun i j => is_neginf (C i j))) eqn:Emax.
    2:{ rewrite existsb2_false in Emax.
      assert (Hfin : forall i j, i < n -> j < m -> is_fin (C i j) = true).
      { intros i j Hi Hj. specialize (Emax i j Hi Hj). destruct (HC i j Hi Hj).
        destruct (C i j); auto; discriminate || congruence. }
      destruct (lsa_inf_finite b n m C Hfin) as (l & E & [Hc Hopt] & Hs).
      exists l. split; auto. split; auto. split; auto. intros l' Hl'.
      assert (Hz : forall l, complete_assignment n m l -> n_neginf C l = 0).
      { intros l0 (_ & Hr & _). unfold n_neginf.
        destruct (filter (fun p => is_neginf (C (fst p) (snd p))) l0) as [|[i j] q] eqn:Ef; auto.
        assert (Hin : In (i, j) (filter (fun p => is_neginf (C (fst p) (snd p))) l0)) by (rewrite Ef; simpl; auto).
        apply filter_In in Hin. destruct Hin as [Hin Ep]. destruct (Hr _ _ Hin).
        simpl in Ep. rewrite Emax in Ep; auto. discriminate. }
      right. rewrite !Hz by auto. split; [reflexivity|exact (Hopt l' Hl')]. }
    destruct (values_spec n m C i0 j0 r0) as (mi & ma & Emi & Ema & Hle & Hbd); auto.
    { intros i j Hi Hj. apply HC; auto. }
    unfold lsa_with_inf.
    replace (match b with Torch => n * m =? 0 | NumPy => false end) with false.
    2:{ destruct b; auto. symmetry. apply Nat.eqb_neq. nia. }
    replace (existsb2 n m (fun i j => is_posinf (C i j))) with false.
    2:{ symmetry. apply existsb2_false. intros i j Hi Hj. destruct (HC i j Hi Hj).
        destruct (C i j); auto. congruence. }
    rewrite Emax, Emi, Ema. cbn [andb orb bind].
    set (N := Nat.min n m). assert (HN : 1 <= N) by (unfold N; lia).
    set (pos := (INR N * (ma - mi + Rabs ma + Rabs mi + 1))%R).
    assert (Hpos : (0 < pos)%R) by (apply placeholder_pos; auto).
    set (P := (mi + (INR N - 1) * (mi - ma) - pos)%R).
    match goal with |- context [if is_inf _ then ?ph else _] => assert (Eph : ph = Fin P) end.
    { simpl. unfold P, pos. f_equal; ring. }
    rewrite Eph.
    destruct (lsa_spec b n m (fun i j => if is_inf (C i j) then Fin P else C i j)) as (l & E & [Hc Hopt] & Hs).
    { intros i j Hi Hj. destruct (HC i j Hi Hj). destruct (C i j); auto. }
    exists l. split; auto. split; auto. split; auto. intros l' Hl'.
    specialize (Hopt l' Hl').
    assert (Htot : forall l, complete_assignment n m l ->
      total_cost (fun i j => to_R (if is_inf (C i j) then Fin P else C i j)) l =
      (INR (n_neginf C l) * P + finite_sum C l)%R).
    { intros l0 (_ & Hr & _). unfold n_neginf. rewrite <- (total_split P C is_neginf l0).
      2:{ intros v. destruct v; simpl; congruence. }
      unfold total_cost. apply sumR_map_ext. intros [i j] Hij. destruct (Hr _ _ Hij) as [Hi Hj].
      destruct (HC i j Hi Hj). simpl. destruct (C i j); simpl; auto. congruence. }
    rewrite (Htot l Hc), (Htot l' Hl') in Hopt.
    assert (Hbounds : forall l, complete_assignment n m l -> n_neginf C l <= N /\
      (INR (N - n_neginf C l) * mi <= finite_sum C l <= INR (N - n_neginf C l) * ma)%R).
    { intros l0 Hl0. pose proof Hl0 as (Hlen & Hr & _). unfold N. rewrite <- Hlen.
      apply (finite_sum_bounds C is_neginf mi ma l0).
      - intros i j Hij Ep. destruct (Hr _ _ Hij) as [Hi Hj]. destruct (HC i j Hi Hj).
        specialize (Hbd i j). destruct (C i j); simpl in *; try congruence. apply Hbd; auto.
      - intros v. destruct v; simpl; congruence. }
    destruct (Hbounds l Hc) as [Hk [Hlo _]]. destruct (Hbounds l' Hl') as [Hk' [_ Hhi]].
    set (k := n_neginf C l) in *. set (k' := n_neginf C l') in *.
    destruct (Nat.lt_trichotomy k k') as [L|[L|L]]; auto.
    - exfalso. rewrite minus_INR in Hlo, Hhi by auto.
      assert (A1 : (INR k + 1 <= INR k')%R) by (rewrite <- S_INR; apply le_INR; lia).
      assert (A2 : (1 <= INR k')%R) by (replace 1%R with (INR 1) by reflexivity; apply le_INR; lia).
      assert (A3 : (INR k' <= INR N)%R) by (apply le_INR; lia).
      assert (A4 : (INR k * P - INR k' * P <= finite_sum C l' - finite_sum C l)%R) by lra.
      assert (A5 : (finite_sum C l' - finite_sum C l <= (INR N - INR k') * (ma - mi) - (INR k' - INR k) * mi)%R) by lra.
      assert (A6 : ((INR k' - INR k) * (mi - P) <= (INR N - INR k') * (ma - mi))%R) by lra.
      assert (A7 : (mi - P = (INR N - 1) * (ma - mi) + pos)%R) by (unfold P; ring).
      assert (A8 : (0 <= (INR N - 1) * (ma - mi))%R) by (apply Rmult_le_pos; lra).
      assert (A9 : (mi - P <= (INR k' - INR k) * (mi - P))%R).
      { rewrite <- (Rmult_1_l (mi - P)) at 1. apply Rmult_le_compat_r; lra. }
      assert (A10 : ((INR N - INR k') * (ma - mi) <= (INR N - 1) * (ma - mi))%R).
      { apply Rmult_le_compat_r; lra. }
      lra.
    - right. split; auto. rewrite L in Hopt. lra.
  Qed.

  (** Whatever the entries, a returned assignment is complete and row-sorted. *)
  Theorem lsa_inf_complete b n m C l : lsa_with_inf b sp n m C = Ok l ->
    complete_assignment n m l /\ rows_increasing l.
  Proof.
    assert (HL : forall D l, lsa b sp n m D = Ok l -> complete_assignment n m l /\ rows_increasing l).
    { intros D l0 E. destruct (existsb2 n m (fun i j => negb (is_fin (D i j)))) eqn:Ex.
      - unfold lsa in E. rewrite Ex in E. discriminate.
      - destruct (lsa_spec b n m D) as (l1 & E1 & [Hc _] & Hs).
        { intros i j Hi Hj. rewrite existsb2_false in Ex. specialize (Ex i j Hi Hj).
          apply negb_false_iff in Ex. exact Ex. }
        rewrite E in E1. inversion E1; subst. auto. }
    unfold lsa_with_inf.
    destruct (match b with Torch => n * m =? 0 | NumPy => false end) eqn:Eb.
    { intros E. inversion E; subst. destruct b; [discriminate|]. apply Nat.eqb_eq in Eb.
      destruct (empty_optimal n m (fun _ _ => 0%R) Eb) as [[H _] H']. auto. }
    destruct (existsb2 n m (fun i j => is_neginf (C i j)) && existsb2 n m (fun i j => is_posinf (C i j)));
      [discriminate|].
    destruct (existsb2 n m (fun i j => is_neginf (C i j)) || existsb2 n m (fun i j => is_posinf (C i j))).
    - destruct (values_min b _); simpl; [|discriminate].
      destruct (values_max b _); simpl; [|discriminate]. apply HL.
    - apply HL.
  Qed.

  (** ** _solve_permutation *)
  Lemma sorted_seq : forall (l : list nat) a n, StronglySorted lt l -> length l = n ->
    (forall x, In x l -> a <= x < a + n) -> l = seq a n.
  Proof.
    induction l as [|x l IH]; intros a n Hs Hlen Hr.
    - simpl in Hlen. subst. reflexivity.
    - simpl in Hlen. destruct n as [|n]; [lia|]. inversion Hs as [|? ? Hs' Hf]; subst.
      rewrite Forall_forall in Hf.
      assert (Hrec : forall y, In y l -> S x <= y < a + S n).
      { intros y Hy. specialize (Hf y Hy). specialize (Hr y ltac:(simpl; auto)). lia. }
      assert (Hx : x = a).
      { specialize (Hr x ltac:(simpl; auto)).
        (* n distinct values in (x, a+n] *)
        assert (Hlen2 : length l <= length (seq (S x) (a + S n - S x))).
        { apply NoDup_incl_length.
          - clear -Hs'. induction Hs' as [|y l Hs IH Hf]; constructor; auto.
            intros Hin. rewrite Forall_forall in Hf. specialize (Hf y Hin). lia.
          - intros y Hy. apply in_seq. specialize (Hrec y Hy). lia. }
        rewrite seq_length in Hlen2. lia. }
      subst x. simpl. f_equal. apply IH; auto; try lia.
      intros y Hy. specialize (Hrec y Hy). lia.
  Qed.

  Lemma assignment_rows n m l : n <= m -> complete_assignment n m l -> rows_increasing l ->
    map fst l = seq 0 n.
  Proof.
    intros Hnm (Hlen & Hr & _) Hs. apply sorted_seq; auto.
    - rewrite map_length. lia.
    - intros x Hx. apply in_map_iff in Hx. destruct Hx as ([i j] & E & Hij). simpl in E. subst.
      destruct (Hr _ _ Hij). lia.
  Qed.
End WithScipy.
