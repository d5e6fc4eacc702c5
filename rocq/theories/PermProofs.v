(** * Proofs about _solve_permutation *)
From Coq Require Import Reals Lra Permutation Sorted.
From Verif Require Import Prelude ExtReal Hungarian HungarianTop Helpers Spec HelpersProofs.
Local Open Scope nat_scope.

Section WithScipy.
  Variable sp : scipy_lsa.
  Hypothesis Hsp : lsa_contract sp.

  (** the pairs of a row-sorted assignment, rows = smaller side *)
  Lemma rows_pairs n m l : n <= m -> complete_assignment n m l -> rows_increasing l ->
    l = map (fun i => (i, nth i (map snd l) 0)) (seq 0 n).
  Proof.
    intros Hnm Hc Hs. pose proof (assignment_rows n m l Hnm Hc Hs) as Hf.
    destruct Hc as (Hlen & _).
    apply nth_ext with (d := (0, 0)) (d' := (0, 0)).
    - rewrite map_length, seq_length. lia.
    - intros i Hi.
      rewrite (nth_indep (map (fun i => (i, nth i (map snd l) 0)) (seq 0 n)) (0, 0)
        ((fun i => (i, nth i (map snd l) 0)) 0)) by (rewrite map_length, seq_length; lia).
      rewrite (map_nth (fun i => (i, nth i (map snd l) 0))).
      rewrite seq_nth by lia. cbn [plus].
      assert (H1 : fst (nth i l (0, 0)) = i).
      { rewrite <- (map_nth fst), Hf. cbn [fst]. apply seq_nth. lia. }
      assert (H2 : snd (nth i l (0, 0)) = nth i (map snd l) 0).
      { rewrite <- (map_nth snd). reflexivity. }
      rewrite <- H2. rewrite <- H1 at 2. apply surjective_pairing.
  Qed.

  Definition side (n_ref n_est : nat) (l : list (nat * nat)) : list (nat * nat) :=
    if n_ref <=? n_est then l else map swap l.

  Lemma swap_swap {A B} (l : list (A * B)) : map swap (map swap l) = l.
  Proof. rewrite map_map. rewrite <- (map_id l) at 2. apply map_ext. intros [a b]; reflexivity. Qed.

  (** What solve_permutation does, in terms of the assignment solver. *)
  Lemma solve_perm_unfold b n_ref n_est loss args out outs perm :
    solve_permutation b sp n_ref n_est loss args = Ok (out, outs, perm) ->
    let n := Nat.min n_ref n_est in
    let m := Nat.max n_ref n_est in
    let tr := fun (M : nat -> nat -> xr) => if n_ref <=? n_est then M else (fun i j => M j i) in
    exists l, lsa_with_inf b sp n m (tr loss) = Ok l /\
      complete_assignment n m l /\ perm = map snd l /\
      side n_ref n_est l = matching n_ref n_est perm /\
      complete_assignment n_ref n_est (matching n_ref n_est perm) /\
      out = map (at_pair loss) (matching n_ref n_est perm) /\
      outs = map (fun M => map (at_pair M) (matching n_ref n_est perm)) args.
  Proof.
    intros E n m tr. unfold solve_permutation in E.
    replace (n_est <? n_ref) with (negb (n_ref <=? n_est)) in E by (rewrite Nat.leb_antisym, Bool.negb_involutive; auto).
    assert (En : (if negb (n_ref <=? n_est) then n_est else n_ref) = n).
    { unfold n. destruct (Nat.leb_spec n_ref n_est); simpl; lia. }
    assert (Em : (if negb (n_ref <=? n_est) then n_ref else n_est) = m).
    { unfold m. destruct (Nat.leb_spec n_ref n_est); simpl; lia. }
    rewrite En, Em in E. clear En Em.
    replace (if negb (n_ref <=? n_est) then fun i j : nat => loss j i else loss) with (tr loss) in E
      by (unfold tr; destruct (n_ref <=? n_est); reflexivity).
    destruct (lsa_with_inf b sp n m (tr loss)) as [l|e] eqn:El; simpl in E; [|discriminate].
    inversion E as [[E1 E2 E3]]. clear E.
    destruct (lsa_inf_complete sp Hsp b n m (tr loss) l El) as [Hc Hs].
    assert (Hnm : n <= m) by (unfold n, m; lia).
    pose proof (rows_pairs n m l Hnm Hc Hs) as Hl.
    assert (Hside : side n_ref n_est l = matching n_ref n_est (map snd l)).
    { unfold side, matching, pair_at. fold n.
      destruct (n_ref <=? n_est); [exact Hl|].
      transitivity (map swap (map (fun i => (i, nth i (map snd l) 0)) (seq 0 n))).
      - f_equal. exact Hl.
      - rewrite map_map. reflexivity. }
    assert (Hpick : forall M, map (fun p => (if negb (n_ref <=? n_est) then fun i j : nat => M j i else M) (fst p) (snd p)) l =
               map (at_pair M) (matching n_ref n_est (map snd l))).
    { intros M. rewrite <- Hside. unfold side, at_pair. destruct (n_ref <=? n_est); simpl; auto.
      rewrite map_map. reflexivity. }
    exists l. split; auto. split; auto. split; auto. split; auto.
    split; [|split].
    - rewrite <- Hside. unfold side, n, m in *. destruct (Nat.leb_spec n_ref n_est) as [L|L].
      + rewrite Nat.min_l, Nat.max_r in Hc by lia. auto.
      + rewrite Nat.min_r, Nat.max_l in Hc by lia. apply complete_swap. auto.
    - rewrite <- Hpick. unfold tr. destruct (n_ref <=? n_est); reflexivity.
    - rewrite map_map. apply map_ext. intros M. apply Hpick.
  Qed.

  Theorem solve_perm_outputs b n_ref n_est loss args out outs perm :
    solve_permutation b sp n_ref n_est loss args = Ok (out, outs, perm) ->
    complete_assignment n_ref n_est (matching n_ref n_est perm) /\
    length perm = Nat.min n_ref n_est /\ NoDup perm /\
    (forall p, In p perm -> p < Nat.max n_ref n_est) /\
    out = map (at_pair loss) (matching n_ref n_est perm) /\
    outs = map (fun M => map (at_pair M) (matching n_ref n_est perm)) args.
  Proof.
    intros E. destruct (solve_perm_unfold _ _ _ _ _ _ _ _ E) as (l & El & Hc & -> & Hside & Hm & H1 & H2).
    split; auto. destruct Hc as (Hlen & Hr & _ & Hnd). split; [|split; [|split]]; auto.
    - rewrite map_length. auto. rewrite Hlen. lia.
    - intros p Hp. apply in_map_iff in Hp. destruct Hp as ([i j] & E2 & Hij). simpl in E2. subst.
      apply (Hr _ _ Hij).
  Qed.

  (** transfer of optimality through the swap *)
  Lemma tr_total n_ref n_est (c : nat -> nat -> R) l :
    total_cost (fun i j => if n_ref <=? n_est then c i j else c j i) l = total_cost c (side n_ref n_est l).
  Proof.
    unfold side. destruct (n_ref <=? n_est); auto. rewrite total_cost_swap. reflexivity.
  Qed.
  Lemma side_complete n_ref n_est l :
    complete_assignment n_ref n_est l ->
    complete_assignment (Nat.min n_ref n_est) (Nat.max n_ref n_est) (side n_ref n_est l).
  Proof.
    intros H. unfold side. destruct (Nat.leb_spec n_ref n_est) as [L|L].
    - rewrite Nat.min_l, Nat.max_r by lia. auto.
    - rewrite Nat.min_r, Nat.max_l by lia. apply complete_swap. auto.
  Qed.
  Lemma side_side n_ref n_est l : side n_ref n_est (side n_ref n_est l) = l.
  Proof. unfold side. destruct (n_ref <=? n_est); auto. apply swap_swap. Qed.
  Lemma filter_side n_ref n_est (q : xr -> bool) (C : nat -> nat -> xr) l :
    length (filter (fun p => q (C (fst p) (snd p))) (side n_ref n_est l)) =
    length (filter (fun p => q ((if n_ref <=? n_est then C else fun i j => C j i) (fst p) (snd p))) l).
  Proof.
    unfold side. destruct (n_ref <=? n_est); auto.
    induction l as [|[i j] l IH]; simpl; auto. destruct (q (C j i)); simpl; auto.
  Qed.
  Lemma finite_side n_ref n_est (C : nat -> nat -> xr) l :
    finite_sum C (side n_ref n_est l) =
    finite_sum (if n_ref <=? n_est then C else fun i j => C j i) l.
  Proof.
    unfold finite_sum. rewrite <- tr_total. unfold total_cost. apply sumR_map_ext. intros p _.
    destruct (n_ref <=? n_est); auto.
  Qed.

  (** Optimality in the three cases: finite, +inf, -inf *)
  Theorem solve_perm_optimal b n_ref n_est loss args :
    (forall i j, i < n_ref -> j < n_est -> is_fin (loss i j) = true) ->
    exists out outs perm, solve_permutation b sp n_ref n_est loss args = Ok (out, outs, perm) /\
      optimal_assignment n_ref n_est (fun i j => to_R (loss i j)) (matching n_ref n_est perm).
  Proof.
    intros Hfin.
    set (tr := fun (M : nat -> nat -> xr) => if n_ref <=? n_est then M else (fun i j => M j i)).
    destruct (lsa_inf_finite sp Hsp b (Nat.min n_ref n_est) (Nat.max n_ref n_est) (tr loss)) as (l & El & [Hc Hopt] & _).
    { intros i j Hi Hj. unfold tr. destruct (Nat.leb_spec n_ref n_est); apply Hfin; lia. }
    destruct (solve_permutation b sp n_ref n_est loss args) as [[[out outs] perm]|e] eqn:E.
    - exists out, outs, perm. split; auto.
      destruct (solve_perm_unfold _ _ _ _ _ _ _ _ E) as (l' & El' & _ & _ & Hside & Hm & _ & _).
      assert (Heq : Ok l' = Ok l) by (etransitivity; [symmetry; exact El'|exact El]).
      inversion Heq; subst l'. clear El' Heq.
      split; auto. intros l' Hl'. specialize (Hopt (side n_ref n_est l') (side_complete _ _ _ Hl')).
      rewrite <- Hside. change (total_cost (fun i j => to_R (loss i j)) (side n_ref n_est l)) with (finite_sum loss (side n_ref n_est l)).
      change (total_cost (fun i j => to_R (tr loss i j)) l) with (finite_sum (tr loss) l) in Hopt.
      change (total_cost (fun i j => to_R (tr loss i j)) (side n_ref n_est l')) with (finite_sum (tr loss) (side n_ref n_est l')) in Hopt.
      change (total_cost (fun i j => to_R (loss i j)) l') with (finite_sum loss l').
      unfold tr in Hopt. rewrite <- !finite_side in Hopt. rewrite side_side in Hopt. exact Hopt.
    - exfalso. unfold solve_permutation in E.
      replace (n_est <? n_ref) with (negb (n_ref <=? n_est)) in E by (rewrite Nat.leb_antisym, Bool.negb_involutive; auto).
      unfold tr in El. destruct (Nat.leb_spec n_ref n_est) as [L|L]; simpl in E.
      + rewrite Nat.min_l, Nat.max_r in El by lia. rewrite El in E. discriminate.
      + rewrite Nat.min_r, Nat.max_l in El by lia. rewrite El in E. discriminate.
  Qed.

  Theorem solve_perm_posinf b n_ref n_est loss args i0 j0 r0 :
    (forall i j, i < n_ref -> j < n_est -> is_nan (loss i j) = false /\ loss i j <> NInf) ->
    i0 < n_ref -> j0 < n_est -> loss i0 j0 = Fin r0 ->
    exists out outs perm, solve_permutation b sp n_ref n_est loss args = Ok (out, outs, perm) /\
      complete_assignment n_ref n_est (matching n_ref n_est perm) /\
      forall l', complete_assignment n_ref n_est l' ->
        n_posinf loss (matching n_ref n_est perm) < n_posinf loss l' \/
        (n_posinf loss (matching n_ref n_est perm) = n_posinf loss l' /\
         (finite_sum loss (matching n_ref n_est perm) <= finite_sum loss l')%R).
  Proof.
    intros HC Hi0 Hj0 H0.
    set (tr := fun (M : nat -> nat -> xr) => if n_ref <=? n_est then M else (fun i j => M j i)).
    assert (Hl : exists l, lsa_with_inf b sp (Nat.min n_ref n_est) (Nat.max n_ref n_est) (tr loss) = Ok l /\
      forall l', complete_assignment (Nat.min n_ref n_est) (Nat.max n_ref n_est) l' ->
        n_posinf (tr loss) l < n_posinf (tr loss) l' \/
        (n_posinf (tr loss) l = n_posinf (tr loss) l' /\ (finite_sum (tr loss) l <= finite_sum (tr loss) l')%R)).
    { unfold tr. destruct (Nat.leb_spec n_ref n_est) as [L|L].
      - rewrite Nat.min_l, Nat.max_r by lia.
        destruct (lsa_inf_pos sp Hsp b n_ref n_est loss i0 j0 r0) as (l & E & _ & _ & H); auto. eauto.
      - rewrite Nat.min_r, Nat.max_l by lia.
        destruct (lsa_inf_pos sp Hsp b n_est n_ref (fun i j => loss j i) j0 i0 r0) as (l & E & _ & _ & H); auto. eauto. }
    destruct Hl as (l & El & Hopt).
    destruct (solve_permutation b sp n_ref n_est loss args) as [[[out outs] perm]|e] eqn:E.
    - exists out, outs, perm. split; auto.
      destruct (solve_perm_unfold _ _ _ _ _ _ _ _ E) as (l' & El' & _ & _ & Hside & Hm & _ & _).
      assert (Heq : Ok l' = Ok l) by (etransitivity; [symmetry; exact El'|exact El]).
      inversion Heq; subst l'. clear El' Heq.
      split; auto. intros l' Hl'. specialize (Hopt (side n_ref n_est l') (side_complete _ _ _ Hl')).
      rewrite <- Hside. unfold n_posinf in *. unfold tr in Hopt.
      rewrite <- !(filter_side n_ref n_est is_posinf loss), <- !finite_side, side_side in Hopt.
      exact Hopt.
    - exfalso. unfold solve_permutation in E.
      replace (n_est <? n_ref) with (negb (n_ref <=? n_est)) in E by (rewrite Nat.leb_antisym, Bool.negb_involutive; auto).
      unfold tr in El. destruct (Nat.leb_spec n_ref n_est) as [L|L]; simpl in E.
      + rewrite Nat.min_l, Nat.max_r in El by lia. rewrite El in E. discriminate.
      + rewrite Nat.min_r, Nat.max_l in El by lia. rewrite El in E. discriminate.
  Qed.

  Theorem solve_perm_neginf b n_ref n_est loss args i0 j0 r0 :
    (forall i j, i < n_ref -> j < n_est -> is_nan (loss i j) = false /\ loss i j <> PInf) ->
    i0 < n_ref -> j0 < n_est -> loss i0 j0 = Fin r0 ->
    exists out outs perm, solve_permutation b sp n_ref n_est loss args = Ok (out, outs, perm) /\
      complete_assignment n_ref n_est (matching n_ref n_est perm) /\
      forall l', complete_assignment n_ref n_est l' ->
        n_neginf loss (matching n_ref n_est perm) > n_neginf loss l' \/
        (n_neginf loss (matching n_ref n_est perm) = n_neginf loss l' /\
         (finite_sum loss (matching n_ref n_est perm) <= finite_sum loss l')%R).
  Proof.
    intros HC Hi0 Hj0 H0.
    set (tr := fun (M : nat -> nat -> xr) => if n_ref <=? n_est then M else (fun i j => M j i)).
    assert (Hl : exists l, lsa_with_inf b sp (Nat.min n_ref n_est) (Nat.max n_ref n_est) (tr loss) = Ok l /\
      forall l', complete_assignment (Nat.min n_ref n_est) (Nat.max n_ref n_est) l' ->
        n_neginf (tr loss) l > n_neginf (tr loss) l' \/
        (n_neginf (tr loss) l = n_neginf (tr loss) l' /\ (finite_sum (tr loss) l <= finite_sum (tr loss) l')%R)).
    { unfold tr. destruct (Nat.leb_spec n_ref n_est) as [L|L].
      - rewrite Nat.min_l, Nat.max_r by lia.
        destruct (lsa_inf_neg sp Hsp b n_ref n_est loss i0 j0 r0) as (l & E & _ & _ & H); auto. eauto.
      - rewrite Nat.min_r, Nat.max_l by lia.
        destruct (lsa_inf_neg sp Hsp b n_est n_ref (fun i j => loss j i) j0 i0 r0) as (l & E & _ & _ & H); auto. eauto. }
    destruct Hl as (l & El & Hopt).
    destruct (solve_permutation b sp n_ref n_est loss args) as [[[out outs] perm]|e] eqn:E.
    - exists out, outs, perm. split; auto.
      destruct (solve_perm_unfold _ _ _ _ _ _ _ _ E) as (l' & El' & _ & _ & Hside & Hm & _ & _).
      assert (Heq : Ok l' = Ok l) by (etransitivity; [symmetry; exact El'|exact El]).
      inversion Heq; subst l'. clear El' Heq.
      split; auto. intros l' Hl'. specialize (Hopt (side n_ref n_est l') (side_complete _ _ _ Hl')).
      rewrite <- Hside. unfold n_neginf in *. unfold tr in Hopt.
      rewrite <- !(filter_side n_ref n_est is_neginf loss), <- !finite_side, side_side in Hopt.
      exact Hopt.
    - exfalso. unfold solve_permutation in E.
      replace (n_est <? n_ref) with (negb (n_ref <=? n_est)) in E by (rewrite Nat.leb_antisym, Bool.negb_involutive; auto).
      unfold tr in El. destruct (Nat.leb_spec n_ref n_est) as [L|L]; simpl in E.
      + rewrite Nat.min_l, Nat.max_r in El by lia. rewrite El in E. discriminate.
      + rewrite Nat.min_r, Nat.max_l in El by lia. rewrite El in E. discriminate.
  Qed.

  Theorem solve_perm_nan b n_ref n_est loss args i j :
    i < n_ref -> j < n_est -> loss i j = NaN ->
    solve_permutation b sp n_ref n_est loss args = Raise ValueError.
  Proof.
    intros Hi Hj H. unfold solve_permutation. destruct (Nat.ltb_spec n_est n_ref).
    - rewrite (lsa_inf_nan sp b n_est n_ref _ j i); auto.
    - rewrite (lsa_inf_nan sp b n_ref n_est _ i j); auto.
  Qed.

  Theorem solve_perm_both b n_ref n_est loss args i j i' j' :
    i < n_ref -> j < n_est -> i' < n_ref -> j' < n_est -> loss i j = PInf -> loss i' j' = NInf ->
    solve_permutation b sp n_ref n_est loss args = Raise ValueError.
  Proof.
    intros Hi Hj Hi' Hj' H H'. unfold solve_permutation. destruct (Nat.ltb_spec n_est n_ref).
    - rewrite (lsa_inf_both sp b n_est n_ref _ j i j' i'); auto.
    - rewrite (lsa_inf_both sp b n_ref n_est _ i j i' j'); auto.
  Qed.

  Theorem solve_perm_allinf b n_ref n_est loss args : 0 < n_ref -> 0 < n_est ->
    (forall i j, i < n_ref -> j < n_est -> is_inf (loss i j) = true) ->
    raises (solve_permutation b sp n_ref n_est loss args).
  Proof.
    intros Hr He H. unfold solve_permutation. destruct (Nat.ltb_spec n_est n_ref).
    - destruct (lsa_inf_all sp b n_est n_ref (fun i j => loss j i)) as (e & E); auto.
      rewrite E. eexists. reflexivity.
    - destruct (lsa_inf_all sp b n_ref n_est loss) as (e & E); auto.
      rewrite E. eexists. reflexivity.
  Qed.

  (** Exactly the matrices on which it raises. *)
  Definition handled (n m : nat) (C : nat -> nat -> xr) : Prop :=
    (forall i j, i < n -> j < m -> C i j <> NaN) /\
    ((forall i j, i < n -> j < m -> is_fin (C i j) = true) \/
     ((exists i j r, i < n /\ j < m /\ C i j = Fin r) /\
      ((forall i j, i < n -> j < m -> C i j <> PInf) \/
       (forall i j, i < n -> j < m -> C i j <> NInf)))).

  Lemma find_entry n m (C : nat -> nat -> xr) (q : xr -> bool) :
    (exists i j, i < n /\ j < m /\ q (C i j) = true) \/
    (forall i j, i < n -> j < m -> q (C i j) = false).
  Proof.
    destruct (existsb2 n m (fun i j => q (C i j))) eqn:E.
    - left. apply existsb2_true in E. auto.
    - right. rewrite existsb2_false in E. auto.
  Qed.

  Theorem solve_perm_total_iff b n_ref n_est loss args :
    is_ok (solve_permutation b sp n_ref n_est loss args) <-> handled n_ref n_est loss.
  Proof.
    split.
    - intros [a Ha]. unfold handled.
      destruct (find_entry n_ref n_est loss is_nan) as [(i & j & Hi & Hj & E)|Hnan].
      { rewrite (solve_perm_nan b n_ref n_est loss args i j) in Ha; auto; [discriminate|].
        destruct (loss i j); auto; discriminate. }
      split. { intros i j Hi Hj E. specialize (Hnan i j Hi Hj). rewrite E in Hnan. discriminate. }
      destruct (find_entry n_ref n_est loss is_inf) as [(i & j & Hi & Hj & E)|Hinf].
      + right. split.
        * destruct (find_entry n_ref n_est loss is_fin) as [(a0 & b0 & Ha0 & Hb0 & E0)|Hnf].
          -- exists a0, b0. destruct (loss a0 b0) eqn:El; try discriminate. exists r. auto.
          -- destruct (solve_perm_allinf b n_ref n_est loss args) as (e & Ee); try lia.
             ++ intros i' j' Hi' Hj'. specialize (Hnan i' j' Hi' Hj'). specialize (Hnf i' j' Hi' Hj').
                destruct (loss i' j'); auto; discriminate.
             ++ rewrite Ee in Ha. discriminate.
        * destruct (find_entry n_ref n_est loss is_posinf) as [(a0 & b0 & Ha0 & Hb0 & E0)|Hp].
          -- destruct (find_entry n_ref n_est loss is_neginf) as [(a1 & b1 & Ha1 & Hb1 & E1)|Hq].
             ++ rewrite (solve_perm_both b n_ref n_est loss args a0 b0 a1 b1) in Ha; auto; [discriminate| |].
                ** destruct (loss a0 b0); auto; discriminate.
                ** destruct (loss a1 b1); auto; discriminate.
             ++ right. intros i' j' Hi' Hj' E'. specialize (Hq i' j' Hi' Hj'). rewrite E' in Hq. discriminate.
          -- left. intros i' j' Hi' Hj' E'. specialize (Hp i' j' Hi' Hj'). rewrite E' in Hp. discriminate.
      + left. intros i j Hi Hj. specialize (Hnan i j Hi Hj). specialize (Hinf i j Hi Hj).
        destruct (loss i j); auto; discriminate.
    - intros [Hnan [Hfin|[(i & j & r & Hi & Hj & E) Hc]]].
      + destruct (solve_perm_optimal b n_ref n_est loss args Hfin) as (o & os & p & H & _). eexists; eauto.
      + assert (Hn2 : forall i j, i < n_ref -> j < n_est -> is_nan (loss i j) = false).
        { intros i' j' Hi' Hj'. specialize (Hnan i' j' Hi' Hj'). destruct (loss i' j'); auto. congruence. }
        destruct Hc as [Hc|Hc].
        * destruct (solve_perm_neginf b n_ref n_est loss args i j r) as (o & os & p & H & _); auto. eexists; eauto.
        * destruct (solve_perm_posinf b n_ref n_est loss args i j r) as (o & os & p & H & _); auto. eexists; eauto.
  Qed.
End WithScipy.

(** The contract is inhabited (by the verified Hungarian algorithm). *)
Definition reference_lsa : scipy_lsa := fun n m c =>
  match linear_sum_assignment R_ops (run_fuel (Nat.min n m)) n m c with Ok l => l | Raise _ => [] end.
Lemma reference_lsa_contract : lsa_contract reference_lsa.
Proof.
  intros n m c. unfold reference_lsa.
  destruct (lsa_optimal n m c (run_fuel (Nat.min n m)) (le_n _)) as (l & E & H). rewrite E. exact H.
Qed.
