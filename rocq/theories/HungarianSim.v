(** * Two runs of the Hungarian algorithm on related numbers

    Used to transfer what is known about the run in rounded real arithmetic
    (no overflow) to the run on IEEE floats, as long as no addition overflows. *)
From Verif Require Import Prelude Hungarian HungarianProofs HungarianTop.
Local Open Scope nat_scope.

(** Everything but the matrix. *)
Definition put {A : Type} (C : nat -> nat -> A) (k : @hungary unit) : @hungary A :=
  mkHungary C (row_uncovered k) (col_uncovered k) (Z0_r k) (Z0_c k) (hpath k) (marked k).
Definition skel {A : Type} (st : @hungary A) : @hungary unit :=
  mkHungary (fun _ _ => tt) (row_uncovered st) (col_uncovered st) (Z0_r st) (Z0_c st) (hpath st) (marked st).
Lemma put_skel {A} (st : @hungary A) : st = put (hC st) (skel st).
Proof. destruct st; reflexivity. Qed.

Lemma nonzero2_ext_in n m p q : (forall i j, i < n -> j < m -> p i j = q i j) ->
  nonzero2 n m p = nonzero2 n m q.
Proof.
  intros H. unfold nonzero2. apply filter_ext_in. intros [i j] Hij. apply in_prod_iff in Hij.
  rewrite !in_seq in Hij. simpl. apply H; lia.
Qed.

Lemma step3_put {A} n m (C : nat -> nat -> A) k :
  step3 n m (put C k) = (put C (fst (step3 n m k)), snd (step3 n m k)).
Proof.
  unfold step3. change (is_star (put C k)) with (is_star k).
  destruct (length (nonzero2 n m (is_star k)) <? n); reflexivity.
Qed.
Lemma step5_put {A} n m (C : nat -> nat -> A) k :
  step5 n m (put C k) = rmap (put C) (step5 n m k).
Proof.
  unfold step5. change (marked (put C k)) with (marked k).
  change (hpath (put C k)) with (hpath k). change (Z0_r (put C k)) with (Z0_r k).
  change (Z0_c (put C k)) with (Z0_c k).
  destruct (step5_path n m (n + m) (marked k) _ 0) as [[p c]|e]; reflexivity.
Qed.
Lemma step4_loop_put {A} n m (C : nat -> nat -> A) : forall fuel Cz Cz' cov cov' k,
  (forall i j, i < n -> j < m -> Cz i j = Cz' i j) -> (forall i j, i < n -> j < m -> cov i j = cov' i j) ->
  step4_loop n m fuel Cz cov (put C k) =
  rmap (fun p => (put C (fst p), snd p)) (step4_loop n m fuel Cz' cov' k).
Proof.
  induction fuel as [|fuel IH]; intros Cz Cz' cov cov' k Hz Hc; cbn [step4_loop]; auto.
  rewrite (nonzero2_ext_in n m cov cov' Hc).
  destruct (nonzero2 n m cov') as [|[row col] l]; [reflexivity|].
  change (set_marked (put C k) (upd2 (marked (put C k)) row col 2))
    with (put C (set_marked k (upd2 (marked k) row col 2))).
  set (k1 := set_marked k (upd2 (marked k) row col 2)).
  change (fun j => is_star (put C k1) row j) with (fun j => is_star k1 row j).
  destruct (nonzero1 m (fun j => is_star k1 row j)) as [|col' l']; [reflexivity|].
  match goal with |- _ = rmap _ (step4_loop n m fuel Cz' ?cc ?kk) =>
    rewrite <- (IH Cz Cz' (fun i j => if Nat.eqb i row then false
              else if Nat.eqb j col' then Cz i j && row_uncovered kk i
              else cov i j) cc kk) end.
  - reflexivity.
  - exact Hz.
  - intros i j Hi Hj. rewrite (Hz i j Hi Hj), (Hc i j Hi Hj). reflexivity.
Qed.

Section Sim.
  Context {A B : Type} (opa : num_ops A) (opb : num_ops B) (val : A -> B) (ok : A -> Prop) (inr : B -> Prop).
  Hypothesis s_zero : val (n_zero opa) = n_zero opb.
  Hypothesis s_leb : forall x y, ok x -> ok y -> n_leb opa x y = n_leb opb (val x) (val y).
  Hypothesis s_is0 : forall x, ok x -> n_is0 opa x = n_is0 opb (val x).
  Hypothesis s_add : forall x y, ok x -> ok y -> inr (val x) -> inr (val y) ->
    ok (n_add opa x y) /\ val (n_add opa x y) = n_add opb (val x) (val y).
  Hypothesis s_sub : forall x y, ok x -> ok y -> inr (val x) -> inr (val y) ->
    ok (n_sub opa x y) /\ val (n_sub opa x y) = n_sub opb (val x) (val y).

  Variables n m : nat.
  Hypothesis Hn : 0 < n.
  Hypothesis Hm : 0 < m.

  Definition simC (CA : nat -> nat -> A) (CB : nat -> nat -> B) : Prop :=
    forall i j, i < n -> j < m -> ok (CA i j) /\ val (CA i j) = CB i j.

  Lemma minimum_sim d d' : forall l, val d = d' -> (forall x, In x l -> ok x) ->
    val (minimum opa d l) = minimum opb d' (map val l) /\ (l <> [] -> ok (minimum opa d l)).
  Proof.
    intros [|x l] Hd Hl; [simpl; split; [auto|congruence]|]. cbn [minimum map].
    assert (Hx : ok x) by (apply Hl; left; auto).
    assert (Hr : forall y, In y l -> ok y) by (intros y Hy; apply Hl; right; auto).
    clear Hl Hd.
    assert (G : val (fold_left (nmin opa) l x) = fold_left (nmin opb) (map val l) (val x) /\
                ok (fold_left (nmin opa) l x)).
    { revert x Hx. induction l as [|y l IH]; intros x Hx; cbn [fold_left map]; auto.
      assert (Hy : ok y) by (apply Hr; left; auto).
      assert (E : val (nmin opa x y) = nmin opb (val x) (val y) /\ ok (nmin opa x y)).
      { unfold nmin. rewrite (s_leb x y Hx Hy). destruct (n_leb opb (val x) (val y)); auto. }
      destruct E as [E1 E2]. rewrite <- E1. apply IH; auto. intros z Hz. apply Hr. right; auto. }
    destruct G; split; auto.
  Qed.

  (** what a step needs for its additions not to leave the range *)
  Definition in_range (s : step) (st : @hungary B) : Prop :=
    match s with
    | Step1 => forall i j, i < n -> j < m -> inr (hC st i j)
    | Step6 =>
        (forall i j, i < n -> j < m -> inr (hC st i j)) /\
        (forall i j, i < n -> j < m -> row_uncovered st i = false -> col_uncovered st j = true ->
           inr (n_add opb (hC st i j) (minval6 opb n m st)))
    | _ => True
    end.

  Lemma step1_sim CA CB k : simC CA CB -> (forall i j, i < n -> j < m -> inr (CB i j)) ->
    exists CA' CB' k', step1 opa n m (put CA k) = put CA' k' /\ step1 opb n m (put CB k) = put CB' k' /\
      simC CA' CB'.
  Proof.
    intros HC HR.
    set (CA' := fun i j => n_sub opa (CA i j) (minimum opa (n_zero opa) (map (CA i) (seq 0 m)))).
    set (CB' := fun i j => n_sub opb (CB i j) (minimum opb (n_zero opb) (map (CB i) (seq 0 m)))).
    assert (HC' : simC CA' CB').
    { intros i j Hi Hj. destruct (HC i j Hi Hj) as [Hok Hv].
      destruct (minimum_sim (n_zero opa) (n_zero opb) (map (CA i) (seq 0 m)) s_zero) as [M1 M2].
      { intros x Hx. apply in_map_iff in Hx. destruct Hx as (j' & <- & Hj'). apply in_seq in Hj'.
        apply (HC i j'); auto; lia. }
      rewrite map_map in M1.
      assert (Em : map (fun x => val (CA i x)) (seq 0 m) = map (CB i) (seq 0 m)).
      { apply map_ext_in. intros j' Hj'. apply in_seq in Hj'. apply (HC i j'); auto; lia. }
      rewrite Em in M1.
      assert (Hne : seq 0 m <> []) by (destruct m; [lia|discriminate]).
      assert (Hin : In (minimum opb (n_zero opb) (map (CB i) (seq 0 m))) (map (CB i) (seq 0 m))).
      { apply minimum_in. intros E. apply map_eq_nil in E. auto. }
      apply in_map_iff in Hin. destruct Hin as (j' & E' & Hj'). apply in_seq in Hj'.
      unfold CA', CB'. rewrite <- M1, <- Hv. apply s_sub; auto.
      - apply M2. intros E. apply map_eq_nil in E. auto.
      - rewrite Hv. auto.
      - rewrite M1, <- E'. apply HR; auto; lia. }
    assert (Hstar : forall (T : Type) (D : nat -> nat -> T) l q,
              fold_left step1_star l (put D q) = put D (fold_left step1_star l q)).
    { intros T D. induction l as [|[a b] l IH]; intros q; cbn [fold_left]; auto.
      rewrite <- IH. f_equal. unfold step1_star.
      change (col_uncovered (put D q)) with (col_uncovered q).
      change (row_uncovered (put D q)) with (row_uncovered q).
      destruct (col_uncovered q b && row_uncovered q a); reflexivity. }
    exists CA', CB', (clear_covers (fold_left step1_star (nonzero2 n m (fun i j => n_is0 opb (CB' i j))) k)).
    split; [|split; [|exact HC']]; unfold step1.
    - change (set_C (put CA k) _) with (put CA' k). cbn [hC put].
      rewrite (nonzero2_ext_in n m (fun i j => n_is0 opa (CA' i j)) (fun i j => n_is0 opb (CB' i j))).
      + fold (put CA' k). rewrite (Hstar A CA'). reflexivity.
      + intros i j Hi Hj. destruct (HC' i j Hi Hj) as [H1 H2]. rewrite s_is0, H2; auto.
    - change (set_C (put CB k) _) with (put CB' k). cbn [hC put].
      fold (put CB' k). rewrite (Hstar B CB'). reflexivity.
  Qed.

  Lemma step6_sim CA CB k : simC CA CB -> in_range Step6 (put CB k) ->
    exists CA' CB', step6 opa n m (put CA k) = put CA' k /\ step6 opb n m (put CB k) = put CB' k /\
      simC CA' CB'.
  Proof.
    intros HC [HR1 HR2]. unfold step6.
    change (row_uncovered (put CA k)) with (row_uncovered k).
    change (row_uncovered (put CB k)) with (row_uncovered k).
    change (col_uncovered (put CA k)) with (col_uncovered k).
    change (col_uncovered (put CB k)) with (col_uncovered k).
    destruct (existsb (row_uncovered k) (seq 0 n) && existsb (col_uncovered k) (seq 0 m)) eqn:Eb.
    2:{ exists CA, CB. auto. }
    apply andb_true_iff in Eb. destruct Eb as [Er Ec].
    apply existsb_exists in Er. destruct Er as (i0 & Hi0 & Er). apply in_seq in Hi0.
    apply existsb_exists in Ec. destruct Ec as (j0 & Hj0 & Ec). apply in_seq in Hj0.
    set (mA := minval6 opa n m (put CA k)). set (mB := minval6 opb n m (put CB k)).
    assert (Hrows : nonzero1 n (row_uncovered k) <> []).
    { intros E. rewrite nonzero1_nil in E. rewrite E in Er by lia. discriminate. }
    assert (Hcols : nonzero1 m (col_uncovered k) <> []).
    { intros E. rewrite nonzero1_nil in E. rewrite E in Ec by lia. discriminate. }
    (* the column minima *)
    assert (Hcol : forall j, j < m ->
      let la := map (fun i => CA i j) (nonzero1 n (row_uncovered k)) in
      let lb := map (fun i => CB i j) (nonzero1 n (row_uncovered k)) in
      ok (minimum opa (n_zero opa) la) /\ val (minimum opa (n_zero opa) la) = minimum opb (n_zero opb) lb /\
      inr (minimum opb (n_zero opb) lb)).
    { intros j Hj la lb.
      destruct (minimum_sim (n_zero opa) (n_zero opb) la s_zero) as [M1 M2].
      { intros x Hx. apply in_map_iff in Hx. destruct Hx as (i & <- & Hi). apply in_nonzero1 in Hi.
        apply (HC i j); tauto. }
      assert (Em : map val la = lb).
      { unfold la, lb. rewrite map_map. apply map_ext_in. intros i Hi. apply in_nonzero1 in Hi.
        apply (HC i j); tauto. }
      rewrite Em in M1. split; [|split; auto].
      - apply M2. unfold la. intros E. apply map_eq_nil in E. auto.
      - assert (Hin : In (minimum opb (n_zero opb) lb) lb).
        { apply minimum_in. unfold lb. intros E. apply map_eq_nil in E. auto. }
        unfold lb in Hin at 2. apply in_map_iff in Hin. destruct Hin as (i & Ei & Hi).
        apply in_nonzero1 in Hi. rewrite <- Ei. apply HR1; tauto. }
    assert (Hmin : ok mA /\ val mA = mB /\ inr mB).
    { unfold mA, mB, minval6.
      change (row_uncovered (put CA k)) with (row_uncovered k).
      change (row_uncovered (put CB k)) with (row_uncovered k).
      change (col_uncovered (put CA k)) with (col_uncovered k).
      change (col_uncovered (put CB k)) with (col_uncovered k).
      change (hC (put CA k)) with CA. change (hC (put CB k)) with CB.
      match goal with |- ok (minimum _ _ ?l) /\ _ = minimum _ _ ?r /\ _ => set (la := l); set (lb := r) end.
      destruct (minimum_sim (n_zero opa) (n_zero opb) la s_zero) as [M1 M2].
      { intros x Hx. apply in_map_iff in Hx. destruct Hx as (j & <- & Hj). apply in_nonzero1 in Hj.
        apply (Hcol j); tauto. }
      assert (Em : map val la = lb).
      { unfold la, lb. rewrite map_map. apply map_ext_in. intros j Hj. apply in_nonzero1 in Hj.
        apply (Hcol j); tauto. }
      rewrite Em in M1. split; [|split; auto].
      - apply M2. unfold la. intros E. apply map_eq_nil in E. auto.
      - assert (Hin : In (minimum opb (n_zero opb) lb) lb).
        { apply minimum_in. unfold lb. intros E. apply map_eq_nil in E. auto. }
        unfold lb in Hin at 2. apply in_map_iff in Hin. destruct Hin as (j & Ej & Hj).
        apply in_nonzero1 in Hj. rewrite <- Ej. apply (Hcol j); tauto. }
    destruct Hmin as (Mok & Mv & Mr).
    exists (C6 opa n m (put CA k)), (C6 opb n m (put CB k)).
    split; [reflexivity|]. split; [reflexivity|].
    intros i j Hi Hj. destruct (HC i j Hi Hj) as [Hok Hv].
    specialize (HR1 i j Hi Hj). specialize (HR2 i j Hi Hj).
    unfold C6. fold mA. fold mB. fold mB in HR2. cbn [row_uncovered col_uncovered hC put] in *.
    rewrite <- Hv in HR1, HR2. rewrite <- Hv, <- Mv. rewrite <- Mv in HR2, Mr.
    destruct (row_uncovered k i) eqn:Eri; destruct (col_uncovered k j) eqn:Ecj.
    - apply s_sub; auto.
    - auto.
    - specialize (HR2 eq_refl eq_refl).
      destruct (s_add (CA i j) mA Hok Mok HR1 Mr) as [A1 A2]. rewrite <- A2.
      apply s_sub; auto. rewrite A2. exact HR2.
    - apply s_add; auto.
  Qed.

  Lemma run_sim : forall fuel s CA CB k, simC CA CB ->
    visits opb n m in_range fuel s (put CB k) ->
    match run opb n m fuel s (put CB k) with
    | Ok stB => exists CA' CB' k', run opa n m fuel s (put CA k) = Ok (put CA' k') /\
                  stB = put CB' k' /\ simC CA' CB'
    | Raise e => run opa n m fuel s (put CA k) = Raise e
    end.
  Proof.
    assert (Hbase : forall CA CB k, simC CA CB ->
      exists CA' CB' k', Ok (put CA k) = Ok (put CA' k') /\ put CB k = put CB' k' /\ simC CA' CB').
    { intros CA CB k H. exists CA, CB, k. auto. }
    induction fuel as [|fuel IH]; intros [s|] CA CB k HC Hv; cbn [run]; auto.
    cbn [visits] in Hv. destruct Hv as [HR Hv].
    destruct s; cbn [do_step] in *.
    - destruct (step1_sim CA CB k HC HR) as (CA' & CB' & k' & E1 & E2 & HC').
      rewrite E1. rewrite E2 in *. cbn [bind]. apply IH; auto.
    - rewrite !step3_put in *. cbn [bind]. apply IH; auto.
    - unfold step4 in *.
      rewrite (step4_loop_put n m CB (n + 1) _ (fun i j => n_is0 opb (CB i j)) _
        (fun i j => n_is0 opb (CB i j) && row_uncovered k i && col_uncovered k j) k) in *
        by (intros; reflexivity).
      rewrite (step4_loop_put n m CA (n + 1) _ (fun i j => n_is0 opb (CB i j)) _
        (fun i j => n_is0 opb (CB i j) && row_uncovered k i && col_uncovered k j) k).
      2:{ intros i j Hi Hj. cbn [hC put]. destruct (HC i j Hi Hj) as [H1 H2]. rewrite s_is0, H2; auto. }
      2:{ intros i j Hi Hj. cbn [hC put row_uncovered col_uncovered].
          destruct (HC i j Hi Hj) as [H1 H2]. rewrite s_is0, H2; auto. }
      destruct (step4_loop n m (n + 1) _ _ k) as [[k' s']|e]; cbn [rmap bind fst snd] in *; [apply IH; auto|auto].
    - rewrite !step5_put in *. destruct (step5 n m k) as [k'|e]; cbn [rmap bind] in *; [apply IH; auto|auto].
    - destruct (step6_sim CA CB k HC HR) as (CA' & CB' & E1 & E2 & HC').
      rewrite E1. rewrite E2 in *. cbn [bind]. apply IH; auto.
  Qed.
End Sim.
