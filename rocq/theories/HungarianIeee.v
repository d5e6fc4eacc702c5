(** * Near-optimality of the Hungarian algorithm on IEEE floats

    Rounding to nearest.  In contrast with [lsa_ieee], the margin required below
    the overflow threshold does not grow with the size of the matrix. *)
From Coq Require Import Reals Lra.
From Verif Require Import Prelude Hungarian HungarianProofs HungarianTop Spec HungarianRound HungarianSim
  HungarianFloat.
From Flocq Require Import Core Relative Plus_error BinarySingleNaN.
Local Open Scope nat_scope.

Section Flt.
  Variables (emin prec : Z).
  Context (prec_gt_0_ : Prec_gt_0 prec).
  Variable choice : Z -> bool.
  Notation fexp := (FLT_exp emin prec).
  Notation fmt := (generic_format radix2 fexp).
  Notation rnd := (round radix2 fexp (Znearest choice)).
  Notation u := (bpow radix2 (- prec)).

  Lemma u_range : (0 <= u <= 1)%R.
  Proof.
    split; [apply bpow_ge_0|]. change 1%R with (bpow radix2 0). apply bpow_le.
    unfold Prec_gt_0 in *. lia.
  Qed.
  Lemma u_ro_eq : u_ro radix2 prec = u.
  Proof.
    unfold u_ro. rewrite bpow_plus_1. simpl (IZR radix2). lra.
  Qed.

  Lemma rnd_add_err x y : fmt x -> fmt y -> (Rabs (rnd (x + y) - (x + y)) <= u * Rabs (x + y))%R.
  Proof.
    intros Hx Hy. destruct (FLT_plus_error_N_ex radix2 emin prec choice x y Hx Hy) as (eps & He & E).
    rewrite E. replace ((x + y) * (1 + eps) - (x + y))%R with (eps * (x + y))%R by ring.
    rewrite Rabs_mult. apply Rmult_le_compat_r; [apply Rabs_pos|].
    rewrite u_ro_eq in He. eapply Rle_trans; [apply He|].
    destruct u_range as [U0 _].
    apply Rmult_le_reg_r with (1 + u)%R; [lra|]. field_simplify; [|lra]. nra.
  Qed.
  Lemma rnd_sub_err x y : fmt x -> fmt y -> (Rabs (rnd (x - y) - (x - y)) <= u * Rabs (x - y))%R.
  Proof. intros Hx Hy. apply (rnd_add_err x (- y)); auto. apply generic_format_opp. auto. Qed.

  Lemma rnd_near : forall (P : Prop),
    ((forall x y, fmt x -> fmt y -> fmt (rnd (x + y))) ->
     (forall x y, fmt x -> fmt y -> fmt (rnd (x - y))) ->
     (forall x, fmt x -> rnd (x - x) = 0%R) ->
     (forall v, fmt v -> rnd (0 + v) = v) ->
     (forall x v, fmt x -> fmt v -> (0 <= x)%R -> (v <= rnd (x + v))%R) -> P) -> P.
  Proof.
    intros P H. apply H.
    - intros. apply generic_format_round; auto with typeclass_instances.
    - intros. apply generic_format_round; auto with typeclass_instances.
    - intros x _. rewrite Rminus_diag_eq by reflexivity. apply round_0; auto with typeclass_instances.
    - intros v Hv. rewrite Rplus_0_l. apply round_generic; auto with typeclass_instances.
    - intros x v _ Hv Hx. rewrite <- (round_generic radix2 fexp (Znearest choice) v Hv) at 1.
      apply round_le; auto with typeclass_instances. lra.
  Qed.

  Theorem lsa_flt n m (c : nat -> nat -> R) D fuel : (0 <= D)%R ->
    (forall i j, i < n -> j < m -> fmt (c i j)) ->
    (forall i j i' j', i < n -> j < m -> i' < n -> j' < m -> (c i j - c i' j' <= D)%R) ->
    run_fuel (Nat.min n m) <= fuel ->
    exists l, linear_sum_assignment (round_ops radix2 fexp (Znearest choice)) fuel n m c = Ok l /\
      near_assignment n m c (near_bound u (Nat.min n m) D) l /\ rows_increasing l.
  Proof.
    intros HD Hf Hs Hfuel. apply rnd_near. intros R1 R2 R3 R4 R5.
    exact (lsa_near (fun x y => rnd (x + y)) (fun x y => rnd (x - y)) fmt u u_range R1 R2 R3 R4
      rnd_add_err rnd_sub_err R5 n m c D fuel HD Hf Hs Hfuel).
  Qed.
End Flt.

Section Ieee.
  Variables prec emax : Z.
  Context (prec_gt_0_ : Prec_gt_0 prec) (prec_lt_emax_ : Prec_lt_emax prec emax).
  Notation bf := (binary_float prec emax).
  Notation emin := (SpecFloat.emin prec emax).
  Notation fexp := (SpecFloat.fexp prec emax).
  Notation opa := (ieee_ops prec emax prec_gt_0_ prec_lt_emax_ mode_NE).
  Notation opb := (round_ops radix2 fexp ZnearestE).
  Notation u := (bpow radix2 (- prec)).

  Definition rng (e1 : Z) (x : R) : Prop := (Rabs x <= bpow radix2 e1)%R.
  Definition okf (x : bf) : Prop := is_finite x = true.

  Lemma ieee_add e1 x y : (emin <= e1)%Z -> (e1 + 1 < emax)%Z -> okf x -> okf y ->
    rng e1 (B2R x) -> rng e1 (B2R y) ->
    okf (Bplus mode_NE x y) /\ B2R (Bplus mode_NE x y) = round radix2 fexp ZnearestE (B2R x + B2R y).
  Proof.
    intros He HK Fx Fy Bx By. unfold rng, okf in *.
    generalize (Bplus_correct prec emax _ _ mode_NE x y Fx Fy). rewrite Rlt_bool_true.
    - intros (H1 & H2 & _). split; auto.
    - eapply Rle_lt_trans; [|apply (bpow_lt radix2 (e1 + 1) emax HK)].
      apply (round_bpow_le prec emax _ mode_NE); [lia|].
      rewrite bpow_plus_1. simpl. eapply Rle_trans; [apply Rabs_triang|]. lra.
  Qed.
  Lemma ieee_sub e1 x y : (emin <= e1)%Z -> (e1 + 1 < emax)%Z -> okf x -> okf y ->
    rng e1 (B2R x) -> rng e1 (B2R y) ->
    okf (Bminus mode_NE x y) /\ B2R (Bminus mode_NE x y) = round radix2 fexp ZnearestE (B2R x - B2R y).
  Proof.
    intros He HK Fx Fy Bx By. unfold rng, okf in *.
    generalize (Bminus_correct prec emax _ _ mode_NE x y Fx Fy). rewrite Rlt_bool_true.
    - intros (H1 & H2 & _). split; auto.
    - eapply Rle_lt_trans; [|apply (bpow_lt radix2 (e1 + 1) emax HK)].
      apply (round_bpow_le prec emax _ mode_NE); [lia|].
      rewrite bpow_plus_1. simpl. unfold Rminus. eapply Rle_trans; [apply Rabs_triang|].
      rewrite Rabs_Ropp. lra.
  Qed.
  Lemma ieee_leb (x y : bf) : okf x -> okf y -> Bleb x y = Rleb (B2R x) (B2R y).
  Proof.
    intros Fx Fy. rewrite Bleb_correct by auto. unfold Rleb, Rle_bool.
    destruct (Rle_dec (B2R x) (B2R y)) as [H|H].
    - destruct (Rcompare_spec (B2R x) (B2R y)); auto. lra.
    - destruct (Rcompare_spec (B2R x) (B2R y)); auto; lra.
  Qed.
  Lemma ieee_is0 (x : bf) : okf x -> Beqb x (B754_zero false) = Ris0 (B2R x).
  Proof.
    intros Fx. apply Bool.eq_iff_eq_true. rewrite (is0_spec prec emax x Fx). rewrite Ris0_true. tauto.
  Qed.

  (** One orientation: the run on floats. *)
  Lemma run_ieee_near n m (c : nat -> nat -> bf) e0 D fuel : 0 < n -> n <= m ->
    (emin <= e0)%Z -> (e0 + 4 < emax)%Z ->
    (INR (4 * (n * n) + 2) * u <= 1 / 2)%R ->
    (forall i j, i < n -> j < m -> is_finite (c i j) = true /\ (Rabs (B2R (c i j)) <= bpow radix2 e0)%R) ->
    (forall i j i' j', i < n -> j < m -> i' < n -> j' < m -> (B2R (c i j) - B2R (c i' j') <= D)%R) ->
    run_fuel n <= fuel ->
    exists st, run opa n m fuel (Some Step1) (hungary_init c) = Ok st /\
      near_assignment n m (fun i j => B2R (c i j)) (near_bound u n D) (nonzero2 n m (is_star st)).
  Proof.
    intros Hn Hnm He HK Hsmall Hc Hs Hfuel.
    set (cr := fun i j => B2R (c i j)).
    set (D0 := bpow radix2 (e0 + 1)).
    assert (Hf : forall i j, i < n -> j < m -> generic_format radix2 fexp (cr i j)).
    { intros i j _ _. apply generic_format_B2R. }
    assert (Hs0 : forall i j j', i < n -> j < m -> j' < m -> (cr i j - cr i j' <= D0)%R).
    { intros i j j' Hi Hj Hj'. destruct (Hc i j Hi Hj) as [_ B1]. destruct (Hc i j' Hi Hj') as [_ B2].
      apply Rabs_le_inv in B1. apply Rabs_le_inv in B2. unfold cr, D0. rewrite bpow_plus_1. simpl. lra. }
    pose proof (u_range prec _) as Hu.
    apply (rnd_near emin prec prec_gt_0_ (fun x => negb (Z.even x))). intros R1 R2 R3 R4 R5.
    pose proof (rnd_add_err emin prec prec_gt_0_ (fun x => negb (Z.even x))) as Ra.
    pose proof (rnd_sub_err emin prec prec_gt_0_ (fun x => negb (Z.even x))) as Rs.
    destruct (run_near _ _ _ u Hu R1 R2 R3 R4 Ra Rs R5 n m cr D Hn Hnm Hf
      (fun i j j' Hi Hj Hj' => Hs i j i j' Hi Hj Hi Hj') fuel Hfuel) as [(st & E & Hcomp & Hopt) _].
    destruct (run_near _ _ _ u Hu R1 R2 R3 R4 Ra Rs R5 n m cr D0 Hn Hnm Hf Hs0 fuel Hfuel) as [_ Hv].
    set (opn := near_ops (fun x y => round radix2 (FLT_exp emin prec) ZnearestE (x + y))
                         (fun x y => round radix2 (FLT_exp emin prec) ZnearestE (x - y))) in *.
    set (Pn := Pnear (generic_format radix2 (FLT_exp emin prec)) u n m cr D0) in *.
    (* everything stays below 2^(e0+3) *)
    assert (HD0 : (0 < D0)%R) by apply bpow_gt_0.
    assert (Hg : forall k, k <= 1 + 2 * (n * n) -> ((1 + u) * (growth u k) <= 2)%R).
    { intros k Hk. pose proof (growth_mono u Hu n m Hn Hnm k _ Hk) as Hg.
      apply Rle_trans with ((1 + u) * growth u (1 + 2 * (n * n)))%R; [apply Rmult_le_compat_l; lra|].
      pose proof (pow_growth u (4 * (n * n) + 2) (proj1 Hu) Hsmall) as Hp.
      replace ((1 + u) * growth u (1 + 2 * (n * n)))%R with ((1 + u) ^ (4 * (n * n) + 2))%R; [lra|].
      unfold growth. change ((1 + u) * (1 + u) ^ (2 * (1 + 2 * (n * n)) - 1))%R
        with ((1 + u) ^ S (2 * (1 + 2 * (n * n)) - 1))%R. f_equal. lia. }
    assert (E3 : bpow radix2 (e0 + 3) = (4 * D0)%R).
    { unfold D0. replace (e0 + 3)%Z with (e0 + 1 + 2)%Z by lia. rewrite (bpow_plus _ (e0 + 1) 2). simpl. lra. }
    assert (Hv' : visits opn n m (in_range opn (rng (e0 + 3)) n m) fuel (Some Step1) (hungary_init cr)).
    { revert Hv.
      assert (Himp : forall s st, s = Step1 /\ st = hungary_init cr \/
          at_step opn (fun _ => generic_format radix2 (FLT_exp emin prec)) (1 + 2 * (n * n)) n m Pn s st /\ s <> Step1 ->
          in_range opn (rng (e0 + 3)) n m s st).
      { intros s st' [[-> ->]|[(k & HP & Hk & H6) Hne]].
        - simpl. intros i j Hi Hj. destruct (Hc i j Hi Hj) as [_ B1]. unfold rng. rewrite E3.
          unfold cr. unfold D0. rewrite bpow_plus_1. simpl. pose proof (bpow_gt_0 radix2 e0). lra.
        - destruct s; cbn [in_range]; auto; [congruence|].
          destruct (H6 eq_refl) as [Hinv _].
          destruct (step6_range _ _ _ u n m cr D0 Hn Hnm Hs0 st' k Hinv HP) as (Hmv & Hr & _). fold opn in Hmv, Hr.
          specialize (Hg k Hk).
          set (G := (growth u k * D0)%R) in *.
          assert (HG : ((1 + u) * G <= 2 * D0)%R).
          { unfold G. rewrite <- Rmult_assoc. apply Rmult_le_compat_r; lra. }
          assert (HGp : (0 <= G)%R) by lra.
          assert (Hug : (0 <= u * G)%R) by (apply Rmult_le_pos; lra).
          split.
          + intros i j Hi Hj. destruct (Hr i j Hi Hj) as [H0 H1]. unfold rng. rewrite E3.
            rewrite Rabs_pos_eq by auto. lra.
          + intros i j Hi Hj _ _. destruct (Hr i j Hi Hj) as [H0 H1].
            destruct HP as (_ & HC & _). destruct (HC i j Hi Hj) as [HCf _].
            assert (Hmf : generic_format radix2 (FLT_exp emin prec) (minval6 opn n m st'))
              by (eapply mv_fmt; eauto).
            specialize (Ra (hC st' i j) (minval6 opn n m st') HCf Hmf).
            rewrite (Rabs_pos_eq (hC st' i j + minval6 opn n m st')) in Ra by lra.
            apply Rabs_le_inv in Ra. cbn [n_add opn near_ops].
            set (w := round radix2 (FLT_exp emin prec) ZnearestE (hC st' i j + minval6 opn n m st')) in *.
            unfold rng. rewrite E3.
            assert (Hw : (u * (hC st' i j + minval6 opn n m st') <= u * (2 * G))%R)
              by (apply Rmult_le_compat_l; lra).
            assert (Hw0 : (minval6 opn n m st' <= w)%R) by (apply R5; auto; lra).
            rewrite Rabs_pos_eq by lra. lra. }
      (* after the first step the code never returns to it *)
      assert (Hnext : forall s st st' s', do_step opn n m s st = Ok (st', Some s') -> s' <> Step1).
      { intros s st0 st' s' Ed. destruct s; cbn [do_step] in Ed.
        - inversion Ed. discriminate.
        - unfold step3 in Ed. destruct (_ <? n); inversion Ed. discriminate.
        - destruct (step4 opn n m st0) as [[x y]|] eqn:E4; cbn [bind] in Ed; inversion Ed. subst.
          unfold step4 in E4. revert E4. generalize (fun i j => n_is0 opn (hC st0 i j)) at 1 as Cz.
          generalize (fun i j => n_is0 opn (hC st0 i j) && row_uncovered st0 i && col_uncovered st0 j) as cov.
          generalize (n + 1) as f. clear Ed. revert st0. intros st0 f. revert st0.
          induction f as [|f IHf]; intros st0 cov Cz; cbn [step4_loop]; [discriminate|].
          destruct (nonzero2 n m cov) as [|[row col] l]; [intros E4; inversion E4; discriminate|].
          destruct (nonzero1 m _) as [|col' l']; [intros E4; inversion E4; discriminate|].
          apply IHf.
        - destruct (step5 n m st0); cbn [bind] in Ed; inversion Ed. discriminate.
        - inversion Ed. discriminate. }
      assert (Hgo : forall f s st, (forall s', s = Some s' -> s' <> Step1) ->
         visits opn n m (fun s st => s = Step1 /\ st = hungary_init cr \/
          at_step opn (fun _ => generic_format radix2 (FLT_exp emin prec)) (1 + 2 * (n * n)) n m Pn s st) f s st ->
         visits opn n m (in_range opn (rng (e0 + 3)) n m) f s st).
      { induction f as [|f IHf]; intros [s|] st' Hns; cbn [visits]; auto.
        - intros [H _]. split; auto. apply Himp. right. split; [|apply (Hns s eq_refl)].
          destruct H as [[H _]|H]; auto. exfalso. apply (Hns s eq_refl H).
        - intros [H Hv]. split.
          + apply Himp. right. split; [|apply (Hns s eq_refl)].
            destruct H as [[H _]|H]; auto. exfalso. apply (Hns s eq_refl H).
          + destruct (do_step opn n m s st') as [[st2 s2]|] eqn:Ed; auto.
            apply IHf; auto. intros s' ->. apply (Hnext s st' st2 s'); auto. }
      destruct fuel as [|fuel]; [unfold run_fuel in Hfuel; lia|].
      cbn [visits do_step]. intros [_ Hv]. split; [apply Himp; auto|].
      apply Hgo; auto. intros s' Es. inversion Es. discriminate. }
    pose proof (run_sim opa opn (@B2R prec emax) okf (rng (e0 + 3)) eq_refl ieee_leb ieee_is0
      (fun x y => ieee_add (e0 + 3) x y ltac:(lia) ltac:(lia))
      (fun x y => ieee_sub (e0 + 3) x y ltac:(lia) ltac:(lia))
      n m Hn ltac:(lia) fuel (Some Step1) c cr (skel (hungary_init cr))) as Hsim.
    change (put cr (skel (hungary_init cr))) with (hungary_init cr) in Hsim.
    change (put c (skel (hungary_init cr))) with (hungary_init c) in Hsim.
    rewrite E in Hsim. destruct Hsim as (CA & CB & k & E1 & E2 & _); auto.
    { intros i j Hi Hj. split; [apply Hc; auto|reflexivity]. }
    exists (put CA k). split; auto.
    subst st. change (is_star (put CB k)) with (is_star (put CA k)) in *. split; auto.
  Qed.

  Theorem lsa_ieee_near n m (c : nat -> nat -> bf) e0 D fuel :
    let N := Nat.min n m in
    (emin <= e0)%Z -> (e0 + 4 < emax)%Z ->
    (INR (4 * (N * N) + 2) * u <= 1 / 2)%R ->
    (forall i j, i < n -> j < m -> is_finite (c i j) = true /\ (Rabs (B2R (c i j)) <= bpow radix2 e0)%R) ->
    (0 <= D)%R ->
    (forall i j i' j', i < n -> j < m -> i' < n -> j' < m -> (B2R (c i j) - B2R (c i' j') <= D)%R) ->
    run_fuel N <= fuel ->
    exists l, linear_sum_assignment opa fuel n m c = Ok l /\
      complete_assignment n m l /\ rows_increasing l /\
      forall l', complete_assignment n m l' ->
        (total_cost (fun i j => B2R (c i j)) l <=
         total_cost (fun i j => B2R (c i j)) l' + 4 * INR N * INR (4 * (N * N) + 1) * u * D)%R.
  Proof.
    intros N He HK Hsmall Hc HD Hs Hfuel.
    assert (Hsm1 : (INR (4 * (N * N) + 1) * u <= 1 / 2)%R).
    { eapply Rle_trans; [|exact Hsmall]. apply Rmult_le_compat_r; [apply bpow_ge_0|].
      apply le_INR. lia. }
    pose proof (near_bound_small u (u_range prec _) N D HD Hsm1) as Hb.
    pose proof (u_range prec _) as Hu.
    assert (Hb0 : (0 <= near_bound u N D)%R).
    { unfold near_bound. pose proof (pos_INR N).
      assert (1 <= (1 + u) ^ (4 * (N * N) + 1))%R by (apply pow_R1_Rle; lra).
      apply Rmult_le_pos; [lra|]. apply Rmult_le_pos; lra. }
    destruct (lsa_from_run opa n m c (fun i j => B2R (c i j)) (near_bound u N D) fuel Hb0)
      as (l & E & [Hl Hopt] & Hinc).
    - intros Hn Hnm. unfold N in *. rewrite Nat.min_l in * by lia.
      apply (run_ieee_near n m c e0 D fuel); auto.
    - intros Hm Hmn. unfold N in *. rewrite Nat.min_r in * by lia.
      apply (run_ieee_near m n (fun i j => c j i) e0 D fuel); auto. lia.
    - exists l. split; auto. split; auto. split; auto. intros l' Hl'.
      specialize (Hopt l' Hl'). lra.
  Qed.
End Ieee.

(** ** Integer costs: the result is then exactly optimal *)
Lemma total_cost_integers (c : nat -> nat -> R) (z : nat -> nat -> Z) l :
  (forall i j, In (i, j) l -> c i j = IZR (z i j)) ->
  exists k, total_cost c l = IZR k.
Proof.
  unfold total_cost. induction l as [|[i j] l IH]; intros H; cbn [map sumR fst snd].
  - exists 0%Z. reflexivity.
  - destruct IH as (k & E). { intros a b Hab. apply H. right; auto. }
    exists (z i j + k)%Z. rewrite E, (H i j (or_introl eq_refl)), plus_IZR. reflexivity.
Qed.

Theorem lsa_ieee_integers prec emax (Hp : Prec_gt_0 prec) (Hm : Prec_lt_emax prec emax)
    n m (c : nat -> nat -> binary_float prec emax) (z : nat -> nat -> Z) (q : Z) fuel :
  let N := Nat.min n m in
  (0 <= q)%Z -> (q + 4 < emax)%Z ->
  (INR (4 * (N * N) + 2) * bpow radix2 (- prec) <= 1 / 2)%R ->
  (forall i j, i < n -> j < m -> is_finite (c i j) = true /\ B2R (c i j) = IZR (z i j) /\
     (Z.abs (z i j) <= 2 ^ q)%Z) ->
  (4 * INR N * INR (4 * (N * N) + 1) * bpow radix2 (- prec) * bpow radix2 (q + 1) < 1)%R ->
  run_fuel N <= fuel ->
  exists l, linear_sum_assignment (ieee_ops prec emax Hp Hm mode_NE) fuel n m c = Ok l /\
    optimal_assignment n m (fun i j => B2R (c i j)) l /\ rows_increasing l.
Proof.
  intros N Hq HK Hsm Hc Hb Hfuel.
  assert (Hbnd : forall i j, i < n -> j < m -> (Rabs (B2R (c i j)) <= bpow radix2 q)%R).
  { intros i j Hi Hj. destruct (Hc i j Hi Hj) as (_ & E & B). rewrite E, <- abs_IZR.
    rewrite <- IZR_Zpower by auto. apply IZR_le. exact B. }
  destruct (lsa_ieee_near prec emax Hp Hm n m c q (bpow radix2 (q + 1)) fuel) as (l & E & Hl & Hinc & Hopt); auto.
  - pose proof (emin_lt prec emax Hp Hm). unfold SpecFloat.emin in *. unfold Prec_gt_0, Prec_lt_emax in *. lia.
  - intros i j Hi Hj. destruct (Hc i j Hi Hj) as (F & _). auto.
  - apply bpow_ge_0.
  - intros i j i' j' Hi Hj Hi' Hj'. pose proof (Hbnd i j Hi Hj) as B1. pose proof (Hbnd i' j' Hi' Hj') as B2.
    apply Rabs_le_inv in B1. apply Rabs_le_inv in B2. rewrite bpow_plus_1. simpl. lra.
  - exists l. split; auto. split; auto. split; auto. intros l' Hl'.
    assert (Hint : forall l, complete_assignment n m l -> exists k, total_cost (fun i j => B2R (c i j)) l = IZR k).
    { intros l0 (_ & Hr & _). apply (total_cost_integers _ z). intros i j Hij.
      destruct (Hr _ _ Hij) as [Hi Hj]. apply (Hc i j Hi Hj). }
    destruct (Hint l Hl) as (k & Ek). destruct (Hint l' Hl') as (k' & Ek').
    specialize (Hopt l' Hl'). rewrite Ek, Ek' in *.
    apply IZR_le. assert (IZR k < IZR (k' + 1))%R; [|apply lt_IZR in H; lia].
    rewrite plus_IZR. fold N in Hopt. lra.
Qed.

(** ** A matrix where rounding loses exact optimality *)
Definition p64 : Prec_gt_0 53 := eq_refl.
Definition m64 : Prec_lt_emax 53 1024 := eq_refl.
(** The cost matrix [[1, 2^-60], [1, 0]] in binary64. *)
Definition ex_abs (i j : nat) : binary_float 53 1024 :=
  match i, j with
  | 0, 1 => @B754_finite 53 1024 false 4503599627370496 (-112) eq_refl
  | _, 0 => @B754_finite 53 1024 false 4503599627370496 (-52) eq_refl
  | _, _ => B754_zero false
  end.
Lemma ex_abs_values : B2R (ex_abs 0 0) = 1%R /\ B2R (ex_abs 0 1) = bpow radix2 (-60) /\
  B2R (ex_abs 1 0) = 1%R /\ B2R (ex_abs 1 1) = 0%R.
Proof. cbv [ex_abs B2R F2R Fnum Fexp cond_Zopp bpow radix_val radix2 Z.pow_pos Pos.iter Z.mul Pos.mul]. lra. Qed.
Lemma ex_abs_run :
  linear_sum_assignment (ieee_ops 53 1024 p64 m64 mode_NE) (run_fuel 2) 2 2 ex_abs = Ok [(0, 1); (1, 0)].
Proof. vm_compute. reflexivity. Qed.
Lemma lsa_ieee_not_optimal : exists (c : nat -> nat -> binary_float 53 1024) l l',
  (forall i j, is_finite (c i j) = true /\ (Rabs (B2R (c i j)) <= 1)%R) /\
  linear_sum_assignment (ieee_ops 53 1024 p64 m64 mode_NE) (run_fuel 2) 2 2 c = Ok l /\
  complete_assignment 2 2 l' /\
  (total_cost (fun i j => B2R (c i j)) l' < total_cost (fun i j => B2R (c i j)) l)%R.
Proof.
  destruct ex_abs_values as (V0 & V1 & V2 & V3).
  assert (H60 : (0 < bpow radix2 (-60) <= 1)%R).
  { split; [apply bpow_gt_0|]. change 1%R with (bpow radix2 0). apply bpow_le. lia. }
  exists ex_abs, [(0, 1); (1, 0)], [(0, 0); (1, 1)].
  split; [|split; [exact ex_abs_run|split]].
  - intros i j.
    assert (H : (B2R (ex_abs i j) = 1 \/ B2R (ex_abs i j) = bpow radix2 (-60) \/ B2R (ex_abs i j) = 0)%R /\
                is_finite (ex_abs i j) = true).
    { destruct i as [|i]; destruct j as [|[|j]]; (split; [|reflexivity]); auto;
        try (left; exact V0); try (left; exact V2); try (right; right; reflexivity). }
    destruct H as [H F]. split; auto.
    destruct H as [-> | [-> | ->]]; rewrite Rabs_pos_eq; lra.
  - split; [reflexivity|]. split; [|split].
    + intros i j [E|[E|[]]]; inversion E; lia.
    + repeat constructor; simpl; intuition lia.
    + repeat constructor; simpl; intuition lia.
  - unfold total_cost. cbn [map sumR fst snd]. rewrite V0, V1, V2, V3. lra.
Qed.

(** ** binary32 and binary64, up to 1000 sources *)
Definition p32 : Prec_gt_0 24 := eq_refl.
Definition m32 : Prec_lt_emax 24 128 := eq_refl.
Lemma small_1000 N prec : N <= 1000 -> (24 <= prec)%Z ->
  (INR (4 * (N * N) + 2) * bpow radix2 (- prec) <= 1 / 2)%R.
Proof.
  intros HN Hp.
  assert (H : (INR (4 * (N * N) + 2) <= IZR 4000002)%R).
  { rewrite INR_IZR_INZ. apply IZR_le. nia. }
  apply Rle_trans with (IZR 4000002 * bpow radix2 (-24))%R.
  - apply Rmult_le_compat; auto; [apply pos_INR|apply bpow_ge_0|apply bpow_le; lia].
  - cbv [bpow radix_val radix2 Z.pow_pos Pos.iter Z.mul Pos.mul]. lra.
Qed.
Theorem lsa_binary32 n m (c : nat -> nat -> binary_float 24 128) D fuel :
  let N := Nat.min n m in N <= 1000 ->
  (forall i j, i < n -> j < m -> is_finite (c i j) = true /\ (Rabs (B2R (c i j)) <= bpow radix2 120)%R) ->
  (0 <= D)%R ->
  (forall i j i' j', i < n -> j < m -> i' < n -> j' < m -> (B2R (c i j) - B2R (c i' j') <= D)%R) ->
  run_fuel N <= fuel ->
  exists l, linear_sum_assignment (ieee_ops 24 128 p32 m32 mode_NE) fuel n m c = Ok l /\
    complete_assignment n m l /\ rows_increasing l /\
    forall l', complete_assignment n m l' ->
      (total_cost (fun i j => B2R (c i j)) l <=
       total_cost (fun i j => B2R (c i j)) l' + 4 * INR N * INR (4 * (N * N) + 1) * bpow radix2 (-24) * D)%R.
Proof.
  intros N HN Hc HD Hs Hf.
  apply (lsa_ieee_near 24 128 p32 m32 n m c 120 D fuel); auto; try (cbv; congruence).
  apply (small_1000 N 24); auto. lia.
Qed.
Theorem lsa_binary64 n m (c : nat -> nat -> binary_float 53 1024) D fuel :
  let N := Nat.min n m in N <= 1000 ->
  (forall i j, i < n -> j < m -> is_finite (c i j) = true /\ (Rabs (B2R (c i j)) <= bpow radix2 1000)%R) ->
  (0 <= D)%R ->
  (forall i j i' j', i < n -> j < m -> i' < n -> j' < m -> (B2R (c i j) - B2R (c i' j') <= D)%R) ->
  run_fuel N <= fuel ->
  exists l, linear_sum_assignment (ieee_ops 53 1024 p64 m64 mode_NE) fuel n m c = Ok l /\
    complete_assignment n m l /\ rows_increasing l /\
    forall l', complete_assignment n m l' ->
      (total_cost (fun i j => B2R (c i j)) l <=
       total_cost (fun i j => B2R (c i j)) l' + 4 * INR N * INR (4 * (N * N) + 1) * bpow radix2 (-53) * D)%R.
Proof.
  intros N HN Hc HD Hs Hf.
  apply (lsa_ieee_near 53 1024 p64 m64 n m c 1000 D fuel); auto; try (cbv; congruence).
  apply (small_1000 N 53); auto. lia.
Qed.
