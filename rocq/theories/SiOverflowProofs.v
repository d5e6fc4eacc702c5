(** * When the norm overflows (C95) *)
From Coq Require Import Reals Lra Psatz Permutation.
From Verif Require Import Prelude ExtReal Spec Sums Helpers Metrics SpecSig LeastSq PrepProofs MetricsProofs DbProofs
  ProjTheorems Edge Witness SigExamples SiRound SiRoundProofs SiRoundFlt SiMean SiMeanProofs SiOverflow.
From Flocq Require Import Core Relative.
Local Open Scope R_scope.

Section Overflow.
  Variables (fl : R -> R) (u eta omega : R).
  Hypothesis Hu : 0 <= u.
  Hypothesis Heta : 0 <= eta.
  Hypothesis Hfl : forall z, Rabs (fl z - z) <= u * Rabs z + eta.
  Hypothesis Hpos : forall z, 0 <= z -> 0 <= fl z.
  Hypothesis Hmono : forall a b, a <= b -> fl a <= fl b.
  Hypothesis Hom : fl omega = omega.
  Hypothesis H00 : fl 0 = 0.
  Variables (n h : nat).
  Hypothesis Hn : (2 <= n)%nat.
  Hypothesis Hs : INR (h + 1) * u <= / 100.
  Hypothesis Ht : 2 * INR n * P u h * eta / (norm_eps * norm_eps) <= u.
  Hypothesis Hbig : 100 * (INR n * INR n) < omega.

  Lemma om_big : 400 < omega.
  Proof. assert (2 <= INR n) by (apply (le_INR 2); auto). nra. Qed.
  Lemma ovf_fin r : Rabs (fl r) < omega -> ovf fl omega (Fin r) = Fin (fl r).
  Proof.
    intros H. apply Rabs_def2 in H. unfold ovf.
    destruct (Rle_dec omega (fl r)); [lra|]. destruct (Rle_dec (fl r) (- omega)); [lra|]. reflexivity.
  Qed.
  Lemma ovf_inf r : omega <= r -> ovf fl omega (Fin r) = PInf.
  Proof.
    intros H. apply Hmono in H. rewrite Hom in H. unfold ovf. destruct (Rle_dec omega (fl r)); [reflexivity|lra].
  Qed.
  Lemma ovf_pos r : 0 <= r -> ovf fl omega (Fin r) = Fin (fl r) /\ fl r < omega \/ ovf fl omega (Fin r) = PInf /\ omega <= fl r.
  Proof.
    intros H. apply Hpos in H. pose proof om_big. unfold ovf. destruct (Rle_dec omega (fl r)); [right; auto|left].
    destruct (Rle_dec (fl r) (- omega)); [lra|]. split; [reflexivity|lra].
  Qed.

  (** ** Sums of numbers that are not negative *)
  Lemma osum_pos (F : nat -> xr) (g : nat -> R) t : (forall i, 0 <= g i) ->
    (forall i, F i = Fin (g i) \/ F i = PInf /\ omega <= g i) ->
    0 <= fsum fl g t /\
    (osum fl omega F t = Fin (fsum fl g t) /\ (match t with SNode _ _ => fsum fl g t < omega | SLeaf _ => True end)
     \/ osum fl omega F t = PInf /\ omega <= fsum fl g t).
  Proof.
    intros Hg HF. induction t as [i|l IHl r IHr]; cbn [fsum osum].
    - split; [apply Hg|]. destruct (HF i) as [E|E]; auto.
    - destruct IHl as [Pl IHl]. destruct IHr as [Pr IHr]. split; [apply Hpos; lra|].
      assert (B : omega <= fsum fl g l \/ omega <= fsum fl g r -> omega <= fl (fsum fl g l + fsum fl g r)).
      { intros B. rewrite <- Hom at 1. apply Hmono. lra. }
      destruct IHl as [[-> _]|[-> Bl]]; destruct IHr as [[-> _]|[-> Br]]; cbn [xadd].
      + destruct (ovf_pos (fsum fl g l + fsum fl g r) ltac:(lra)) as [[E L]|[E L]]; rewrite E; auto.
      + right. split; [reflexivity|auto].
      + right. split; [reflexivity|auto].
      + right. split; [reflexivity|auto].
  Qed.
  Definition prods (fma : nat -> bool) (x : nat -> R) (i : nat) : R := if fma i then x i * x i else fl (x i * x i).
  Lemma odot_self fma t x : sums n h t ->
    odot fl omega fma t (fun i => Fin (x i)) (fun i => Fin (x i)) =
    if Rle_dec omega (fdot fl fma t x x) then PInf else Fin (fdot fl fma t x x).
  Proof.
    intros St. unfold odot, fdot. cbn [xmul].
    destruct (osum_pos (fun i => if fma i then Fin (x i * x i) else ovf fl omega (Fin (x i * x i)))
      (fun i => if fma i then x i * x i else fl (x i * x i)) t) as [_ D].
    - intros i. destruct (fma i); [apply Rle_0_sqr|apply Hpos, Rle_0_sqr].
    - intros i. destruct (fma i); auto. destruct (ovf_pos (x i * x i) (Rle_0_sqr _)) as [[E _]|[E L]]; auto.
    - destruct D as [[E B]|[E B]]; rewrite E; destruct (Rle_dec _ _) as [L|L]; auto; try lra.
      exfalso. destruct t as [i|l r]; [|lra]. pose proof (sums_length _ _ _ St) as SL. cbn in SL. lia.
  Qed.

  (** ** The norm *)
  Lemma n_ge1 : 2 <= INR n.
  Proof. apply (le_INR 2). auto. Qed.
  Lemma u_small : 0 <= u <= / 100.
  Proof. split; [exact Hu|]. rewrite plus_INR in Hs. pose proof (pos_INR h). simpl in Hs. nra. Qed.
  Lemma eps_le : norm_eps <= / 1000.
  Proof. unfold norm_eps. apply Rinv_le_contravar; lra. Qed.
  Lemma eta_small : 4 * eta <= u * (norm_eps * norm_eps) /\ eta <= / 1000.
  Proof.
    pose proof (P_ge1 u Hu h) as HP. pose proof n_ge1. pose proof eps_pos as He. pose proof eps_le. pose proof u_small.
    assert (Hee : 0 < norm_eps * norm_eps) by nra.
    pose proof (Rmult_le_compat_r (norm_eps * norm_eps) _ _ (Rlt_le _ _ Hee) Ht) as HT1.
    unfold Rdiv in HT1. rewrite Rmult_assoc, Rinv_l, Rmult_1_r in HT1 by lra.
    assert (HT2 : 4 * eta <= 2 * INR n * P u h * eta).
    { apply Rmult_le_compat_r; auto. assert (2 * INR n * 1 <= 2 * INR n * P u h) by (apply Rmult_le_compat_l; lra). lra. }
    split; [lra|]. assert (u * (norm_eps * norm_eps) <= / 100 * / 1000) by (apply Rmult_le_compat; nra). lra.
  Qed.
  Lemma P_102 : 1 <= P u h <= 1.0102.
  Proof. split; [apply (P_ge1 u Hu)|]. pose proof (P_small u h Hu Hs). lra. Qed.
  Lemma pow_102 : 1 <= (1 + u) ^ h <= 1.0102.
  Proof.
    pose proof P_102 as H. unfold P in H. rewrite Nat.add_1_r in H. cbn [pow] in H.
    assert (1 <= (1 + u) ^ h) by (apply pow_R1_Rle; lra). split; auto. nra.
  Qed.
  Lemma fl_le z : Rabs (fl z) <= 1.01 * Rabs z + / 1000.
  Proof.
    pose proof (Hfl z) as H. destruct eta_small as [_ He]. pose proof u_small.
    replace (fl z) with ((fl z - z) + z) by ring. eapply Rle_trans; [apply Rabs_triang|].
    pose proof (Rabs_pos z). assert (u * Rabs z <= / 100 * Rabs z) by (apply Rmult_le_compat_r; lra). lra.
  Qed.
  Lemma ovf_ok r : 1.01 * Rabs r + / 1000 < omega -> ovf fl omega (Fin r) = Fin (fl r).
  Proof. intros H. apply ovf_fin. pose proof (fl_le r). lra. Qed.
  Lemma ovf_0 : ovf fl omega (Fin 0) = Fin 0.
  Proof. rewrite ovf_ok, H00; auto. rewrite Rabs_R0. pose proof om_big. lra. Qed.
  Lemma oden_eq fma t x : sums n h t ->
    oden fl omega fma t (fun i => Fin (x i)) = if Rle_dec omega (fdot fl fma t x x) then PInf else Fin (fden fl fma t x).
  Proof.
    intros St. unfold oden, fden. rewrite odot_self by auto. pose proof om_big as Ho.
    assert (E0 : ovf fl omega (Fin norm_eps) = Fin (fl norm_eps)).
    { apply ovf_ok. pose proof eps_pos. pose proof eps_le. rewrite Rabs_pos_eq; lra. }
    rewrite E0. destruct (Rle_dec _ _) as [L|L]; [reflexivity|].
    pose proof (fdot_self_nonneg fl Hpos fma t x) as S0. set (s := fdot fl fma t x x) in *.
    cbn [xsqrt]. destruct (Rltb s 0) eqn:Q; [apply Rltb_true in Q; lra|].
    rewrite ovf_ok.
    - apply xmax_fin.
    - pose proof (sqrt_pos s). rewrite Rabs_pos_eq by auto. pose proof (sqrt_sqrt s S0).
      assert (sqrt s * sqrt s < omega) by lra. destruct (Rle_dec (sqrt s) 20); [lra|]. nra.
  Qed.
  Lemma rho_tenth : 0 <= rho u eta n h <= / 10.
  Proof.
    pose proof P_102 as HP. pose proof u_small. destruct eta_small as [He _]. pose proof eps_pos. pose proof eps_le.
    split; [apply rho_nonneg; auto|]. unfold rho.
    assert (K : 0 <= kappa u eta n h <= 0.03).
    { split; [apply kappa_nonneg; auto|]. unfold kappa. lra. }
    assert (eta / norm_eps <= / 100).
    { apply (Rmult_le_reg_r norm_eps); auto. unfold Rdiv. rewrite Rmult_assoc, Rinv_l by lra.
      assert (norm_eps * norm_eps <= norm_eps * 1) by (apply Rmult_le_compat_l; lra).
      assert (u * (norm_eps * norm_eps) <= / 100 * (norm_eps * norm_eps)) by (apply Rmult_le_compat_r; [apply Rle_0_sqr|lra]). lra. }
    assert (u * (1 + kappa u eta n h) <= / 100 * 1.03) by (apply Rmult_le_compat; lra). lra.
  Qed.
  Lemma normalized_le fma t x i : sums n h t -> (i < n)%nat -> Rabs (x i / fden fl fma t x) <= 1.2.
  Proof.
    intros St Hi. pose proof (fden_error fl u eta Hu Heta Hfl Hpos fma t n h x St) as HE.
    pose proof rho_tenth as Hr. pose proof (den_pos n x) as Hd. pose proof (unit_sample n x i Hi) as Hs1.
    apply abs_le_iff in HE.
    set (d := den n x) in *. set (d' := fden fl fma t x) in *.
    assert (Hlow : 0.9 * d <= d').
    { assert (rho u eta n h * d <= / 10 * d) by (apply Rmult_le_compat_r; lra). lra. }
    assert (Hd' : 0 < d') by lra.
    unfold Rdiv in *. rewrite Rabs_mult in *. rewrite (Rabs_pos_eq (/ d')) by (left; apply Rinv_0_lt_compat; auto).
    rewrite (Rabs_pos_eq (/ d)) in Hs1 by (left; apply Rinv_0_lt_compat; auto).
    assert (Hx : Rabs (x i) <= d).
    { apply (Rmult_le_compat_r d) in Hs1; [|lra]. rewrite Rmult_assoc, Rinv_l in Hs1 by lra. lra. }
    apply (Rmult_le_reg_r d'); auto. rewrite Rmult_assoc, Rinv_l by lra. lra.
  Qed.
  Lemma onormalize_eq fma t x i : sums n h t -> (i < n)%nat ->
    onormalize fl omega fma t (fun i => Fin (x i)) i =
    if Rle_dec omega (fdot fl fma t x x) then Fin 0 else Fin (fnormalize fl fma t x i).
  Proof.
    intros St Hi. unfold onormalize, fnormalize. rewrite oden_eq by auto.
    destruct (Rle_dec _ _); [apply ovf_0|].
    pose proof (fden_error fl u eta Hu Heta Hfl Hpos fma t n h x St) as HE. pose proof rho_tenth as Hr. pose proof (den_pos n x) as Hd.
    assert (Hd' : 0 < fden fl fma t x).
    { apply abs_le_iff in HE. assert (rho u eta n h * den n x <= / 10 * den n x) by (apply Rmult_le_compat_r; lra). lra. }
    cbn [xdiv]. destruct (Reqb (fden fl fma t x) 0) eqn:Q; [apply Reqb_true in Q; lra|].
    apply ovf_ok. pose proof (normalized_le fma t x i St Hi). pose proof om_big. lra.
  Qed.
  Lemma fnormalize_le fma t x i : sums n h t -> (i < n)%nat -> Rabs (fnormalize fl fma t x i) <= 1.3.
  Proof.
    intros St Hi. unfold fnormalize. eapply Rle_trans; [apply fl_le|]. pose proof (normalized_le fma t x i St Hi). lra.
  Qed.

  (** ** Bounded sums *)
  Lemma lsum_const_le g l c : (forall i, In i l -> g i <= c) -> lsum g l <= INR (length l) * c.
  Proof.
    induction l as [|i l IH]; intros H; cbn [lsum fold_right length] in *; [simpl; lra|].
    specialize (IH (fun j Hj => H j (or_intror Hj))). specialize (H i (or_introl eq_refl)). rewrite S_INR.
    unfold lsum in *. cbn in *. lra.
  Qed.
  Lemma osum_fin F g t : (depth t <= h)%nat -> (length (leaves t) <= n)%nat ->
    (forall i, In i (leaves t) -> F i = Fin (g i) /\ Rabs (g i) <= 2) ->
    osum fl omega F t = Fin (fsum fl g t) /\ Rabs (fsum fl g t) <= 3 * INR n.
  Proof.
    intros Hd Hl HF.
    assert (B : forall t', (depth t' <= h)%nat -> (length (leaves t') <= n)%nat -> (forall i, In i (leaves t') -> Rabs (g i) <= 2) ->
       Rabs (fsum fl g t') <= 3 * INR n).
    { clear t Hd Hl HF. intros t Hd Hl HF. pose proof (fsum_error fl u eta Hu Heta Hfl g t h Hd) as HE.
      pose proof pow_102 as HP. destruct eta_small as [_ He]. pose proof n_ge1 as N.
      pose proof (lsum_abs g (leaves t)) as LA.
      assert (LB : lsum (fun i => Rabs (g i)) (leaves t) <= 2 * INR n).
      { eapply Rle_trans; [apply (lsum_const_le _ _ 2); auto|]. apply le_INR in Hl. lra. }
      assert (LP : 0 <= lsum (fun i => Rabs (g i)) (leaves t)) by (eapply Rle_trans; [apply Rabs_pos|exact LA]).
      assert (LN : INR (length (leaves t)) <= INR n) by (apply le_INR; auto).
      assert (L0 : 1 <= INR (length (leaves t))).
      { apply (le_INR 1). pose proof (depth_leaves t). lia. }
      set (S := lsum g (leaves t)) in *. set (A := lsum (fun i => Rabs (g i)) (leaves t)) in *.
      set (p := (1 + u) ^ h) in *. set (k := INR (length (leaves t))) in *.
      replace (fsum fl g t) with ((fsum fl g t - S) + S) by ring. eapply Rle_trans; [apply Rabs_triang|].
      assert (T1 : (p - 1) * A <= 0.0102 * (2 * INR n)) by (apply Rmult_le_compat; lra).
      assert (T2 : (k - 1) * p * eta <= INR n * 1.0102 * / 1000).
      { apply Rmult_le_compat; try lra; [apply Rmult_le_pos; lra|]. apply Rmult_le_compat; lra. }
      lra. }
    split; [|apply B; auto; intros; apply HF; auto].
    revert Hd Hl HF. induction t as [i|l IHl r IHr]; intros Hd Hl HF; cbn [osum fsum].
    - apply HF. left. reflexivity.
    - cbn [depth leaves] in *. rewrite app_length in Hl.
      assert (Fl : forall i, In i (leaves l) -> F i = Fin (g i) /\ Rabs (g i) <= 2) by (intros; apply HF, in_or_app; auto).
      assert (Fr : forall i, In i (leaves r) -> F i = Fin (g i) /\ Rabs (g i) <= 2) by (intros; apply HF, in_or_app; auto).
      rewrite IHl, IHr by (auto; lia). cbn [xadd]. apply ovf_ok.
      pose proof (B l ltac:(lia) ltac:(lia) (fun i Hi => proj2 (Fl i Hi))) as B1.
      pose proof (B r ltac:(lia) ltac:(lia) (fun i Hi => proj2 (Fr i Hi))) as B2.
      pose proof (Rabs_triang (fsum fl g l) (fsum fl g r)). pose proof n_ge1. nra.
  Qed.

  (** ** The coherence *)
  Section Coh.
  Variables (fx fy fxy : nat -> bool) (tx ty txy : stree) (x y : nat -> R).
  Hypotheses (Sx : sums n h tx) (Sy : sums n h ty) (Sxy : sums n h txy).
  Theorem ocoh_fin : fdot fl fx tx x x < omega -> fdot fl fy ty y y < omega ->
    ocoh fl omega fx fy fxy tx ty txy (fun i => Fin (x i)) (fun i => Fin (y i)) = Fin (fcoh fl fx fy fxy tx ty txy x y).
  Proof.
    intros Ox Oy. unfold ocoh, fcoh. cbv zeta.
    set (a := fnormalize fl fx tx x). set (b := fnormalize fl fy ty y).
    destruct (osum_fin (fun i => if fxy i then xmul (onormalize fl omega fx tx (fun i => Fin (x i)) i) (onormalize fl omega fy ty (fun i => Fin (y i)) i)
       else ovf fl omega (xmul (onormalize fl omega fx tx (fun i => Fin (x i)) i) (onormalize fl omega fy ty (fun i => Fin (y i)) i)))
       (fun i => if fxy i then a i * b i else fl (a i * b i)) txy) as [E B].
    - apply Sxy.
    - rewrite (sums_length _ _ _ Sxy). auto.
    - intros i Hi. apply (sums_in _ _ _ _ Sxy) in Hi. rewrite !onormalize_eq by auto.
      destruct (Rle_dec omega (fdot fl fx tx x x)); [lra|]. destruct (Rle_dec omega (fdot fl fy ty y y)); [lra|].
      fold a b. cbn [xmul].
      pose proof (fnormalize_le fx tx x i Sx Hi) as A1. fold a in A1. pose proof (fnormalize_le fy ty y i Sy Hi) as A2. fold b in A2.
      pose proof (Rabs_pos (a i)). pose proof (Rabs_pos (b i)).
      assert (A3 : Rabs (a i * b i) <= 1.7) by (rewrite Rabs_mult; nra).
      destruct (fxy i); [split; [reflexivity|lra]|].
      pose proof (fl_le (a i * b i)). pose proof om_big. split; [apply ovf_ok; lra|lra].
    - unfold odot. rewrite E. cbn [xmul]. fold a b. unfold fdot. fold a b.
      set (s := fsum fl (fun i => if fxy i then a i * b i else fl (a i * b i)) txy) in *.
      apply ovf_ok. rewrite Rabs_mult. pose proof (Rabs_pos s). pose proof n_ge1.
      assert (Rabs s * Rabs s <= (3 * INR n) * (3 * INR n)) by (apply Rmult_le_compat; lra). nra.
  Qed.
  Lemma osum_zero F t : (forall i, In i (leaves t) -> F i = Fin 0) -> osum fl omega F t = Fin 0.
  Proof.
    induction t as [i|l IHl r IHr]; cbn [osum leaves]; intros H; [apply H; left; auto|].
    rewrite IHl, IHr by (intros; apply H, in_or_app; auto). cbn [xadd]. rewrite Rplus_0_r. apply ovf_0.
  Qed.
  Theorem ocoh_zero : omega <= fdot fl fx tx x x \/ omega <= fdot fl fy ty y y ->
    ocoh fl omega fx fy fxy tx ty txy (fun i => Fin (x i)) (fun i => Fin (y i)) = Fin 0.
  Proof.
    intros O. unfold ocoh. cbv zeta. unfold odot. rewrite osum_zero.
    - cbn [xmul]. rewrite Rmult_0_l. apply ovf_0.
    - intros i Hi. apply (sums_in _ _ _ _ Sxy) in Hi. rewrite !onormalize_eq by auto.
      assert (Z : xmul (if Rle_dec omega (fdot fl fx tx x x) then Fin 0 else Fin (fnormalize fl fx tx x i))
                       (if Rle_dec omega (fdot fl fy ty y y) then Fin 0 else Fin (fnormalize fl fy ty y i)) = Fin 0).
      { destruct O as [O|O].
        - destruct (Rle_dec omega (fdot fl fx tx x x)); [|lra]. destruct (Rle_dec _ _); cbn [xmul]; rewrite Rmult_0_l; auto.
        - destruct (Rle_dec omega (fdot fl fy ty y y)); [|lra]. destruct (Rle_dec _ _); cbn [xmul]; rewrite Rmult_0_r; auto. }
      rewrite Z. destruct (fxy i); [reflexivity|apply ovf_0].
  Qed.
  End Coh.

  (** ** Sizes *)
  Lemma fdot_small fma t x : sums n h t -> Rsum n (fun i => x i * x i) <= omega / 2 -> fdot fl fma t x x < omega.
  Proof.
    intros St Hx. pose proof (fdot_error fl u eta Hu Heta Hfl fma t n h x x St) as HE.
    rewrite (Rsum_ext n (fun i => Rabs (x i * x i)) (fun i => x i * x i)) in HE by (intros; apply Rabs_pos_eq, Rle_0_sqr).
    pose proof P_102 as HP. pose proof eps_pos. pose proof eps_le. pose proof u_small. pose proof om_big.
    assert (Hee : 0 < norm_eps * norm_eps) by nra.
    pose proof (Rmult_le_compat_r (norm_eps * norm_eps) _ _ (Rlt_le _ _ Hee) Ht) as HT1.
    unfold Rdiv in HT1. rewrite Rmult_assoc, Rinv_l, Rmult_1_r in HT1 by lra.
    assert (u * (norm_eps * norm_eps) <= 1) by nra.
    set (s := Rsum n (fun i => x i * x i)) in *.
    assert (0 <= s) by (apply Rsum_nonneg; intros; apply Rle_0_sqr).
    assert ((P u h - 1) * s <= 0.0102 * s) by (apply Rmult_le_compat_r; lra).
    apply abs_le_iff in HE. lra.
  Qed.
  Lemma fsum_ge g t i : (forall i, 0 <= g i) -> In i (leaves t) -> omega <= g i -> omega <= fsum fl g t.
  Proof.
    intros Hg. induction t as [j|l IHl r IHr]; cbn [leaves fsum]; intros Hi Ho.
    - destruct Hi as [<-|[]]. auto.
    - assert (N : forall t, 0 <= fsum fl g t).
      { intros t. induction t; cbn; [apply Hg|apply Hpos; lra]. }
      pose proof (N l). pose proof (N r). rewrite <- Hom. apply Hmono.
      apply in_app_or in Hi. destruct Hi as [Hi|Hi]; [specialize (IHl Hi Ho)|specialize (IHr Hi Ho)]; lra.
  Qed.
  Lemma fdot_large fma t x i : sums n h t -> (i < n)%nat -> omega <= x i * x i -> omega <= fdot fl fma t x x.
  Proof.
    intros St Hi Ho. unfold fdot. apply (fsum_ge _ t i).
    - intros j. destruct (fma j); [apply Rle_0_sqr|apply Hpos, Rle_0_sqr].
    - apply (Permutation_in _ (Permutation_sym (proj1 St))), in_seq. lia.
    - destruct (fma i); auto. rewrite <- Hom. apply Hmono. auto.
  Qed.
End Overflow.

(** ** IEEE formats *)
Lemma rnd_mono emin prec choice a b : (0 < prec)%Z -> a <= b -> rnd emin prec choice a <= rnd emin prec choice b.
Proof.
  intros Hp H. unfold rnd. pose proof (FLT_exp_valid emin prec (prec_gt_0_ := Hp)).
  apply round_le; [assumption|apply valid_rnd_N|exact H].
Qed.
Lemma rnd_bpow emin prec choice e : (0 < prec)%Z -> (emin + prec <= e)%Z -> rnd emin prec choice (bpow radix2 e) = bpow radix2 e.
Proof.
  intros Hp He. unfold rnd. apply round_generic; [apply valid_rnd_N|].
  apply generic_format_bpow. unfold FLT_exp. lia.
Qed.
Lemma rnd_0 emin prec choice : rnd emin prec choice 0 = 0.
Proof. unfold rnd. apply round_0, valid_rnd_N. Qed.

Section Formats.
  Variables (emin prec emax : Z) (choice : Z -> bool) (n h : nat).
  Hypotheses (Hp : (7 <= prec)%Z) (Hq : (emin + 2 * prec + 34 <= 0)%Z) (Hem : (emin + prec <= emax)%Z) (Hbig : (2 * prec <= emax)%Z).
  Hypotheses (Hn2 : (2 <= n)%nat) (Hn : (Z.of_nat n <= 2 ^ (prec - 7))%Z) (Hh : (Z.of_nat h < 2 ^ (prec - 7))%Z).
  Let fl := rnd emin prec choice.
  Let omega := bpow radix2 emax.
  Lemma F1 : 0 <= uro prec. Proof. apply bpow_ge_0. Qed.
  Lemma F2 : 0 <= tiny emin. Proof. apply bpow_ge_0. Qed.
  Lemma F3 z : Rabs (fl z - z) <= uro prec * Rabs z + tiny emin. Proof. apply rnd_error. lia. Qed.
  Lemma F4 z : 0 <= z -> 0 <= fl z. Proof. apply rnd_pos. lia. Qed.
  Lemma F5 a b : a <= b -> fl a <= fl b. Proof. apply rnd_mono. lia. Qed.
  Lemma F6 : fl omega = omega. Proof. apply rnd_bpow; lia. Qed.
  Lemma F7 : fl 0 = 0. Proof. apply rnd_0. Qed.
  Lemma F8 : INR (h + 1) * uro prec <= / 100. Proof. now apply small_depth. Qed.
  Lemma F9 : 2 * INR n * P (uro prec) h * tiny emin / (norm_eps * norm_eps) <= uro prec.
  Proof. apply (tiny_enough emin prec n h (prec - 7)); [apply F8|apply bpow_INR; lia|lia]. Qed.
  Lemma F10 : 100 * (INR n * INR n) < omega.
  Proof.
    assert (HN : INR n <= bpow radix2 (prec - 7)) by (apply bpow_INR; lia). pose proof (pos_INR n) as H0.
    assert (H1 : INR n * INR n <= bpow radix2 (prec - 7) * bpow radix2 (prec - 7)) by (apply Rmult_le_compat; lra).
    rewrite <- bpow_plus in H1.
    apply Rle_lt_trans with (bpow radix2 7 * bpow radix2 (prec - 7 + (prec - 7))).
    - apply Rmult_le_compat; [lra|nra| |exact H1]. simpl. lra.
    - rewrite <- bpow_plus. unfold omega. apply bpow_lt. lia.
  Qed.
  Section Pair.
  Variables (fx fy fxy : nat -> bool) (tx ty txy : stree) (v w : list R).
  Hypotheses (Lv : length v = n) (Lw : length w = n) (Sx : sums n h tx) (Sy : sums n h ty) (Sxy : sums n h txy).
  Lemma energy_half x e : length x = n -> (2 * e + 1 <= emax)%Z -> norm2 x <= bpow radix2 e ->
    Rsum n (fun i => smp x i * smp x i) <= omega / 2.
  Proof.
    intros Lx He H. set (s := Rsum n (fun i => smp x i * smp x i)).
    assert (S0 : 0 <= s) by (apply Rsum_nonneg; intros; apply Rle_0_sqr).
    assert (E : norm2 x = sqrt s).
    { unfold norm2, s. rewrite Lx. f_equal. apply Rsum_ext. intros. ring. }
    rewrite E in H. pose proof (sqrt_pos s). rewrite <- (sqrt_sqrt s) by auto.
    apply Rle_trans with (bpow radix2 e * bpow radix2 e); [apply Rmult_le_compat; lra|].
    rewrite <- bpow_plus. unfold omega.
    apply Rle_trans with (bpow radix2 (emax - 1)); [apply bpow_le; lia|].
    unfold Zminus. rewrite bpow_plus. simpl. lra.
  Qed.
  Lemma no_overflow e : (2 * e + 1 <= emax)%Z -> norm2 v <= bpow radix2 e -> norm2 w <= bpow radix2 e ->
    ocoh fl omega fx fy fxy tx ty txy (fun i => Fin (smp v i)) (fun i => Fin (smp w i)) =
    Fin (fcoh fl fx fy fxy tx ty txy (smp v) (smp w)).
  Proof.
    intros He Hv Hw.
    apply (ocoh_fin fl (uro prec) (tiny emin) omega F1 F2 F3 F4 F5 F6 F7 n h Hn2 F8 F9 F10); auto;
    apply (fdot_small fl (uro prec) (tiny emin) omega F1 F2 F3 n h Hn2 F8 F9 F10); auto; eapply energy_half; eauto.
  Qed.
  Lemma overflow x i e : (emax <= 2 * e)%Z -> x = v \/ x = w -> (i < n)%nat -> bpow radix2 e <= Rabs (smp x i) ->
    ocoh fl omega fx fy fxy tx ty txy (fun i => Fin (smp v i)) (fun i => Fin (smp w i)) = Fin 0.
  Proof.
    intros He Hx Hi Hbx.
    assert (Ho : omega <= smp x i * smp x i).
    { apply Rle_trans with (bpow radix2 e * bpow radix2 e).
      - rewrite <- bpow_plus. unfold omega. apply bpow_le. lia.
      - pose proof (bpow_ge_0 radix2 e). replace (smp x i * smp x i) with (Rabs (smp x i) * Rabs (smp x i)).
        + apply Rmult_le_compat; auto.
        + rewrite <- Rabs_mult. apply Rabs_pos_eq, Rle_0_sqr. }
    apply (ocoh_zero fl (uro prec) (tiny emin) omega F1 F2 F3 F4 F5 F6 F7 n h Hn2 F8 F9 F10); auto.
    destruct Hx as [<-|<-]; [left|right]; eapply fdot_large with (i := i); eauto using F4, F5, F6, F7.
  Qed.
  End Pair.
End Formats.

Section Top.
  Variables (b : backend) (o : opts) (ref est : arr) (m : list (list xr)) (c d : nat) (v w : list R).
  Hypotheses (Hr : wf ref) (He : wf est) (Hl : a_len ref = a_len est)
    (Hm : sdr_coh b o ref est = Ok m) (HL : filter_length o = 1%nat) (Hz : zero_mean o = false)
    (Hc : has_chan ref c v) (Hd : has_chan est d w).
  Variables (choice : Z -> bool) (fx fy fxy : nat -> bool) (tx ty txy : stree).
  Lemma chan_lengths : length v = a_len ref /\ length w = a_len ref.
  Proof.
    destruct Hc as [Ic Ev]. destruct Hd as [Id Ew].
    destruct (pchan_fin false ref c v Hr Ic Ev) as [_ Lv]. destruct (pchan_fin false est d w He Id Ew) as [_ Lw].
    split; congruence.
  Qed.
  Theorem coh_no_overflow emin prec emax e h :
    (7 <= prec)%Z -> (emin + 2 * prec + 34 <= 0)%Z -> (emin + prec <= emax)%Z -> (2 * prec <= emax)%Z -> (2 * e + 1 <= emax)%Z ->
    (2 <= a_len ref)%nat ->
    (Z.of_nat (a_len ref) <= 2 ^ (prec - 7))%Z -> (Z.of_nat h < 2 ^ (prec - 7))%Z ->
    sums (a_len ref) h tx -> sums (a_len ref) h ty -> sums (a_len ref) h txy ->
    norm2 v <= bpow radix2 e -> norm2 w <= bpow radix2 e ->
    exists q r, mat_of m c d = Fin q /\
      ocoh (rnd emin prec choice) (bpow radix2 emax) fx fy fxy tx ty txy (fun i => Fin (smp v i)) (fun i => Fin (smp w i)) = Fin r /\
      Rabs (r - q) <= (8 * INR h + 40) * uro prec.
  Proof.
    intros Hp Hq Hem H2p He2 Hn2 Hn Hh S1 S2 S3 Nv Nw. destruct chan_lengths as [Lv Lw].
    destruct (coh_error_flt b o ref est m c d v w Hr He Hl Hm HL Hz Hc Hd choice fx fy fxy tx ty txy emin prec h Hp Hq Hn Hh S1 S2 S3) as (q & E & B).
    exists q, (fcoh (rnd emin prec choice) fx fy fxy tx ty txy (smp v) (smp w)). split; [exact E|]. split; [|exact B].
    apply (no_overflow emin prec emax choice (a_len ref) h) with (e := e); auto.
  Qed.
  Theorem coh_overflow emin prec emax e h x i cd :
    (7 <= prec)%Z -> (emin + 2 * prec + 34 <= 0)%Z -> (emin + prec <= emax)%Z -> (2 * prec <= emax)%Z -> (emax <= 2 * e)%Z ->
    (2 <= a_len ref)%nat ->
    (Z.of_nat (a_len ref) <= 2 ^ (prec - 7))%Z -> (Z.of_nat h < 2 ^ (prec - 7))%Z ->
    sums (a_len ref) h tx -> sums (a_len ref) h ty -> sums (a_len ref) h txy ->
    x = v \/ x = w -> (i < a_len ref)%nat -> bpow radix2 e <= Rabs (smp x i) -> (forall D, cd = Some D -> 0 <= D) ->
    let r := ocoh (rnd emin prec choice) (bpow radix2 emax) fx fy fxy tx ty txy (fun i => Fin (smp v i)) (fun i => Fin (smp w i)) in
    r = Fin 0 /\ coherence_to_neg_sdr cd r = match cd with None => PInf | Some D => Fin D end.
  Proof.
    intros Hp Hq Hem H2p He2 Hn2 Hn Hh S1 S2 S3 Hx Hi Hb HD r. destruct chan_lengths as [Lv Lw].
    assert (E : r = Fin 0) by (apply (overflow emin prec emax choice (a_len ref) h) with (x := x) (i := i) (e := e); auto).
    split; [exact E|]. rewrite E. exact (worst_loss_coh (Opts 1 None false cd None) HD).
  Qed.
End Top.

(** [_normalize] alone. *)
Theorem normalize_overflow emin prec emax e choice fma t v h i j :
  (7 <= prec)%Z -> (emin + 2 * prec + 34 <= 0)%Z -> (emin + prec <= emax)%Z -> (2 * prec <= emax)%Z -> (emax <= 2 * e)%Z ->
  (2 <= length v)%nat ->
  (Z.of_nat (length v) <= 2 ^ (prec - 7))%Z -> (Z.of_nat h < 2 ^ (prec - 7))%Z -> sums (length v) h t ->
  (i < length v)%nat -> (j < length v)%nat -> bpow radix2 e <= Rabs (smp v i) ->
  onormalize (rnd emin prec choice) (bpow radix2 emax) fma t (fun i => Fin (smp v i)) j = Fin 0.
Proof.
  intros Hp Hq Hem H2p He Hn2 Hn Hh St Hi Hj Hb. set (n := length v) in *.
  rewrite (onormalize_eq (rnd emin prec choice) (uro prec) (tiny emin) (bpow radix2 emax)) with (n := n) (h := h);
    eauto using F1, F2, F3, F4, F5, F6, F7, F8, F9, F10.
  destruct (Rle_dec _ _) as [|N]; [reflexivity|]. exfalso. apply N.
  eapply fdot_large with (i := i); eauto.
  - intros; eapply F4; eauto.
  - intros; eapply F5; eauto.
  - eapply F6; eauto.
  - apply Rle_trans with (bpow radix2 e * bpow radix2 e).
    + rewrite <- bpow_plus. apply bpow_le. lia.
    + pose proof (bpow_ge_0 radix2 e). replace (smp v i * smp v i) with (Rabs (smp v i) * Rabs (smp v i)).
      * apply Rmult_le_compat; auto.
      * rewrite <- Rabs_mult. apply Rabs_pos_eq, Rle_0_sqr.
Qed.

(** A perfect estimate at a large scale. *)
Theorem large_refuted b choice fx fy fxy : exists m,
  sdr_coh b (Opts 1 None false None None) (rarr 2 [[bpow radix2 512; 1]]) (rarr 2 [[bpow radix2 512; 1]]) = Ok m /\ mat_of m 0 0 = Fin 1 /\
  ocoh (rnd (-1074) 53 choice) (bpow radix2 1024) fx fy fxy two two two
    (fun i => Fin (smp [bpow radix2 512; 1] i)) (fun i => Fin (smp [bpow radix2 512; 1] i)) = Fin 0.
Proof.
  pose proof (bpow_ge_0 radix2 512) as H0. set (a := bpow radix2 512) in *.
  destruct (sdr_coh b (Opts 1 None false None None) (rarr 2 [[a; 1]]) (rarr 2 [[a; 1]])) as [m|e] eqn:E; [|discriminate E].
  exists m. split; [reflexivity|].
  assert (W : wf (rarr 2 [[a; 1]])) by (apply rarr_wf; [lia|repeat constructor]).
  destruct (pchan_fin false (rarr 2 [[a; 1]]) 0 [a; 1] W ltac:(cbv; lia) eq_refl) as [P _].
  split.
  - rewrite (sdr_entry1 b _ _ _ _ 0 0 _ _ W W E eq_refl eq_refl P P). cbn [pre zero_mean].
    change (a_len (rarr 2 [[a; 1]])) with 2%nat. 
    assert (A1 : 1 <= a ^ 2 + 1) by (clear - H0; clearbody a; pose proof (pow2_ge_0 a); lra). assert (A2 : a ^ 2 + 1 ^ 2 = a ^ 2 + 1) by ring.
    rewrite (ip2 a 1 a 1 (a ^ 2 + 1) (a ^ 2 + 1) A1 A1 A2 A2). f_equal. field. clear - A1. lra.
  - apply (overflow (-1074) 53 1024 choice 2 1) with (x := [a; 1]) (i := 0%nat) (e := 512%Z); auto using two_sums; try lia.
    change (smp [a; 1] 0) with a. rewrite Rabs_pos_eq by exact H0. apply Rle_refl.
Qed.
