(** * sdr_loss(pairwise=False) on arrays of any rank: one number for each pair of signals

    All axes but the last are treated alike, so the channel axis may be missing or broadcast. *)
From Coq Require Import Reals Lra.
From Coquelicot Require Import Complex.
From Verif Require Import Prelude ExtReal Slice Sums Fft FftProofs Helpers Linalg LinalgProofs Cgd CgdOps CgdPrecond Metrics Shapes ShapesProofs StatsProofs SpecSig PrepProofs MetricsProofs Spec PermProofs Tensor TensorOps TensorCg TensorProofs TensorSdr TensorDiag.
Local Open Scope nat_scope.

(** The signal at index [m] of all axes but the last, alone in an array of one channel. *)
Definition t_signal (t : tensor R) (m : idx) : arr :=
  Arr (nth 0 (tsh t) 0) [tab (nth 0 (tsh t) 0) (fun n => Fin (tat t (n :: m)))].
Definition sig (t : tensor R) (m : idx) : list R := tab (nth 0 (tsh t) 0) (fun j => tat t (j :: m)).

Lemma signal_prep zm t m : 0 < nth 0 (tsh t) 0 -> prep_arr zm (t_signal t m) = [Some (prepR zm (sig t m))].
Proof.
  intros H. unfold prep_arr, t_signal. cbn [a_chans map]. f_equal. rewrite <- prepR_eq by (unfold sig; rewrite length_tab; auto).
  f_equal. unfold sig, tab. rewrite map_map. reflexivity.
Qed.

(** An array of signals. *)
Definition sigs (n : nat) (bs e : shape) (t : tensor R) (G : idx -> list R) : Prop :=
  rep [n] bs e t (fun m ci => nth (nth 0 ci 0) (G m) 0%R).
Lemma prep_sigs zm n bs e t : tsh t = n :: bs -> sle bs e -> sigs n bs e (t_prep zm t) (fun m => prepR zm (sig t (bix bs m))).
Proof.
  intros H1 H2. pose proof (rep_input [n] bs e t H1 H2) as H.
  eapply rep_eq; [apply (along_rep 0 0%R 0%R (prepR zm) _ _ _ _ _ n H)|].
  - cbn; lia.
  - intros x Hx. rewrite length_prepR. exact Hx.
  - intros m ci Hm Hc. apply inr1 in Hc. destruct Hc as (j & -> & Hj). cbn. unfold sig. rewrite H1. reflexivity.
Qed.
Lemma length_sprep zm t m n bs : tsh t = n :: bs -> length (prepR zm (sig t m)) = n.
Proof. intros H. rewrite length_prepR. unfold sig. rewrite length_tab, H. reflexivity. Qed.

Section Sigs.
  Context (n : nat) (bs e : shape) (t : tensor R) (G : idx -> list R).
  Hypothesis Ht : sigs n bs e t G.
  Hypothesis HG : forall m, inr e m -> length (G m) = n.
  Lemma sigs_along f n' : (forall x, length x = n -> length (f x) = n') -> sigs n' bs e (along 0 0%R 0%R f t) (fun m => f (G m)).
  Proof.
    intros Hf. apply (along_repL 0 0%R 0%R f [n] bs e t (fun m ci => G m) n'); auto.
  Qed.
  Lemma sigs_rfft nf : rep [nf / 2 + 1] bs e (t_rfft 0 nf t) (fun m ci => nth (nth 0 ci 0) (rfft nf (G m)) c0).
  Proof.
    apply (along_repL 0 0%R c0 (rfft nf) [n] bs e t (fun m ci => G m) (nf / 2 + 1)); auto. intros; apply length_rfft.
  Qed.
  Lemma sigs_acf nf L :
    sigs (Nat.min L nf) bs e
      (t_cut 0 L (t_irfft 0 nf (tmap (fun z : C => RtoC (fst z ^ 2 + snd z ^ 2)) (t_rfft 0 nf t)))) (fun m => stats_acf nf L (G m)).
  Proof.
    pose proof (tmap_rep _ _ _ _ _ (fun z : C => RtoC (fst z ^ 2 + snd z ^ 2)) (sigs_rfft nf)) as H1.
    assert (H2 : sigs nf bs e
      (t_irfft 0 nf (tmap (fun z : C => RtoC (fst z ^ 2 + snd z ^ 2)) (t_rfft 0 nf t)))
      (fun m => irfft nf (map (fun z : C => RtoC (fst z ^ 2 + snd z ^ 2)) (rfft nf (G m))))).
    { eapply rep_eq; [apply (along_rep 0 c0 0%R (irfft nf) _ _ _ _ _ nf H1); [cbn; lia|intros; apply length_irfft]|].
      intros m ci Hm Hc. apply inr1 in Hc. destruct Hc as (j & -> & Hj). cbv beta. cbn [nth put]. f_equal. f_equal.
      rewrite <- (tab_nth (map _ _) (RtoC (fst c0 ^ 2 + snd c0 ^ 2))). rewrite map_length, length_rfft.
      apply tab_ext. intros k Hk. rewrite (map_nth (fun z : C => RtoC (fst z ^ 2 + snd z ^ 2))). reflexivity. }
    apply (along_repL 0 0%R 0%R (cut L) [nf] bs e _
      (fun m ci => irfft nf (map (fun z : C => RtoC (fst z ^ 2 + snd z ^ 2)) (rfft nf (G m)))) (Nat.min L nf)); auto.
    - intros; apply length_irfft.
    - intros x Hx. cbn [nth] in Hx. rewrite length_cut, Hx. reflexivity.
  Qed.
End Sigs.

Lemma stats_sig_rep l L lx ly br be e ref est X Y :
  tsh ref = lx :: br -> tsh est = ly :: be -> bc br be = Some e ->
  sigs lx br e ref X -> sigs ly be e est Y ->
  (forall m, inr e m -> length (X m) = lx) -> (forall m, inr e m -> length (Y m) = ly) ->
  let nf := n_fft lx ly in
  exists acf xc, t_stats l false L ref est = Ok (acf, xc) /\
    sigs (Nat.min L nf) br e acf (fun m => stats_acf nf L (X m)) /\
    sigs (Nat.min L nf) e e xc (fun m => stats_xcorr nf L (X m) (Y m)).
Proof.
  intros Hr He E HX HY LX LY nf. unfold t_stats. rewrite Hr, He. cbn [last_axis hd]. fold nf.
  pose proof (sigs_rfft lx br e ref X HX LX nf) as FX.
  pose proof (sigs_rfft ly be e est Y HY LY nf) as FY.
  destruct (tzip_rep_same l Cmult _ _ _ _ _ _ _ _ (tmap_rep _ _ _ _ _ Cconj FX) FY) as (q & u & -> & _ & _ & Eu & Hq).
  rewrite E in Eu. injection Eu as <-. cbn [bind]. eexists. eexists. split; [reflexivity|]. split.
  { apply sigs_acf with (n := lx); auto. }
  assert (Hir : sigs nf e e (t_irfft 0 nf q) (fun m =>
      irfft nf (zip_with (fun a b => Cmult (Cconj a) b) (rfft nf (X m)) (rfft nf (Y m))))).
  { eapply rep_eq; [apply (along_rep 0 c0 0%R (irfft nf) _ _ _ _ _ nf Hq); [cbn; lia|intros; apply length_irfft]|].
    intros m ci Hm Hc. apply inr1 in Hc. destruct Hc as (j & -> & Hj). cbv beta. cbn [nth put].
    f_equal. f_equal. rewrite (zip_tab _ (nf / 2 + 1) _ _ c0 c0) by apply length_rfft. reflexivity. }
  apply (sigs_along _ _ _ _ _ Hir).
  - intros; apply length_irfft.
  - intros x Hx. rewrite length_cut, Hx. reflexivity.
Qed.

(** ** One system for each pair of signals *)
(** Does the direct solver take its right-hand side for a stack of vectors? *)
Definition vectors (l : lib) (br e : shape) : Prop :=
  match l with Np1 | Th1 => length br = length e | Np2 => e = [] | Th2 => br = e end.

Section VRows.
  Context (l : lib) (cg : option nat) (N : nat) (br e : shape) (acf xc : tensor R).
  Context (A : idx -> list R) (XC : idx -> list R -> list R) (Y : idx -> list R).
  Hypothesis HN : 0 < N.
  Hypothesis Hcg : cg <> None -> length br = length e.
  Hypothesis Hvec : cg = None -> vectors l br e.
  Hypothesis Ra : sigs N br e acf A.
  Hypothesis HA : forall m, inr e m -> length (A m) = N.
  Hypothesis Rx : sigs N e e xc (fun m => XC m (Y m)).
  Hypothesis HXC : forall m, inr e m -> length (XC m (Y m)) = N.
  Let row m := coh_row (bk l) cg (A m) (XC m) [Some (Y m)].

  Lemma vrows_rep :
    (exists s z, t_sol l cg acf xc = Ok s /\ t_ein_l l xc s = Ok z /\ tsh z = e /\
       forall m, inr e m -> row m = Ok [Fin (tat z m)]) \/
    (raises (t_sol l cg acf xc) /\ exists m, inr e m /\ raises (row m)).
  Proof.
    pose proof (rep_le _ _ _ _ _ Ra) as Sbr.
    assert (Fin_ : forall s S, t_sol l cg acf xc = Ok s ->
      rep [N] e e s (fun m ci => S m (nth 0 ci 0)) ->
      (forall m, inr e m -> row m = Ok [Fin (Rsum N (fun i => nth i (XC m (Y m)) 0 * S m i)%R)]) ->
      exists s z, t_sol l cg acf xc = Ok s /\ t_ein_l l xc s = Ok z /\ tsh z = e /\
       forall m, inr e m -> row m = Ok [Fin (tat z m)]).
    { intros s S Es Hs Hrow. destruct (ein_l_rep l N N N _ _ _ _ _ _ _ Rx Hs (bc1_refl N)) as (z & u & Ez & Eu & Hz).
      rewrite bc_refl in Eu. injection Eu as <-. exists s, z. split; auto. split; auto.
      split; [exact (rep_sh _ _ _ _ _ Hz)|]. intros m Hm. rewrite Hrow by auto. do 2 f_equal. f_equal.
      pose proof (rep_at _ _ _ _ _ Hz m [] Hm ltac:(constructor)) as H.
      rewrite (bix_self _ _ Hm) in H. cbn [app] in H. rewrite H. apply Rsum_ext. intros t Ht.
      assert (Es1 : sel N t = t) by (unfold sel; destruct (Nat.eqb_spec N 1); lia). rewrite Es1. reflexivity. }
    unfold t_sol, row, coh_row in *. destruct cg as [it|].
    - assert (Hb : cols N 1 e (newlast xc) (fun m _ => XC m (Y m))).
      { eapply rep_eq; [apply (newlast_rep _ _ _ _ _ Rx)|]. intros m ci Hm Hc. apply inr2 in Hc.
        destruct Hc as (i & j & -> & Hi & Hj). reflexivity. }
      destruct (toeplitz_cg_rep l N 1 br e acf A) with
        (b := newlast xc) (B := fun (m : idx) (_ : nat) => XC m (Y m)) (n_iter := it) as (z & E & Hz); auto.
      { apply Hcg. discriminate. }
      assert (E2 : t_toeplitz_cg l acf xc it = Ok (at0 z)).
      { unfold t_toeplitz_cg in *. rewrite t_cg_vec; [rewrite E; reflexivity|].
        rewrite (rep_sh _ _ _ _ _ Ra), (rep_sh _ _ _ _ _ Rx). cbn. rewrite Hcg by discriminate. lia. }
      left. apply (Fin_ (at0 z) (fun m i => nth i (toeplitz_cg_spec (A m) (XC m (Y m)) it) 0%R) E2).
      + eapply rep_eq; [apply (at0_rep [N] 1 _ _ _ _ Hz); lia|]. intros m ci Hm Hc. apply inr1 in Hc.
        destruct Hc as (i & -> & Hi). reflexivity.
      + intros m Hm. cbn [mapM]. rewrite toeplitz_cg_ok, HA, HXC, Nat.eqb_refl by auto. reflexivity.
    - pose proof (toeplitz_rep (bk l) N _ _ acf _ Ra) as Rt.
      assert (Rt' : rep [N; N] br e (t_toeplitz (bk l) acf)
                 (fun m ci => ent (toeplitz (bk l) (A m)) (nth 1 ci 0) (nth 0 ci 0))).
      { eapply rep_eq; [exact Rt|]. intros m ci Hm Hc. cbv beta. cbn [nth].
        replace (tab N (fun k => nth k (A m) 0%R)) with (A m); [reflexivity|].
        rewrite <- (HA m Hm). symmetry. apply tab_nth. }
      assert (Hv : vector_rhs l (tsh (t_toeplitz (bk l) acf)) (tsh xc) = true).
      { rewrite (rep_sh _ _ _ _ _ Rt'), (rep_sh _ _ _ _ _ Rx). cbn [app]. specialize (Hvec eq_refl).
        unfold vector_rhs, vectors in *. destruct l; cbn [length tl].
        - apply Nat.eqb_eq. lia.
        - subst e. reflexivity.
        - apply Nat.eqb_eq. lia.
        - rewrite Hvec. unfold shape_eqb. destruct (list_eq_dec _ _ _); [apply orb_true_r|congruence]. }
      destruct (solve_rep_vec l N _ _ _ _ _ _ _ Rt' Rx Sbr Hv) as [(z & E & Hok & Hz)|(Hr & m & Hm & Hm2)].
      + left. apply (Fin_ z (fun m i => okv zero2 (solve_cols N 1 (ent (toeplitz (bk l) (A m)))
                        (fun i _ => nth i (XC m (Y m)) 0%R)) i 0) E).
        * exact Hz.
        * intros m Hm. destruct (Hok m Hm) as [W HW]. cbn [nth] in HW.
          change (fun i j : nat => ent (toeplitz (bk l) (A m)) i j) with (ent (toeplitz (bk l) (A m))) in HW.
          rewrite (HA m Hm). cbn [length].
          pose proof (solve_cols_ext N 1 (ent (toeplitz (bk l) (A m))) (ent (toeplitz (bk l) (A m)))
             (fun i d => nth i (XC m (opt0 (nth d [Some (Y m)] None))) 0%R) (fun i _ => nth i (XC m (Y m)) 0%R)
             (fun i j _ _ => eq_refl)) as HX.
          assert (HY1 : forall i d, i < N -> d < 1 ->
             nth i (XC m (opt0 (nth d [Some (Y m)] None))) 0%R = nth i (XC m (Y m)) 0%R).
          { intros i d _ Hd. replace d with 0 by lia. reflexivity. }
          specialize (HX HY1). rewrite HW in *. unfold chan in *.
          destruct (solve_cols N 1 _ (fun i d => nth i (XC m (opt0 (nth d [Some (Y m)] None))) 0%R)) as [W'|]; [|contradiction].
          cbn [bind tab map seq nth okv]. do 3 f_equal. apply Rsum_ext. intros i Hi. f_equal. apply HX; lia.
      + right. split; auto. exists m. split; auto.
        cbn [nth] in Hm2. rewrite (HA m Hm). cbn [length]. destruct Hm2 as [er Her].
        change (fun i j : nat => ent (toeplitz (bk l) (A m)) i j) with (ent (toeplitz (bk l) (A m))) in Her.
        pose proof (solve_cols_ext N 1 (ent (toeplitz (bk l) (A m))) (ent (toeplitz (bk l) (A m)))
             (fun i d => nth i (XC m (opt0 (nth d [Some (Y m)] None))) 0%R) (fun i _ => nth i (XC m (Y m)) 0%R)
             (fun i j _ _ => eq_refl)) as HX.
        assert (HY1 : forall i d, i < N -> d < 1 ->
             nth i (XC m (opt0 (nth d [Some (Y m)] None))) 0%R = nth i (XC m (Y m)) 0%R).
        { intros i d _ Hd. replace d with 0 by lia. reflexivity. }
        specialize (HX HY1). rewrite Her in HX. unfold chan in *.
        destruct (solve_cols N 1 _ (fun i d => nth i (XC m (opt0 (nth d [Some (Y m)] None))) 0%R)) as [W'|]; [contradiction|].
        cbn [bind]. eexists. reflexivity.
  Qed.
End VRows.

(** ** sdr_loss *)
Section Signals.
  Context (l : lib) (o : opts) (lx ly : nat) (br be e : shape) (ref est : tensor R).
  Hypothesis Hr : tsh ref = lx :: br.
  Hypothesis He : tsh est = ly :: be.
  Hypothesis Hx : 0 < lx.
  Hypothesis Hy : 0 < ly.
  Hypothesis E : bc br be = Some e.
  Hypothesis HL : 1 <= filter_length o.
  Hypothesis Hcg : use_cg_iter o <> None -> filter_length o <> 1 -> length be <= length br.
  Hypothesis Hvec : use_cg_iter o = None -> filter_length o <> 1 -> vectors l br e.
  Let zm := zero_mean o.
  Let X (m : idx) := prepR zm (sig ref (bix br m)).
  Let Y (m : idx) := prepR zm (sig est (bix be m)).
  Let iref (m : idx) := t_signal ref (bix br m).
  Let iest (m : idx) := t_signal est (bix be m).

  Lemma sig_shapes : tsh (t_prep zm ref) = lx :: br /\ tsh (t_prep zm est) = ly :: be.
  Proof.
    destruct (bc_absorb _ _ _ E) as (S1 & S2 & _ & _).
    split; [apply (rep_sh _ _ _ _ _ (prep_sigs zm lx br e ref Hr S1))|apply (rep_sh _ _ _ _ _ (prep_sigs zm ly be e est He S2))].
  Qed.
  Lemma t_sdr_coh_signals :
    match t_sdr_coh l false o est ref with
    | Ok z => tsh z = e /\ forall m, inr e m -> sdr_coh_diag (bk l) o (iref m) (iest m) = Ok [Fin (tat z m)]
    | Raise _ => Forall (lt 0) e -> exists m, inr e m /\ raises (sdr_coh_diag (bk l) o (iref m) (iest m))
    end.
  Proof.
    destruct (bc_absorb _ _ _ E) as (S1 & S2 & _ & _).
    pose proof (prep_sigs zm lx br e ref Hr S1) as HX1. pose proof (prep_sigs zm ly be e est He S2) as HY1.
    fold X in HX1. fold Y in HY1. destruct sig_shapes as [T1 T2].
    assert (LX : forall m, length (X m) = lx) by (intros m; apply (length_sprep zm ref _ lx br Hr)).
    assert (LY : forall m, length (Y m) = ly) by (intros m; apply (length_sprep zm est _ ly be He)).
    assert (Hi : forall m, prep_arr zm (iref m) = [Some (X m)]).
    { intros m. unfold iref. rewrite signal_prep; [reflexivity|rewrite Hr; auto]. }
    assert (Hj : forall m, prep_arr zm (iest m) = [Some (Y m)]).
    { intros m. unfold iest. rewrite signal_prep; [reflexivity|rewrite He; auto]. }
    assert (Hil : forall m, a_len (iref m) = lx) by (intros m; unfold iref, t_signal; rewrite Hr; reflexivity).
    assert (Hjl : forall m, a_len (iest m) = ly) by (intros m; unfold iest, t_signal; rewrite He; reflexivity).
    assert (Hch : bc_chan (bk l) o 1 1 = Ok 1) by reflexivity.
    unfold t_sdr_coh, sdr_coh_diag. fold zm. destruct (Nat.eqb_spec (filter_length o) 1) as [E1|E1].
    - unfold t_len1. fold zm. cbn [orb bind]. destruct (bc1 lx ly) as [n|] eqn:Ek.
      + destruct (ein_l_rep l lx ly n _ _ _ _ _ _ _ HX1 HY1 Ek) as (z & u & -> & Eu & Hz).
        rewrite E in Eu. injection Eu as <-. cbn [bind rmap fst].
        pose proof (tmap_rep _ _ _ _ _ (fun v => v ^ 2)%R Hz) as Hz2.
        pose proof (rep_sh _ _ _ _ _ Hz2) as Hsz. cbn [app] in Hsz. split; [exact Hsz|].
        intros m Hm. rewrite Hil, Hjl, Hi, Hj, bc_len_bc1, Ek. cbn [bind length]. rewrite Hch. cbn [bind]. f_equal.
        cbn [tab map seq]. f_equal. cbn [bc_pick length Nat.eqb nth lift2]. f_equal.
        pose proof (rep_at _ _ _ _ _ Hz2 m [] Hm ltac:(constructor)) as H.
        rewrite (bix_self _ _ Hm) in H. cbn [app] in H. rewrite H. f_equal. unfold ip. apply Rsum_ext. intros t Ht.
        cbn [nth]. rewrite (bc_get_sel _ t lx) by apply LX. rewrite (bc_get_sel _ t ly) by apply LY. reflexivity.
      + assert (Hra : raises (t_ein_l l (t_prep zm ref) (t_prep zm est))).
        { unfold t_ein_l. rewrite T1, T2. unfold ein_l. rewrite Ek. eexists. reflexivity. }
        destruct Hra as [er ->]. cbn [bind rmap]. intros He0.
        exists (repeat 0 (length e)). split; [apply inr_zero; auto|].
        rewrite Hil, Hjl, bc_len_bc1, Ek. cbn [bind]. eexists. reflexivity.
    - destruct (stats_sig_rep l (filter_length o) lx ly br be e _ _ X Y T1 T2 E HX1 HY1 (fun m _ => LX m) (fun m _ => LY m))
        as (acf & xc & Est & Hacf & Hxc).
      rewrite Est. cbn [bind].
      pose proof (sigs_along _ _ _ _ _ Hacf (fun m _ => length_stats_acf _ _ _) (add_load (load_diag o)) _
          (fun x Hx => eq_trans (length_add_load _ _) Hx)) as Hacf'.
      assert (HNp : 0 < Nat.min (filter_length o) (n_fft lx ly)) by (pose proof (n_fft_pos lx ly); lia).
      assert (Hbl : use_cg_iter o <> None -> length br = length e).
      { intros H. rewrite (bc_length _ _ _ E). specialize (Hcg H E1). lia. }
      pose proof (vrows_rep l (use_cg_iter o) _ br e _ xc _
        (fun m => stats_xcorr (n_fft lx ly) (filter_length o) (X m)) Y HNp Hbl (fun H => Hvec H E1) Hacf'
        (fun m _ => eq_trans (length_add_load _ _) (length_stats_acf _ _ _)) Hxc
        (fun m _ => length_stats_xcorr _ _ _ _)) as HR.
      unfold t_sol in HR.
      destruct HR as [(s & z & -> & Ez & Hz & Hrow)|((er & ->) & m & Hm & er' & Hrow)]; cbn [bind].
      + rewrite Ez. split; auto. intros m Hm. rewrite Hil, Hjl, Hi, Hj. cbn [length]. rewrite Hch. cbn [bind mapM seq].
        cbn [bc_pick length Nat.eqb nth]. specialize (Hrow m Hm). unfold chan in *. rewrite Hrow. reflexivity.
      + intros _. exists m. split; auto. rewrite Hil, Hjl, Hi, Hj. cbn [length]. rewrite Hch. cbn [bind mapM seq].
        cbn [bc_pick length Nat.eqb nth]. unfold chan in *. rewrite Hrow. eexists. reflexivity.
  Qed.

  Theorem t_sdr_loss_signals :
    match t_sdr_loss l false o est ref with
    | Ok z => tsh z = e /\ forall m, inr e m -> sdr_loss (bk l) o (iest m) (iref m) = Ok [tat z m]
    | Raise _ => Forall (lt 0) e -> exists m, inr e m /\ raises (sdr_loss (bk l) o (iest m) (iref m))
    end.
  Proof.
    pose proof t_sdr_coh_signals as H. unfold t_sdr_loss, sdr_loss.
    destruct (t_sdr_coh l false o est ref) as [z|er]; cbn [bind].
    - destruct H as [H1 H2]. split; auto. intros m Hm. rewrite (H2 m Hm). reflexivity.
    - intros H0. destruct (H H0) as (m & Hm & er' & Her). exists m. split; auto. rewrite Her. eexists. reflexivity.
  Qed.
End Signals.
