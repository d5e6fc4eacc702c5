(** * sdr_loss(pairwise=False) on arrays with batch axes *)
From Coq Require Import Reals Lra.
From Coquelicot Require Import Complex.
From Verif Require Import Prelude ExtReal Slice Sums Fft FftProofs Helpers Linalg LinalgProofs Cgd CgdOps CgdPrecond Metrics Shapes ShapesProofs StatsProofs SpecSig PrepProofs MetricsProofs Spec PermProofs Tensor TensorOps TensorCg TensorProofs TensorSdr.
Local Open Scope nat_scope.

Lemma bind_rmap {A B D} (x : res A) (f : A -> res B) (g : B -> D) :
  rmap g (bind x f) = bind x (fun a => rmap g (f a)).
Proof. destruct x; reflexivity. Qed.
Lemma bind_ext {A B} (x : res A) (f g : A -> res B) : (forall a, f a = g a) -> bind x f = bind x g.
Proof. destruct x; cbn; auto. Qed.
Lemma t_cg_vec l A app pre it b : length A = length (tsh b) + 1 ->
  t_cg l A app pre it b None = rmap at0 (t_cg l A app pre it (newlast b) None).
Proof.
  intros H. unfold t_cg. rewrite H, Nat.eqb_refl. cbn [newlast tsh].
  replace (Nat.eqb (length (tsh b) + 1) (length (1 :: tsh b) + 1)) with false
    by (symmetry; apply Nat.eqb_neq; cbn; lia).
  destruct (_ && _); [|reflexivity]. rewrite bind_rmap. apply bind_ext. intros Ax.
  rewrite bind_rmap. apply bind_ext. intros r. rewrite bind_rmap. apply bind_ext. intros z.
  rewrite bind_rmap. apply bind_ext. intros rs. rewrite bind_rmap. reflexivity.
Qed.

Section DRows.
  Context (l : lib) (cg : option nat) (N k : nat) (br e : shape) (acf xc : tensor R).
  Context (A : idx -> nat -> list R) (XC : idx -> nat -> list R -> list R) (Y : idx -> nat -> list R).
  Hypothesis HN : 0 < N.
  Hypothesis Hcg : cg <> None -> length br = length e.
  Hypothesis Hvec : cg = None -> match l with Np1 | Th1 => length br = length e | Np2 => False | Th2 => br = e end.
  Hypothesis Hacf : chans N k br e acf A.
  Hypothesis HA : forall m c, inr e m -> c < k -> length (A m c) = N.
  Hypothesis Hxc : chans N k e e xc (fun m i => XC m i (Y m i)).
  Hypothesis HXC : forall m c, inr e m -> c < k -> length (XC m c (Y m c)) = N.
  Let row m c := coh_row (bk l) cg (A m c) (XC m c) [Some (Y m c)].

  Lemma drows_rep :
    (exists s z, t_sol l cg acf xc = Ok s /\ t_ein_l l xc s = Ok z /\ tsh z = k :: e /\
       forall m c, inr e m -> c < k -> row m c = Ok [Fin (tat z (c :: m))]) \/
    (raises (t_sol l cg acf xc) /\ exists m c, inr e m /\ c < k /\ raises (row m c)).
  Proof.
    pose proof (rep_le _ _ _ _ _ Hacf) as Sbr.
    pose proof (rep_shift [N] k br e acf _ Hacf) as Ra.
    assert (Ra' : rep [N] (k :: br) (k :: e) acf (fun m ci => nth (nth 0 ci 0) (A (tl m) (hd 0 m)) 0%R)).
    { eapply rep_eq; [exact Ra|]. intros m ci Hm Hc. apply inr1 in Hc. destruct Hc as (i & -> & Hi). reflexivity. }
    clear Ra. pose proof (rep_shift [N] k e e xc _ Hxc) as Rx.
    assert (Rx' : rep [N] (k :: e) (k :: e) xc (fun m ci => nth (nth 0 ci 0) (XC (tl m) (hd 0 m) (Y (tl m) (hd 0 m))) 0%R)).
    { eapply rep_eq; [exact Rx|]. intros m ci Hm Hc. apply inr1 in Hc. destruct Hc as (i & -> & Hi). reflexivity. }
    clear Rx.
    (* the end of the computation, given the solution *)
    assert (Fin_ : forall s S, t_sol l cg acf xc = Ok s ->
      rep [N] (k :: e) (k :: e) s (fun m ci => S (tl m) (hd 0 m) (nth 0 ci 0)) ->
      (forall m c, inr e m -> c < k -> row m c = Ok [Fin (Rsum N (fun i => nth i (XC m c (Y m c)) 0 * S m c i)%R)]) ->
      exists s z, t_sol l cg acf xc = Ok s /\ t_ein_l l xc s = Ok z /\ tsh z = k :: e /\
       forall m c, inr e m -> c < k -> row m c = Ok [Fin (tat z (c :: m))]).
    { intros s S Es Hs Hrow. destruct (ein_l_rep l N N N _ _ _ _ _ _ _ Rx' Hs (bc1_refl N)) as (z & u & Ez & Eu & Hz).
      rewrite bc_refl in Eu. injection Eu as <-. exists s, z. split; auto. split; auto.
      split; [exact (rep_sh _ _ _ _ _ Hz)|]. intros m c Hm Hc. rewrite Hrow by auto. do 2 f_equal. f_equal.
      assert (Hcm : inr (k :: e) (c :: m)) by (constructor; auto).
      pose proof (rep_at _ _ _ _ _ Hz (c :: m) [] Hcm ltac:(constructor)) as H.
      rewrite (bix_self _ _ Hcm) in H. cbn [app] in H. rewrite H. apply Rsum_ext. intros t Ht.
      assert (Es1 : sel N t = t) by (unfold sel; destruct (Nat.eqb_spec N 1); lia). rewrite Es1. reflexivity. }
    unfold t_sol, row, coh_row in *. destruct cg as [it|].
    - assert (Hb : cols N 1 (k :: e) (newlast xc) (fun m _ => XC (tl m) (hd 0 m) (Y (tl m) (hd 0 m)))).
      { eapply rep_eq; [apply (newlast_rep _ _ _ _ _ Rx')|]. intros m ci Hm Hc. apply inr2 in Hc.
        destruct Hc as (i & j & -> & Hi & Hj). reflexivity. }
      destruct (toeplitz_cg_rep l N 1 (k :: br) (k :: e) acf (fun m => A (tl m) (hd 0 m))) with
        (b := newlast xc) (B := fun (m : idx) (_ : nat) => XC (tl m) (hd 0 m) (Y (tl m) (hd 0 m))) (n_iter := it)
        as (z & E & Hz); auto.
      { cbn. rewrite Hcg by discriminate. reflexivity. }
      { intros m Hm. inversion Hm; subst. apply HA; auto. }
      { intros m d Hm _. inversion Hm; subst. apply HXC; auto. }
      assert (E2 : t_toeplitz_cg l acf xc it = Ok (at0 z)).
      { unfold t_toeplitz_cg in *. rewrite t_cg_vec; [rewrite E; reflexivity|].
        rewrite (rep_sh _ _ _ _ _ Ra'), (rep_sh _ _ _ _ _ Rx'). cbn. rewrite Hcg by discriminate. lia. }
      left. apply (Fin_ (at0 z) (fun m c i => nth i (toeplitz_cg_spec (A m c) (XC m c (Y m c)) it) 0%R) E2).
      + eapply rep_eq; [apply (at0_rep [N] 1 _ _ _ _ Hz); lia|]. intros m ci Hm Hc. apply inr1 in Hc.
        destruct Hc as (i & -> & Hi). reflexivity.
      + intros m c Hm Hc. cbn [mapM]. rewrite toeplitz_cg_ok, HA, HXC, Nat.eqb_refl by auto. reflexivity.
    - pose proof (toeplitz_rep (bk l) N _ _ acf _ Ra') as Rt.
      assert (Rt' : rep [N; N] (k :: br) (k :: e) (t_toeplitz (bk l) acf)
                 (fun m ci => ent (toeplitz (bk l) (A (tl m) (hd 0 m))) (nth 1 ci 0) (nth 0 ci 0))).
      { eapply rep_eq; [exact Rt|]. intros m ci Hm Hc. cbv beta. cbn [nth].
        assert (HH : length (A (tl m) (hd 0 m)) = N) by (inversion Hm; subst; apply HA; auto).
        replace (tab N (fun k => nth k (A (tl m) (hd 0 m)) 0%R)) with (A (tl m) (hd 0 m)); [reflexivity|].
        rewrite <- HH. symmetry. apply tab_nth. }
      assert (Ebc : bc (k :: br) (k :: e) = Some (k :: e)) by (apply bc_cons_same; exact Sbr).
      assert (Hv : vector_rhs l (tsh (t_toeplitz (bk l) acf)) (tsh xc) = true).
      { rewrite (rep_sh _ _ _ _ _ Rt'), (rep_sh _ _ _ _ _ Rx'). cbn [app]. specialize (Hvec eq_refl).
        unfold vector_rhs. destruct l; cbn [length tl].
        - apply Nat.eqb_eq. lia.
        - contradiction.
        - apply Nat.eqb_eq. lia.
        - rewrite Hvec. unfold shape_eqb. destruct (list_eq_dec _ _ _); [apply orb_true_r|congruence]. }
      destruct (solve_rep_vec l N _ _ _ _ _ _ _ Rt' Rx' Ebc Hv) as [(z & E & Hok & Hz)|(Hr & m & Hm & Hm2)].
      + left. apply (Fin_ z (fun m c i => okv zero2 (solve_cols N 1 (ent (toeplitz (bk l) (A m c)))
                        (fun i _ => nth i (XC m c (Y m c)) 0%R)) i 0) E).
        * exact Hz.
        * intros m c Hm Hc. destruct (Hok (c :: m)) as [W HW]; [constructor; auto|]. cbn [tl hd nth] in HW.
          change (fun i j : nat => ent (toeplitz (bk l) (A m c)) i j) with (ent (toeplitz (bk l) (A m c))) in HW.
          rewrite (HA m c Hm Hc). cbn [length].
          pose proof (solve_cols_ext N 1 (ent (toeplitz (bk l) (A m c))) (ent (toeplitz (bk l) (A m c)))
             (fun i d => nth i (XC m c (opt0 (nth d [Some (Y m c)] None))) 0%R) (fun i _ => nth i (XC m c (Y m c)) 0%R)
             (fun i j _ _ => eq_refl)) as HX.
          assert (HY1 : forall i d, i < N -> d < 1 ->
             nth i (XC m c (opt0 (nth d [Some (Y m c)] None))) 0%R = nth i (XC m c (Y m c)) 0%R).
          { intros i d _ Hd. replace d with 0 by lia. reflexivity. }
          specialize (HX HY1). rewrite HW in *. unfold chan in *.
          destruct (solve_cols N 1 _ (fun i d => nth i (XC m c (opt0 (nth d [Some (Y m c)] None))) 0%R)) as [W'|]; [|contradiction].
          cbn [bind tab map seq nth okv]. do 3 f_equal. apply Rsum_ext. intros i Hi. f_equal. apply HX; lia.
      + right. split; auto. inversion Hm as [|c k' m' e' Hc Hm']; subst. exists m', c. split; auto. split; auto.
        cbn [tl hd nth] in Hm2. rewrite (HA m' c Hm' Hc). cbn [length]. destruct Hm2 as [er Her].
        change (fun i j : nat => ent (toeplitz (bk l) (A m' c)) i j) with (ent (toeplitz (bk l) (A m' c))) in Her.
        pose proof (solve_cols_ext N 1 (ent (toeplitz (bk l) (A m' c))) (ent (toeplitz (bk l) (A m' c)))
             (fun i d => nth i (XC m' c (opt0 (nth d [Some (Y m' c)] None))) 0%R) (fun i _ => nth i (XC m' c (Y m' c)) 0%R)
             (fun i j _ _ => eq_refl)) as HX.
        assert (HY1 : forall i d, i < N -> d < 1 ->
             nth i (XC m' c (opt0 (nth d [Some (Y m' c)] None))) 0%R = nth i (XC m' c (Y m' c)) 0%R).
        { intros i d _ Hd. replace d with 0 by lia. reflexivity. }
        specialize (HX HY1). rewrite Her in HX. unfold chan in *.
        destruct (solve_cols N 1 _ (fun i d => nth i (XC m' c (opt0 (nth d [Some (Y m' c)] None))) 0%R)) as [W'|]; [contradiction|].
        cbn [bind]. eexists. reflexivity.
  Qed.
End DRows.

(** ** Statistics *)
Lemma stats_diag_rep l L lx ly k br be e ref est X Y :
  tsh ref = lx :: k :: br -> tsh est = ly :: k :: be -> bc br be = Some e ->
  chans lx k br e ref X -> chans ly k be e est Y ->
  (forall m i, inr e m -> i < k -> length (X m i) = lx) -> (forall m i, inr e m -> i < k -> length (Y m i) = ly) ->
  let nf := n_fft lx ly in
  exists acf xc, t_stats l false L ref est = Ok (acf, xc) /\
    chans (Nat.min L nf) k br e acf (fun m i => stats_acf nf L (X m i)) /\
    chans (Nat.min L nf) k e e xc (fun m i => stats_xcorr nf L (X m i) (Y m i)).
Proof.
  intros Hr He E HX HY LX LY nf. unfold t_stats. rewrite Hr, He. cbn [last_axis hd]. fold nf.
  pose proof (chans_rfft lx k br e ref X HX LX nf) as FX.
  pose proof (chans_rfft ly k be e est Y HY LY nf) as FY.
  destruct (tzip_rep_same l Cmult _ _ _ _ _ _ _ _ (tmap_rep _ _ _ _ _ Cconj FX) FY) as (q & u & -> & _ & _ & Eu & Hq).
  rewrite E in Eu. injection Eu as <-. cbn [bind]. eexists. eexists. split; [reflexivity|]. split.
  { apply chans_acf with (n := lx); auto. }
  assert (Hir : chans nf k e e (t_irfft 0 nf q) (fun m i =>
      irfft nf (zip_with (fun a b => Cmult (Cconj a) b) (rfft nf (X m i)) (rfft nf (Y m i))))).
  { eapply rep_eq; [apply (along_rep 0 c0 0%R (irfft nf) _ _ _ _ _ nf Hq); [cbn; lia|intros; apply length_irfft]|].
    intros m ci Hm Hc. apply inr2 in Hc. destruct Hc as (j & i & -> & Hj & Hi). cbv beta. cbn [nth put].
    f_equal. f_equal. rewrite (zip_tab _ (nf / 2 + 1) _ _ c0 c0) by apply length_rfft. reflexivity. }
  apply (chans_along _ _ _ _ _ _ Hir).
  - intros; apply length_irfft.
  - intros x Hx. rewrite length_cut, Hx. reflexivity.
Qed.

Lemma t_vec_ok v z m k bs : tsh z = k :: bs -> length v = k ->
  (forall i, i < k -> nth i v NaN = Fin (tat z (i :: m))) -> v = map Fin (t_vec z m).
Proof.
  intros Hz H1 H2. unfold t_vec. rewrite Hz. cbn [nth]. unfold tab. rewrite map_map.
  apply (list_tab v k _ NaN); auto.
Qed.
Lemma bc_pick_same {A} (x : list A) i k d : length x = k -> i < k -> bc_pick x i d = nth i x d.
Proof. intros <- H. unfold bc_pick. destruct (Nat.eqb_spec (length x) 1); auto. replace i with 0 by lia. reflexivity. Qed.

(** Is the right-hand side of the direct solver taken for a stack of vectors? *)
Definition vec_case (l : lib) (br e : shape) : Prop :=
  match l with Np1 | Th1 => length br = length e | Np2 => False | Th2 => br = e end.

Section Diag.
  Context (l : lib) (o : opts) (lx ly k : nat) (br be e : shape) (ref est : tensor R).
  Hypothesis Hr : tsh ref = lx :: k :: br.
  Hypothesis He : tsh est = ly :: k :: be.
  Hypothesis Hx : 0 < lx.
  Hypothesis Hy : 0 < ly.
  Hypothesis E : bc br be = Some e.
  Let zm := zero_mean o.
  Let X (m : idx) (c : nat) := prepR zm (xchan ref (bix br m) c).
  Let Y (m : idx) (d : nat) := prepR zm (xchan est (bix be m) d).
  Let iref (m : idx) := t_item ref (bix br m).
  Let iest (m : idx) := t_item est (bix be m).
  Hypothesis HL : 1 <= filter_length o.
  Hypothesis Hcg : use_cg_iter o <> None -> filter_length o <> 1 -> length be <= length br.
  Hypothesis Hvec : use_cg_iter o = None -> filter_length o <> 1 -> vec_case l br e.

  Let HX1 : chans lx k br e (t_prep zm ref) X := HX0 o lx k br be e ref Hr E.
  Let HY1 : chans ly k be e (t_prep zm est) Y := HY0 o ly k br be e est He E.

  Lemma l_rep n : bc1 lx ly = Some n ->
    exists z, t_ein_l l (t_prep zm ref) (t_prep zm est) = Ok z /\
      rep [] (k :: e) (k :: e) z (fun m ci => ip n (X (tl m) (hd 0 m)) (Y (tl m) (hd 0 m))).
  Proof.
    intros Hk. pose proof (rep_shift [lx] k br e _ _ HX1) as H1. pose proof (rep_shift [ly] k be e _ _ HY1) as H2.
    destruct (ein_l_rep l lx ly n _ _ _ _ _ _ _ H1 H2 Hk) as (z & u & Ez & Eu & Hz).
    rewrite (bc_cons_same k _ _ _ E) in Eu. injection Eu as <-. exists z. split; auto.
    eapply rep_eq; [exact Hz|]. intros m ci Hm Hc. unfold ip. apply Rsum_ext. intros t Ht. cbv beta. cbn [nth app].
    rewrite (bc_get_sel _ t lx) by (apply (lenX o lx k br ref Hr)).
    rewrite (bc_get_sel _ t ly) by (apply (lenY o ly k be est He)). reflexivity.
  Qed.

  Definition dcoh_item (m : idx) := sdr_coh_diag (bk l) o (iref m) (iest m).
  Theorem t_sdr_coh_diag_items :
    match t_sdr_coh l false o est ref with
    | Ok z => tsh z = k :: e /\ forall m, inr e m -> dcoh_item m = Ok (map Fin (t_vec z m))
    | Raise _ => Forall (lt 0) e -> exists m, inr e m /\ raises (dcoh_item m)
    end.
  Proof.
    assert (Hi : forall m, prep_arr zm (iref m) = @tab chan k (fun c => Some (X m c)))
      by (intros m; apply (irefs o lx k br ref Hr Hx)).
    assert (Hj : forall m, prep_arr zm (iest m) = @tab chan k (fun c => Some (Y m c)))
      by (intros m; apply (iests o ly k be est He Hy)).
    assert (Hil : forall m, a_len (iref m) = lx) by (intros m; apply (iref_len lx k br ref Hr)).
    assert (Hjl : forall m, a_len (iest m) = ly) by (intros m; apply (iest_len ly k be est He)).
    assert (Hch : bc_chan (bk l) o k k = Ok k) by (unfold bc_chan; rewrite Nat.eqb_refl; reflexivity).
    assert (Hpx : forall m c, c < k -> @bc_pick chan (@tab chan k (fun c => Some (X m c))) c None = Some (X m c)).
    { intros m c Hc. rewrite (bc_pick_same _ c k) by (auto; apply length_tab). apply (@nth_tab chan k (fun c => Some (X m c))); auto. }
    assert (Hpy : forall m c, c < k -> @bc_pick chan (@tab chan k (fun c => Some (Y m c))) c None = Some (Y m c)).
    { intros m c Hc. rewrite (bc_pick_same _ c k) by (auto; apply length_tab). apply (@nth_tab chan k (fun c => Some (Y m c))); auto. }
    unfold t_sdr_coh, dcoh_item, sdr_coh_diag. fold zm. destruct (Nat.eqb_spec (filter_length o) 1) as [E1|E1].
    - unfold t_len1. fold zm. cbn [orb bind]. destruct (bc1 lx ly) as [n|] eqn:Ek.
      + destruct (l_rep n Ek) as (z & -> & Hz). cbn [bind rmap fst].
        pose proof (tmap_rep _ _ _ _ _ (fun v => v ^ 2)%R Hz) as Hz2.
        pose proof (rep_sh _ _ _ _ _ Hz2) as Hsz. cbn [app] in Hsz. split; [exact Hsz|].
        intros m Hm. rewrite Hil, Hjl, Hi, Hj, bc_len_bc1, Ek. cbn [bind]. rewrite !length_tab, Hch. cbn [bind]. f_equal.
        apply (t_vec_ok _ _ _ k e); auto; [apply length_tab|]. intros i Hik. rewrite nth_tab by auto.
        rewrite Hpx, Hpy by auto. cbn [lift2]. f_equal.
        assert (Hcm : inr (k :: e) (i :: m)) by (constructor; auto).
        pose proof (rep_at _ _ _ _ _ Hz2 (i :: m) [] Hcm ltac:(constructor)) as H.
        rewrite (bix_self _ _ Hcm) in H. cbn [app] in H. rewrite H. reflexivity.
      + assert (Hra : raises (t_ein_l l (t_prep zm ref) (t_prep zm est))).
        { unfold t_ein_l. unfold zm. rewrite (tsh_prep_ref o lx k br be e ref Hr E), (tsh_prep_est o ly k br be e est He E).
          unfold ein_l. rewrite Ek. eexists. reflexivity. }
        destruct Hra as [er ->]. cbn [bind rmap]. intros He0.
        exists (repeat 0 (length e)). split; [apply inr_zero; auto|].
        rewrite Hil, Hjl, bc_len_bc1, Ek. cbn [bind]. eexists. reflexivity.
    - destruct (stats_diag_rep l (filter_length o) lx ly k br be e _ _ X Y
         (tsh_prep_ref o lx k br be e ref Hr E) (tsh_prep_est o ly k br be e est He E) E HX1 HY1)
        as (acf & xc & Est & Hacf & Hxc).
      { intros; apply (lenX o lx k br ref Hr). } { intros; apply (lenY o ly k be est He). }
      fold zm in Est. rewrite Est. cbn [bind].
      pose proof (chans_along _ _ _ _ _ _ Hacf (fun m i _ _ => length_stats_acf _ _ _) (add_load (load_diag o)) _
          (fun x Hx => eq_trans (length_add_load _ _) Hx)) as Hacf'.
      assert (HNp : 0 < Nat.min (filter_length o) (n_fft lx ly)) by (pose proof (n_fft_pos lx ly); lia).
      assert (Hbl : use_cg_iter o <> None -> length br = length e).
      { intros H. rewrite (bc_length _ _ _ E). specialize (Hcg H E1). lia. }
      pose proof (drows_rep l (use_cg_iter o) _ k br e _ xc _
        (fun m c => stats_xcorr (n_fft lx ly) (filter_length o) (X m c)) Y HNp Hbl (fun H => Hvec H E1) Hacf'
        (fun m c _ _ => eq_trans (length_add_load _ _) (length_stats_acf _ _ _)) Hxc
        (fun m c _ _ => length_stats_xcorr _ _ _ _)) as HR.
      unfold t_sol in HR.
      destruct HR as [(s & z & -> & Ez & Hz & Hrow)|((er & ->) & m & c & Hm & Hc & er' & Hrow)]; cbn [bind].
      + rewrite Ez. split; auto. intros m Hm. rewrite Hil, Hjl, Hi, Hj, !length_tab, Hch. cbn [bind].
        match goal with |- context [mapM ?f _] => pose proof (mapM_tab f k (fun i => i) NaN) as HM end.
        assert (Es : tab k (fun i => i) = seq 0 k) by apply map_id. rewrite Es in HM.
        cbv beta in HM. match type of HM with context [mapM ?f ?x] => destruct (mapM f x) as [v|er'] end.
        * destruct HM as [HLv HM]. f_equal. apply (t_vec_ok _ _ _ k e); auto. intros i Hik. specialize (HM i Hik).
          rewrite Hpx, Hpy in HM by auto. rewrite Hrow in HM by auto. cbn [bind nth] in HM. congruence.
        * destruct HM as (i & Hik & HM). rewrite Hpx, Hpy, Hrow in HM by auto. discriminate.
      + intros _. exists m. split; auto. rewrite Hil, Hjl, Hi, Hj, !length_tab, Hch. cbn [bind].
        match goal with |- context [mapM ?f _] => pose proof (mapM_tab f k (fun i => i) NaN) as HM end.
        assert (Es : tab k (fun i => i) = seq 0 k) by apply map_id. rewrite Es in HM.
        cbv beta in HM. match type of HM with context [mapM ?f ?x] => destruct (mapM f x) as [v|er''] end.
        * destruct HM as [_ HM]. specialize (HM c Hc). rewrite Hpx, Hpy in HM by auto. unfold chan in HM, Hrow. rewrite Hrow in HM. discriminate.
        * eexists. reflexivity.
  Qed.

  Theorem t_sdr_loss_diag_items :
    match t_sdr_loss l false o est ref with
    | Ok z => tsh z = k :: e /\ forall m, inr e m -> sdr_loss (bk l) o (iest m) (iref m) = Ok (t_vec z m)
    | Raise _ => Forall (lt 0) e -> exists m, inr e m /\ raises (sdr_loss (bk l) o (iest m) (iref m))
    end.
  Proof.
    pose proof t_sdr_coh_diag_items as H. unfold t_sdr_loss, sdr_loss. unfold dcoh_item in H.
    destruct (t_sdr_coh l false o est ref) as [z|er]; cbn [bind].
    - destruct H as [H1 H2]. split; auto. intros m Hm. rewrite (H2 m Hm). cbn [bind]. f_equal.
      unfold t_vec, t_db, tmap, tab. cbn [tsh tat]. rewrite !map_map. reflexivity.
    - intros H0. destruct (H H0) as (m & Hm & er' & Her). exists m. split; auto. rewrite Her. eexists. reflexivity.
  Qed.
End Diag.
