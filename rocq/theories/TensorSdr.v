(** * sdr_loss and sdr on arrays with batch axes *)
From Coq Require Import Reals Lra.
From Coquelicot Require Import Complex.
From Verif Require Import Prelude ExtReal Slice Sums Fft FftProofs Helpers Linalg LinalgProofs Cgd CgdOps CgdPrecond Metrics Shapes ShapesProofs StatsProofs SpecSig PrepProofs MetricsProofs Spec PermProofs Tensor TensorOps TensorCg TensorProofs.
Local Open Scope nat_scope.

(** ** Lists of computations *)
Lemma mapM_tab {A B} (f : A -> res B) n g d :
  match mapM f (tab n g) with
  | Ok ys => length ys = n /\ forall i, i < n -> f (g i) = Ok (nth i ys d)
  | Raise e => exists i, i < n /\ f (g i) = Raise e
  end.
Proof.
  pose proof (mapM_inv f (tab n g)) as H. destruct (mapM f (tab n g)) as [ys|er] eqn:E.
  - split; [rewrite (mapM_length _ _ _ E); apply length_tab|]. intros i Hi.
    rewrite <- (nth_tab n g i (g 0)) by auto. apply mapM_nth with (l := tab n g); auto. rewrite length_tab; auto.
  - destruct H as (x & Hx & Ex). apply in_tab in Hx. destruct Hx as (i & Hi & ->). eauto.
Qed.

(** ** Preprocessing *)
Definition xchan (t : tensor R) (m : idx) (c : nat) : list R :=
  tab (nth 0 (tsh t) 0) (fun j => tat t (j :: c :: m)).
Lemma prepR_eq zm x : 0 < length x -> prep zm (map Fin x) = Some (prepR zm x).
Proof. intros H. unfold prepR. rewrite prep_fin by auto. reflexivity. Qed.
Lemma length_prepR zm x : length (prepR zm x) = length x.
Proof.
  destruct x as [|a x]; [destruct zm; reflexivity|].
  unfold prepR. rewrite prep_fin by (cbn; lia). cbn [opt0]. rewrite length_unit_of, length_pre. reflexivity.
Qed.
Lemma item_prep zm t m : 0 < nth 0 (tsh t) 0 ->
  prep_arr zm (t_item t m) = @tab chan (nth 1 (tsh t) 0) (fun c => Some (prepR zm (xchan t m c))).
Proof.
  intros H. unfold prep_arr, t_item. cbn [a_chans]. unfold tab at 1 3. rewrite map_map. apply map_ext. intros c.
  rewrite <- prepR_eq by (unfold xchan; rewrite length_tab; auto). f_equal. unfold xchan, tab. rewrite map_map. reflexivity.
Qed.

(** An array of channels (last axis: time). *)
Definition chans (n c : nat) (bs e : shape) (t : tensor R) (G : idx -> nat -> list R) : Prop :=
  rep [n; c] bs e t (fun m ci => nth (nth 0 ci 0) (G m (nth 1 ci 0)) 0%R).
Lemma prep_chans zm n c bs e t : tsh t = n :: c :: bs -> sle bs e ->
  chans n c bs e (t_prep zm t) (fun m i => prepR zm (xchan t (bix bs m) i)).
Proof.
  intros H1 H2. pose proof (rep_input [n; c] bs e t H1 H2) as H.
  eapply rep_eq; [apply (along_rep 0 0%R 0%R (prepR zm) _ _ _ _ _ n H)|].
  - cbn; lia.
  - intros x Hx. rewrite length_prepR. exact Hx.
  - intros m ci Hm Hc. apply inr2 in Hc. destruct Hc as (j & i & -> & Hj & Hi). cbn. unfold xchan. rewrite H1. reflexivity.
Qed.
Lemma length_xprep zm t m i n bs : tsh t = n :: bs -> length (prepR zm (xchan t m i)) = n.
Proof. intros H. rewrite length_prepR. unfold xchan. rewrite length_tab, H. reflexivity. Qed.

(** ** Statistics, pairwise *)
Section Chans.
  Context (n c : nat) (bs e : shape) (t : tensor R) (G : idx -> nat -> list R).
  Hypothesis Ht : chans n c bs e t G.
  Hypothesis HG : forall m i, inr e m -> i < c -> length (G m i) = n.
  Lemma chans_rfft nf :
    rep [nf / 2 + 1; c] bs e (t_rfft 0 nf t) (fun m ci => nth (nth 0 ci 0) (rfft nf (G m (nth 1 ci 0))) c0).
  Proof.
    apply (along_repL 0 0%R c0 (rfft nf) [n; c] bs e t (fun m ci => G m (nth 1 ci 0)) (nf / 2 + 1)).
    - exact Ht.
    - cbn; lia.
    - intros m [|a [|b ci]] j; reflexivity.
    - intros m ci Hm Hc. apply inr2 in Hc. destruct Hc as (i & j & -> & Hi & Hj). apply HG; auto.
    - intros y _. apply length_rfft.
  Qed.
  Lemma chans_along f n' : (forall x, length x = n -> length (f x) = n') ->
    chans n' c bs e (along 0 0%R 0%R f t) (fun m i => f (G m i)).
  Proof.
    intros Hf. apply (along_repL 0 0%R 0%R f [n; c] bs e t (fun m ci => G m (nth 1 ci 0)) n').
    - exact Ht.
    - cbn; lia.
    - intros m [|a [|b ci]] j; reflexivity.
    - intros m ci Hm Hc. apply inr2 in Hc. destruct Hc as (i & j & -> & Hi & Hj). apply HG; auto.
    - exact Hf.
  Qed.
  Lemma chans_acf nf L :
    chans (Nat.min L nf) c bs e
      (t_cut 0 L (t_irfft 0 nf (tmap (fun z : C => RtoC (fst z ^ 2 + snd z ^ 2)) (t_rfft 0 nf t))))
      (fun m i => stats_acf nf L (G m i)).
  Proof.
    pose proof (tmap_rep _ _ _ _ _ (fun z : C => RtoC (fst z ^ 2 + snd z ^ 2)) (chans_rfft nf)) as H1.
    assert (H2 : chans nf c bs e
      (t_irfft 0 nf (tmap (fun z : C => RtoC (fst z ^ 2 + snd z ^ 2)) (t_rfft 0 nf t)))
      (fun m i => irfft nf (map (fun z : C => RtoC (fst z ^ 2 + snd z ^ 2)) (rfft nf (G m i))))).
    { eapply rep_eq; [apply (along_rep 0 c0 0%R (irfft nf) _ _ _ _ _ nf H1); [cbn; lia|intros; apply length_irfft]|].
      intros m ci Hm Hc. apply inr2 in Hc. destruct Hc as (j & i & -> & Hj & Hi). cbv beta. cbn [nth put]. f_equal. f_equal.
      rewrite <- (tab_nth (map _ _) (RtoC (fst c0 ^ 2 + snd c0 ^ 2))). rewrite map_length, length_rfft.
      apply tab_ext. intros k Hk. rewrite (map_nth (fun z : C => RtoC (fst z ^ 2 + snd z ^ 2))). reflexivity. }
    apply (along_repL 0 0%R 0%R (cut L) [nf; c] bs e _
      (fun m ci => irfft nf (map (fun z : C => RtoC (fst z ^ 2 + snd z ^ 2)) (rfft nf (G m (nth 1 ci 0))))) (Nat.min L nf)).
    - exact H2.
    - cbn; lia.
    - intros m [|a [|b ci]] j; reflexivity.
    - intros; apply length_irfft.
    - intros x Hx. cbn [nth] in Hx. rewrite length_cut, Hx. reflexivity.
  Qed.
End Chans.

Lemma stats_rep l L lx ly nr ne br be e ref est X Y :
  tsh ref = lx :: nr :: br -> tsh est = ly :: ne :: be -> bc br be = Some e ->
  chans lx nr br e ref X -> chans ly ne be e est Y ->
  (forall m i, inr e m -> i < nr -> length (X m i) = lx) -> (forall m i, inr e m -> i < ne -> length (Y m i) = ly) ->
  let nf := n_fft lx ly in
  exists acf xc, t_stats l true L ref est = Ok (acf, xc) /\
    chans (Nat.min L nf) nr br e acf (fun m i => stats_acf nf L (X m i)) /\
    rep [ne; Nat.min L nf; nr] e e xc
      (fun m ci => nth (nth 1 ci 0) (stats_xcorr nf L (X m (nth 2 ci 0)) (Y m (nth 0 ci 0))) 0%R).
Proof.
  intros Hr He E HX HY LX LY nf. unfold t_stats. rewrite Hr, He. cbn [last_axis hd]. fold nf.
  pose proof (chans_rfft lx nr br e ref X HX LX nf) as FX.
  pose proof (chans_rfft ly ne be e est Y HY LY nf) as FY.
  destruct (ein_cnd_rep l _ _ _ _ _ _ _ _ _ _ (tmap_rep _ _ _ _ _ Cconj FX) FY) as (q & u & -> & Eu & Hq).
  rewrite E in Eu. injection Eu as <-. cbn [bind]. eexists. eexists. split; [reflexivity|]. split.
  { apply chans_acf with (n := lx); auto. }
  assert (Hir : rep [ne; nf; nr] e e (t_irfft 1 nf q) (fun m ci => nth (nth 1 ci 0)
      (irfft nf (zip_with (fun a b => Cmult (Cconj a) b) (rfft nf (X m (nth 2 ci 0))) (rfft nf (Y m (nth 0 ci 0))))) 0%R)).
  { eapply rep_eq; [apply (along_rep 1 c0 0%R (irfft nf) _ _ _ _ _ nf Hq); [cbn; lia|intros; apply length_irfft]|].
    intros m ci Hm Hc. apply inr3 in Hc. destruct Hc as (d & j & i & -> & Hd & Hj & Hi). cbv beta. cbn [nth put].
    f_equal. f_equal. rewrite (zip_tab _ (nf / 2 + 1) _ _ c0 c0) by apply length_rfft. reflexivity. }
  apply (along_repL 1 0%R 0%R (cut L) [ne; nf; nr] e e _
    (fun m ci => irfft nf (zip_with (fun a b => Cmult (Cconj a) b) (rfft nf (X m (nth 2 ci 0))) (rfft nf (Y m (nth 0 ci 0)))))
    (Nat.min L nf)).
  - exact Hir.
  - cbn; lia.
  - intros m [|a [|b [|d ci]]] j; reflexivity.
  - intros; apply length_irfft.
  - intros x Hx. cbn [nth] in Hx. rewrite length_cut, Hx. reflexivity.
Qed.

(** ** One system per reference channel *)
Definition t_sol (l : lib) (cg : option nat) (acf xc : tensor R) : res (tensor R) :=
  match cg with
  | None => t_solve l (t_toeplitz (bk l) acf) xc
  | Some it => t_toeplitz_cg l acf xc it
  end.
Lemma bc_cons_same a s t u : bc s t = Some u -> bc (a :: s) (a :: t) = Some (a :: u).
Proof. intros H. cbn. rewrite bc1_refl, H. reflexivity. Qed.

Section Rows.
  Context (l : lib) (cg : option nat) (N nr ne : nat) (br e : shape) (acf xc : tensor R).
  Context (A : idx -> nat -> list R) (XC : idx -> nat -> list R -> list R) (Y : idx -> nat -> list R).
  Hypothesis HN : 0 < N.
  Hypothesis Hcg : cg <> None -> length br = length e.
  Hypothesis Hacf : chans N nr br e acf A.
  Hypothesis HA : forall m c, inr e m -> c < nr -> length (A m c) = N.
  Hypothesis Hxc : rep [ne; N; nr] e e xc (fun m ci => nth (nth 1 ci 0) (XC m (nth 2 ci 0) (Y m (nth 0 ci 0))) 0%R).
  Hypothesis HXC : forall m c d, inr e m -> c < nr -> d < ne -> length (XC m c (Y m d)) = N.
  Let ests (m : idx) : list chan := @tab chan ne (fun d => Some (Y m d)).
  Let row m c := coh_row (bk l) cg (A m c) (XC m c) (ests m).

  (** the solution for reference c and estimate d *)
  Definition rsol (m : idx) (c d i : nat) : R :=
    match cg with
    | None => okv zero2 (solve_cols N ne (ent (toeplitz (bk l) (A m c))) (fun i d => nth i (XC m c (Y m d)) 0%R)) i d
    | Some it => nth i (toeplitz_cg_spec (A m c) (XC m c (Y m d)) it) 0%R
    end.

  Lemma ests_nth m d : d < ne -> nth d (ests m) (None : chan) = Some (Y m d).
  Proof. intros H. unfold ests. rewrite nth_tab; auto. Qed.
  Lemma ests_len m : length (ests m) = ne.
  Proof. apply length_tab. Qed.

  Lemma sol_rep :
    (exists s, t_sol l cg acf xc = Ok s /\
       rep [ne; N; nr] e e s (fun m ci => rsol m (nth 2 ci 0) (nth 0 ci 0) (nth 1 ci 0)) /\
       forall m c, inr e m -> c < nr -> exists r, row m c = Ok r /\ length r = ne /\
         forall d, d < ne -> nth d r NaN = Fin (Rsum N (fun i => nth i (XC m c (Y m d)) 0 * rsol m c d i)%R)) \/
    (raises (t_sol l cg acf xc) /\ exists m c, inr e m /\ c < nr /\ raises (row m c)).
  Proof.
    pose proof (rep_le _ _ _ _ _ Hacf) as Sbr.
    pose proof (rep_shift [N] nr br e acf _ Hacf) as Ra. cbv beta in Ra.
    assert (Ra' : rep [N] (nr :: br) (nr :: e) acf (fun m ci => nth (nth 0 ci 0) (A (tl m) (hd 0 m)) 0%R)).
    { eapply rep_eq; [exact Ra|]. intros m ci Hm Hc. apply inr1 in Hc. destruct Hc as (i & -> & Hi). reflexivity. }
    clear Ra. pose proof (rep_shift [ne; N] nr e e xc _ Hxc) as Rx.
    assert (Rx' : rep [ne; N] (nr :: e) (nr :: e) xc (fun m ci => nth (nth 1 ci 0) (XC (tl m) (hd 0 m) (Y (tl m) (nth 0 ci 0))) 0%R)).
    { eapply rep_eq; [exact Rx|]. intros m ci Hm Hc. apply inr2 in Hc. destruct Hc as (d & i & -> & Hd & Hi). reflexivity. }
    clear Rx. unfold t_sol, row, coh_row, rsol. destruct cg as [it|].
    - destruct (toeplitz_cg_rep l N ne (nr :: br) (nr :: e) acf (fun m => A (tl m) (hd 0 m))) with
        (b := xc) (B := fun m d => XC (tl m) (hd 0 m) (Y (tl m) d)) (n_iter := it) as (z & E & Hz); auto.
      { cbn. rewrite Hcg by discriminate. reflexivity. }
      { intros m Hm. inversion Hm; subst. apply HA; auto. }
      { intros m d Hm Hd. inversion Hm; subst. apply HXC; auto. }
      left. exists z. split; auto. split.
      + eapply rep_eq; [apply (rep_unshift [ne; N] nr e e z _ Hz)|].
        intros m ci Hm Hc. apply inr3 in Hc. destruct Hc as (d & i & c & -> & Hd & Hi & Hc). reflexivity.
      + intros m c Hm Hc. rewrite (HA m c Hm Hc).
        pose proof (mapM_tab (fun y : chan => match y with
          | Some v => do s <- toeplitz_cg (bk l) (A m c) (XC m c v) it; Ok (Fin (dot_nth N (XC m c v) (fun i => nth i s 0%R)))
          | None => Ok NaN end) ne (fun d => Some (Y m d)) NaN) as HM.
        unfold ests. cbv beta iota in HM. match type of HM with context [mapM ?f ?x] => destruct (mapM f x) as [r|er] eqn:EM end.
        * destruct HM as [HL HM]. exists r. split; auto. split; auto. intros d Hd. pose proof (HM d Hd) as H.
          rewrite toeplitz_cg_ok, HA, HXC, Nat.eqb_refl in H by auto. cbn [bind] in H. injection H as H. rewrite <- H. reflexivity.
        * destruct HM as (d & Hd & H). rewrite toeplitz_cg_ok, HA, HXC, Nat.eqb_refl in H by auto. discriminate.
    - pose proof (toeplitz_rep (bk l) N _ _ acf _ Ra') as Rt.
      assert (Rt' : rep [N; N] (nr :: br) (nr :: e) (t_toeplitz (bk l) acf)
                 (fun m ci => ent (toeplitz (bk l) (A (tl m) (hd 0 m))) (nth 1 ci 0) (nth 0 ci 0))).
      { eapply rep_eq; [exact Rt|]. intros m ci Hm Hc. cbv beta. cbn [nth].
        assert (HH : length (A (tl m) (hd 0 m)) = N) by (inversion Hm; subst; apply HA; auto).
        replace (tab N (fun k => nth k (A (tl m) (hd 0 m)) 0%R)) with (A (tl m) (hd 0 m)); [reflexivity|].
        rewrite <- HH. symmetry. apply tab_nth. }
      assert (Ebc : bc (nr :: br) (nr :: e) = Some (nr :: e)) by (apply bc_cons_same; exact Sbr).
      assert (Hv : vector_rhs l (tsh (t_toeplitz (bk l) acf)) (tsh xc) = false).
      { rewrite (rep_sh _ _ _ _ _ Rt'), (rep_sh _ _ _ _ _ Rx'). cbn [app].
        assert (length br <= length e) by (rewrite (bc_length _ _ _ Sbr); lia).
        unfold vector_rhs. destruct l; cbn [length]; try (apply Nat.eqb_neq; lia).
        cbn [Nat.eqb orb tl]. unfold shape_eqb. destruct (list_eq_dec _ _ _) as [Q|]; auto.
        apply (f_equal (@length nat)) in Q. cbn in Q. lia. }
      destruct (solve_rep l N ne _ _ _ _ _ _ _ Rt' Rx' Ebc Hv) as [(z & E & Hok & Hz)|(Hr & m & Hm & Hm2)].
      + left. exists z. split; auto. split.
        * eapply rep_eq; [apply (rep_unshift [ne; N] nr e e z _ Hz)|].
          intros m ci Hm Hc. apply inr3 in Hc. destruct Hc as (d & i & c & -> & Hd & Hi & Hc). cbn [removelast last nth].
          reflexivity.
        * intros m c Hm Hc. destruct (Hok (c :: m)) as [W HW]; [constructor; auto|]. cbn [tl hd nth] in HW.
          rewrite (HA m c Hm Hc), ests_len.
          pose proof (solve_cols_ext N ne (ent (toeplitz (bk l) (A m c))) (ent (toeplitz (bk l) (A m c)))
             (fun i d => nth i (XC m c (opt0 (nth d (ests m) None))) 0%R) (fun i d => nth i (XC m c (Y m d)) 0%R)) as HX.
          cbv beta in HW, HX. change (fun i j : nat => ent (toeplitz (bk l) (A m c)) i j) with (ent (toeplitz (bk l) (A m c))) in HW.
          rewrite HW in HX. destruct (solve_cols N ne _ (fun i d => nth i (XC m c (opt0 (nth d (ests m) None))) 0%R)) as [W'|] eqn:EW.
          -- cbn [bind]. eexists. split; [reflexivity|]. split; [apply length_tab|].
             intros d Hd. rewrite nth_tab, ests_nth by auto. rewrite HW. cbn [okv]. unfold dot_nth. f_equal.
             apply Rsum_ext. intros i Hi. f_equal. apply HX; auto. intros i' d' Hi' Hd'. rewrite ests_nth by auto. reflexivity.
          -- elim HX; auto. intros i' d' Hi' Hd'. rewrite ests_nth by auto. reflexivity.
      + right. split; auto. inversion Hm as [|c nr' m' e' Hc Hm']; subst. exists m', c. split; auto. split; auto.
        cbn [tl hd nth] in Hm2. rewrite (HA m' c Hm' Hc), ests_len. destruct Hm2 as [er Her].
        pose proof (solve_cols_ext N ne (ent (toeplitz (bk l) (A m' c))) (ent (toeplitz (bk l) (A m' c)))
             (fun i d => nth i (XC m' c (opt0 (nth d (ests m') None))) 0%R) (fun i d => nth i (XC m' c (Y m' d)) 0%R)) as HX.
        cbv beta in Her, HX. change (fun i j : nat => ent (toeplitz (bk l) (A m' c)) i j) with (ent (toeplitz (bk l) (A m' c))) in Her.
        rewrite Her in HX.
        destruct (solve_cols N ne _ (fun i d => nth i (XC m' c (opt0 (nth d (ests m') None))) 0%R)) as [W'|] eqn:EW.
        * elim HX; auto. intros i' d' Hi' Hd'. rewrite ests_nth by auto. reflexivity.
        * cbn [bind]. eexists. reflexivity.
  Qed.

  (** with the inner products *)
  Lemma rows_rep :
    (exists s z, t_sol l cg acf xc = Ok s /\ t_ein_lc l xc s = Ok z /\
       rep [ne; N; nr] e e s (fun m ci => rsol m (nth 2 ci 0) (nth 0 ci 0) (nth 1 ci 0)) /\
       tsh z = ne :: nr :: e /\
       forall m c, inr e m -> c < nr -> exists r, row m c = Ok r /\ length r = ne /\
         forall d, d < ne -> nth d r NaN = Fin (tat z (d :: c :: m))) \/
    (raises (t_sol l cg acf xc) /\ exists m c, inr e m /\ c < nr /\ raises (row m c)).
  Proof.
    destruct sol_rep as [(s & E & Hs & Hrow)|H]; [left|right; exact H].
    pose proof (rep_shift [ne; N] nr e e s _ Hs) as Hs'.
    pose proof (rep_shift [ne; N] nr e e xc _ Hxc) as Rx.
    destruct (ein_lc_full l N ne (nr :: e) xc s _ _ Rx Hs') as (z & Ez & Hz).
    exists s, z. split; auto. split; auto. split; auto. split; [exact (rep_sh _ _ _ _ _ Hz)|].
    intros m c Hm Hc. destruct (Hrow m c Hm Hc) as (r & Er & HL & Hr). exists r. split; auto. split; auto.
    intros d Hd. rewrite Hr by auto. f_equal.
    pose proof (rep_at _ _ _ _ _ (rep_unshift [ne] nr e e z _ Hz) m [d; c] Hm (inr2' _ _ _ _ Hd Hc)) as H.
    cbn [app] in H. rewrite bix_self in H by auto. rewrite H. reflexivity.
  Qed.
End Rows.

(** ** sdr_loss, pairwise *)
Lemma bc_len_bc1 b lx ly : bc_len b lx ly = match bc1 lx ly with Some k => Ok k | None => Raise (shape_exn b) end.
Proof.
  unfold bc_len, bc1. destruct (Nat.eqb_spec lx ly); auto. destruct (Nat.eqb_spec lx 1); auto.
  destruct (Nat.eqb_spec ly 1); auto.
Qed.
Lemma bc_get_sel x t n : length x = n -> bc_get x t = nth (sel n t) x 0%R.
Proof. intros <-. unfold bc_get, sel. destruct (Nat.eqb (length x) 1); reflexivity. Qed.
Lemma inr_zero e : Forall (lt 0) e -> inr e (repeat 0 (length e)).
Proof. intros H. induction H; cbn; constructor; auto. Qed.

(** Matrices as lists of rows. *)
Lemma list_tab {A} (x : list A) n f d : length x = n -> (forall i, i < n -> nth i x d = f i) -> x = tab n f.
Proof. intros H1 H2. apply (list_eq_tab x n f d); auto. Qed.
Lemma t_mat_ok M z m nr ne bs : tsh z = ne :: nr :: bs -> length M = nr ->
  (forall i, i < nr -> length (nth i M []) = ne) ->
  (forall i j, i < nr -> j < ne -> mat_of M i j = Fin (tat z (j :: i :: m))) ->
  M = map (map Fin) (t_mat z m).
Proof.
  intros Hz H1 H2 H3. unfold t_mat, t_vec. rewrite Hz. cbn [nth]. unfold tab at 1. rewrite map_map.
  apply (list_tab M nr _ []); auto. intros i Hi. unfold tab. rewrite map_map.
  apply (list_tab _ ne _ NaN); auto. intros j Hj. apply H3; auto.
Qed.
Lemma rows_mat (f : chan -> res (list xr)) nr ne bs z m (X : nat -> list R) : tsh z = ne :: nr :: bs ->
  (forall c, c < nr -> exists r, f (Some (X c)) = Ok r /\ length r = ne /\
     forall d, d < ne -> nth d r NaN = Fin (tat z (d :: c :: m))) ->
  mapM f (@tab chan nr (fun c => Some (X c))) = Ok (map (map Fin) (t_mat z m)).
Proof.
  intros Hz H. pose proof (mapM_tab f nr (fun c => Some (X c)) []) as HM.
  destruct (mapM f _) as [M|er].
  - f_equal. destruct HM as [HL HM]. apply t_mat_ok with (nr := nr) (ne := ne) (bs := bs); auto.
    + intros i Hi. destruct (H i Hi) as (r & Er & HLr & _). rewrite (HM i Hi) in Er. congruence.
    + intros i j Hi Hj. destruct (H i Hi) as (r & Er & _ & Hd). rewrite (HM i Hi) in Er. unfold mat_of. rewrite <- Hd by auto. congruence.
  - destruct HM as (c & Hc & HM). destruct (H c Hc) as (r & Er & _). congruence.
Qed.

(** The batch loop over the permutations. *)
Lemma t_permute_items b sp z args nr ne e : lsa_contract sp -> tsh z = ne :: nr :: e ->
  let item := fun m => solve_permutation b sp nr ne (mat_of (t_mat z m)) (map (fun a => mat_of (t_mat a m)) args) in
  match t_permute b sp z args with
  | Ok (v, a, p) => tsh v = Nat.min nr ne :: e /\ tsh p = Nat.min nr ne :: e /\
      (length a = length args /\ forall k, k < length args -> tsh (nth k a v) = Nat.min nr ne :: e) /\
      forall m, inr e m -> item m = Ok (t_vec v m, map (fun t => t_vec t m) a, t_vec p m)
  | Raise _ => exists m, inr e m /\ raises (item m)
  end.
Proof.
  intros Hsp Hz item. unfold t_permute. rewrite Hz. fold item.
  pose proof (mapM_inv item (indices e)) as HM. destruct (mapM item (indices e)) as [ys|er]; cbn [bind].
  - split; [reflexivity|]. split; [reflexivity|]. split.
    + split; [apply length_tab|]. intros k Hk. rewrite nth_tab by auto. reflexivity.
    + intros m Hm. destruct (HM m) as [[[v a] p] Hy]; [apply in_indices; auto|]. rewrite Hy.
      destruct (solve_perm_outputs sp Hsp b nr ne _ _ _ _ _ Hy) as (Hc & HLp & _ & _ & Hv & Ha).
      assert (HLv : length v = Nat.min nr ne) by (rewrite Hv, map_length; apply Hc).
      assert (HLa : length a = length args) by (rewrite Ha, !map_length; reflexivity).
      do 2 f_equal; [f_equal|].
      * unfold t_vec. cbn [tsh tat nth]. rewrite <- HLv. rewrite <- (tab_nth v NaN) at 1. apply tab_ext.
        intros i Hi. unfold item in Hy. rewrite Hy. reflexivity.
      * unfold tab at 1. rewrite map_map. rewrite <- HLa. rewrite <- (tab_nth a []) at 1. apply map_ext_in.
        intros k Hk. apply in_seq in Hk. unfold t_vec. cbn [tsh tat nth].
        apply (list_tab _ _ _ NaN).
        -- rewrite Ha. set (g := fun M => map (at_pair M) _).
           rewrite (nth_indep (map g _) [] (g (fun _ _ => NaN))) by (rewrite !map_length; lia).
           rewrite map_nth. unfold g. rewrite map_length. apply Hc.
        -- intros i Hi. unfold item in Hy. rewrite Hy. reflexivity.
      * unfold t_vec. cbn [tsh tat nth]. rewrite <- HLp. rewrite <- (tab_nth p 0) at 1. apply tab_ext.
        intros i Hi. unfold item in Hy. rewrite Hy. reflexivity.
  - destruct HM as (m & Hm & Her). apply in_indices in Hm. exists m. split; auto. eexists. exact Her.
Qed.

Section Pair.
  Context (l : lib) (o : opts) (lx ly nr ne : nat) (br be e : shape) (ref est : tensor R).
  Hypothesis Hr : tsh ref = lx :: nr :: br.
  Hypothesis He : tsh est = ly :: ne :: be.
  Hypothesis Hx : 0 < lx.
  Hypothesis Hy : 0 < ly.
  Hypothesis E : bc br be = Some e.
  Let zm := zero_mean o.
  Let X (m : idx) (c : nat) := prepR zm (xchan ref (bix br m) c).
  Let Y (m : idx) (d : nat) := prepR zm (xchan est (bix be m) d).
  Let iref (m : idx) := t_item ref (bix br m).
  Let iest (m : idx) := t_item est (bix be m).

  Lemma HX0 : chans lx nr br e (t_prep zm ref) X.
  Proof. apply prep_chans; auto. apply (bc_absorb _ _ _ E). Qed.
  Lemma HY0 : chans ly ne be e (t_prep zm est) Y.
  Proof. apply prep_chans; auto. apply (bc_absorb _ _ _ E). Qed.
  Lemma lenX m c : length (X m c) = lx.
  Proof. apply (length_xprep zm ref _ c lx (nr :: br) Hr). Qed.
  Lemma lenY m d : length (Y m d) = ly.
  Proof. apply (length_xprep zm est _ d ly (ne :: be) He). Qed.
  Lemma irefs m : prep_arr zm (iref m) = @tab chan nr (fun c => Some (X m c)).
  Proof. unfold iref. rewrite item_prep; rewrite Hr; auto. Qed.
  Lemma iests m : prep_arr zm (iest m) = @tab chan ne (fun d => Some (Y m d)).
  Proof. unfold iest. rewrite item_prep; rewrite He; auto. Qed.
  Lemma iref_len m : a_len (iref m) = lx.
  Proof. unfold iref, t_item. rewrite Hr. reflexivity. Qed.
  Lemma iest_len m : a_len (iest m) = ly.
  Proof. unfold iest, t_item. rewrite He. reflexivity. Qed.
  Lemma iref_n m : n_chan (iref m) = nr.
  Proof. unfold iref, t_item, n_chan. cbn [a_chans]. rewrite length_tab, Hr. reflexivity. Qed.
  Lemma iest_n m : n_chan (iest m) = ne.
  Proof. unfold iest, t_item, n_chan. cbn [a_chans]. rewrite length_tab, He. reflexivity. Qed.
  Lemma tsh_prep_ref : tsh (t_prep zm ref) = lx :: nr :: br.
  Proof. exact (rep_sh _ _ _ _ _ HX0). Qed.
  Lemma tsh_prep_est : tsh (t_prep zm est) = ly :: ne :: be.
  Proof. exact (rep_sh _ _ _ _ _ HY0). Qed.

  (** einsum of the channels, filter_length = 1 *)
  Lemma cd_rep k : bc1 lx ly = Some k ->
    exists z, t_ein_cd l (t_prep zm ref) (t_prep zm est) = Ok z /\
      rep [ne; nr] e e z (fun m ci => ip k (X m (nth 1 ci 0)) (Y m (nth 0 ci 0))).
  Proof.
    intros Hk. destruct (ein_cd_rep l lx ly k nr ne br be e _ _ _ _ HX0 HY0 Hk) as (z & u & Ez & Eu & Hz).
    rewrite E in Eu. injection Eu as <-. exists z. split; auto. eapply rep_eq; [exact Hz|].
    intros m ci Hm Hc. unfold ip. apply Rsum_ext. intros t Ht. cbv beta. cbn [nth].
    rewrite (bc_get_sel _ t lx) by apply lenX. rewrite (bc_get_sel _ t ly) by apply lenY. reflexivity.
  Qed.
  Lemma cd_raise : bc1 lx ly = None -> raises (t_ein_cd l (t_prep zm ref) (t_prep zm est)).
  Proof.
    intros Hk. unfold t_ein_cd. rewrite tsh_prep_ref, tsh_prep_est. unfold ein_cd. rewrite Hk. eexists. reflexivity.
  Qed.

  Lemma mat_len1 k m i j : i < nr -> j < ne ->
    mat_of (len1_sdr k (prep_arr zm (iref m)) (prep_arr zm (iest m))) i j = Fin (ip k (X m i) (Y m j) ^ 2)%R.
  Proof.
    intros Hi Hj. rewrite irefs, iests. unfold mat_of, len1_sdr, tab. rewrite !map_map.
    set (f := fun c => map _ (map _ (seq 0 ne))).
    rewrite (nth_indep (map f (seq 0 nr)) [] (f 0)) by (rewrite map_length, seq_length; auto).
    rewrite map_nth, seq_nth by auto. unfold f. rewrite map_map. cbn [Nat.add].
    set (g := fun x => lift2 _ _ _).
    rewrite (nth_indep (map g (seq 0 ne)) NaN (g 0)) by (rewrite map_length, seq_length; auto).
    rewrite map_nth, seq_nth by auto. reflexivity.
  Qed.

  Hypothesis HL : 1 <= filter_length o.
  Hypothesis Hcg : use_cg_iter o <> None -> filter_length o <> 1 -> length be <= length br.

  Lemma br_len : use_cg_iter o <> None -> filter_length o <> 1 -> length br = length e.
  Proof. intros H1 H2. rewrite (bc_length _ _ _ E). specialize (Hcg H1 H2). lia. Qed.
  Lemma N_pos : 0 < Nat.min (filter_length o) (n_fft lx ly).
  Proof. pose proof (n_fft_pos lx ly). lia. Qed.

  Definition coh_item (m : idx) := sdr_coh (bk l) o (iref m) (iest m).

  Theorem t_sdr_coh_items :
    match t_sdr_coh l true o est ref with
    | Ok z => tsh z = ne :: nr :: e /\
        forall m, inr e m -> coh_item m = Ok (map (map Fin) (t_mat z m))
    | Raise _ => Forall (lt 0) e -> exists m, inr e m /\ raises (coh_item m)
    end.
  Proof.
    unfold t_sdr_coh, coh_item, sdr_coh. fold zm. destruct (Nat.eqb_spec (filter_length o) 1) as [E1|E1].
    - unfold t_len1. fold zm. cbn [orb]. destruct (bc1 lx ly) as [k|] eqn:Ek.
      + destruct (cd_rep k Ek) as (z & -> & Hz). cbn [bind rmap fst].
        pose proof (tmap_rep _ _ _ _ _ (fun v => v ^ 2)%R Hz) as Hz2.
        pose proof (rep_sh _ _ _ _ _ Hz2) as Hsz. cbn [app] in Hsz. split; [exact Hsz|].
        intros m Hm. rewrite iref_len, iest_len, bc_len_bc1, Ek. cbn [bind]. f_equal.
        apply t_mat_ok with (nr := nr) (ne := ne) (bs := e); auto.
        * unfold len1_sdr. rewrite map_length, irefs, length_tab. reflexivity.
        * intros i Hi. unfold len1_sdr. rewrite irefs, iests. unfold tab at 2. rewrite map_map.
          set (f := fun c => map _ (tab ne _)).
          rewrite (nth_indep (map f (seq 0 nr)) [] (f 0)) by (rewrite map_length, seq_length; auto).
          rewrite map_nth. unfold f. rewrite map_length. apply length_tab.
        * intros i j Hi Hj. rewrite mat_len1 by auto. f_equal.
          pose proof (rep_at _ _ _ _ _ Hz2 m [j; i] Hm (inr2' _ _ _ _ Hj Hi)) as H. cbn [app] in H.
          rewrite bix_self in H by auto. rewrite H. reflexivity.
      + destruct (cd_raise Ek) as [er ->]. cbn [bind rmap]. intros He0.
        exists (repeat 0 (length e)). split; [apply inr_zero; auto|].
        rewrite iref_len, iest_len, bc_len_bc1, Ek. cbn [bind]. eexists. reflexivity.
    - destruct (stats_rep l (filter_length o) lx ly nr ne br be e _ _ X Y tsh_prep_ref tsh_prep_est E HX0 HY0)
        as (acf & xc & -> & Hacf & Hxc).
      { intros; apply lenX. } { intros; apply lenY. }
      cbn [bind].
      pose proof (chans_along _ _ _ _ _ _ Hacf (fun m i _ _ => length_stats_acf _ _ _) (add_load (load_diag o)) _
          (fun x Hx => eq_trans (length_add_load _ _) Hx)) as Hacf'.
      pose proof (rows_rep l (use_cg_iter o) _ nr ne br e _ xc _
        (fun m c => stats_xcorr (n_fft lx ly) (filter_length o) (X m c)) Y N_pos (fun H => br_len H E1) Hacf'
        (fun m c _ _ => eq_trans (length_add_load _ _) (length_stats_acf _ _ _)) Hxc
        (fun m c d _ _ _ => length_stats_xcorr _ _ _ _)) as HR.
      unfold t_sol in HR.
      destruct HR as [(s & z & -> & Ez & _ & Hz & Hrow)|((er & ->) & m & c & Hm & Hc & Hrow)]; cbn [bind].
      + rewrite Ez. split; auto. intros m Hm. rewrite iref_len, iest_len, irefs, iests. cbv zeta.
        apply (rows_mat _ nr ne e); auto.
      + intros _. exists m. split; auto. rewrite iref_len, iest_len, irefs, iests. cbv zeta.
        match goal with |- context [mapM ?f _] => pose proof (mapM_tab f nr (fun c => Some (X m c)) []) as HM end.
        cbv beta iota in HM. match type of HM with context [mapM ?f ?x] => destruct (mapM f x) as [M|er'] end.
        * destruct HM as [_ HM]. specialize (HM c Hc). destruct Hrow as [er' Hrow]. congruence.
        * eexists. reflexivity.
  Qed.

  Theorem t_sdr_loss_items :
    match t_sdr_loss l true o est ref with
    | Ok z => tsh z = ne :: nr :: e /\
        forall m, inr e m -> pairwise_sdr_loss (bk l) o (iest m) (iref m) = Ok (t_mat z m)
    | Raise _ => Forall (lt 0) e -> exists m, inr e m /\ raises (pairwise_sdr_loss (bk l) o (iest m) (iref m))
    end.
  Proof.
    pose proof t_sdr_coh_items as H. unfold t_sdr_loss, pairwise_sdr_loss. unfold coh_item in H.
    destruct (t_sdr_coh l true o est ref) as [z|er]; cbn [bind].
    - destruct H as [H1 H2]. split; auto. intros m Hm. rewrite (H2 m Hm). cbn [bind]. f_equal.
      unfold to_db, t_mat, t_vec, t_db, tmap, tab. cbn [tsh tat]. rewrite !map_map. apply map_ext. intros i.
      rewrite !map_map. reflexivity.
    - intros H0. destruct (H H0) as (m & Hm & er' & Her). exists m. split; auto. rewrite Her. eexists. reflexivity.
  Qed.

  (** sdr *)
  Theorem t_sdr_items sp cs : lsa_contract sp ->
    match t_sdr l sp o cs ref est with
    | Ok (v, p) => tsh v = Nat.min nr ne :: e /\ tsh p = Nat.min nr ne :: e /\
        forall m, inr e m -> sdr (bk l) sp o cs (iref m) (iest m) = Ok (t_vec v m, t_vec p m)
    | Raise _ => Forall (lt 0) e -> exists m, inr e m /\ raises (sdr (bk l) sp o cs (iref m) (iest m))
    end.
  Proof.
    intros Hsp. pose proof t_sdr_loss_items as H. unfold t_sdr, sdr.
    destruct (t_sdr_loss l true o est ref) as [z|er]; cbn [bind].
    - destruct H as [H1 H2]. pose proof (t_permute_items (bk l) sp z [] nr ne e Hsp H1) as HP.
      destruct (t_permute (bk l) sp z []) as [[[v a] p]|er]; cbn [bind].
      + destruct HP as (Sv & Sp & _ & HP). split; [destruct cs; exact Sv|]. split; auto. intros m Hm.
        rewrite (H2 m Hm). cbn [bind]. rewrite iref_n, iest_n. cbn [map] in HP. rewrite (HP m Hm). cbn [bind].
        do 2 f_equal. destruct cs; auto. unfold t_vec, tmap, tab. cbn [tsh tat]. rewrite map_map. reflexivity.
      + intros _. destruct HP as (m & Hm & er' & Her). exists m. split; auto. rewrite (H2 m Hm). cbn [bind].
        rewrite iref_n, iest_n. cbn [map] in Her. rewrite Her. eexists. reflexivity.
    - intros H0. destruct (H H0) as (m & Hm & er' & Her). exists m. split; auto. rewrite Her. eexists. reflexivity.
  Qed.
End Pair.
