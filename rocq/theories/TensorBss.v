(** * square_cosine_metrics and bss_eval_sources on arrays with batch axes *)
From Coq Require Import Reals Lra.
From Coquelicot Require Import Complex.
From Verif Require Import Prelude ExtReal Slice Sums Fft FftProofs Helpers HelpersProofs Linalg LinalgProofs Cgd CgdOps CgdPrecond Metrics Shapes ShapesProofs StatsProofs SpecSig PrepProofs MetricsProofs DbProofs SarProofs Spec PermProofs Tensor TensorOps TensorCg TensorProofs TensorSdr TensorDiag TensorBlock.
Local Open Scope nat_scope.

(** ** compute_stats_2 *)
Section Stats2.
  Context (l : lib) (L lx ly nr ne : nat) (br be e : shape) (ref est : tensor R) (X Y : idx -> nat -> list R).
  Hypothesis HL : 0 < L.
  Hypothesis Hr : tsh ref = lx :: nr :: br.
  Hypothesis He : tsh est = ly :: ne :: be.
  Hypothesis E : bc br be = Some e.
  Hypothesis HX : chans lx nr br e ref X.
  Hypothesis HY : chans ly ne be e est Y.
  Hypothesis LX : forall m i, inr e m -> i < nr -> length (X m i) = lx.
  Hypothesis LY : forall m i, inr e m -> i < ne -> length (Y m i) = ly.
  Let nf := n_fft lx ly.
  Let N := Nat.min L nf.
  Lemma stats2_rep :
    exists acf xc, t_stats2 l L ref est = Ok (acf, xc) /\
      blk nr (2 * N) br e acf (fun m c d => stats2_acf nf L (X m c) (X m d)) /\
      rep [ne; nr; N] e e xc (fun m ci => nth (nth 2 ci 0) (stats_xcorr nf L (X m (nth 1 ci 0)) (Y m (nth 0 ci 0))) 0%R).
  Proof.
    unfold t_stats2. rewrite Hr, He. cbn [last_axis hd]. fold nf.
    pose proof (chans_rfft lx nr br e ref X HX LX nf) as FX.
    pose proof (chans_rfft ly ne be e est Y HY LY nf) as FY.
    destruct (ein_ncd_rep l _ _ _ _ _ _ _ _ _ _ FX (tmap_rep _ _ _ _ _ Cconj FX)) as (q & u & -> & Eu & Hq).
    rewrite bc_refl in Eu. injection Eu as <-. cbn [bind].
    destruct (ein_ncd_rep l _ _ _ _ _ _ _ _ _ _ (tmap_rep _ _ _ _ _ Cconj FX) FY) as (q2 & u2 & -> & Eu2 & Hq2).
    rewrite E in Eu2. injection Eu2 as <-. cbn [bind]. eexists. eexists. split; [reflexivity|].
    split.
    - assert (Hir : blk nr nf br e (t_irfft 2 nf q) (fun m c d =>
          irfft nf (zip_with (fun a b => Cmult a (Cconj b)) (rfft nf (X m c)) (rfft nf (X m d))))).
      { eapply rep_eq; [apply (along_rep 2 c0 0%R (irfft nf) _ _ _ _ _ nf Hq); [cbn; lia|intros; apply length_irfft]|].
        intros m ci Hm Hc. apply inr3 in Hc. destruct Hc as (d & c & j & -> & Hd & Hc & Hj). cbv beta. cbn [nth put].
        f_equal. f_equal. rewrite (zip_tab _ (nf / 2 + 1) _ _ c0 c0) by apply length_rfft. reflexivity. }
      apply (along_repL 2 0%R 0%R (fun a => cut L a ++ pyslice (Some (- Z.of_nat L)%Z) None 1 a) [nr; nr; nf] br e _
        (fun m ci => irfft nf (zip_with (fun a b => Cmult a (Cconj b)) (rfft nf (X m (nth 1 ci 0))) (rfft nf (X m (nth 0 ci 0)))))
        (2 * N)).
      + exact Hir.
      + cbn; lia.
      + intros m [|a [|b [|d ci]]] j; reflexivity.
      + intros; apply length_irfft.
      + intros x Hx. cbn [nth] in Hx. rewrite app_length, length_cut, (slice_last _ L 0%R), length_tab, Hx by auto. unfold N. lia.
    - assert (Hir : rep [ne; nr; nf] e e (t_irfft 2 nf q2) (fun m ci => nth (nth 2 ci 0)
          (irfft nf (zip_with (fun a b => Cmult (Cconj a) b) (rfft nf (X m (nth 1 ci 0))) (rfft nf (Y m (nth 0 ci 0))))) 0%R)).
      { eapply rep_eq; [apply (along_rep 2 c0 0%R (irfft nf) _ _ _ _ _ nf Hq2); [cbn; lia|intros; apply length_irfft]|].
        intros m ci Hm Hc. apply inr3 in Hc. destruct Hc as (d & c & j & -> & Hd & Hc & Hj). cbv beta. cbn [nth put].
        f_equal. f_equal. rewrite (zip_tab _ (nf / 2 + 1) _ _ c0 c0) by apply length_rfft. reflexivity. }
      apply (along_repL 2 0%R 0%R (cut L) [ne; nr; nf] e e _
        (fun m ci => irfft nf (zip_with (fun a b => Cmult (Cconj a) b) (rfft nf (X m (nth 1 ci 0))) (rfft nf (Y m (nth 0 ci 0)))))
        N).
      + exact Hir.
      + cbn; lia.
      + intros m [|a [|b [|d ci]]] j; reflexivity.
      + intros; apply length_irfft.
      + intros x Hx. cbn [nth] in Hx. rewrite length_cut, Hx. reflexivity.
  Qed.
End Stats2.

(** ** Loading *)
Definition load_blk (ld : option R) (c d : nat) (x : list R) : list R :=
  (if Nat.eqb c d then add_load ld else fun l => l) x.
Lemma length_load_blk ld c d x : length (load_blk ld c d x) = length x.
Proof. unfold load_blk. destruct (Nat.eqb c d); auto. apply length_add_load. Qed.
Lemma nth_add_load ld x i : i < length x ->
  nth i (add_load ld x) 0%R = (nth i x 0 + match ld with Some v => if Nat.eqb i 0 then v else 0 | None => 0 end)%R.
Proof.
  intros Hi. destruct ld as [v|]; cbn [add_load]; [|ring]. destruct x as [|a x]; [cbn in Hi; lia|].
  destruct i; cbn; ring.
Qed.
Lemma load2_rep ld K n bs e t G : blk K n bs e t G -> (forall m c d, length (G m c d) = n) ->
  blk K n bs e (t_load2 ld t) (fun m c d => load_blk ld c d (G m c d)).
Proof.
  intros H HG. destruct H as [H1 H2 H3]. split; auto. intros m ci Hm Hc. pose proof (H3 m ci Hm Hc) as H.
  apply inr3 in Hc. destruct Hc as (d & c & i & -> & Hd & Hc & Hi). cbn [app nth] in *. cbn [t_load2 tat]. rewrite H.
  unfold load_blk. destruct (Nat.eqb c d); cbn [andb].
  - rewrite nth_add_load by (rewrite HG; auto). reflexivity.
  - destruct ld; ring.
Qed.

(** ** The SAR part *)
Lemma block_toeplitz_val b n k x : 2 <= n -> (forall r c, length (x r c) = 2 * n) ->
  block_toeplitz b (2 * n) k k x = Ok (fun p q => ent (bt_block n (x (p mod k) (q mod k))) (p / k) (q / k)).
Proof.
  intros Hn Hx. unfold block_toeplitz. rewrite half2.
  replace (existsb2 _ _ _) with false; [reflexivity|].
  symmetry. apply HelpersProofs.existsb2_false. intros r c Hr Hc. rewrite bt_block_shape by (rewrite ?Hx; lia).
  rewrite Nat.eqb_refl. reflexivity.
Qed.
Lemma block_toeplitz_rep l n K bs e t F : 2 <= n -> 0 < K -> blk K (2 * n) bs e t F -> (forall m r c, length (F m r c) = 2 * n) ->
  exists z, t_block_toeplitz l t = Ok z /\
    rep [n * K; n * K] bs e z (fun m ci =>
      ent (bt_block n (F m (nth 1 ci 0 mod K) (nth 0 ci 0 mod K))) (nth 1 ci 0 / K) (nth 0 ci 0 / K)).
Proof.
  intros Hn HK Ht HF. unfold t_block_toeplitz. pose proof (rep_sh _ _ _ _ _ Ht) as Hs. cbn [app] in Hs. rewrite Hs.
  unfold sh_block_toeplitz. cbn [nth]. rewrite half2. destruct (Nat.eqb_spec n 1); [lia|]. cbn [bind].
  eexists. split; [reflexivity|]. split; [reflexivity|apply (rep_le _ _ _ _ _ Ht)|].
  intros m ci Hm Hc. apply inr2 in Hc. destruct Hc as (q & p & -> & Hq & Hp). cbn [app tat nth].
  f_equal. f_equal. unfold fib. rewrite Hs. cbn [nth put]. rewrite <- (HF m (p mod K) (q mod K)).
  rewrite <- (tab_nth (F m (p mod K) (q mod K)) 0%R) at 2. apply tab_ext. intros j Hj.
  apply (rep_at _ _ _ _ _ Ht m [q mod K; p mod K; j]); auto. rewrite HF in Hj.
  apply inr3'; auto; apply Nat.mod_upper_bound; lia.
Qed.
Lemma not_tainted {A} n (f : nat -> A) (g : A -> list R) : existsb tainted (@tab chan n (fun c => Some (g (f c)))) = false.
Proof.
  unfold tab. induction (seq 0 n) as [|a s IH]; auto.
Qed.

Lemma length_blk nf L ld c d x y : 2 <= L -> L <= nf -> length (load_blk ld c d (stats2_acf nf L x y)) = 2 * L.
Proof. intros. rewrite length_load_blk, length_stats2_acf by lia. lia. Qed.

Section Sar.
  Context (l : lib) (cg : option nat) (nf L nr ne : nat) (ld : option R) (br e : shape) (acf xc : tensor R).
  Context (X Y : idx -> nat -> list R).
  Hypothesis H2 : 2 <= L.
  Hypothesis HLn : L <= nf.
  Hypothesis Hnr : 0 < nr.
  Hypothesis Hcg : cg <> None -> length br = length e.
  Hypothesis Hacf : blk nr (2 * L) br e acf (fun m c d => load_blk ld c d (stats2_acf nf L (X m c) (X m d))).
  Hypothesis Hxc : rep [ne; nr; L] e e xc
     (fun m ci => nth (nth 2 ci 0) (stats_xcorr nf L (X m (nth 1 ci 0)) (Y m (nth 0 ci 0))) 0%R).
  Let refs (m : idx) : list chan := @tab chan nr (fun c => Some (X m c)).
  Let ests (m : idx) : list chan := @tab chan ne (fun d => Some (Y m d)).
  Let rf (m : idx) (c : nat) : list R := opt0 (nth c (refs m) None).
  Let F (m : idx) (c d : nat) := load_blk ld c d (stats2_acf nf L (rf m c) (rf m d)).
  Let xv (m : idx) (y : list R) := flatten nr (length (stats_xcorr nf L (rf m 0) y)) (fun c => stats_xcorr nf L (rf m c) y).
  Definition x0_spec (it : nat) (m : idx) (d : nat) : list R :=
    flatten nr L (fun c => toeplitz_cg_spec (add_load ld (stats_acf nf L (X m c))) (stats_xcorr nf L (X m c) (Y m d)) it).
  Let xf := flat23 xc.
  Context (pw : bool) (x0 : option (tensor R)).
  Hypothesis Hx0 : forall it, cg = Some it ->
    if pw then exists x, x0 = Some x /\ cols (L * nr) ne e x (x0_spec it) else x0 = None.
  Let sol2 := match cg with
               | None => do R_mat <- t_block_toeplitz l acf; t_solve l R_mat xf
               | Some n => t_block_cg l acf xf n x0
               end.
  Let sar (m : idx) := sar_row (bk l) cg nf L ld pw (refs m) (ests m).

  Lemma rf_in m c : c < nr -> rf m c = X m c.
  Proof. intros H. unfold rf, refs. rewrite nth_tab by auto. reflexivity. Qed.
  Lemma ests_in m d : d < ne -> nth d (ests m) (None : chan) = Some (Y m d).
  Proof. intros H. unfold ests. rewrite nth_tab; auto. Qed.
  Lemma xv_eq m y : xv m y = flatten nr L (fun c => stats_xcorr nf L (rf m c) y).
  Proof. unfold xv. rewrite length_stats_xcorr, Nat.min_l by exact HLn. reflexivity. Qed.
  Lemma length_xv m y : length (xv m y) = L * nr.
  Proof. rewrite xv_eq. apply length_tab. Qed.
  Lemma lenF m c d : length (F m c d) = 2 * L.
  Proof. apply length_blk; auto. Qed.
  Lemma HF1 : blk nr (2 * L) br e acf F.
  Proof.
    eapply rep_eq; [exact Hacf|]. intros m ci Hm Hc. apply inr3 in Hc. destruct Hc as (d & c & i & -> & Hd & Hc & Hi).
    cbn [nth]. unfold F. rewrite !rf_in by auto. reflexivity.
  Qed.
  Lemma xf_cols : cols (L * nr) ne e xf (fun m d => xv m (Y m d)).
  Proof.
    eapply rep_eq; [apply (flat23_rep ne nr L e e xc _ Hxc)|]. intros m ci Hm Hc. apply inr2 in Hc.
    destruct Hc as (d & p & -> & Hd & Hp). cbv beta. cbn [nth]. rewrite xv_eq. unfold flatten. rewrite nth_tab by auto.
    rewrite rf_in by (apply Nat.mod_upper_bound, Nat.neq_0_lt_0; exact Hnr). reflexivity.
  Qed.

  Lemma sar_eq m : sar m =
    match cg with
    | None =>
        do M <- solve_cols (L * nr) ne (fun p q => ent (bt_block L (F m (p mod nr) (q mod nr))) (p / nr) (q / nr))
                  (fun i d => nth i (xv m (opt0 (nth d (ests m) None))) 0%R);
        Ok (tab ne (fun d => match nth d (ests m) None with
                             | None => NaN
                             | Some y => Fin (dot_nth (L * nr) (xv m y) (fun i => M i d))
                             end))
    | Some it =>
        do inv <- prec_inv nr L (F m);
        Ok (tab ne (fun d => Fin (dot_nth (L * nr) (xv m (Y m d)) (fun i => nth i
              (block_cg_spec nr L (F m) inv (xv m (Y m d)) (if pw then x0_spec it m d else repeat 0%R (L * nr)) it) 0%R))))
    end.
  Proof.
    unfold sar, sar_row. unfold refs at 1. rewrite (not_tainted nr (fun c => c) (X m)).
    replace (length (refs m)) with nr by (symmetry; apply length_tab).
    replace (length (ests m)) with ne by (symmetry; apply length_tab). cbv zeta.
    change (fun c d : nat => (if c =? d then add_load ld else fun l0 : list R => l0)
              (stats2_acf nf L (opt0 (nth c (refs m) None)) (opt0 (nth d (refs m) None)))) with (F m).
    change ((if 0 =? 0 then add_load ld else fun l0 : list R => l0)
              (stats2_acf nf L (opt0 (nth 0 (refs m) None)) (opt0 (nth 0 (refs m) None)))) with (F m 0 0).
    rewrite lenF, half2.
    destruct cg as [it|].
    - rewrite (block_precond_ok _ nr L) by (auto using lenF; lia).
      destruct (prec_inv nr L (F m)) as [inv|er] eqn:Ei; [|reflexivity]. cbn [bind].
      match goal with |- mapM ?f _ = _ => pose proof (mapM_tab f ne (fun d => Some (Y m d)) NaN) as HM end.
      fold (ests m) in HM.
      assert (Hcol : forall d, d < ne ->
         (do x1 <- (if pw then
              do cols <- mapM (fun c => toeplitz_cg (bk l) (add_load ld (stats_acf nf L (opt0 (nth c (refs m) None))))
                                  (stats_xcorr nf L (opt0 (nth c (refs m) None)) (Y m d)) it) (seq 0 nr);
              Ok (Some (flatten nr L (fun c => nth c cols [])))
            else Ok None);
          do s <- block_toeplitz_cg (bk l) (2 * L) nr (F m) (xv m (Y m d)) x1 it;
          Ok (Fin (dot_nth (L * nr) (xv m (Y m d)) (fun i => nth i s 0%R)))) =
         Ok (Fin (dot_nth (L * nr) (xv m (Y m d)) (fun i => nth i
              (block_cg_spec nr L (F m) inv (xv m (Y m d)) (if pw then x0_spec it m d else repeat 0%R (L * nr)) it) 0%R)))).
      { intros d Hd.
        assert (Hlv : length (xv m (Y m d)) = L * nr) by apply length_xv.
        destruct pw.
        - pose proof (mapM_tab (fun c => toeplitz_cg (bk l) (add_load ld (stats_acf nf L (opt0 (nth c (refs m) None))))
                                  (stats_xcorr nf L (opt0 (nth c (refs m) None)) (Y m d)) it) nr (fun c => c) []) as HM2.
          assert (Es : tab nr (fun i => i) = seq 0 nr) by apply map_id. rewrite Es in HM2.
          assert (Htc : forall c, c < nr -> toeplitz_cg (bk l) (add_load ld (stats_acf nf L (opt0 (nth c (refs m) None))))
                                  (stats_xcorr nf L (opt0 (nth c (refs m) None)) (Y m d)) it =
                    Ok (toeplitz_cg_spec (add_load ld (stats_acf nf L (X m c))) (stats_xcorr nf L (X m c) (Y m d)) it)).
          { intros c Hc. change (opt0 (nth c (refs m) None)) with (rf m c). rewrite (rf_in m c Hc).
            rewrite toeplitz_cg_ok, length_add_load, length_stats_acf, length_stats_xcorr, Nat.eqb_refl. reflexivity. }
          destruct (mapM _ (seq 0 nr)) as [cs|er].
          + destruct HM2 as [HLc HM2]. cbn [bind].
            assert (Efl : flatten nr L (fun c => nth c cs []) = x0_spec it m d).
            { apply flatten_ext. intros c Hc i Hi. specialize (HM2 c Hc). rewrite (Htc c Hc) in HM2. injection HM2 as HM2.
              rewrite <- HM2. reflexivity. }
            rewrite Efl.
            rewrite (block_cg_ok _ nr L) by (auto using lenF; try lia; apply length_tab).
            rewrite Ei. cbn [bind]. rewrite Hlv, Nat.eqb_refl. reflexivity.
          + destruct HM2 as (c & Hc & HM2). rewrite (Htc c Hc) in HM2. discriminate.
        - cbn [bind]. rewrite (block_cg_ok _ nr L) by (auto using lenF; lia).
          rewrite Ei. cbn [bind]. rewrite Hlv, Nat.eqb_refl. reflexivity. }
      match type of HM with context [mapM ?f ?xs] => destruct (mapM f xs) as [ys|er] eqn:EM end.
      + destruct HM as [HLy HM]. f_equal. apply (list_tab ys ne _ NaN); auto. intros d Hd.
        specialize (HM d Hd). cbv beta iota in HM.
        pose proof (eq_trans (eq_sym (Hcol d Hd)) HM) as HQ. congruence.
      + destruct HM as (d & Hd & HM). cbv beta iota in HM.
        pose proof (eq_trans (eq_sym (Hcol d Hd)) HM) as HQ. discriminate.
    - rewrite (block_toeplitz_val _ L nr) by (auto using lenF). cbn [bind]. reflexivity.
  Qed.

  Lemma sar_rep :
    (exists s z, sol2 = Ok s /\ t_ein_lc l xf s = Ok z /\ rep [ne] e e z (fun m ci => tat z (nth 0 ci 0 :: m)) /\
       forall m, inr e m -> sar m = Ok (map Fin (t_vec z m))) \/
    (raises sol2 /\ (Forall (lt 0) e -> exists m, inr e m /\ raises (sar m))).
  Proof.
    (* the end of the computation *)
    assert (Fin_ : forall s S, sol2 = Ok s ->
      rep [ne; L * nr] e e s (fun m ci => S m (nth 0 ci 0) (nth 1 ci 0)) ->
      (forall m, inr e m -> sar m = Ok (tab ne (fun d => Fin (dot_nth (L * nr) (xv m (Y m d)) (S m d))))) ->
      exists s z, sol2 = Ok s /\ t_ein_lc l xf s = Ok z /\ rep [ne] e e z (fun m ci => tat z (nth 0 ci 0 :: m)) /\
       forall m, inr e m -> sar m = Ok (map Fin (t_vec z m))).
    { intros s S Es Hs Hrow. destruct (ein_lc_full l (L * nr) ne e xf s _ _ xf_cols Hs) as (z & Ez & Hz).
      assert (Hv : forall m d, inr e m -> d < ne -> tat z (d :: m) = dot_nth (L * nr) (xv m (Y m d)) (S m d)).
      { intros m d Hm Hd. pose proof (rep_at _ _ _ _ _ Hz m [d] Hm (inr1' _ _ Hd)) as H. cbn [app] in H.
        rewrite bix_self in H by auto. rewrite H. reflexivity. }
      exists s, z. split; auto. split; auto. split.
      - eapply rep_eq; [exact Hz|]. intros m ci Hm Hc. apply inr1 in Hc. destruct Hc as (d & -> & Hd).
        cbv beta. cbn [nth]. rewrite Hv by auto. reflexivity.
      - intros m Hm. rewrite Hrow by auto. f_equal. pose proof (rep_sh _ _ _ _ _ Hz) as Hsz. cbn [app] in Hsz.
        apply (t_vec_ok _ _ _ ne e); auto; [apply length_tab|]. intros d Hd. rewrite nth_tab by auto. rewrite Hv; auto. }
    pose proof sar_eq as SE. pose proof xf_cols as Hxf. pose proof HF1 as HF1'. unfold sol2 in *. destruct cg as [it|] eqn:Ecg.
    - assert (HX : match x0 with
         | Some x => cols (L * nr) ne e x (fun m d => if pw then x0_spec it m d else repeat 0%R (L * nr)) /\
              forall m c, inr e m -> c < ne -> length (if pw then x0_spec it m c else repeat 0%R (L * nr)) = L * nr
         | None => forall m d, (if pw then x0_spec it m d else repeat 0%R (L * nr)) = repeat 0%R (L * nr)
         end).
      { specialize (Hx0 it eq_refl). destruct pw; [|rewrite Hx0; auto]. destruct Hx0 as (x & -> & Hx).
        split; auto. intros. apply length_tab. }
      assert (HB : length br = length e) by (apply Hcg; discriminate).
      destruct (block_cg_rep l nr L ne br e acf F H2 Hnr HF1' lenF HB xf (fun m d => xv m (Y m d)) x0
         (fun m d => if pw then x0_spec it m d else repeat 0%R (L * nr)) it Hxf (fun m c _ _ => length_xv _ _) HX)
        as [(z & E & Hok & Hz)|(Hr & Hm)].
      + left. apply (Fin_ z (fun m d i => nth i (block_cg_spec nr L (F m) (okv [] (prec_inv nr L (F m)))
          (xv m (Y m d)) (if pw then x0_spec it m d else repeat 0%R (L * nr)) it) 0%R) E Hz). intros m Hm. rewrite SE. destruct (Hok m Hm) as (inv & ->). reflexivity.
      + right. split; auto. intros He. destruct (Hm He) as (m & Hme & er & Her). exists m. split; auto.
        rewrite SE, Her. eexists. reflexivity.
    - destruct (block_toeplitz_rep l L nr br e acf F H2 Hnr HF1' lenF) as (Rm & ER & HR). rewrite ER in *. cbn [bind] in *.
      assert (Sbr : sle br e) by apply (rep_le _ _ _ _ _ HR).
      assert (Hv : vector_rhs l (tsh Rm) (tsh xf) = false).
      { rewrite (rep_sh _ _ _ _ _ HR), (rep_sh _ _ _ _ _ Hxf). cbn [app].
        assert (length br <= length e) by (rewrite (bc_length _ _ _ Sbr); lia).
        unfold vector_rhs. destruct l; cbn [length]; try (apply Nat.eqb_neq; lia).
        cbn [Nat.eqb orb tl]. unfold shape_eqb. destruct (list_eq_dec _ _ _) as [Q|]; auto.
        apply (f_equal (@length nat)) in Q. cbn in Q. lia. }
      assert (Hext : forall m, inr e m ->
        match solve_cols (L * nr) ne (fun p q => ent (bt_block L (F m (p mod nr) (q mod nr))) (p / nr) (q / nr))
                  (fun i d => nth i (xv m (opt0 (nth d (ests m) None))) 0%R),
              solve_cols (L * nr) ne (fun p q => ent (bt_block L (F m (p mod nr) (q mod nr))) (p / nr) (q / nr))
                  (fun i d => nth i (xv m (Y m d)) 0%R) with
        | Ok A, Ok A' => forall i d, i < L * nr -> d < ne -> A i d = A' i d
        | Raise e1, Raise e2 => e1 = e2
        | _, _ => False
        end).
      { intros m Hm. apply solve_cols_ext; auto. intros i d Hi Hd. rewrite (ests_in m d Hd). reflexivity. }
      destruct (solve_rep l (L * nr) ne br e e Rm xf _ _ HR Hxf Sbr Hv) as [(z & E & Hok & Hz)|(Hr & m & Hm & er & Her)].
      + left. apply (Fin_ z (fun m d i => okv zero2 (solve_cols (L * nr) ne
             (fun p q => ent (bt_block L (F m (p mod nr) (q mod nr))) (p / nr) (q / nr))
             (fun i d => nth i (xv m (Y m d)) 0%R)) i d) E).
        * exact Hz.
        * intros m Hm. rewrite SE. destruct (Hok m Hm) as [W HW]. cbn [nth] in HW. pose proof (Hext m Hm) as HX.
          rewrite HW in HX |- *. destruct (solve_cols _ _ _ (fun i d => nth i (xv m (opt0 (nth d (ests m) None))) 0%R)) as [W'|]; [|contradiction].
          cbn [bind]. f_equal. apply tab_ext. intros d Hd. rewrite ests_in by auto. cbn [okv]. unfold dot_nth. f_equal.
          apply Rsum_ext. intros i Hi. f_equal. apply HX; auto.
      + right. split; auto. intros _. exists m. split; auto. rewrite SE. cbn [nth] in Her.
        pose proof (Hext m Hm) as HX. rewrite Her in HX.
        destruct (solve_cols _ _ _ (fun i d => nth i (xv m (opt0 (nth d (ests m) None))) 0%R)); [contradiction|].
        cbn [bind]. eexists. reflexivity.
  Qed.
End Sar.

(** ** Shapes of arrays that carry all batch axes *)
Lemma full_rep core e (t : tensor R) : tsh t = core ++ e -> rep core e e t (fun m ci => tat t (ci ++ m)).
Proof.
  intros H. eapply rep_eq; [apply (rep_input core e e t H (sle_refl e))|]. intros m ci Hm Hc. cbv beta.
  rewrite bix_self; auto.
Qed.
Lemma pair_rep l nr ne e (s a : tensor R) : tsh s = ne :: nr :: e -> tsh a = ne :: e ->
  exists u, tzip l pair s (new2 a) = Ok u /\ tsh u = ne :: nr :: e /\
    forall m i j, inr e m -> i < nr -> j < ne -> tat u (j :: i :: m) = (tat s (j :: i :: m), tat a (j :: m)).
Proof.
  intros Hs Ha. pose proof (full_rep [ne; nr] e s Hs) as Rs. pose proof (full_rep [ne] e a Ha) as Ra.
  assert (Hbc : bc [ne; nr] [ne; 1] = Some [ne; nr]).
  { cbn [bc]. rewrite bc1_refl. replace (bc1 nr 1) with (Some nr); [reflexivity|].
    unfold bc1. destruct (Nat.eqb_spec nr 1); auto. }
  destruct (tzip_full l pair _ _ _ e e _ _ _ _ Rs (new2_rep _ _ _ _ _ Ra) eq_refl Hbc) as (u & Eu & Hu).
  exists u. split; auto. split; [exact (rep_sh _ _ _ _ _ Hu)|]. intros m i j Hm Hi Hj.
  pose proof (rep_at _ _ _ _ _ Hu m [j; i] Hm (inr2' _ _ _ _ Hj Hi)) as H. cbn [app] in H. rewrite bix_self in H by auto.
  rewrite H. cbn [bix nth app]. rewrite !eqb_sel by auto. reflexivity.
Qed.
Lemma sol_raise l cg (acf xc : tensor R) n n' nr ne br e : tsh acf = n :: nr :: br -> tsh xc = ne :: n' :: nr :: e ->
  length br <= length e -> n <> n' -> raises (t_sol l cg acf xc).
Proof.
  intros Ha Hx Hle Hn. unfold t_sol. destruct cg as [it|].
  - unfold t_toeplitz_cg, t_cg. rewrite Ha, Hx. cbn [sh_toeplitz length].
    destruct (Nat.eqb_spec (S (S (S (length br)))) (S (S (S (length e))) + 1)); [lia|].
    rewrite Hx. cbn [nth length]. destruct (Nat.eqb_spec n n'); [lia|]. rewrite andb_false_r. eexists. reflexivity.
  - unfold t_solve. cbn [t_toeplitz tsh]. rewrite Ha, Hx. cbn [sh_toeplitz]. unfold sh_solve.
    replace (vector_rhs l (n :: n :: nr :: br) (ne :: n' :: nr :: e)) with false.
    + cbn [solve_mat]. rewrite Nat.eqb_refl. destruct (Nat.eqb_spec n n'); [lia|]. cbn [andb bind]. eexists. reflexivity.
    + symmetry. unfold vector_rhs. destruct l; cbn [length]; try (apply Nat.eqb_neq; lia).
      cbn [Nat.eqb orb tl]. unfold shape_eqb. destruct (list_eq_dec _ _ _) as [Q|]; auto.
      apply (f_equal (@length nat)) in Q. cbn in Q. lia.
Qed.

(** ** filter_length = 1 *)
Section Len1.
  Context (l : lib) (o : opts) (lx ly nr ne k : nat) (br be e : shape) (ref est : tensor R).
  Hypothesis Hr : tsh ref = lx :: nr :: br.
  Hypothesis He : tsh est = ly :: ne :: be.
  Hypothesis Hx : 0 < lx.
  Hypothesis Hy : 0 < ly.
  Hypothesis E : bc br be = Some e.
  Hypothesis Ek : bc1 lx ly = Some k.
  Let zm := zero_mean o.
  Let X (m : idx) (c : nat) := prepR zm (xchan ref (bix br m) c).
  Let Y (m : idx) (d : nat) := prepR zm (xchan est (bix be m) d).
  Let refs (m : idx) : list chan := @tab chan nr (fun c => Some (X m c)).
  Let ests (m : idx) : list chan := @tab chan ne (fun d => Some (Y m d)).
  Context (z : tensor R).
  Hypothesis Hz : rep [ne; nr] e e z (fun m ci => ip k (X m (nth 1 ci 0)) (Y m (nth 0 ci 0))).
  Let run := do acm <- t_ein_cd l (t_prep zm ref) (t_prep zm ref); t_solve l (t_eye_load (load_diag o) acm) z.
  Let sar (m : idx) := len1_sar k lx (load_diag o) (refs m) (ests m).

  Lemma len1_sar_rep :
    (exists s w, run = Ok s /\ t_ein_lc l z s = Ok w /\ tsh w = ne :: e /\
       forall m, inr e m -> sar m = Ok (map Fin (t_vec w m))) \/
    (raises run /\ exists m, inr e m /\ raises (sar m)).
  Proof.
    pose proof (HX0 o lx nr br be e ref Hr E) as HX1.
    destruct (ein_cd_rep l lx lx lx nr nr br br e _ _ _ _ HX1 HX1 (bc1_refl lx)) as (acm & u & Ea & Eu & Ha).
    rewrite bc_refl in Eu. injection Eu as <-. unfold run, zm. rewrite Ea. cbn [bind].
    set (A := fun m c d => (ip lx (X m c) (X m d) +
      match load_diag o with Some v => if Nat.eqb c d then v else 0 | None => 0 end)%R).
    assert (Hl : rep [nr; nr] br e (t_eye_load (load_diag o) acm) (fun m ci => A m (nth 1 ci 0) (nth 0 ci 0))).
    { destruct Ha as [A1 A2 A3]. split; auto. intros m ci Hm Hc. pose proof (A3 m ci Hm Hc) as H.
      apply inr2 in Hc. destruct Hc as (d & c & -> & Hd & Hc). cbn [app nth] in *. cbn [t_eye_load tat]. rewrite H.
      unfold A. f_equal. unfold ip. apply Rsum_ext. intros t Ht.
      rewrite !(bc_get_sel _ t lx) by (apply (lenX o lx nr br ref Hr)). reflexivity. }
    assert (Sbr : sle br e) by apply (rep_le _ _ _ _ _ Hl).
    assert (Hv : vector_rhs l (tsh (t_eye_load (load_diag o) acm)) (tsh z) = false).
    { rewrite (rep_sh _ _ _ _ _ Hl), (rep_sh _ _ _ _ _ Hz). cbn [app].
      assert (length br <= length e) by (rewrite (bc_length _ _ _ Sbr); lia).
      unfold vector_rhs. destruct l; cbn [length]; try (apply Nat.eqb_neq; lia).
      cbn [Nat.eqb orb tl]. unfold shape_eqb. destruct (list_eq_dec _ _ _) as [Q|]; auto.
      apply (f_equal (@length nat)) in Q. cbn in Q. lia. }
    assert (Hext : forall m, inr e m ->
      match solve_cols nr ne (fun c d => (ip lx (opt0 (nth c (refs m) None)) (opt0 (nth d (refs m) None)) +
                match load_diag o with Some v => if Nat.eqb c d then v else 0 | None => 0 end)%R)
              (fun c d => ip k (opt0 (nth c (refs m) None)) (opt0 (nth d (ests m) None))),
            solve_cols nr ne (fun c d => A m c d) (fun c d => ip k (X m c) (Y m d)) with
      | Ok W, Ok W' => forall i d, i < nr -> d < ne -> W i d = W' i d
      | Raise e1, Raise e2 => e1 = e2
      | _, _ => False
      end).
    { intros m Hm. unfold refs, ests. apply solve_cols_ext.
      - intros c d Hc Hd. rewrite !nth_tab by auto. reflexivity.
      - intros c d Hc Hd. rewrite !nth_tab by auto. reflexivity. }
    destruct (solve_rep l nr ne br e e _ z _ _ Hl Hz Sbr Hv) as [(s & Es & Hok & Hs)|(Hra & m & Hm & er & Her)].
    - left. destruct (ein_lc_full l nr ne e z s _ _ Hz Hs) as (w & Ew & Hw).
      pose proof (rep_sh _ _ _ _ _ Hw) as Hsw. cbn [app] in Hsw.
      exists s, w. split; auto. split; auto. split; auto. intros m Hm.
      unfold sar, len1_sar. unfold refs at 1. rewrite (not_tainted nr (fun c => c) (X m)).
      replace (length (refs m)) with nr by (symmetry; apply length_tab).
      replace (length (ests m)) with ne by (symmetry; apply length_tab). cbv zeta.
      destruct (Hok m Hm) as [W HW]. cbn [nth] in HW. pose proof (Hext m Hm) as HX2. rewrite HW in HX2.
      destruct (solve_cols _ _ _ (fun c d => ip k (opt0 (nth c (refs m) None)) (opt0 (nth d (ests m) None)))) as [W'|]; [|contradiction].
      cbn [bind]. f_equal. apply (t_vec_ok _ _ _ ne e); auto; [apply length_tab|]. intros d Hd. rewrite nth_tab by auto.
      pose proof (rep_at _ _ _ _ _ Hw m [d] Hm (inr1' _ _ Hd)) as H. cbn [app] in H. rewrite bix_self in H by auto.
      rewrite H. cbn [nth]. rewrite HW. cbn [okv].
      replace (nth d (ests m) None) with (Some (Y m d) : chan) by (unfold ests; rewrite nth_tab; auto). cbn [tainted opt0].
      f_equal. apply Rsum_ext. intros c Hc.
      replace (nth c (refs m) None) with (Some (X m c) : chan) by (unfold refs; rewrite nth_tab; auto). cbn [opt0].
      f_equal. auto.
    - right. split; auto. exists m. split; auto.
      unfold sar, len1_sar. unfold refs at 1. rewrite (not_tainted nr (fun c => c) (X m)).
      replace (length (refs m)) with nr by (symmetry; apply length_tab).
      replace (length (ests m)) with ne by (symmetry; apply length_tab). cbv zeta.
      cbn [nth] in Her. pose proof (Hext m Hm) as HX2. rewrite Her in HX2.
      destruct (solve_cols _ _ _ (fun c d => ip k (opt0 (nth c (refs m) None)) (opt0 (nth d (ests m) None)))); [contradiction|].
      cbn [bind]. eexists. reflexivity.
  Qed.
End Len1.

(** ** square_cosine_metrics, pairwise *)
Lemma chans_sdr K n L bs e t G : 0 < L -> blk K n bs e t G -> (forall m c d, length (G m c d) = n) ->
  chans (Nat.min L n) K bs e (t_cut 0 L (swap12 (diag12 K t))) (fun m c => cut L (G m c c)).
Proof.
  intros HL Ht HG.
  assert (H1 : chans n K bs e (swap12 (diag12 K t)) (fun m c => G m c c)).
  { eapply rep_eq; [apply (swap12_rep K n [] bs e _ _ (diag12_rep K [n] bs e t _ K Ht eq_refl))|].
    intros m ci Hm Hc. apply inr2 in Hc. destruct Hc as (i & c & -> & Hi & Hc). reflexivity. }
  apply (chans_along _ _ _ _ _ _ H1); [intros; apply HG|]. intros x Hx. rewrite length_cut, Hx. reflexivity.
Qed.

Section Cos.
  Context (l : lib) (o : opts) (lx ly nr ne : nat) (br be e : shape) (ref est : tensor R).
  Hypothesis Hr : tsh ref = lx :: nr :: br.
  Hypothesis He : tsh est = ly :: ne :: be.
  Hypothesis Hx : 0 < lx.
  Hypothesis Hy : 0 < ly.
  Hypothesis Hnr : 0 < nr.
  Hypothesis E : bc br be = Some e.
  Hypothesis HL : 1 <= filter_length o.
  Hypothesis Hcg : use_cg_iter o <> None -> filter_length o <> 1 -> length be <= length br.
  Let zm := zero_mean o.
  Let X (m : idx) (c : nat) := prepR zm (xchan ref (bix br m) c).
  Let Y (m : idx) (d : nat) := prepR zm (xchan est (bix be m) d).
  Let iref (m : idx) := t_item ref (bix br m).
  Let iest (m : idx) := t_item est (bix be m).
  Let HX1 : chans lx nr br e (t_prep zm ref) X := HX0 o lx nr br be e ref Hr E.
  Let HY1 : chans ly ne be e (t_prep zm est) Y := HY0 o ly ne br be e est He E.
  Let nf := n_fft lx ly.
  Let L := filter_length o.

  Lemma br_le : length br <= length e.
  Proof. rewrite (bc_length _ _ _ E). lia. Qed.

  Lemma t_mat_rep_row a m v : tsh a = ne :: nr :: e -> length v = ne ->
    (forall i j, i < nr -> j < ne -> tat a (j :: i :: m) = nth j v 0%R) -> t_mat a m = repeat v nr.
  Proof.
    intros Ha Hv H. unfold t_mat. rewrite Ha. cbn [nth].
    assert (Hrow : forall i, i < nr -> t_vec a (i :: m) = v).
    { intros i Hi. unfold t_vec. rewrite Ha. cbn [nth]. symmetry. apply (list_tab v ne _ 0%R); auto.
      intros j Hj. symmetry. apply H; auto. }
    symmetry. apply (list_tab _ nr _ []); [apply repeat_length|]. intros i Hi. rewrite Hrow by auto.
    rewrite (nth_indep _ [] v) by (rewrite repeat_length; auto). apply nth_repeat.
  Qed.

  (** common end of both branches *)
  Lemma cos_end (s a : tensor R) (m : idx) : tsh s = ne :: nr :: e -> tsh a = ne :: e ->
    exists u, tzip l pair s (new2 a) = Ok u /\ tsh (tmap fst u) = ne :: nr :: e /\ tsh (tmap snd u) = ne :: nr :: e /\
      forall m, inr e m -> t_mat (tmap fst u) m = t_mat s m /\ t_mat (tmap snd u) m = repeat (t_vec a m) nr.
  Proof.
    intros Hs Ha. destruct (pair_rep l nr ne e s a Hs Ha) as (u & Eu & Hsu & Hu). exists u. split; auto. split; auto. split; auto.
    intros m' Hm. split.
    - unfold t_mat, t_vec. cbn [tmap tsh tat]. rewrite Hsu, Hs. cbn [nth]. apply tab_ext. intros i Hi. apply tab_ext.
      intros j Hj. rewrite Hu by auto. reflexivity.
    - apply t_mat_rep_row; auto.
      + unfold t_vec. rewrite length_tab, Ha. reflexivity.
      + intros i j Hi Hj. cbn [tmap tat]. rewrite Hu by auto. cbn [snd]. unfold t_vec. rewrite Ha, nth_tab by auto. reflexivity.
  Qed.

  Definition cos_item (m : idx) := sq_cos (bk l) o (iref m) (iest m).
  Theorem t_cosine_items :
    match t_cosine l true o ref est with
    | Ok (s, a) => tsh s = ne :: nr :: e /\ tsh a = ne :: nr :: e /\
        forall m, inr e m -> exists v, length v = ne /\
          cos_item m = Ok (map (map Fin) (t_mat s m), map Fin v) /\ t_mat a m = repeat v nr
    | Raise _ => Forall (lt 0) e -> exists m, inr e m /\ raises (cos_item m)
    end.
  Proof.
    pose proof br_le as Hble. pose proof (n_fft_pos lx ly) as Hnf. fold nf in Hnf.
    assert (Hi : forall m, prep_arr zm (iref m) = @tab chan nr (fun c => Some (X m c)))
      by (intros m; apply (irefs o lx nr br ref Hr Hx)).
    assert (Hj : forall m, prep_arr zm (iest m) = @tab chan ne (fun c => Some (Y m c)))
      by (intros m; apply (iests o ly ne be est He Hy)).
    assert (Hil : forall m, a_len (iref m) = lx) by (intros m; apply (iref_len lx nr br ref Hr)).
    assert (Hjl : forall m, a_len (iest m) = ly) by (intros m; apply (iest_len ly ne be est He)).
    assert (Lv : forall (a : tensor R) m, tsh a = ne :: e -> length (t_vec a m) = ne)
      by (intros a m Ha; unfold t_vec; rewrite length_tab, Ha; reflexivity).
    unfold t_cosine, cos_item, sq_cos. fold zm L. destruct (Nat.eqb_spec L 1) as [E1|E1].
    - unfold t_len1. fold zm. cbn [orb]. destruct (bc1 lx ly) as [k|] eqn:Ek.
      + destruct (cd_rep l o lx ly nr ne br be e ref est Hr He E k Ek) as (z & Ez & Hz). fold zm in Ez. rewrite Ez. cbn [bind].
        pose proof (tmap_rep _ _ _ _ _ (fun v => v ^ 2)%R Hz) as Hz2.
        pose proof (rep_sh _ _ _ _ _ Hz2) as Hsz. cbn [app] in Hsz.
        pose proof (len1_sar_rep l o lx ly nr ne k br be e ref est Hr Hx Hy E z Hz) as HS. fold zm in HS.
        destruct (t_ein_cd l (t_prep zm ref) (t_prep zm ref)) as [acm|er] eqn:Eacm; cbn [bind] in *.
        * destruct HS as [(s & w & -> & Ew & Hw & Hsar)|((er & ->) & m & Hm & er' & Hsar)]; cbn [bind].
          -- rewrite Ew. cbn [bind].
             destruct (cos_end (tmap (fun v => v ^ 2)%R z) w [] Hsz Hw) as (u & -> & S1 & S2 & Hu). cbn [bind].
             split; auto. split; auto. intros m Hm. destruct (Hu m Hm) as [U1 U2]. exists (t_vec w m).
             split; [apply Lv; auto|]. split; [|exact U2]. rewrite U1, Hil, Hjl, bc_len_bc1, Ek. cbn [bind].
             rewrite Hi, Hj. rewrite (Hsar m Hm : len1_sar k lx (load_diag o) (@tab chan nr (fun c => Some (X m c))) (@tab chan ne (fun d => Some (Y m d))) = _). cbn [bind]. do 2 f_equal.
             apply (t_mat_ok _ _ _ nr ne e); auto.
             ++ unfold len1_sdr. rewrite map_length. apply length_tab.
             ++ intros i Hi'. unfold len1_sdr. unfold tab at 2. rewrite map_map.
                set (f := fun c => map _ (tab ne _)).
                rewrite (nth_indep (map f (seq 0 nr)) [] (f 0)) by (rewrite map_length, seq_length; auto).
                rewrite map_nth. unfold f. rewrite map_length. apply length_tab.
             ++ intros i j Hi' Hj'. rewrite <- Hi, <- Hj.
                pose proof (mat_len1 o lx ly nr ne br be ref est Hr He Hx Hy k m i j Hi' Hj') as HM. fold zm in HM.
                unfold iref, iest. rewrite HM. f_equal.
                pose proof (rep_at _ _ _ _ _ Hz2 m [j; i] Hm (inr2' _ _ _ _ Hj' Hi')) as H. cbn [app] in H.
                rewrite bix_self in H by auto. rewrite H. reflexivity.
          -- intros _. exists m. split; auto. rewrite Hil, Hjl, bc_len_bc1, Ek, Hi, Hj. cbn [bind].
             rewrite (Hsar : len1_sar k lx (load_diag o) (@tab chan nr (fun c => Some (X m c))) (@tab chan ne (fun d => Some (Y m d))) = _). eexists. reflexivity.
        * destruct HS as [(s & w & HS & _)|(_ & m & Hm & er' & Hsar)]; [discriminate|].
          intros _. exists m. split; auto. rewrite Hil, Hjl, bc_len_bc1, Ek, Hi, Hj. cbn [bind].
          rewrite (Hsar : len1_sar k lx (load_diag o) (@tab chan nr (fun c => Some (X m c))) (@tab chan ne (fun d => Some (Y m d))) = _). eexists. reflexivity.
      + destruct (cd_raise l o lx ly nr ne br be e ref est Hr He E Ek) as [er Her]. fold zm in Her. rewrite Her. cbn [bind].
        intros He0. exists (repeat 0 (length e)). split; [apply inr_zero; auto|].
        rewrite Hil, Hjl, bc_len_bc1, Ek. cbn [bind]. eexists. reflexivity.
    - assert (HL2 : 2 <= L) by (unfold L in *; lia). assert (HL0 : 0 < L) by lia.
      destruct (stats2_rep l L lx ly nr ne br be e _ _ X Y HL0
         (tsh_prep_ref o lx nr br be e ref Hr E) (tsh_prep_est o ly ne br be e est He E) E HX1 HY1)
        as (acf & xc & Est & Hacf & Hxc).
      { intros; apply (lenX o lx nr br ref Hr). } { intros; apply (lenY o ly ne be est He). }
      fold zm in Est. rewrite Est. cbn [bind]. fold nf in Hacf, Hxc.
      pose proof (tsh_prep_ref o lx nr br be e ref Hr E) as Htr. fold zm in Htr. rewrite Htr. cbn [nth].
      pose proof (load2_rep (load_diag o) _ _ _ _ _ _ Hacf (fun m c d => length_stats2_acf _ _ _ _ HL0)) as Hld.
      set (acfl := t_load2 (load_diag o) acf) in *.
      pose proof (chans_sdr nr (2 * Nat.min L nf) L br e acfl _ HL0 Hld
         (fun m c d => eq_trans (length_load_blk _ _ _ _) (length_stats2_acf _ _ _ _ HL0))) as Hsd.
      set (acs := t_cut 0 L (swap12 (diag12 nr acfl))) in *.
      pose proof (swap23_rep ne nr (Nat.min L nf) e e xc _ Hxc) as Hxs.
      destruct (Nat.le_gt_cases L nf) as [HLn|HLn].
      + assert (EN : Nat.min L nf = L) by lia. rewrite EN in *.
        replace (Nat.min L (2 * L)) with L in Hsd by lia.
        assert (Hbl : use_cg_iter o <> None -> length br = length e).
        { intros H. rewrite (bc_length _ _ _ E). specialize (Hcg H E1). lia. }
        assert (Hsd' : chans L nr br e acs (fun m c => acf_sdr nf L (load_diag o) (X m c))).
        { eapply rep_eq; [exact Hsd|]. intros m ci Hm Hc. cbv beta. unfold acf_sdr, load_blk. rewrite Nat.eqb_refl. reflexivity. }
        assert (Las : forall x, length (acf_sdr nf L (load_diag o) x) = L).
        { intros x. rewrite acf_sdr_eq by lia. rewrite length_add_load, length_stats_acf. exact EN. }
        pose proof (rows_rep l (use_cg_iter o) L nr ne br e acs (swap23 xc) _
          (fun m c => stats_xcorr nf L (X m c)) Y HL0 Hbl Hsd' (fun m c _ _ => Las _) Hxs
          (fun m c d _ _ _ => eq_trans (length_stats_xcorr _ _ _ _) EN)) as HR.
        unfold t_sol in HR.
        assert (Hck : check_sizes (bk l) (use_cg_iter o) nf L = Ok tt) by (apply check_sizes_ok; auto; lia).
        destruct HR as [(s & z & -> & Ez & Hs & Hz & Hrow)|((er & ->) & m & c & Hm & Hc & er' & Hrow)]; cbn [bind].
        * rewrite Ez. cbn [bind].
          assert (Hrows : forall m, inr e m -> mapM (fun x : chan => match x with
                | None => Ok (map (fun _ => NaN) (@tab chan ne (fun d => Some (Y m d))))
                | Some v => coh_row (bk l) (use_cg_iter o) (acf_sdr nf L (load_diag o) v) (stats_xcorr nf L v) (@tab chan ne (fun d => Some (Y m d)))
                end) (@tab chan nr (fun c => Some (X m c))) = Ok (map (map Fin) (t_mat z m))).
          { intros m Hm. apply (rows_mat _ nr ne e); auto. }
          destruct (sar_rep l (use_cg_iter o) nf L nr ne (load_diag o) br e acfl xc X Y HL2 HLn Hnr Hbl Hld Hxc true
            (Some (flat23 (swap23 s)))) as [(s2 & a & Es2 & Ea & Ha & Hsar)|(Hra & Hm)].
          { intros it Eit. exists (flat23 (swap23 s)). split; auto.
            apply (flat_cols nr ne e _ (fun m d c => toeplitz_cg_spec (add_load (load_diag o) (stats_acf nf L (X m c)))
                (stats_xcorr nf L (X m c) (Y m d)) it) L).
            eapply rep_eq; [apply (swap23_rep ne L nr e e s _ Hs)|]. intros m ci Hm Hc. cbv beta. cbn [nth].
            unfold rsol. rewrite Eit. rewrite acf_sdr_eq by lia. reflexivity. }
          -- rewrite Es2. cbn [bind]. rewrite Ea. cbn [bind].
             pose proof (rep_sh _ _ _ _ _ Ha) as Hsa. cbn [app] in Hsa.
             destruct (cos_end z a [] Hz Hsa) as (u & -> & S1 & S2 & Hu). cbn [bind].
             split; auto. split; auto. intros m Hm. destruct (Hu m Hm) as [U1 U2]. exists (t_vec a m).
             split; [apply Lv; auto|]. split; [|exact U2]. rewrite U1, Hil, Hjl, Hi, Hj. fold nf. rewrite Hck. cbn [bind].
             rewrite Hrows by auto. cbn [bind]. rewrite Hsar by auto. reflexivity.
          -- destruct Hra as [er Hra]. rewrite Hra. cbn [bind]. intros He0. destruct (Hm He0) as (m & Hme & er' & Her).
             exists m. split; auto. rewrite Hil, Hjl, Hi, Hj. fold nf. rewrite Hck. cbn [bind].
             rewrite Hrows by auto. cbn [bind]. rewrite Her. eexists. reflexivity.
        * intros _. exists m. split; auto. rewrite Hil, Hjl, Hi, Hj. fold nf. rewrite Hck. cbn [bind].
          match goal with |- context [mapM ?f _] => pose proof (mapM_tab f nr (fun c => Some (X m c)) []) as HM end.
          cbv beta iota in HM. match type of HM with context [mapM ?f ?x] => destruct (mapM f x) as [M|er''] end.
          -- destruct HM as [_ HM]. specialize (HM c Hc). congruence.
          -- cbn [bind]. eexists. reflexivity.
      + assert (Hra : raises (t_sol l (use_cg_iter o) acs (swap23 xc))).
        { apply (sol_raise l _ _ _ (Nat.min L (2 * Nat.min L nf)) (Nat.min L nf) nr ne br e).
          - exact (rep_sh _ _ _ _ _ Hsd).
          - exact (rep_sh _ _ _ _ _ Hxs).
          - exact Hble.
          - lia. }
        unfold t_sol in Hra. destruct Hra as [er ->]. cbn [bind]. intros He0.
        exists (repeat 0 (length e)). split; [apply inr_zero; auto|].
        rewrite Hil, Hjl. fold nf. rewrite check_sizes_raise by auto. cbn [bind]. eexists. reflexivity.
  Qed.
End Cos.
