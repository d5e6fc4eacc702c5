(** * bss_eval_sources on arrays with batch axes *)
From Coq Require Import Reals Lra FunctionalExtensionality.
From Coquelicot Require Import Complex.
From Verif Require Import Prelude ExtReal Slice Sums Fft FftProofs Helpers HelpersProofs Linalg LinalgProofs Cgd CgdOps CgdPrecond Metrics Shapes ShapesProofs StatsProofs SpecSig PrepProofs MetricsProofs DbProofs SarProofs Spec PermProofs Tensor TensorOps TensorCg TensorProofs TensorSdr TensorDiag TensorBlock TensorBss.
Local Open Scope nat_scope.

(** The other matrices of _solve_permutation matter only inside their bounds. *)
Lemma perm_args_ext sp b nr ne M args args' : lsa_contract sp ->
  Forall2 (fun A B => forall i j, i < nr -> j < ne -> A i j = B i j) args args' ->
  solve_permutation b sp nr ne M args = solve_permutation b sp nr ne M args'.
Proof.
  intros Hsp H.
  assert (HH : match solve_permutation b sp nr ne M args, solve_permutation b sp nr ne M args' with
    | Ok (v, _, p), Ok (v', _, p') => v = v' /\ p = p'
    | Raise e, Raise e' => e = e' | _, _ => False end).
  { unfold solve_permutation. cbv zeta. destruct (lsa_with_inf _ _ _ _ _); cbn; auto. }
  destruct (solve_permutation b sp nr ne M args) as [[[v a] p]|er] eqn:E1;
    destruct (solve_permutation b sp nr ne M args') as [[[v' a'] p']|er'] eqn:E2; try contradiction; [|congruence].
  destruct HH as [-> ->].
  destruct (solve_perm_outputs sp Hsp b nr ne _ _ _ _ _ E1) as (Hc & _ & _ & _ & _ & Ha).
  destruct (solve_perm_outputs sp Hsp b nr ne _ _ _ _ _ E2) as (_ & _ & _ & _ & _ & Ha').
  do 3 f_equal. rewrite Ha, Ha'. destruct Hc as (_ & Hin & _).
  clear -H Hin. induction H as [|A B la lb HAB H IH]; cbn; auto. f_equal; auto.
  apply map_ext_in. intros [i j] Hp. destruct (Hin i j Hp). unfold at_pair. cbn. apply HAB; auto.
Qed.

Lemma mat_tab nr ne (g : nat -> nat -> xr) i j :
  mat_of (tab nr (fun i => tab ne (fun j => g i j))) i j = if Nat.ltb i nr && Nat.ltb j ne then g i j else NaN.
Proof.
  unfold mat_of. destruct (Nat.ltb_spec i nr) as [Hi|Hi]; cbn [andb].
  - rewrite nth_tab by auto. destruct (Nat.ltb_spec j ne) as [Hj|Hj]; [apply nth_tab; auto|].
    apply nth_overflow. rewrite length_tab. auto.
  - rewrite (nth_overflow (tab nr _)) by (rewrite length_tab; auto). destruct j; reflexivity.
Qed.
Lemma mat_tensor (z : tensor xr) nr ne e m : tsh z = ne :: nr :: e ->
  mat_of (t_mat z m) = fun i j => if Nat.ltb i nr && Nat.ltb j ne then tat z (j :: i :: m) else NaN.
Proof.
  intros Hz. apply functional_extensionality. intros i. apply functional_extensionality. intros j.
  unfold t_mat, t_vec. rewrite Hz. cbn [nth]. apply (mat_tab nr ne (fun i j => tat z (j :: i :: m))).
Qed.
Lemma mat_fin (z : tensor R) nr ne e m i j : tsh z = ne :: nr :: e ->
  mat_of (map (map Fin) (t_mat z m)) i j = if Nat.ltb i nr && Nat.ltb j ne then Fin (tat z (j :: i :: m)) else NaN.
Proof.
  intros Hz. unfold t_mat, t_vec. rewrite Hz. cbn [nth]. unfold tab. rewrite map_map.
  rewrite (map_ext _ (fun x => map (fun y => Fin (tat z (y :: x :: m))) (seq 0 ne))) by (intros; apply map_map).
  apply (mat_tab nr ne (fun i j => Fin (tat z (j :: i :: m)))).
Qed.

(** _base_metrics_bss_eval *)
Lemma t_base_ok l o sh (s a : tensor R) : tsh s = sh -> tsh a = sh ->
  exists nsir, t_base l o s a = Ok (t_db o s, nsir, t_db o a) /\ tsh nsir = sh /\
    forall i, inr sh i ->
      tat nsir i = coherence_to_neg_sdr (clamp_db o) (xdiv (Fin (tat s i)) (Fin (tat a i))).
Proof.
  intros Hs Ha. unfold t_base, tzip, bcr. rewrite Hs, Ha, bc_refl. cbn [bind].
  eexists. split; [reflexivity|]. split; [reflexivity|]. intros i Hi. cbn [tmap tat]. rewrite bix_self by auto. reflexivity.
Qed.

Section Eval.
  Context (l : lib) (o : opts) (lx ly nr ne : nat) (br be e : shape) (ref est : tensor R).
  Hypothesis Hr : tsh ref = lx :: nr :: br.
  Hypothesis He : tsh est = ly :: ne :: be.
  Hypothesis Hx : 0 < lx.
  Hypothesis Hy : 0 < ly.
  Hypothesis Hnr : 0 < nr.
  Hypothesis E : bc br be = Some e.
  Hypothesis HL : 1 <= filter_length o.
  Hypothesis Hcg : use_cg_iter o <> None -> filter_length o <> 1 -> length be <= length br.
  Let iref (m : idx) := t_item ref (bix br m).
  Let iest (m : idx) := t_item est (bix be m).

  Theorem t_bss_items sp : lsa_contract sp ->
    match t_bss l sp o ref est with
    | Ok (sdr_, sir, sar, p) =>
        Forall (fun t => tsh t = Nat.min nr ne :: e) [sdr_; sir; sar] /\ tsh p = Nat.min nr ne :: e /\
        forall m, inr e m -> bss_eval_sources (bk l) sp o (iref m) (iest m) =
          Ok (t_vec sdr_ m, t_vec sir m, t_vec sar m, t_vec p m)
    | Raise _ => Forall (lt 0) e -> exists m, inr e m /\ raises (bss_eval_sources (bk l) sp o (iref m) (iest m))
    end.
  Proof.
    intros Hsp. pose proof (t_cosine_items l o lx ly nr ne br be e ref est Hr He Hx Hy Hnr E HL Hcg) as H.
    unfold cos_item in H. unfold t_bss, bss_eval_sources.
    destruct (t_cosine l true o ref est) as [[s a]|er]; cbn [bind].
    2:{ intros H0. destruct (H H0) as (m & Hm & er' & Her). exists m. split; auto. unfold iref, iest. rewrite Her. eexists. reflexivity. }
    destruct H as (Hs & Ha & H). destruct (t_base_ok l o (ne :: nr :: e) s a Hs Ha) as (nsir & -> & Hsi & Hir). cbn [bind].
    pose proof (t_permute_items (bk l) sp nsir [t_db o s; t_db o a] nr ne e Hsp Hsi) as HP. cbv zeta in HP.
    assert (Hitem : forall m, inr e m -> exists c, sq_cos (bk l) o (iref m) (iest m) = Ok c /\
       (let '(nsdr, nsir', nsar) := bss_mats o c in
        solve_permutation (bk l) sp nr ne nsir' [nsdr; nsar]) =
       solve_permutation (bk l) sp nr ne (mat_of (t_mat nsir m)) [mat_of (t_mat (t_db o s) m); mat_of (t_mat (t_db o a) m)]).
    { intros m Hm. destruct (H m Hm) as (v & Lv & Hc & Hv). eexists. split; [exact Hc|]. clear Hc.
      unfold bss_mats, base_metrics. cbn [fst snd].
      assert (Hav : forall i j, i < nr -> j < ne -> tat a (j :: i :: m) = nth j v 0%R).
      { intros i j Hi Hj. assert (Hrow : t_vec a (i :: m) = v).
        { assert (Hq : nth i (t_mat a m) [] = nth i (repeat v nr) []) by (rewrite Hv; reflexivity).
          rewrite (nth_indep (repeat v nr) [] v) in Hq by (rewrite repeat_length; auto). rewrite nth_repeat in Hq.
          unfold t_mat in Hq. rewrite Ha in Hq. cbn [nth] in Hq. rewrite nth_tab in Hq by auto. exact Hq. }
        rewrite <- Hrow. unfold t_vec. rewrite Ha. cbn [nth]. rewrite nth_tab by auto. reflexivity. }
      assert (Hvn : forall j, j < ne -> nth j (map Fin v) NaN = Fin (nth j v 0%R)).
      { intros j Hj. rewrite (nth_indep _ NaN (Fin 0%R)) by (rewrite map_length, Lv; auto). apply map_nth. }
      rewrite (mat_tensor nsir nr ne e m Hsi).
      replace (fun i j : nat => coherence_to_neg_sdr (clamp_db o)
                 (xdiv (mat_of (map (map Fin) (t_mat s m)) i j) (nth j (map Fin v) NaN)))
        with (fun i j => if Nat.ltb i nr && Nat.ltb j ne then tat nsir (j :: i :: m) else NaN).
      2:{ apply functional_extensionality. intros i. apply functional_extensionality. intros j.
          rewrite (mat_fin s nr ne e m i j Hs).
          destruct (Nat.ltb_spec i nr); destruct (Nat.ltb_spec j ne); cbn [andb];
            try (cbn [xdiv]; rewrite neg_sdr_nan; reflexivity).
          rewrite Hir, Hvn, Hav by (auto; repeat constructor; auto). reflexivity. }
      apply perm_args_ext; auto. constructor; [|constructor; [|constructor]].
      - intros i j Hi Hj. rewrite (mat_fin s nr ne e m i j Hs), (mat_tensor (t_db o s) nr ne e m Hs).
        destruct (Nat.ltb_spec i nr); [|lia]. destruct (Nat.ltb_spec j ne); [|lia]. reflexivity.
      - intros i j Hi Hj. rewrite (mat_tensor (t_db o a) nr ne e m Ha).
        destruct (Nat.ltb_spec i nr); [|lia]. destruct (Nat.ltb_spec j ne); [|lia]. cbn [andb t_db tmap tat].
        rewrite Hvn, Hav by auto. reflexivity. }
    assert (Hni : forall m, n_chan (iref m) = nr) by (intros m; apply (iref_n lx nr br ref Hr)).
    assert (Hnj : forall m, n_chan (iest m) = ne) by (intros m; apply (iest_n ly ne be est He)).
    destruct (t_permute (bk l) sp nsir [t_db o s; t_db o a]) as [[[sir args] p]|er]; cbn [bind].
    - destruct HP as (S1 & S2 & (S3 & S4) & HP). cbn [length] in S3, S4.
      destruct args as [|a0 [|a1 [|a2 args]]]; try discriminate. cbn [nth].
      pose proof (S4 0 ltac:(lia)) as T0. pose proof (S4 1 ltac:(lia)) as T1. cbn [nth] in T0, T1.
      split; [repeat constructor; auto|]. split; auto. intros m Hm.
      destruct (Hitem m Hm) as (c & -> & Hc). cbn [bind]. rewrite Hni, Hnj.
      destruct (bss_mats o c) as [[nsdr nsir'] nsar]. rewrite Hc.
      cbn [map] in HP. rewrite (HP m Hm). cbn [bind map nth].
      unfold t_vec, tmap, tab. cbn [tsh tat]. rewrite !map_map. reflexivity.
    - intros _. destruct HP as (m & Hm & er' & Her). exists m. split; auto.
      destruct (Hitem m Hm) as (c & -> & Hc). cbn [bind]. rewrite Hni, Hnj.
      destruct (bss_mats o c) as [[nsdr nsir'] nsar]. rewrite Hc. cbn [map] in Her. rewrite Her. eexists. reflexivity.
  Qed.
End Eval.

(** ** compute_permutation = False *)
Lemma sol_raise_vec l cg (acf xc : tensor R) n n' k br e : tsh acf = n :: k :: br -> tsh xc = n' :: k :: e ->
  (cg <> None -> length br = length e) -> (cg = None -> vec_case l br e) -> (cg = None -> l = Th2 -> k <> n) ->
  n <> n' -> raises (t_sol l cg acf xc).
Proof.
  intros Ha Hx Hc Hv Hk Hn. unfold t_sol. destruct cg as [it|].
  - unfold t_toeplitz_cg, t_cg. rewrite Ha, Hx. cbn [sh_toeplitz length]. rewrite (Hc ltac:(discriminate)).
    destruct (Nat.eqb_spec (S (S (S (length e)))) (S (S (length e)) + 1)); [|lia]. cbn [newlast tsh]. rewrite Hx. cbn [nth length].
    destruct (Nat.eqb_spec n n'); [lia|]. rewrite andb_false_r. eexists. reflexivity.
  - unfold t_solve. cbn [t_toeplitz tsh]. rewrite Ha, Hx. cbn [sh_toeplitz]. unfold sh_solve. specialize (Hv eq_refl).
    destruct (vector_rhs l (n :: n :: k :: br) (n' :: k :: e)) eqn:Ev.
    + cbn [solve_vec]. rewrite Nat.eqb_refl. destruct (Nat.eqb_spec n n'); [lia|]. cbn [andb bind]. eexists. reflexivity.
    + unfold solve_mat. destruct (Nat.eqb n n && Nat.eqb n k) eqn:Eq; [|eexists; reflexivity].
      exfalso. apply andb_prop in Eq. destruct Eq as [_ Eq]. apply Nat.eqb_eq in Eq.
      unfold vector_rhs in Ev. unfold vec_case in Hv. destruct l; cbn [length tl] in Ev.
      * apply Nat.eqb_neq in Ev. lia.
      * contradiction.
      * apply Nat.eqb_neq in Ev. lia.
      * specialize (Hk eq_refl eq_refl). lia.
Qed.
Lemma seq_tab k : tab k (fun i => i) = seq 0 k.
Proof. apply map_id. Qed.

Section CosDiag.
  Context (l : lib) (o : opts) (lx ly k : nat) (br be e : shape) (ref est : tensor R).
  Hypothesis Hr : tsh ref = lx :: k :: br.
  Hypothesis He : tsh est = ly :: k :: be.
  Hypothesis Hx : 0 < lx.
  Hypothesis Hy : 0 < ly.
  Hypothesis Hk : 0 < k.
  Hypothesis E : bc br be = Some e.
  Hypothesis HL : 1 <= filter_length o.
  Hypothesis Hcg : use_cg_iter o <> None -> filter_length o <> 1 -> length be <= length br.
  Hypothesis Hvec : use_cg_iter o = None -> filter_length o <> 1 -> vec_case l br e.
  Hypothesis Hth : use_cg_iter o = None -> l = Th2 ->
    filter_length o <= n_fft lx ly \/ k <> Nat.min (filter_length o) (2 * n_fft lx ly).
  Let zm := zero_mean o.
  Let X (m : idx) (c : nat) := prepR zm (xchan ref (bix br m) c).
  Let Y (m : idx) (d : nat) := prepR zm (xchan est (bix be m) d).
  Let iref (m : idx) := t_item ref (bix br m).
  Let iest (m : idx) := t_item est (bix be m).
  Let HX1 : chans lx k br e (t_prep zm ref) X := HX0 o lx k br be e ref Hr E.
  Let HY1 : chans ly k be e (t_prep zm est) Y := HY0 o ly k br be e est He E.
  Let nf := n_fft lx ly.
  Let L := filter_length o.

  Definition dcos_item (m : idx) := sq_cos_diag (bk l) o (iref m) (iest m).
  Theorem t_cosine_diag_items :
    match t_cosine l false o ref est with
    | Ok (s, a) => tsh s = k :: e /\ tsh a = k :: e /\
        forall m, inr e m -> dcos_item m = Ok (map Fin (t_vec s m), map Fin (t_vec a m))
    | Raise _ => Forall (lt 0) e -> exists m, inr e m /\ raises (dcos_item m)
    end.
  Proof.
    pose proof (n_fft_pos lx ly) as Hnf. fold nf in Hnf.
    assert (Hi : forall m, prep_arr zm (iref m) = @tab chan k (fun c => Some (X m c)))
      by (intros m; apply (irefs o lx k br ref Hr Hx)).
    assert (Hj : forall m, prep_arr zm (iest m) = @tab chan k (fun c => Some (Y m c)))
      by (intros m; apply (iests o ly k be est He Hy)).
    assert (Hil : forall m, a_len (iref m) = lx) by (intros m; apply (iref_len lx k br ref Hr)).
    assert (Hjl : forall m, a_len (iest m) = ly) by (intros m; apply (iest_len ly k be est He)).
    assert (Hpx : forall m c, c < k -> nth c (@tab chan k (fun c => Some (X m c))) None = Some (X m c))
      by (intros m c Hc; apply (@nth_tab chan k (fun c => Some (X m c))); auto).
    assert (Hpy : forall m c, c < k -> nth c (@tab chan k (fun c => Some (Y m c))) None = Some (Y m c))
      by (intros m c Hc; apply (@nth_tab chan k (fun c => Some (Y m c))); auto).
    unfold t_cosine, dcos_item, sq_cos_diag. fold zm L. destruct (Nat.eqb_spec L 1) as [E1|E1].
    - unfold t_len1. fold zm. cbn [orb]. destruct (bc1 lx ly) as [n|] eqn:Ek.
      + destruct (cd_rep l o lx ly k k br be e ref est Hr He E n Ek) as (z & Ez & Hz). fold zm in Ez. rewrite Ez. cbn [bind].
        destruct (l_rep l o lx ly k br be e ref est Hr He E n Ek) as (q & Eq & Hq). fold zm in Eq. rewrite Eq. cbn [bind].
        pose proof (tmap_rep _ _ _ _ _ (fun v => v ^ 2)%R Hq) as Hq2.
        pose proof (rep_sh _ _ _ _ _ Hq2) as Hsq. cbn [app] in Hsq.
        pose proof (len1_sar_rep l o lx ly k k n br be e ref est Hr Hx Hy E z Hz) as HS. fold zm in HS.
        destruct (t_ein_cd l (t_prep zm ref) (t_prep zm ref)) as [acm|er] eqn:Eacm; cbn [bind] in *.
        * destruct HS as [(s & w & -> & Ew & Hw & Hsar)|((er & ->) & m & Hm & er' & Hsar)]; cbn [bind].
          -- rewrite Ew. cbn [bind]. split; auto. split; auto. intros m Hm.
             rewrite Hil, Hjl, bc_len_bc1, Ek. cbn [bind]. rewrite Hi, Hj.
             rewrite (Hsar m Hm : len1_sar n lx (load_diag o) (@tab chan k (fun c => Some (X m c))) (@tab chan k (fun d => Some (Y m d))) = _).
             cbn [bind]. do 2 f_equal. rewrite length_tab. apply (t_vec_ok _ _ _ k e); auto; [apply length_tab|].
             intros i Hik. rewrite nth_tab, Hpx, Hpy by auto. cbn [lift2]. f_equal.
             assert (Hcm : inr (k :: e) (i :: m)) by (constructor; auto).
             pose proof (rep_at _ _ _ _ _ Hq2 (i :: m) [] Hcm ltac:(constructor)) as H.
             rewrite (bix_self _ _ Hcm) in H. cbn [app] in H. rewrite H. reflexivity.
          -- intros _. exists m. split; auto. rewrite Hil, Hjl, bc_len_bc1, Ek, Hi, Hj. cbn [bind].
             rewrite (Hsar : len1_sar n lx (load_diag o) (@tab chan k (fun c => Some (X m c))) (@tab chan k (fun d => Some (Y m d))) = _). eexists. reflexivity.
        * destruct HS as [(s & w & HS & _)|(_ & m & Hm & er' & Hsar)]; [discriminate|].
          intros _. exists m. split; auto. rewrite Hil, Hjl, bc_len_bc1, Ek, Hi, Hj. cbn [bind].
          rewrite (Hsar : len1_sar n lx (load_diag o) (@tab chan k (fun c => Some (X m c))) (@tab chan k (fun d => Some (Y m d))) = _). eexists. reflexivity.
      + destruct (cd_raise l o lx ly k k br be e ref est Hr He E Ek) as [er Her]. fold zm in Her. rewrite Her. cbn [bind].
        intros He0. exists (repeat 0 (length e)). split; [apply inr_zero; auto|].
        rewrite Hil, Hjl, bc_len_bc1, Ek. cbn [bind]. eexists. reflexivity.
    - assert (HL2 : 2 <= L) by (unfold L in *; lia). assert (HL0 : 0 < L) by lia.
      destruct (stats2_rep l L lx ly k k br be e _ _ X Y HL0
         (tsh_prep_ref o lx k br be e ref Hr E) (tsh_prep_est o ly k br be e est He E) E HX1 HY1)
        as (acf & xc & Est & Hacf & Hxc).
      { intros; apply (lenX o lx k br ref Hr). } { intros; apply (lenY o ly k be est He). }
      fold zm in Est. rewrite Est. cbn [bind]. fold nf in Hacf, Hxc.
      pose proof (tsh_prep_ref o lx k br be e ref Hr E) as Htr. fold zm in Htr. rewrite Htr. cbn [nth].
      pose proof (load2_rep (load_diag o) _ _ _ _ _ _ Hacf (fun m c d => length_stats2_acf _ _ _ _ HL0)) as Hld.
      set (acfl := t_load2 (load_diag o) acf) in *.
      pose proof (chans_sdr k (2 * Nat.min L nf) L br e acfl _ HL0 Hld
         (fun m c d => eq_trans (length_load_blk _ _ _ _) (length_stats2_acf _ _ _ _ HL0))) as Hsd.
      set (acs := t_cut 0 L (swap12 (diag12 k acfl))) in *.
      assert (Hxs : chans (Nat.min L nf) k e e (swap12 (diag12 k xc)) (fun m i => stats_xcorr nf L (X m i) (Y m i))).
      { eapply rep_eq; [apply (swap12_rep k _ [] e e _ _ (diag12_rep k [Nat.min L nf] e e xc _ k Hxc eq_refl))|].
        intros m ci Hm Hc. apply inr2 in Hc. destruct Hc as (i & c & -> & Hi' & Hc'). reflexivity. }
      assert (Hbl : use_cg_iter o <> None -> length br = length e).
      { intros H. rewrite (bc_length _ _ _ E). specialize (Hcg H E1). lia. }
      destruct (Nat.le_gt_cases L nf) as [HLn|HLn].
      + assert (EN : Nat.min L nf = L) by lia. rewrite EN in *.
        replace (Nat.min L (2 * L)) with L in Hsd by lia.
        assert (Hsd' : chans L k br e acs (fun m c => acf_sdr nf L (load_diag o) (X m c))).
        { eapply rep_eq; [exact Hsd|]. intros m ci Hm Hc. cbv beta. unfold acf_sdr, load_blk. rewrite Nat.eqb_refl. reflexivity. }
        assert (Las : forall x, length (acf_sdr nf L (load_diag o) x) = L).
        { intros x. rewrite acf_sdr_eq by lia. rewrite length_add_load, length_stats_acf. exact EN. }
        pose proof (drows_rep l (use_cg_iter o) L k br e acs (swap12 (diag12 k xc)) _
          (fun m c => stats_xcorr nf L (X m c)) Y HL0 Hbl (fun H => Hvec H E1) Hsd' (fun m c _ _ => Las _) Hxs
          (fun m c _ _ => eq_trans (length_stats_xcorr _ _ _ _) EN)) as HR.
        unfold t_sol in HR.
        assert (Hck : check_sizes (bk l) (use_cg_iter o) nf L = Ok tt) by (apply check_sizes_ok; auto; lia).
        destruct HR as [(s & z & -> & Ez & Hz & Hrow)|((er & ->) & m & c & Hm & Hc & er' & Hrow)]; cbn [bind].
        * rewrite Ez. cbn [bind].
          assert (Hrows : forall m, inr e m -> mapM (fun i => match nth i (@tab chan k (fun c => Some (X m c))) None with
                | None => Ok NaN
                | Some v =>
                    do row <- coh_row (bk l) (use_cg_iter o) (acf_sdr nf L (load_diag o) v) (stats_xcorr nf L v)
                                [nth i (@tab chan k (fun d => Some (Y m d))) None];
                    Ok (nth 0 row NaN)
                end) (seq 0 k) = Ok (map Fin (t_vec z m))).
          { intros m Hm. match goal with |- mapM ?f _ = _ => pose proof (mapM_tab f k (fun i => i) NaN) as HM end.
            rewrite seq_tab in HM. cbv beta in HM. match type of HM with context [mapM ?f ?x] => destruct (mapM f x) as [v|er'] end.
            - destruct HM as [HLv HM]. f_equal. apply (t_vec_ok _ _ _ k e); auto. intros i Hik. specialize (HM i Hik).
              rewrite Hpx, Hpy in HM by auto. rewrite Hrow in HM by auto. cbn [bind nth] in HM. congruence.
            - destruct HM as (i & Hik & HM). rewrite Hpx, Hpy, Hrow in HM by auto. discriminate. }
          destruct (sar_rep l (use_cg_iter o) nf L k k (load_diag o) br e acfl xc X Y HL2 HLn Hk Hbl Hld Hxc false None
            (fun _ _ => eq_refl)) as [(s2 & a & Es2 & Ea & Ha & Hsar)|(Hra & Hm)].
          -- rewrite Es2. cbn [bind]. rewrite Ea. cbn [bind].
             pose proof (rep_sh _ _ _ _ _ Ha) as Hsa. cbn [app] in Hsa. split; auto. split; auto. intros m Hm.
             rewrite Hil, Hjl, Hi, Hj. fold nf. rewrite Hck. cbn [bind]. rewrite length_tab.
             rewrite Hrows by auto. cbn [bind]. rewrite Hsar by auto. reflexivity.
          -- destruct Hra as [er Hra]. rewrite Hra. cbn [bind]. intros He0. destruct (Hm He0) as (m & Hme & er' & Her).
             exists m. split; auto. rewrite Hil, Hjl, Hi, Hj. fold nf. rewrite Hck. cbn [bind]. rewrite length_tab.
             rewrite Hrows by auto. cbn [bind]. rewrite Her. eexists. reflexivity.
        * intros _. exists m. split; auto. rewrite Hil, Hjl, Hi, Hj. fold nf. rewrite Hck. cbn [bind]. rewrite length_tab.
          match goal with |- context [mapM ?f _] => pose proof (mapM_tab f k (fun i => i) NaN) as HM end.
          rewrite seq_tab in HM. cbv beta in HM. match type of HM with context [mapM ?f ?x] => destruct (mapM f x) as [v|er''] end.
          -- destruct HM as [_ HM]. specialize (HM c Hc). rewrite Hpx, Hpy in HM by auto. unfold chan in HM, Hrow. rewrite Hrow in HM. discriminate.
          -- cbn [bind]. eexists. reflexivity.
      + assert (Hra : raises (t_sol l (use_cg_iter o) acs (swap12 (diag12 k xc)))).
        { apply (sol_raise_vec l _ _ _ (Nat.min L (2 * Nat.min L nf)) (Nat.min L nf) k br e).
          - exact (rep_sh _ _ _ _ _ Hsd).
          - exact (rep_sh _ _ _ _ _ Hxs).
          - exact Hbl.
          - intros H. apply Hvec; auto.
          - intros H Hl. destruct (Hth H Hl) as [H1|H1]; unfold L, nf in *; [lia|].
            replace (Nat.min (filter_length o) (n_fft lx ly)) with (n_fft lx ly) by lia. exact H1.
          - lia. }
        unfold t_sol in Hra. destruct Hra as [er ->]. cbn [bind]. intros He0.
        exists (repeat 0 (length e)). split; [apply inr_zero; auto|].
        rewrite Hil, Hjl. fold nf. rewrite check_sizes_raise by auto. cbn [bind]. eexists. reflexivity.
  Qed.

  Theorem t_bss_noperm_items :
    match t_bss_noperm l o ref est with
    | Ok (sdr_, sir, sar) =>
        Forall (fun t => tsh t = k :: e) [sdr_; sir; sar] /\
        forall m, inr e m -> bss_eval_sources_noperm (bk l) o (iref m) (iest m) =
          Ok (t_vec sdr_ m, t_vec sir m, t_vec sar m)
    | Raise _ => Forall (lt 0) e -> exists m, inr e m /\ raises (bss_eval_sources_noperm (bk l) o (iref m) (iest m))
    end.
  Proof.
    pose proof t_cosine_diag_items as H. unfold dcos_item in H.
    assert (Hni : forall m, n_chan (iref m) = k) by (intros m; apply (iref_n lx k br ref Hr)).
    assert (Hnj : forall m, n_chan (iest m) = k) by (intros m; apply (iest_n ly k be est He)).
    unfold t_bss_noperm, bss_eval_sources_noperm. rewrite Hr, He. cbn [nth]. rewrite Nat.eqb_refl.
    destruct (t_cosine l false o ref est) as [[s a]|er]; cbn [bind].
    - destruct H as (Hs & Ha & H). destruct (t_base_ok l o (k :: e) s a Hs Ha) as (nsir & -> & Hsi & Hir). cbn [bind].
      split; [repeat constructor; auto|]. intros m Hm. rewrite Hni, Hnj, Nat.eqb_refl, H by auto. cbn [bind].
      unfold tab at 1 2 3. rewrite !map_map. cbv beta.
      assert (Hn : forall (t : tensor R) i, tsh t = k :: e -> i < k -> nth i (map Fin (t_vec t m)) NaN = Fin (tat t (i :: m))).
      { intros t i Ht Hi'. unfold t_vec. rewrite Ht. cbn [nth]. rewrite (nth_indep _ NaN (Fin 0%R)) by (rewrite map_length, length_tab; auto).
        rewrite map_nth, nth_tab by auto. reflexivity. }
      assert (Hv : forall (t : tensor xr), tsh t = k :: e -> t_vec (tmap xneg t) m = map (fun i => xneg (tat t (i :: m))) (seq 0 k)).
      { intros t Ht. unfold t_vec, tmap, tab. cbn [tsh tat]. rewrite Ht. reflexivity. }
      rewrite !Hv by auto. f_equal. f_equal; [f_equal|]; apply map_ext_in; intros i Hi'; apply in_seq in Hi';
        unfold base_metrics; cbn [fst snd]; rewrite ?(Hn s), ?(Hn a) by (auto; lia); auto.
      rewrite Hir by (constructor; auto; lia). reflexivity.
    - intros H0. destruct (H H0) as (m & Hm & er' & Her). exists m. split; auto.
      rewrite Hni, Hnj, Nat.eqb_refl, Her. eexists. reflexivity.
  Qed.
End CosDiag.
