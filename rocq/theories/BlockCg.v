(** * The block conjugate gradient path of bss_eval_sources (C64)

    The system of all references: when the preconditioner can be built, exactness, rate. *)
From Coq Require Import Reals Lra.
From Coquelicot Require Import Complex.
From Verif Require Import Prelude ExtReal Slice Sums SpecSig Fft FftProofs Helpers Linalg LinalgProofs
  Cgd Metrics StatsProofs LeastSq PrepProofs MetricsProofs SarProofs ProjTheorems MetricTheorems
  CgdOps CgdPrecond CgProofs CgCirc Cells CgTheorems CgRate CgRateToep CgRateSdr BlockPrec Solvability.
Local Open Scope nat_scope.

Section Sys.
Variables (nf L : nat) (ld : option R) (refs : list chan).
Let K := length refs.
Let acf := sar_acf nf L ld refs.
Let a := all_cdelays nf K (rchan refs).
Let lam := loadv ld.
Let N := L * K.
Let T := bmat K L acf.
Hypotheses (HL2 : 2 <= L) (HL : L <= nf) (Hlam : (0 <= lam)%R).
Let HL0 : 0 < L.
Proof. lia. Qed.

Lemma bm_gram p q : p < N -> q < N -> T p q = gram nf a lam p q.
Proof.
  intros Hp Hq.
  destruct (sar_system_cgram NumPy nf L ld K (rchan refs) HL2 HL) as (B & EB & HB).
  destruct (block_toeplitz_ok NumPy (2 * L) K K acf) as (B' & EB' & HB').
  { lia. } { intros r c _ _. unfold acf, sar_acf. rewrite length_block_acf by lia. rewrite Nat.min_l by lia. reflexivity. }
  unfold acf, sar_acf in EB'. rewrite EB in EB'. injection EB' as <-.
  fold (a p) (a q) in HB. unfold gram. fold a in HB. rewrite <- HB by auto.
  unfold T, bmat.
  assert (H2 : 2 * L / 2 = L) by (rewrite Nat.mul_comm; apply Nat.div_mul; lia). rewrite H2 in HB'.
  destruct (lag_split K L p Hp) as (i & r & Hi & Hr & ->). destruct (lag_split K L q Hq) as (j & c & Hj & Hc & ->).
  rewrite !lag_div, !lag_mod by auto. rewrite HB' by auto. reflexivity.
Qed.
Lemma bm_sym : symmetric_mat N T.
Proof.
  intros p q Hp Hq. rewrite !bm_gram by auto. unfold gram. rewrite dot_comm, Nat.eqb_sym. reflexivity.
Qed.
Lemma bm_psd : psd_mat N T.
Proof. apply (psd_ext N (gram nf a lam)); [intros; symmetry; apply bm_gram; auto|]. apply gram_psd; auto. Qed.
Lemma bm_mv v p : p < N -> Rmv N T v p = Rmv N (gram nf a lam) v p.
Proof. intros Hp. apply Rsum_ext. intros q Hq. rewrite bm_gram by auto. reflexivity. Qed.
Lemma bm_ns : nonsingular N (gram nf a lam) <-> nonsingular N T.
Proof.
  split; intros H v Hv; apply H; intros i Hi; [rewrite <- bm_mv by auto|rewrite bm_mv by auto]; auto.
Qed.
Lemma sar_mat_T p q : p < N -> q < N -> sar_mat L K acf p q = T p q.
Proof.
  intros Hp Hq.
  assert (H2 : 2 * L / 2 = L) by (rewrite Nat.mul_comm; apply Nat.div_mul; lia).
  destruct (block_toeplitz_ok NumPy (2 * L) K K acf) as (B' & EB' & HB').
  { lia. } { intros r c _ _. unfold acf, sar_acf. rewrite length_block_acf by lia. rewrite Nat.min_l by lia. reflexivity. }
  assert (E : B' = sar_mat L K acf).
  { unfold block_toeplitz in EB'. rewrite H2 in EB'. destruct (existsb2 _ _ _) in EB'; [discriminate|].
    injection EB' as <-. reflexivity. }
  rewrite H2 in HB'. rewrite <- E. unfold T, bmat.
  destruct (lag_split K L p Hp) as (i & r & Hi & Hr & ->). destruct (lag_split K L q Hq) as (j & c & Hj & Hc & ->).
  rewrite !lag_div, !lag_mod by auto. rewrite HB' by auto. reflexivity.
Qed.
Lemma sar_mat_ns : nonsingular N (sar_mat L K acf) <-> nonsingular N T.
Proof.
  assert (E : forall v p, p < N -> Rmv N T v p = Rmv N (sar_mat L K acf) v p).
  { intros v p Hp. apply Rsum_ext. intros q Hq. rewrite sar_mat_T by auto. reflexivity. }
  split; intros H v Hv; apply H; intros i Hi; [rewrite <- E by auto|rewrite E by auto]; auto.
Qed.

(** ** When the direct solver and when the preconditioner fail *)
Lemma direct_ready : is_ok (sar_ready None nf L ld refs) <-> nonsingular N T.
Proof.
  unfold sar_ready. fold K acf N. rewrite <- sar_mat_ns. split.
  - intros (r & E). destruct (Rsolve N (sar_mat L K acf) (fun _ => 0%R)) as [x|] eqn:Es; [|discriminate].
    intros v Hv. apply (Rsolve_inj _ _ _ _ v Es Hv).
  - intros H. destruct (Rsolve_some N (sar_mat L K acf) (fun _ => 0%R) H) as (x & ->). eexists. reflexivity.
Qed.
Theorem cg_ready it : nonsingular N T -> sar_ready (Some it) nf L ld refs = Ok (inv_list K L acf).
Proof. intros H. apply (prec_inv_ok K L acf HL0 bm_sym bm_psd H). Qed.
Theorem cg_ready_iff it : (forall e, sar_ready (Some it) nf L ld refs = Raise e -> e = LinAlgError) /\
  (is_ok (sar_ready (Some it) nf L ld refs) <-> forall f, f <= L / 2 -> ~ sing_at K L acf f).
Proof. exact (prec_inv_raises K L acf HL0 bm_sym bm_psd). Qed.

(** the sum of the references weighted by w, filtered with a complex exponential *)
Lemma wave_signal f w t :
  (Re (Csum N (fun p => Cmult (RtoC (a p t)) (wave K L f w p))) = comb N a (fun p => Re (wave K L f w p)) t)%R /\
  (Im (Csum N (fun p => Cmult (RtoC (a p t)) (wave K L f w p))) = comb N a (fun p => Im (wave K L f w p)) t)%R.
Proof.
  rewrite Re_Csum, Im_Csum. split; apply Rsum_ext; intros p Hp; destruct (wave K L f w p) as [u v];
    unfold Re, Im, Cmult, RtoC; simpl; ring.
Qed.
Lemma sing_signal f : lam = 0%R -> (sing_at K L acf f <-> exists w, nonzero_w K w /\
  forall t, t < nf -> Csum N (fun p => Cmult (RtoC (a p t)) (wave K L f w p)) = RtoC 0).
Proof.
  intros Hz. split; intros (w & Hw & H); exists w; split; auto.
  - intros t Ht. destruct (wave_signal f w t) as [E1 E2].
    apply injective_projections.
    + change (fst (RtoC 0)) with 0%R. etransitivity; [exact E1|].
      apply (gram_kernel N nf a lam _ Hlam); auto. intros p Hp. rewrite <- bm_mv by auto. apply H; auto.
    + change (snd (RtoC 0)) with 0%R. etransitivity; [exact E2|].
      apply (gram_kernel N nf a lam _ Hlam); auto. intros p Hp. rewrite <- bm_mv by auto. apply H; auto.
  - assert (HR : forall v, (forall t, t < nf -> comb N a v t = 0%R) -> forall p, p < N -> Rmv N T v p = 0%R).
    { intros v Hv p Hp. rewrite bm_mv, gram_mv by auto. rewrite Hz, Rmult_0_l, Rplus_0_r.
      unfold dot. apply Rsum_zero. intros t Ht. rewrite Hv by auto. ring. }
    intros p Hp. split; apply HR; auto; intros t Ht; destruct (wave_signal f w t) as [E1 E2].
    + rewrite <- E1, H by auto. reflexivity.
    + rewrite <- E2, H by auto. reflexivity.
Qed.
End Sys.

(** ** The references themselves *)
(** a nonzero filter with first tap 1 loses no signal *)
Lemma conv_injective L n (h : nat -> C) (s : nat -> C) : 0 < L -> h 0 = RtoC 1 ->
  (forall t, t < n -> Csum L (fun l => Cmult (h l) (if t <? l then RtoC 0 else s (t - l))) = RtoC 0) ->
  forall t, t < n -> s t = RtoC 0.
Proof.
  intros HL H0 H t. induction t as [t IH] using lt_wf_ind. intros Ht.
  pose proof (H t Ht) as E. rewrite (Csum_single L 0) in E; auto.
  - simpl in E. rewrite Nat.sub_0_r, H0, Cmult_1_l in E. exact E.
  - intros l Hl Hne. destruct (Nat.ltb_spec t l); [apply Cmult_0_r|]. rewrite IH by lia. apply Cmult_0_r.
Qed.

Section Refs.
Variables (nf L n K : nat) (xs : nat -> list R).
Hypotheses (HL0 : 0 < L) (Hn0 : 0 < n) (Hlen : forall c, c < K -> length (xs c) = n) (Hnf : n + L - 1 <= nf).
Let a := all_cdelays nf K xs.
Lemma cd_plain p t : p < L * K -> t < nf -> a p t = delayed (xs (p mod K)) (p / K) t.
Proof.
  intros Hp Ht. destruct (lag_split K L p Hp) as (l & c & Hl & Hc & ->).
  unfold a, all_cdelays. rewrite !lag_div, !lag_mod by auto. apply cdelayed_plain; auto; [lia|].
  rewrite Hlen by auto. lia.
Qed.
Definition mixc (w : nat -> C) (t : nat) : C := Csum K (fun c => Cmult (w c) (RtoC (smp (xs c) t))).
Lemma wave_conv f w t : t < nf -> Csum (L * K) (fun p => Cmult (RtoC (a p t)) (wave K L f w p)) =
  Csum L (fun l => Cmult (E L (f * l)) (if t <? l then RtoC 0 else mixc w (t - l))).
Proof.
  intros Ht. rewrite Csum_prod. apply Csum_ext. intros l Hl.
  rewrite (Csum_ext K _ (fun c => Cmult (E L (f * l)) (Cmult (w c) (RtoC (delayed (xs c) l t))))).
  - rewrite Csum_scal_l. f_equal. unfold delayed. destruct (t <? l); [|reflexivity].
    apply Csum_zero. intros. apply Cmult_0_r.
  - intros c Hc. rewrite cd_plain by nia. unfold wave. rewrite !lag_div, !lag_mod by auto. ring.
Qed.
Theorem sing_refs f : (exists w, nonzero_w K w /\ forall t, t < nf ->
    Csum (L * K) (fun p => Cmult (RtoC (a p t)) (wave K L f w p)) = RtoC 0) ->
  ~ independent K n (fun c => smp (xs c)).
Proof.
  intros (w & (r & Hr & Hw) & H) HI.
  assert (Z : forall t, t < n -> mixc w t = RtoC 0).
  { apply (conv_injective L n (fun l => E L (f * l))); auto; [rewrite Nat.mul_0_r; apply E_0|].
    intros t Ht. rewrite <- wave_conv by lia. apply H. lia. }
  apply Hw. apply injective_projections.
  - change (fst (RtoC 0)) with 0%R. apply (HI (fun c => Re (w c))); auto. intros t Ht.
    pose proof (f_equal Re (Z t Ht)) as E. unfold mixc in E. rewrite Re_Csum in E. etransitivity; [|exact E].
    apply Rsum_ext. intros c Hc. destruct (w c) as [u v]. unfold Re, Cmult, RtoC. simpl. ring.
  - change (snd (RtoC 0)) with 0%R. apply (HI (fun c => Im (w c))); auto. intros t Ht.
    pose proof (f_equal Im (Z t Ht)) as E. unfold mixc in E. rewrite Im_Csum in E. etransitivity; [|exact E].
    apply Rsum_ext. intros c Hc. destruct (w c) as [u v]. unfold Im, Cmult, RtoC. simpl. ring.
Qed.
Theorem refs_sing (g : nat -> R) r : r < K -> g r <> 0%R ->
  (forall t, t < n -> comb K (fun c => smp (xs c)) g t = 0%R) ->
  exists w, nonzero_w K w /\ forall t, t < nf ->
    Csum (L * K) (fun p => Cmult (RtoC (a p t)) (wave K L 0 w p)) = RtoC 0.
Proof.
  intros Hr Hg H. exists (fun c => RtoC (g c)). split.
  - exists r. split; auto. intros E. apply Hg. injection E as E. exact E.
  - intros t Ht. rewrite wave_conv by auto. apply Csum_zero. intros l Hl.
    destruct (Nat.ltb_spec t l); [apply Cmult_0_r|].
    assert (Z : forall s, mixc (fun c => RtoC (g c)) s = RtoC 0).
    { intros s. unfold mixc.
      rewrite (Csum_ext K _ (fun c => RtoC (g c * smp (xs c) s))) by (intros; rewrite RtoC_mult; reflexivity).
      rewrite Csum_RtoC. f_equal. destruct (Nat.lt_ge_cases s n) as [Hs|Hs].
      - apply H; auto.
      - apply Rsum_zero. intros c Hc. rewrite smp_over by (rewrite Hlen; auto). ring. }
    rewrite Z. apply Cmult_0_r.
Qed.
End Refs.

Lemma dependent_ex K M a : ~ independent K M a ->
  exists g r, r < K /\ g r <> 0%R /\ forall t, t < M -> comb K a g t = 0%R.
Proof.
  intros H. rewrite <- nonsingular_gram_iff in H.
  destruct (Rsolve K (gram M a 0) (fun _ => 0%R)) as [x|] eqn:E.
  - exfalso. apply H. intros v Hv. apply (Rsolve_inj _ _ _ _ v E Hv).
  - destruct (Rsolve_none _ _ _ E) as (v & (r & Hr & Hv) & Hz).
    exists v, r. split; auto. split; auto. apply (gram_kernel K M a 0 v); auto; lra.
Qed.

(** ** square_cosine_metrics *)
Lemma sdr_coh_cg_ok b o it ref est : filter_length o <> 1 -> is_ok (sdr_coh b (with_cg o (Some it)) ref est).
Proof.
  intros N1. rewrite sdr_coh_cells by exact N1. apply mapM_all_ok. intros [v|] _; eexists; reflexivity.
Qed.
Section Glue.
Variables (o : opts) (ref est : arr) (xs : nat -> list R).
Hypotheses (Hwr : wf ref) (Hwe : wf est) (Hx : has_chans ref xs)
  (HL : 2 <= filter_length o <= Nat.max (a_len ref) (a_len est)).
Let L := filter_length o.
Let nf := n_fft (a_len ref) (a_len est).
Let refs := prep_arr (zero_mean o) ref.
Let us c := unit_of (pre (zero_mean o) (xs c)).

Lemma gl_nf : a_len ref + L - 1 <= nf.
Proof.
  assert (Hp : 0 < a_len ref) by apply Hwr. pose proof (n_fft_ge (a_len ref) (a_len est) Hp) as H. unfold nf, L. lia.
Qed.
Lemma gl_nf2 : L <= nf.
Proof. pose proof gl_nf. assert (0 < a_len ref) by apply Hwr. lia. Qed.
Lemma gl_K : length refs = n_chan ref.
Proof. apply length_prep. Qed.
Lemma gl_clean : existsb tainted refs = false.
Proof. apply clean_tainted. apply (has_chans_clean _ _ xs); auto. Qed.
Lemma gl_rchan c : c < n_chan ref -> rchan refs c = us c.
Proof. intros Hc. apply (has_chans_pc _ _ _ _ Hwr Hx Hc). Qed.
Lemma gl_len c : c < n_chan ref -> length (rchan refs c) = a_len ref.
Proof.
  intros Hc. rewrite gl_rchan by auto. unfold us. rewrite length_unit_of, length_pre.
  apply (has_chan_pchan (zero_mean o) ref c (xs c) Hwr). apply has_chans_at; auto.
Qed.
Lemma gl_independent : independent (n_chan ref) (a_len ref) (fun c => smp (rchan refs c)) <->
  independent (n_chan ref) (a_len ref) (fun c => smp (pre (zero_mean o) (xs c))).
Proof.
  rewrite <- (independent_scale _ _ (fun c => smp (pre (zero_mean o) (xs c))) (fun c => gain (pre (zero_mean o) (xs c)))).
  - split; apply independent_ext; intros c t Hc Ht; rewrite gl_rchan by auto; unfold us; rewrite smp_unit_of; reflexivity.
  - intros c Hc. apply Rgt_not_eq. apply PrepProofs.gain_pos.
Qed.
Theorem ready_cg_iff it : (0 <= loadv (load_diag o))%R ->
  (forall e, sar_ready (Some it) nf L (load_diag o) refs = Raise e -> e = LinAlgError) /\
  (loadv (load_diag o) = 0%R -> (is_ok (sar_ready (Some it) nf L (load_diag o) refs) <->
   independent (n_chan ref) (a_len ref) (fun c => smp (pre (zero_mean o) (xs c))))) /\
  ((0 < loadv (load_diag o))%R -> is_ok (sar_ready (Some it) nf L (load_diag o) refs)).
Proof.
  intros Hld. assert (HLL : 2 <= L) by (unfold L; lia).
  destruct (cg_ready_iff nf L (load_diag o) refs HLL gl_nf2 Hld it) as [He Hi]. split; auto. split.
  - intros Hz. rewrite Hi, <- gl_independent. rewrite gl_K.
    assert (Hn0 : 0 < a_len ref) by apply Hwr. assert (HL0 : 0 < L) by lia.
    assert (HS : forall f, sing_at (n_chan ref) L (sar_acf nf L (load_diag o) refs) f <-> exists w, nonzero_w (n_chan ref) w /\
      forall t, t < nf -> Csum (L * n_chan ref) (fun p => Cmult (RtoC (all_cdelays nf (n_chan ref) (rchan refs) p t))
        (wave (n_chan ref) L f w p)) = RtoC 0).
    { intros f. rewrite <- gl_K. apply (sing_signal nf L (load_diag o) refs HLL gl_nf2 Hld f Hz). }
    split.
    + intros H g Hg r Hr. destruct (Req_EM_T (g r) 0) as [|NZ]; auto. exfalso. apply (H 0 ltac:(lia)). apply HS.
      apply (refs_sing nf L (a_len ref) (n_chan ref) (rchan refs)) with (g := g) (r := r); auto using gl_len, gl_nf.
    + intros HI f Hf Hs. apply HS in Hs.
      eapply sing_refs; [| |exact gl_len| |exact Hs|exact HI]; auto using gl_nf.
  - intros Hp. eexists. apply (cg_ready nf L (load_diag o) refs HLL gl_nf2 Hld).
    apply (bm_ns nf L (load_diag o) refs HLL gl_nf2). apply gram_nonsingular_loaded. auto.
Qed.
Lemma sq_cos_cg_ready b it : (0 <= loadv (load_diag o))%R ->
  (is_ok (sq_cos b (with_cg o (Some it)) ref est) <-> is_ok (sar_ready (Some it) nf L (load_diag o) refs)) /\
  (forall e, sq_cos b (with_cg o (Some it)) ref est = Raise e -> sar_ready (Some it) nf L (load_diag o) refs = Raise e).
Proof.
  intros Hld. rewrite sq_cos_cells by (try apply gl_nf2; apply HL).
  destruct (sdr_coh_cg_ok b o it ref est ltac:(lia)) as (m & ->). cbn [bind].
  cbn [use_cg_iter with_cg filter_length load_diag zero_mean].
  rewrite sar_row_cells by (try apply gl_nf2; apply HL). fold refs. rewrite gl_clean. fold nf L.
  destruct (sar_ready (Some it) nf L (load_diag o) refs) as [inv|e]; cbn [bind].
  - split; [split; intros _; eexists; reflexivity|discriminate].
  - split; [split; intros (z & H); discriminate|]. intros e' H. injection H as ->. reflexivity.
Qed.
End Glue.

(** C64: the iterative bss_eval fails exactly when the references are linearly dependent *)
Theorem block_cg_raises b o it ref est xs : wf ref -> wf est -> loadv (load_diag o) = 0%R ->
  2 <= filter_length o <= Nat.max (a_len ref) (a_len est) -> has_chans ref xs ->
  (forall e, sq_cos b (with_cg o (Some it)) ref est = Raise e -> e = LinAlgError) /\
  (is_ok (sq_cos b (with_cg o (Some it)) ref est) <->
   independent (n_chan ref) (a_len ref) (fun c => smp (pre (zero_mean o) (xs c)))).
Proof.
  intros Hwr Hwe Hld HL Hx.
  destruct (sq_cos_cg_ready o ref est xs Hwr Hx HL b it ltac:(lra)) as [H1 H2].
  destruct (ready_cg_iff o ref est xs Hwr Hx HL it ltac:(lra)) as (He & Hi & _).
  split; [intros e H; apply He; apply H2; auto|]. rewrite H1. auto.
Qed.
Theorem block_cg_loaded b o it ref est xs : wf ref -> wf est -> (0 < loadv (load_diag o))%R ->
  2 <= filter_length o <= Nat.max (a_len ref) (a_len est) -> has_chans ref xs ->
  is_ok (sq_cos b (with_cg o (Some it)) ref est).
Proof.
  intros Hwr Hwe Hld HL Hx. apply (sq_cos_cg_ready o ref est xs Hwr Hx HL b it ltac:(lra)).
  apply (ready_cg_iff o ref est xs Hwr Hx HL it ltac:(lra)). auto.
Qed.
(** whenever the direct solver works, so does the iterative one *)
Theorem block_cg_no_worse b o it ref est xs : wf ref -> wf est -> (0 <= loadv (load_diag o))%R ->
  2 <= filter_length o <= Nat.max (a_len ref) (a_len est) -> has_chans ref xs ->
  is_ok (sq_cos b (with_cg o None) ref est) -> is_ok (sq_cos b (with_cg o (Some it)) ref est).
Proof.
  intros Hwr Hwe Hld HL Hx Hd.
  destruct (Rle_lt_or_eq_dec _ _ Hld) as [Hp|Hz]; [apply (block_cg_loaded b o it ref est xs); auto|].
  symmetry in Hz. apply (block_cg_raises b o it ref est xs); auto.
  apply (bss_solvable_iff b (with_cg o None) ref est xs) in Hd; auto; [|cbn; lia|cbn; lia].
  cbn [with_cg filter_length zero_mean] in Hd. unfold shifts in Hd.
  intros g Hg c Hc.
  assert (Hlen : forall c, c < n_chan ref -> length (pre (zero_mean o) (xs c)) = a_len ref).
  { intros c' Hc'. rewrite length_pre. apply (has_chan_pchan (zero_mean o) ref c' (xs c') Hwr). apply has_chans_at; auto. }
  set (K := n_chan ref) in *.
  pose proof (Hd (fun p => if p <? K then g p else 0%R)) as H.
  replace (g c) with ((fun p => if p <? K then g p else 0%R) c) by (cbv beta; destruct (Nat.ltb_spec c K); [auto|lia]).
  apply H; [|nia]. intros t Ht. unfold comb. rewrite (Rsum_trunc (filter_length o * K) K).
  2:{ nia. } 2:{ intros p Hp1 Hp2. destruct (Nat.ltb_spec p K); [lia|ring]. }
  destruct (Nat.lt_ge_cases t (a_len ref)) as [Htn|Htn].
  - etransitivity; [|exact (Hg t Htn)]. apply Rsum_ext. intros p Hp. destruct (Nat.ltb_spec p K); [|lia].
    unfold all_delays. rewrite Nat.div_small, Nat.mod_small by auto. unfold delayed. rewrite Nat.sub_0_r. reflexivity.
  - apply Rsum_zero. intros p Hp. unfold all_delays. rewrite Nat.div_small, Nat.mod_small by auto.
    unfold delayed. destruct (Nat.ltb_spec t 0); [lia|]. rewrite Nat.sub_0_r.
    rewrite smp_over by (rewrite Hlen; auto). ring.
Qed.
