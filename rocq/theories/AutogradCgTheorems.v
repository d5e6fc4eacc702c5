(** * Theorems on the gradient of the torch losses through the conjugate gradient *)
From Coq Require Import Reals Lra.
From Verif Require Import Prelude ExtReal Slice Sums Fft FftProofs Helpers Linalg LinalgProofs Cgd CgdOps CgdPrecond CgProofs CgCirc Cells
  Metrics SpecSig StatsProofs PrepProofs LeastSq DbProofs MetricsProofs ProjTheorems MetricTheorems CgTheorems Invariance Gradient Perturb
  Autograd AutogradFft AutogradEntry AutogradProofs AutogradTheorems AutogradRefDeriv AutogradCg AutogradCgAdjoint AutogradCgProofs.
Local Open Scope nat_scope.

(** What the solver is given for reference channel x and the estimate y. *)
Definition cg_pair (P : list R -> list R -> Prop) (o : opts) (ref : arr) (y : list R) : Prop :=
  let nf := n_fft (a_len ref) (length y) in
  forall c x, pchan (zero_mean o) ref c = Some x ->
    P (sdr_acf o nf x) (stats_xcorr nf (filter_length o) x (unit_of (pre (zero_mean o) y))).
(** no denominator of the first [it] iterations is equal to 1e-6 *)
Definition cg_no_kink (o : opts) (ref : arr) (y : list R) (it : nat) : Prop :=
  cg_pair (fun acf xc => forall k, k < it -> cg_smooth acf xc k) o ref y.
(** the residual becomes zero within [it] iterations, and the denominators stay above 1e-6 until then *)
Definition cg_all_reached (o : opts) (ref : arr) (y : list R) (it : nat) : Prop :=
  cg_pair (fun acf xc => exists k, k <= it /\ cg_reached acf xc k) o ref y.

(** the coherence with reference x *)
Definition cgc (o : opts) (it lx ly : nat) (x u : list R) : R :=
  sdr_cell (Some it) (sdr_acf o (n_fft lx ly) x) (stats_xcorr (n_fft lx ly) (filter_length o) x u).

Lemma cgc_clamp o D it lx ly x u : cgc (with_clamp o D) it lx ly x u = cgc o it lx ly x u.
Proof. reflexivity. Qed.

Lemma cg_loss_entry o it ref est m c d y : wf ref -> wf est -> use_cg_iter o = Some it -> filter_length o <> 1 ->
  (exists x, has_chan ref c x) -> has_chan est d y ->
  pairwise_sdr_loss Torch o est ref = Ok m ->
  exists x, pchan (zero_mean o) ref c = Some x /\ a_len est = length y /\
    mat_of m c d = coherence_to_neg_sdr (clamp_db o) (Fin (cgc o it (a_len ref) (length y) x (unit_of (pre (zero_mean o) y)))).
Proof.
  intros Wr We Hcg N1 (x & Hx) Hy Hm.
  destruct (has_chan_pchan (zero_mean o) ref c x Wr Hx) as [Px _].
  destruct (has_chan_pchan (zero_mean o) est d y We Hy) as [Py Ly].
  eexists. split; [exact Px|]. split; [symmetry; exact Ly|].
  destruct (loss_inv _ _ _ _ _ Hm) as (m1 & E1 & ->). rewrite to_db_entry. f_equal.
  rewrite (cg_entry Torch o it ref est m1 c d _ _ Hcg N1 Px Py E1). unfold cgc. rewrite Ly. reflexivity.
Qed.

Section Theorems.
  Variables (o : opts) (it : nat) (ref : arr).
  Hypothesis Hwr : wf ref.
  Hypothesis Hcg : use_cg_iter o = Some it.
  Hypothesis N1 : filter_length o <> 1.
  Hypothesis Hxs : forall c, c < n_chan ref -> exists x, has_chan ref c x.
  Let zm := zero_mean o.

  Lemma chans c : c < n_chan ref -> exists x, pchan zm ref c = Some x.
  Proof. intros Hc. destruct (Hxs c Hc) as (x & Hx). destruct (has_chan_pchan zm ref c x Hwr Hx) as [Px _]. eauto. Qed.

  Theorem cg_gradient_is_derivative d (y : list R) w E m m0 :
    family E d (length y) ->
    (forall v, length v = length y -> pairwise_sdr_loss Torch o (E v) ref = Ok (m v)) ->
    norm2 (pre zm y) <> norm_eps ->
    pairwise_sdr_loss Torch (with_clamp o None) (E y) ref = Ok m0 ->
    (forall c, c < n_chan ref ->
      match clamp_db o with
      | None => exists r, mat_of m0 c d = Fin r
      | Some D => (0 <= D)%R /\ mat_of m0 c d <> Fin D /\ mat_of m0 c d <> Fin (- D)
      end) ->
    cg_no_kink o ref y it ->
    exists g, est_grad_cg o ref (length y) (map Fin y) w = Ok (map Fin g) /\ length g = length y /\
      forall h, length h = length y -> exists s,
        (forall c, c < n_chan ref -> slope (fun v => mat_of (m v) c d) y h (s c)) /\
        Rsum (length y) (fun t => smp g t * smp h t)%R = Rsum (n_chan ref) (fun c => w c * s c)%R.
  Proof.
    intros HE Hm HN Hm0 HR HK.
    assert (H0 : 0 < length y).
    { destruct (HE y eq_refl) as [W C]. destruct (has_chan_pchan zm (E y) d y W C) as [_ L]. rewrite L. apply W. }
    set (uu := unit_of (pre zm y)).
    destruct (fin_choice [] _ _ chans) as (x & Px).
    set (k := fun c => cgc o it (a_len ref) (length y) (x c) uu).
    assert (Hcases : forall c, c < n_chan ref ->
      ((cl_eps (clamp_db o) < k c < 1 - cl_eps (clamp_db o) /\ 0 < k c < 1)%R \/
       exists D, clamp_db o = Some D /\ (0 <= D)%R /\ (k c < db_clamp_eps D \/ 1 - db_clamp_eps D < k c)%R)).
    { intros c Hc. apply (regular_cases _ _ (mat_of m0 c d)); [|apply HR; auto].
      destruct (HE y eq_refl) as [W C].
      destruct (cg_loss_entry (with_clamp o None) it ref (E y) m0 c d y Hwr W Hcg N1 (Hxs c Hc) C Hm0) as (x' & Px' & _ & Em).
      rewrite Em. cbn [with_clamp zero_mean clamp_db] in *. fold zm in Px' |- *. rewrite (Px c Hc) in Px'. injection Px' as <-. reflexivity. }
    assert (Hg : forall c, c < n_chan ref -> exists g, neg_sdr_bw (clamp_db o) (k c) (w c) = Fin g).
    { intros c Hc. destruct (Hcases c Hc) as [[H H']|(D & -> & HD & H)].
      - eexists. apply neg_sdr_bw_in; auto. lra.
      - eexists. apply neg_sdr_bw_out. exact H. }
    destruct (fin_choice 0%R _ _ Hg) as (gc & Hgc).
    pose (G := fun c => entry_vec o it (a_len ref) (length y) (x c) uu (gc c)).
    assert (HG : forall c, c < n_chan ref -> exists x, pchan zm ref c = Some x /\
      entry_cg_bw o (a_len ref) (length y) x (unit_of (pre zm y)) (w c) = Ok (Some (G c))).
    { intros c Hc. exists (x c). split; [auto|]. rewrite (entry_cg o it (a_len ref) (length y) (x c) Hcg N1).
      change (sdr_cell _ _ _) with (k c). rewrite (Hgc c Hc). reflexivity. }
    rewrite (est_grad_cg_fin o ref (length y) w y G H0 eq_refl HG). fold zm.
    eexists. split; [reflexivity|]. split; [cbv zeta; rewrite length_back, length_pre; auto|].
    intros h Hh.
    set (yy := pre zm y) in *. set (hh := pre zm h).
    assert (Lyy : length yy = length y) by apply length_pre.
    assert (Lhh : length hh = length yy) by (unfold hh, yy; rewrite !length_pre; auto).
    assert (Hs : forall c, c < n_chan ref -> exists s, slope (fun v => mat_of (m v) c d) y h s /\
       (Rsum (length y) (fun t => nth t (G c) 0 * smp (udir yy hh) t) = w c * s)%R).
    { intros c Hc.
      destruct (cell_deriv o it (a_len ref) (length y) (x c) N1 (proj1 Hwr) (fun t => unit_of (ray yy hh t)) (udir yy hh)) as (D & HD & HDg).
      { rewrite length_udir. auto. }
      { intros j. apply unit_deriv; auto. }
      { rewrite ray0 by auto. apply (HK c (x c)). apply Px; auto. }
      rewrite ray0 in HDg by auto.
      destruct (loss_deriv (clamp_db o) (fun t => cgc o it (a_len ref) (length y) (x c) (unit_of (ray yy hh t))) D (w c) (gc c) HD)
        as (s & f & (e & Pe & Ne) & Df & Es).
      { rewrite ray0 by auto. apply Hcases; auto. }
      { specialize (HR c Hc). destruct (clamp_db o); tauto. }
      { rewrite ray0 by auto. apply Hgc; auto. }
      exists s. split.
      - exists f. split; auto. exists e. split; auto. intros t Ht. rewrite <- (Ne t Ht).
        destruct (HE (ray y h t) (ray_length _ _ _)) as [W C].
        destruct (cg_loss_entry o it ref (E (ray y h t)) (m (ray y h t)) c d (ray y h t) Hwr W Hcg N1 (Hxs c Hc) C) as (x' & Px' & _ & Em).
        { apply Hm. apply ray_length. }
        rewrite Em. fold zm in Px' |- *. rewrite (Px c Hc) in Px'. injection Px' as <-. rewrite ray_length.
        unfold yy, hh. rewrite <- pre_ray by auto. reflexivity.
      - unfold G, uu. fold yy. rewrite HDg. exact Es. }
    destruct (fin_choice 0%R _ _ Hs) as (s & Hs').
    exists s. split; [intros c Hc; apply Hs'; auto|].
    unfold smp at 1. unfold yy. rewrite back_adjoint by auto. fold yy hh.
    rewrite !Rsum_swap_tab.
    rewrite (Rsum_ext (n_chan ref) (fun c => w c * s c)%R (fun c =>
       gain yy * Rsum (length y) (fun t => nth t (G c) 0 * smp hh t)
       - if Rlt_dec (norm2 yy) norm_eps then 0
         else gain yy ^ 3 * Rsum (length y) (fun t => nth t (G c) 0 * smp yy t) * Rsum (length y) (fun t => smp yy t * smp hh t))%R).
    2:{ intros c Hc. destruct (Hs' c Hc) as [_ <-]. pose proof (unit_dir_sum yy hh Lhh (fun t => nth t (G c) 0%R)) as U.
        rewrite Lyy in U. rewrite U. reflexivity. }
    destruct (Rlt_dec (norm2 yy) norm_eps).
    - rewrite <- Rsum_scal_l, Rminus_0_r. apply Rsum_ext. intros; ring.
    - rewrite Rsum_minus, Rsum_scal_l. f_equal. rewrite Rsum_scal_r, Rsum_scal_l. reflexivity.
  Qed.

  (** ** Without regularity *)
  Lemma back_shape (y : list R) G : 0 < length y ->
    let g := (let g1 := normalize_bw (pre zm y) (tab (length y) (fun t => Rsum (n_chan ref) (fun c => nth t (G c) 0%R))) in
              if zm then remove_mean_bw g1 else g1) in
    length g = length y /\
    ((norm_eps <= norm2 (pre zm y))%R -> Rsum (length y) (fun t => smp g t * smp y t)%R = 0%R) /\
    (zm = true -> Rsum (length y) (smp g) = 0%R).
  Proof.
    intros H0 g. split; [unfold g; cbv zeta; rewrite length_back, length_pre; auto|].
    split.
    + intros HNn. unfold g, smp at 1. cbv zeta. rewrite back_adjoint by auto.
      destruct (Rlt_dec (norm2 (pre zm y)) norm_eps); [lra|].
      rewrite (Rsum_ext (length y) (fun t => smp (pre zm y) t * smp (pre zm y) t)%R (fun t => smp (pre zm y) t ^ 2)%R) by (intros; ring).
      pose proof (norm2_sq (pre zm y)) as En. rewrite length_pre in En. rewrite <- En.
      pose proof eps_pos. unfold gain. rewrite Rmax_left by lra. field. lra.
    + intros Hz. unfold g. cbv zeta. rewrite Hz. unfold remove_mean_bw.
      set (g1 := normalize_bw _ _). assert (L1 : length g1 = length y) by (unfold g1; rewrite length_normalize_bw, length_pre; auto).
      rewrite L1. rewrite (Rsum_ext _ _ (fun t => nth t g1 0 + - Rsum (length y) (fun s => nth s g1 0) / INR (length y))%R).
      * rewrite Rsum_plus, Rsum_const. field. apply not_0_INR. lia.
      * intros t Ht. unfold smp. rewrite nth_tab by auto. reflexivity.
  Qed.

  Theorem cg_gradient_finite (y : list R) w : 0 < length y ->
    (forall c x, pchan zm ref c = Some x -> exists g, neg_sdr_bw (clamp_db o) (cgc o it (a_len ref) (length y) x (unit_of (pre zm y))) (w c) = Fin g) ->
    exists g, est_grad_cg o ref (length y) (map Fin y) w = Ok (map Fin g) /\ length g = length y /\
       ((norm_eps <= norm2 (pre zm y))%R -> Rsum (length y) (fun t => smp g t * smp y t)%R = 0%R) /\
       (zm = true -> Rsum (length y) (smp g) = 0%R).
  Proof.
    intros H0 Hf.
    assert (HG : forall c, c < n_chan ref -> exists G, exists x, pchan zm ref c = Some x /\
      entry_cg_bw o (a_len ref) (length y) x (unit_of (pre zm y)) (w c) = Ok (Some G)).
    { intros c Hc. destruct (chans c Hc) as (x & Px). destruct (Hf c x Px) as (g & Eg).
      eexists. exists x. split; [exact Px|]. rewrite (entry_cg o it (a_len ref) (length y) x Hcg N1). unfold cgc in Eg. rewrite Eg. reflexivity. }
    destruct (fin_choice [] _ _ HG) as (G & HG').
    rewrite (est_grad_cg_fin o ref (length y) w y G H0 eq_refl HG'). fold zm.
    eexists. split; [reflexivity|]. apply back_shape; auto.
  Qed.
  Theorem cg_clamped_finite (y : list R) w D : 0 < length y -> clamp_db o = Some D ->
    exists g, est_grad_cg o ref (length y) (map Fin y) w = Ok (map Fin g) /\ length g = length y /\
       ((norm_eps <= norm2 (pre zm y))%R -> Rsum (length y) (fun t => smp g t * smp y t)%R = 0%R) /\
       (zm = true -> Rsum (length y) (smp g) = 0%R).
  Proof.
    intros H0 HD. apply cg_gradient_finite; auto. intros c x _. rewrite HD. apply neg_sdr_bw_clamped.
  Qed.

  (** coherences *)
  Lemma coh_chan est m c d y : wf est -> has_chan est d y -> sdr_coh Torch o ref est = Ok m -> c < n_chan ref ->
    exists x, pchan zm ref c = Some x /\ mat_of m c d = Fin (cgc o it (a_len ref) (length y) x (unit_of (pre zm y))).
  Proof.
    intros We Hy Hm Hc. destruct (chans c Hc) as (x & Px). destruct (has_chan_pchan zm est d y We Hy) as [Py Ly].
    exists x. split; auto. rewrite (cg_entry Torch o it ref est m c d _ _ Hcg N1 Px Py Hm). unfold cgc. rewrite Ly. reflexivity.
  Qed.
  Lemma nan_cases q g : (0 <= q)%R -> q <> 0%R -> q <> 1%R -> exists r, neg_sdr_bw None q g = Fin r.
  Proof.
    intros H0 H1 H2. destruct (Rlt_dec 1 q).
    - exists 0%R. apply neg_sdr_bw_out. simpl. lra.
    - eexists. apply neg_sdr_bw_in; simpl; lra.
  Qed.
  (** without clamp_db the gradient is NaN exactly when a coherence is 0 or 1 *)
  Theorem cg_unclamped est m d (y : list R) w : (0 <= loadv (load_diag o))%R -> clamp_db o = None ->
    wf est -> has_chan est d y -> sdr_coh Torch o ref est = Ok m ->
    (est_grad_cg o ref (length y) (map Fin y) w = Ok (repeat NaN (length y)) /\
       exists c, c < n_chan ref /\ (mat_of m c d = Fin 0 \/ mat_of m c d = Fin 1)) \/
    ((forall c, c < n_chan ref -> mat_of m c d <> Fin 0 /\ mat_of m c d <> Fin 1) /\
     exists g, est_grad_cg o ref (length y) (map Fin y) w = Ok (map Fin g) /\ length g = length y).
  Proof.
    intros Hld HD We Hy Hm.
    assert (H0 : 0 < length y) by (destruct (has_chan_pchan zm est d y We Hy) as [_ L]; rewrite L; apply We).
    assert (HC : (forall c, c < n_chan ref -> mat_of m c d <> Fin 0 /\ mat_of m c d <> Fin 1) \/
                 exists c, c < n_chan ref /\ (mat_of m c d = Fin 0 \/ mat_of m c d = Fin 1)).
    { clear - zm Hwr Hcg N1 Hxs We Hy Hm.
      assert (Hd : forall c, c < n_chan ref -> (mat_of m c d <> Fin 0 /\ mat_of m c d <> Fin 1) \/ (mat_of m c d = Fin 0 \/ mat_of m c d = Fin 1)).
      { intros c Hc. destruct (coh_chan est m c d y We Hy Hm Hc) as (x & _ & ->). set (q := cgc _ _ _ _ _ _).
        destruct (Req_EM_T q 0) as [->|]; [auto|]. destruct (Req_EM_T q 1) as [->|]; [auto|]. left. split; congruence. }
      revert Hd. generalize (n_chan ref). induction n as [|n IH]; intros Hd; [left; intros; lia|].
      destruct IH as [IH|(c & Hc & IH)]; [auto| |right; exists c; split; [lia|auto]].
      destruct (Hd n (le_n _)) as [H|H]; [|right; exists n; auto].
      left. intros c Hc. destruct (Nat.eq_dec c n) as [->|]; [auto|apply IH; lia]. }
    destruct HC as [HC|(c0 & Hc0 & HC)].
    - right. split; auto. destruct (cg_gradient_finite y w H0) as (g & Eg & Lg & _); [|eauto].
      intros c x Px. assert (Hc : c < n_chan ref) by (eapply pchan_lt; eauto).
      destruct (HC c Hc) as [H1 H2]. destruct (coh_chan est m c d y We Hy Hm Hc) as (x' & Px' & E). rewrite Px in Px'. injection Px' as <-.
      destruct (Hxs c Hc) as (x' & Hx').
      destruct (cg_coh_range Torch o it ref est m c d x' y Hwr We Hcg Hld N1 Hx' Hy Hm) as (q & Eq & Hq & _).
      rewrite E in Eq. injection Eq as Eq. rewrite HD, Eq. rewrite E, Eq in H1, H2. apply nan_cases; [lra|congruence|congruence].
    - left. split; [|eauto]. apply (est_grad_cg_nan o ref (length y) w y c0 H0 eq_refl Hc0).
      intros c Hc. destruct (coh_chan est m c d y We Hy Hm Hc) as (x & Px & E). fold zm.
      eexists. eexists. split; [exact Px|]. split; [rewrite (entry_cg o it (a_len ref) (length y) x Hcg N1); reflexivity|].
      intros ->. fold (cgc o it (a_len ref) (length y) x (unit_of (pre zm y))). rewrite E in HC. rewrite HD, neg_sdr_bw_nan; auto.
      destruct HC as [HC|HC]; injection HC; auto.
  Qed.

  Lemma cg_zero_cotangents (y : list R) w : 0 < length y ->
    (forall c x, pchan zm ref c = Some x ->
       neg_sdr_bw (clamp_db o) (cgc o it (a_len ref) (length y) x (unit_of (pre zm y))) (w c) = Fin 0) ->
    est_grad_cg o ref (length y) (map Fin y) w = Ok (repeat (Fin 0) (length y)).
  Proof.
    intros H0 HZ. destruct (fin_choice [] _ _ chans) as (x & Px).
    pose (G := fun c => entry_vec o it (a_len ref) (length y) (x c) (unit_of (pre zm y)) 0).
    assert (HG : forall c, c < n_chan ref -> exists x, pchan zm ref c = Some x /\
      entry_cg_bw o (a_len ref) (length y) x (unit_of (pre zm y)) (w c) = Ok (Some (G c))).
    { intros c Hc. exists (x c). split; [auto|]. rewrite (entry_cg o it (a_len ref) (length y) (x c) Hcg N1).
      pose proof (HZ c (x c) (Px c Hc)) as Z. unfold cgc in Z. rewrite Z. reflexivity. }
    rewrite (est_grad_cg_fin o ref (length y) w y G H0 eq_refl HG). fold zm. cbv zeta.
    set (g := if zm then _ else _).
    assert (Lg : length g = length y) by (unfold g; rewrite length_back, length_pre; auto).
    assert (HGz : forall c t, nth t (G c) 0%R = 0%R).
    { intros c t. unfold G. rewrite entry_vec_zero; auto. apply Hwr. }
    assert (Hgh : forall h, length h = length y -> Rsum (length y) (fun t => nth t g 0 * smp h t)%R = 0%R).
    { intros h Hh. unfold g. rewrite back_adjoint by auto. rewrite !Rsum_swap_tab.
      rewrite !(Rsum_zero (n_chan ref)) by (intros c Hc; apply Rsum_zero; intros t Ht; rewrite HGz; ring).
      destruct (Rlt_dec _ _); ring. }
    f_equal. apply (nth_ext _ _ (Fin 0) (Fin 0)); [rewrite map_length, repeat_length; auto|].
    intros t Ht. rewrite map_length in Ht. rewrite (map_nth Fin), nth_repeat. f_equal.
    apply (Rsum_sq_0 (length y) (fun t => nth t g 0%R)); [apply (Hgh g Lg)|lia].
  Qed.
  Theorem cg_saturated est m0 d (y : list R) w D : clamp_db o = Some D -> (0 <= D)%R ->
    wf est -> has_chan est d y ->
    pairwise_sdr_loss Torch (with_clamp o None) est ref = Ok m0 ->
    (forall c, c < n_chan ref ->
       mat_of m0 c d = PInf \/ mat_of m0 c d = NInf \/ exists r, mat_of m0 c d = Fin r /\ (D < Rabs r)%R) ->
    est_grad_cg o ref (length y) (map Fin y) w = Ok (repeat (Fin 0) (length y)).
  Proof.
    intros HD HD0 We Hy Hm0 HS.
    assert (H0 : 0 < length y) by (destruct (has_chan_pchan zm est d y We Hy) as [_ L]; rewrite L; apply We).
    apply cg_zero_cotangents; auto. intros c x Px. pose proof (pchan_lt _ _ _ _ Px) as Hc. specialize (HS c Hc).
    destruct (cg_loss_entry (with_clamp o None) it ref est m0 c d y Hwr We Hcg N1 (Hxs c Hc) Hy Hm0) as (x' & Px' & _ & Em).
    cbn [with_clamp zero_mean clamp_db] in *. fold zm in Px', Em. rewrite Px in Px'. injection Px' as <-.
    rewrite Em in HS. clear Em. rewrite (cgc_clamp o None) in HS. set (k := cgc _ _ _ _ _ _) in *. rewrite HD. apply neg_sdr_bw_out. simpl.
    pose proof (eps_bounds D) as Be. pose proof (eps_half D HD0) as Hh.
    destruct (Rle_dec k 0); [left; lra|]. destruct (Rle_dec 1 k); [right; lra|].
    rewrite neg_sdr_fin in HS by lra. destruct HS as [HS|[HS|(r & Er & HS)]]; try discriminate. injection Er as <-.
    destruct (Rlt_dec k (db_clamp_eps D)) as [|M1]; [auto|]. destruct (Rlt_dec (1 - db_clamp_eps D) k) as [|M2]; [auto|].
    exfalso. assert (gdb k <= D)%R by (rewrite <- (gdb_eps D); apply gdb_le; lra).
    assert (- D <= gdb k)%R by (rewrite <- (gdb_1eps D); apply gdb_le; lra).
    unfold Rabs in HS. destruct (Rcase_abs (gdb k)); lra.
  Qed.
  Theorem cg_silent (y : list R) w : 0 < length y -> 0 < n_chan ref -> silent (pre zm y) ->
    est_grad_cg o ref (length y) (map Fin y) w =
      Ok (repeat (match clamp_db o with None => NaN | Some _ => Fin 0 end) (length y)).
  Proof.
    intros H0 Hn Hs.
    assert (HZ : forall x, cgc o it (a_len ref) (length y) x (unit_of (pre zm y)) = 0%R).
    { intros x. unfold cgc, sdr_cell, dot_nth. apply Rsum_zero. intros l Hl.
      pose proof (e_xc o (a_len ref) (length y) x N1 (proj1 Hwr) (unit_of (pre zm y)) l Hl) as E. rewrite E.
      rewrite dot_comm. unfold dot. rewrite Rsum_zero; [ring|]. intros t _. rewrite smp_unit_of, Hs. ring. }
    destruct (clamp_db o) as [D|] eqn:HD.
    - apply cg_zero_cotangents; auto. intros c x _. rewrite HZ, HD. apply neg_sdr_bw_out. simpl. pose proof (eps_bounds D). lra.
    - apply (est_grad_cg_nan o ref (length y) w y 0 H0 eq_refl Hn).
      intros c Hc. destruct (chans c Hc) as (x & Px). exists x, None. split; [exact Px|]. split; auto.
      fold zm. rewrite (entry_cg o it (a_len ref) (length y) x Hcg N1).
      pose proof (HZ x) as Z. unfold cgc in Z. rewrite Z, HD, neg_sdr_bw_nan by auto. reflexivity.
  Qed.

  (** ** When the solver reaches the solution *)
  Theorem cg_gradient_direct est m (y : list R) w : 0 < length y -> a_len est = length y ->
    pairwise_sdr_loss Torch (with_cg o None) est ref = Ok m -> cg_all_reached o ref y it ->
    est_grad_cg o ref (length y) (map Fin y) w = est_grad Torch (with_cg o None) ref (length y) (map Fin y) w.
  Proof.
    intros H0 Ll Hm HK. destruct (loss_inv _ _ _ _ _ Hm) as (m1 & E1 & _).
    unfold est_grad_cg, est_grad. cbn [with_cg zero_mean]. rewrite fin_list_map.
    rewrite prep_fin by lia. cbv zeta.
    assert (EM : forall c, In c (seq 0 (length (prep_arr (zero_mean o) ref))) ->
      match nth c (prep_arr (zero_mean o) ref) None with
      | Some x => entry_cg_bw o (a_len ref) (length y) x (unit_of (pre (zero_mean o) y)) (w c)
      | None => Ok None end =
      match nth c (prep_arr (zero_mean o) ref) None with
      | Some x => entry_bw Torch (with_cg o None) (a_len ref) (length y) x (unit_of (pre (zero_mean o) y)) (w c)
      | None => Ok None end).
    { intros c Hc. destruct (nth c (prep_arr (zero_mean o) ref) None) as [x|] eqn:Ex; auto.
      destruct (HK c x Ex) as (k & Hk & Hr).
      apply (entry_reached o it (a_len ref) (length y) x Hcg N1 k); auto.
      unfold sdr_coh in E1. cbn [with_cg filter_length zero_mean use_cg_iter load_diag] in E1.
      destruct (Nat.eqb_spec (filter_length o) 1); [contradiction|]. cbv zeta in E1. rewrite Ll in E1.
      apply in_seq in Hc. pose proof (mapM_nth _ _ _ (None : chan) [] c E1 ltac:(lia)) as Er. rewrite Ex in Er.
      apply coh_row_inv in Er. apply Er. }
    rewrite (mapM_ext _ _ _ EM). reflexivity.
  Qed.
End Theorems.

Theorem cg_gradient_scale o ref (y : list R) w g k : 0 < length y ->
  (0 < k)%R -> (norm_eps <= norm2 (pre (zero_mean o) y))%R -> (norm_eps <= k * norm2 (pre (zero_mean o) y))%R ->
  est_grad_cg o ref (length y) (map Fin y) w = Ok (map Fin g) ->
  est_grad_cg o ref (length y) (map Fin (rscale k y)) w = Ok (map Fin (rscale (/ k) g)).
Proof.
  intros H0 Hk H1 H2. unfold est_grad_cg. rewrite !fin_list_map, !prep_fin by (rewrite ?length_rscale; auto). cbv zeta.
  rewrite pre_rscale by auto. rewrite unit_rscale; [|lra|right; rewrite (Rabs_right k) by lra; auto].
  assert (Es : forall u, rscale (sgn k) u = u).
  { intros u. unfold sgn. destruct (Rlt_dec k 0); [lra|]. unfold rscale. rewrite <- (map_id u) at 2. apply map_ext. intros; ring. }
  rewrite Es. destruct (mapM _ _) as [gs|ex]; cbn [bind]; [|discriminate].
  destruct (existsb tainted gs).
  { intros H. exfalso. injection H as H. destruct y as [|a y]; [simpl in H0; lia|]. destruct g; discriminate. }
  set (gt := tab _ _).
  assert (Ey : forall v, 0 < length v -> (if zero_mean o then map to_R (remove_mean (map Fin v)) else v) = pre (zero_mean o) v).
  { intros v Hv. destruct (zero_mean o); [|reflexivity]. rewrite remove_mean_fin by lia. cbn [pre]. rewrite map_map.
    rewrite <- (map_id (centered v)) at 2. apply map_ext. reflexivity. }
  rewrite !Ey by (rewrite ?length_rscale; auto). rewrite pre_rscale by auto.
  intros H. injection H as H.
  assert (Hg : (if zero_mean o then remove_mean_bw (normalize_bw (pre (zero_mean o) y) gt) else normalize_bw (pre (zero_mean o) y) gt) = g).
  { revert H. generalize g. induction (if zero_mean o then _ else _) as [|a l IH]; intros [|a' g'] H; try discriminate; auto.
    simpl in H. injection H as -> H. f_equal. auto. }
  rewrite <- Hg. rewrite normalize_bw_scale by auto. f_equal. f_equal.
  destruct (zero_mean o); [apply remove_mean_bw_scale|reflexivity].
Qed.
