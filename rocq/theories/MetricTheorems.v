(** * Further theorems on the SDR matrix *)
From Coq Require Import Reals Lra.
From Coquelicot Require Import Complex.
From Verif Require Import Prelude ExtReal Slice Sums Fft FftProofs Helpers HelpersProofs Linalg
  LinalgProofs Cgd Metrics SpecSig StatsProofs LeastSq PrepProofs DbProofs MetricsProofs SarProofs
  ProjTheorems.
Local Open Scope nat_scope.

Lemma mapM_raise {A B} (f : A -> res B) l e : mapM f l = Raise e -> exists x, In x l /\ f x = Raise e.
Proof.
  induction l as [|x l IH]; simpl; [discriminate|]. destruct (f x) eqn:E; simpl.
  - destruct (mapM f l) eqn:E2; simpl; [discriminate|]. intros H. injection H as ->.
    destruct IH as (x' & Hin & Hx'); eauto.
  - intros H. injection H as ->. eauto.
Qed.
Lemma mapM_all_ok {A B} (f : A -> res B) l : (forall x, In x l -> exists y, f x = Ok y) ->
  exists r, mapM f l = Ok r.
Proof.
  induction l as [|x l IH]; simpl; intros H; [eauto|].
  destruct (H x (or_introl eq_refl)) as [y ->]. simpl. destruct IH as [r ->]; auto. simpl. eauto.
Qed.
Lemma mapM_ok_all {A B} (f : A -> res B) l r x : mapM f l = Ok r -> In x l -> exists y, f x = Ok y.
Proof.
  revert r; induction l as [|x' l IH]; simpl; intros r H Hin; [contradiction|].
  destruct (f x') eqn:E; simpl in H; [|discriminate].
  destruct (mapM f l) eqn:E2; simpl in H; [|discriminate].
  destruct Hin as [->|Hin]; eauto.
Qed.

Definition with_length (o : opts) (L : nat) : opts :=
  Opts L (use_cg_iter o) (zero_mean o) (clamp_db o) (load_diag o).
Definition with_load (o : opts) (l : option R) : opts :=
  Opts (filter_length o) (use_cg_iter o) (zero_mean o) (clamp_db o) l.
Definition with_clamp (o : opts) (D : option R) : opts :=
  Opts (filter_length o) (use_cg_iter o) (zero_mean o) D (load_diag o).
Definition with_cg (o : opts) (k : option nat) : opts :=
  Opts (filter_length o) k (zero_mean o) (clamp_db o) (load_diag o).

(** ** When the direct solver raises *)
Lemma silent_singular nf L x : 0 < L -> silent x -> ~ nonsingular L (gram nf (cdelayed nf x) 0).
Proof.
  intros HL Hs HN. assert (E : (fun _ : nat => 1%R) 0 = 0%R); [|cbv beta in E; lra].
  apply (HN (fun _ => 1%R)) with (j := 0); auto. intros i Hi. unfold mulmv. apply Rsum_zero.
  intros j Hj. unfold gram. replace (dot nf (cdelayed nf x i) (cdelayed nf x j)) with 0%R.
  - destruct (i =? j); ring.
  - symmetry. unfold dot. apply Rsum_zero. intros t _. unfold cdelayed.
    change (smp x ((t + (nf - i)) mod nf) * smp x ((t + (nf - j)) mod nf) = 0)%R.
    rewrite Hs. ring.
Qed.
Lemma nonsilent_nonsingular nf L x lam : (0 <= lam)%R -> ~ silent x -> length x + L - 1 <= nf -> L <= nf ->
  nonsingular L (gram nf (cdelayed nf x) lam).
Proof.
  intros Hl Hs Hn HL. apply gram_nonsingular; auto.
  destruct (not_silent_ex x Hs) as (t0 & Ht0 & Hx0).
  assert (HI : independent L nf (delays x)) by (apply (delays_independent x L nf t0); auto; lia).
  intros g Hg. apply HI. intros t Ht. etransitivity; [|apply (Hg t Ht)].
  apply Rsum_ext. intros k Hk. f_equal. symmetry. apply cdelayed_plain; lia.
Qed.
Lemma in_prep zm a x : In x (prep_arr zm a) -> exists c, c < n_chan a /\ pchan zm a c = x.
Proof.
  intros H. apply (In_nth _ _ None) in H. destruct H as (c & Hc & E). rewrite length_prep in Hc. eauto.
Qed.
Lemma prep_in zm a c : c < n_chan a -> In (pchan zm a c) (prep_arr zm a).
Proof. intros H. apply nth_In. rewrite length_prep. auto. Qed.

Lemma sdr_coh_unfold b o ref est : filter_length o <> 1 ->
  sdr_coh b o ref est =
  mapM (fun x : chan => match x with
      | None => Ok (map (fun _ => NaN) (prep_arr (zero_mean o) est))
      | Some v => coh_row b (use_cg_iter o)
          (add_load (load_diag o) (stats_acf (n_fft (a_len ref) (a_len est)) (filter_length o) v))
          (stats_xcorr (n_fft (a_len ref) (a_len est)) (filter_length o) v) (prep_arr (zero_mean o) est)
      end) (prep_arr (zero_mean o) ref).
Proof.
  intros H. unfold sdr_coh.
  replace (filter_length o =? 1) with false by (symmetry; apply Nat.eqb_neq; auto). reflexivity.
Qed.

Theorem sdr_raises_iff b o ref est : wf ref ->
  use_cg_iter o = None -> (0 <= loadv (load_diag o))%R ->
  2 <= filter_length o <= Nat.max (a_len ref) (a_len est) ->
  (forall e, sdr_coh b o ref est = Raise e -> e = LinAlgError) /\
  (raises (sdr_coh b o ref est) <->
   loadv (load_diag o) = 0%R /\ exists c x, has_chan ref c x /\ silent (pre (zero_mean o) x)).
Proof.
  intros Hw Hcg Hld HL. rewrite sdr_coh_unfold by lia. rewrite Hcg.
  set (nf := n_fft (a_len ref) (a_len est)). set (L := filter_length o) in *.
  assert (Hw0 : 0 < a_len ref) by apply Hw.
  pose proof (n_fft_ge (a_len ref) (a_len est) Hw0) as Hnf. fold nf in Hnf.
  assert (HLn : L <= nf) by lia.
  split.
  - intros e H. apply mapM_raise in H. destruct H as (x & Hin & Hx).
    destruct x as [v|]; [|discriminate]. apply coh_row_raise in Hx. apply Hx.
  - split.
    + intros [e H]. apply mapM_raise in H. destruct H as (x & Hin & Hx).
      destruct x as [v|]; [|discriminate]. apply coh_row_raise in Hx. destruct Hx as [_ Hx].
      rewrite row_nonsingular in Hx. rewrite Nat.min_l in Hx by auto.
      destruct (in_prep _ _ _ Hin) as (c & Hc & Ec).
      destruct (pchan_inv _ _ _ _ Hw Ec) as (v0 & E0 & Hl0 & ->).
      assert (H0 : loadv (load_diag o) = 0%R).
      { destruct (Rle_lt_or_eq_dec _ _ Hld) as [Hlt|Heq]; auto. exfalso. apply Hx.
        apply gram_nonsingular_loaded; auto. }
      split; auto. exists c, v0. split; [split; auto|].
      destruct (Req_dec (norm2 (pre (zero_mean o) v0)) 0) as [Hz|Hnz].
      { apply norm2_silent; auto. }
      exfalso. apply Hx. apply nonsilent_nonsingular; auto.
      * rewrite silent_unit. intros Hs. apply Hnz. apply norm2_silent; auto.
      * rewrite length_unit_of, length_pre. lia.
    + intros (H0 & c & x & Hx & Hs).
      destruct (mapM _ _) as [r|e] eqn:E; [|exists e; auto]. exfalso.
      destruct (has_chan_pchan (zero_mean o) ref c x Hw Hx) as [Ex _].
      destruct (mapM_ok_all _ _ _ (pchan (zero_mean o) ref c) E) as [row Er].
      { apply prep_in. apply Hx. }
      rewrite Ex in Er. cbv beta iota in Er. apply coh_row_inv in Er. destruct Er as (_ & HN & _).
      rewrite row_nonsingular in HN. rewrite Nat.min_l, H0 in HN by auto.
      revert HN. apply silent_singular; [lia|]. apply silent_unit; auto.
Qed.

(** ** Monotonicity in the filter length and in the loading *)
Theorem sdr_length_mono b o ref est L L' m m' c d x y : wf ref -> wf est ->
  use_cg_iter o = None -> (0 <= loadv (load_diag o))%R ->
  1 <= L -> L <= L' ->
  (L = 1 -> a_len ref = a_len est /\ loadv (load_diag o) = 0%R) ->
  has_chan ref c x -> has_chan est d y ->
  pairwise_sdr_loss b (with_length o L) est ref = Ok m ->
  pairwise_sdr_loss b (with_length o L') est ref = Ok m' ->
  xle (mat_of m' c d) (mat_of m c d).
Proof.
  intros Hwr Hwe Hcg Hld HL HLL HL1 Hx Hy H H'.
  destruct (loss_inv _ _ _ _ _ H) as (n & E & ->). destruct (loss_inv _ _ _ _ _ H') as (n' & E' & ->).
  rewrite !to_db_entry. change (clamp_db (with_length o L)) with (clamp_db o).
  change (clamp_db (with_length o L')) with (clamp_db o).
  assert (HR : (L' = 1 -> a_len ref = a_len est)) by (intros; apply HL1; lia).
  destruct (sdr_coh_unit_range b (with_length o L) ref est n c d x y) as (q & Eq & Rq); auto.
  { simpl. intros; apply HL1; auto. }
  destruct (sdr_coh_unit_range b (with_length o L') ref est n' c d x y) as (q' & Eq' & Rq'); auto.
  rewrite Eq, Eq'. apply neg_sdr_mono; try lra.
  destruct (has_chan_pchan (zero_mean o) ref c x Hwr Hx) as [Px Lx].
  destruct (has_chan_pchan (zero_mean o) est d y Hwe Hy) as [Py Ly].
  assert (Hwr0 : 0 < a_len ref) by apply Hwr.
  set (nf := n_fft (a_len ref) (a_len est)).
  destruct (Nat.eq_dec L' 1) as [E1'|N1'].
  { assert (L = 1) by lia. subst. assert (n = n') by congruence. subst. rewrite Eq in Eq'.
    injection Eq' as ->. lra. }
  destruct (sdr_entry b (with_length o L') ref est n' c d _ _ E' Hcg N1' (proj1 Hx) (proj1 Hy) Px Py)
    as (q2 & Hq2 & Eq2).
  assert (q2 = q') by congruence. subst q2. simpl in Hq2. fold nf in Hq2.
  destruct (Nat.eq_dec L 1) as [E1|N1].
  - destruct (HL1 E1) as [El Hl0]. subst L.
    rewrite (sdr_entry1 b (with_length o 1) ref est n c d _ _ Hwr Hwe E eq_refl El Px Py) in Eq.
    injection Eq as <-. rewrite Hl0 in Hq2.
    pose proof (nf_ge_ref (a_len ref) (a_len est) Hwr0) as Hg. fold nf in Hg.
    set (x' := unit_of (pre (zero_mean o) x)) in *. set (y' := unit_of (pre (zero_mean o) y)) in *.
    assert (Hlx : length x' = a_len ref) by (unfold x'; rewrite length_unit_of, length_pre; auto).
    assert (Ed : dot (a_len ref) (smp x') (smp y') = dot nf (cdelayed nf x' 0) (smp y')).
    { rewrite (dot_ext nf _ (smp x') _ (smp y')); auto.
      2:{ intros t Ht. apply cdelayed_0; auto. }
      unfold dot. symmetry. apply Rsum_trunc; auto. intros t Ht _. unfold smp at 1.
      rewrite nth_overflow by lia. ring. }
    rewrite Ed. eapply len1_le; [|  |exact Hq2].
    + pose proof (n_fft_pos (a_len ref) (a_len est)). unfold nf. lia.
    + rewrite (energy_ext nf _ (smp x')) by (intros; apply cdelayed_0; auto).
      apply (pchan_energy_le1 _ _ _ _ _ Hwr Px). auto.
  - destruct (sdr_entry b (with_length o L) ref est n c d _ _ E Hcg N1 (proj1 Hx) (proj1 Hy) Px Py)
      as (q1 & Hq1 & Eq1). assert (q1 = q) by congruence. subst q1. simpl in Hq1. fold nf in Hq1.
    eapply (lsq_mono (Nat.min L nf) (Nat.min L' nf) nf _ _ _ _ _ _ _ (fun k => k));
      [split; [exact Hld|apply Rle_refl]| | | |exact Hq1|exact Hq2]; auto.
    intros k Hk. lia.
Qed.

Theorem sdr_load_mono b o ref est l1 l2 m1 m2 c d x y : wf ref -> wf est ->
  use_cg_iter o = None -> (0 <= loadv l1 <= loadv l2)%R -> 2 <= filter_length o ->
  has_chan ref c x -> has_chan est d y ->
  pairwise_sdr_loss b (with_load o l1) est ref = Ok m1 ->
  pairwise_sdr_loss b (with_load o l2) est ref = Ok m2 ->
  xle (mat_of m1 c d) (mat_of m2 c d).
Proof.
  intros Hwr Hwe Hcg Hld HL Hx Hy H1 H2.
  destruct (loss_inv _ _ _ _ _ H1) as (n1 & E1 & ->). destruct (loss_inv _ _ _ _ _ H2) as (n2 & E2 & ->).
  rewrite !to_db_entry. change (clamp_db (with_load o l1)) with (clamp_db o).
  change (clamp_db (with_load o l2)) with (clamp_db o).
  assert (HN1 : filter_length o <> 1) by lia.
  destruct (sdr_coh_unit_range b (with_load o l1) ref est n1 c d x y) as (q1 & Eq1 & R1); auto;
    [simpl; lra|simpl; intros; contradiction|].
  destruct (sdr_coh_unit_range b (with_load o l2) ref est n2 c d x y) as (q2 & Eq2 & R2); auto;
    [simpl; lra|simpl; intros; contradiction|].
  rewrite Eq1, Eq2. apply neg_sdr_mono; try lra.
  destruct (has_chan_pchan (zero_mean o) ref c x Hwr Hx) as [Px Lx].
  destruct (has_chan_pchan (zero_mean o) est d y Hwe Hy) as [Py Ly].
  destruct (sdr_entry b (with_load o l1) ref est n1 c d _ _ E1 Hcg HN1 (proj1 Hx) (proj1 Hy) Px Py)
    as (q1' & Hq1 & Eq1').
  destruct (sdr_entry b (with_load o l2) ref est n2 c d _ _ E2 Hcg HN1 (proj1 Hx) (proj1 Hy) Px Py)
    as (q2' & Hq2 & Eq2').
  assert (q1' = q1) by congruence. assert (q2' = q2) by congruence. subst q1' q2'.
  simpl in Hq1, Hq2.
  eapply (lsq_mono _ _ _ _ _ _ _ _ _ _ (fun k => k)); [exact Hld| | | |exact Hq2|exact Hq1]; auto.
Qed.

(** ** Perfect estimates *)
Lemma lsq_perfect K M a y q : lsq K M a 0 y q -> (q = energy M y <-> in_span K M a y).
Proof.
  intros H. destruct (lsq_has_proj _ _ _ _ _ H) as [p P].
  rewrite (lsq_proj _ _ _ _ _ _ H P). pose proof (proj_pythagoras _ _ _ _ _ P) as E. split.
  - intros Eq. assert (Z : energy M (fun t => y t - p t)%R = 0%R) by lra.
    pose proof (energy_zero _ _ Z) as Hz. destruct P as [[g Hg] _]. exists g. intros t Ht.
    rewrite <- Hg by auto. pose proof (Hz t Ht). simpl in *. lra.
  - intros S.
    assert (P' : is_projection K M a y y).
    { split; auto. intros k Hk. unfold dot. apply Rsum_zero. intros; ring. }
    apply energy_ext. intros t Ht. apply (projection_unique _ _ _ _ _ _ P P'); auto.
Qed.
Lemma in_span_scale K M a a' y y' g s : (forall k, k < K -> g k <> 0%R) -> s <> 0%R ->
  (forall k t, k < K -> t < M -> a' k t = (g k * a k t)%R) ->
  (forall t, t < M -> y' t = (s * y t)%R) ->
  (in_span K M a' y' <-> in_span K M a y).
Proof.
  intros Hg Hs Ha Hy. split; intros [h Hh].
  - exists (fun k => h k * g k / s)%R. intros t Ht.
    apply (Rmult_eq_reg_l s); auto. rewrite <- Hy, Hh by auto. rewrite <- Rsum_scal_l.
    apply Rsum_ext. intros k Hk. rewrite Ha by auto. field. auto.
  - exists (fun k => h k * s / g k)%R. intros t Ht. rewrite Hy, Hh by auto. rewrite <- Rsum_scal_l.
    apply Rsum_ext. intros k Hk. rewrite Ha by auto. field. auto.
Qed.

Theorem sdr_perfect b o ref est m c d x y M : wf ref -> wf est ->
  use_cg_iter o = None -> load_diag o = None ->
  1 <= filter_length o <= Nat.max (a_len ref) (a_len est) ->
  (filter_length o = 1 ->
     a_len ref = a_len est /\ (norm_eps <= norm2 (pre (zero_mean o) x))%R) ->
  has_chan ref c x -> has_chan est d y ->
  (norm_eps <= norm2 (pre (zero_mean o) y))%R ->
  a_len ref + filter_length o - 1 <= M -> a_len est <= M ->
  pairwise_sdr_loss b o est ref = Ok m ->
  let filtered := in_span (filter_length o) M (delays (pre (zero_mean o) x)) (smp (pre (zero_mean o) y)) in
  (clamp_db o = None -> (mat_of m c d = NInf <-> filtered)) /\
  (forall D, clamp_db o = Some D -> (0 <= D)%R -> filtered -> mat_of m c d = Fin (- D)).
Proof.
  intros Hwr Hwe Hcg Hld HL HL1 [Hc Ex] [Hd Ey] Hny HM1 HM2 H filtered.
  destruct (loss_inv _ _ _ _ _ H) as (m' & E & ->). rewrite to_db_entry.
  destruct (sdr_entry_plain b o ref est m' c d x y M) as (q & -> & Hq); auto.
  { intros H1; apply HL1; auto. } { intros H1; apply HL1; auto. }
  destruct (pchan_fin (zero_mean o) est d y Hwe Hd Ey) as [_ Hly].
  set (x0 := pre (zero_mean o) x) in *. set (y0 := pre (zero_mean o) y) in *.
  assert (Hl : length y0 <= M) by (unfold y0; rewrite length_pre; lia).
  pose proof (energy_unit_1 M y0 Hl Hny) as Hu.
  pose proof (lsq_bounds _ _ _ _ _ _ (Rle_refl 0) Hq) as Rq. rewrite Hu in Rq.
  assert (HS : q = 1%R <-> filtered).
  { rewrite <- Hu. rewrite (lsq_perfect _ _ _ _ _ Hq).
    apply in_span_scale with (g := fun _ => gain x0) (s := gain y0).
    - intros _ _. pose proof (gain_pos x0). lra.
    - pose proof (gain_pos y0). lra.
    - intros k t _ _. unfold delays. apply delayed_unit.
    - intros t _. apply smp_unit_of. }
  split.
  - intros ->. rewrite <- HS. split.
    + intros Hn. destruct (Req_dec q 1) as [|Nq]; auto. exfalso.
      destruct (Req_dec q 0) as [->|N0].
      * rewrite neg_sdr_pos_inf in Hn; [discriminate|]. right. eexists. split; eauto. lra.
      * rewrite neg_sdr_fin in Hn by lra. discriminate.
    + intros ->. apply neg_sdr_neg_inf. right. eexists. split; eauto. lra.
  - intros D -> HD Hf. apply HS in Hf. subst q. apply clamp_high; auto.
Qed.

(** ** The fast path for one tap agrees with the general method *)
Theorem len1_general b nf x y n : length x = n -> length y = n -> 0 < n -> n <= nf ->
  energy n (smp x) = 1%R ->
  coh_row b None (stats_acf nf 1 x) (stats_xcorr nf 1 x) [Some y] = Ok [Fin (ip n x y ^ 2)].
Proof.
  intros Hx Hy Hn Hnf He.
  assert (E0 : energy nf (cdelayed nf x 0) = 1%R).
  { rewrite (energy_ext nf _ (smp x)) by (intros; apply cdelayed_0; auto).
    rewrite <- He. unfold energy, dot. apply Rsum_trunc; auto. intros t Ht _. unfold smp.
    rewrite nth_overflow by lia. ring. }
  change (stats_acf nf 1 x) with (add_load None (stats_acf nf 1 x)).
  destruct (coh_row_ok b (add_load None (stats_acf nf 1 x)) (stats_xcorr nf 1 x) [Some y]) as [row Er].
  { apply row_nonsingular. rewrite Nat.min_l by lia. intros v Hv j Hj. replace j with 0 by lia.
    specialize (Hv 0 Nat.lt_0_1). unfold mulmv, gram in Hv. simpl in Hv. unfold energy in E0.
    rewrite E0 in Hv. lra. }
  rewrite Er. f_equal. destruct (coh_row_inv _ _ _ _ _ Er) as (Hlen & _ & _).
  destruct row as [|r [|? ?]]; simpl in Hlen; try lia. f_equal.
  destruct (row_lsq b nf 1 None x [Some y] [r] 0 y Er) as (q & Hq & Eq); auto.
  simpl in Eq. rewrite Eq. f_equal. rewrite Nat.min_l in Hq by lia.
  apply (lsq_unique 1 nf (cdelayed nf x) 0 (smp y)); [lra|exact Hq|].
  rewrite ip_dot by auto.
  replace (dot n (smp x) (smp y)) with (dot nf (cdelayed nf x 0) (smp y)); [apply len1_lsq; auto|].
  rewrite (dot_ext nf _ (smp x) _ (smp y)); auto.
  2:{ intros t Ht. apply cdelayed_0; auto. }
  unfold dot. apply Rsum_trunc; auto. intros t Ht _. unfold smp at 1. rewrite nth_overflow by lia. ring.
Qed.
