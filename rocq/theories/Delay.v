(** * Late and early estimates (C71) *)
From Coq Require Import Reals Lra FunctionalExtensionality.
From Verif Require Import Prelude ExtReal Slice Sums Spec SpecSig Fft FftProofs Helpers HelpersProofs
  DbProofs Linalg LinalgProofs Cgd Metrics StatsProofs LeastSq PrepProofs MetricsProofs SarProofs
  ProjTheorems MetricTheorems Invariance CgdOps CgdPrecond Cells Diag Edge Witness Glue Silence.
Local Open Scope nat_scope.

Lemma map_Fin_inj (l x : list R) : map Fin x = map Fin l -> x = l.
Proof. revert x. induction l; destruct x; simpl; intros H; try discriminate; auto. injection H as H0 H1. f_equal; auto. Qed.
(** ** A filter longer by d undoes a delay of d *)
Definition pushed (d : nat) (u : nat -> R) (t : nat) : R := if t <? d then 0%R else u (t - d).
Lemma dot_pushed d M u v : dot (d + M) (pushed d u) (pushed d v) = dot M u v.
Proof.
  unfold dot. rewrite Rsum_add, Rsum_zero, Rplus_0_l.
  - apply Rsum_ext. intros t _. unfold pushed. destruct (Nat.ltb_spec (d + t) d); [lia|].
    replace (d + t - d) with t by lia. reflexivity.
  - intros t Ht. unfold pushed. apply Nat.ltb_lt in Ht. rewrite Ht. ring.
Qed.
Lemma lsq_pushed d K M a lam y q : lsq K M a lam y q ->
  lsq K (d + M) (fun k => pushed d (a k)) lam (pushed d y) q.
Proof.
  intros H. eapply lsq_ext; [| |exact H].
  - intros. symmetry. apply dot_pushed.
  - intros. symmetry. apply dot_pushed.
Qed.
Lemma pushed_delayed d x k t : pushed d (delayed x k) t = delayed x (d + k) t.
Proof.
  unfold pushed, delayed. destruct (Nat.ltb_spec t d).
  - destruct (Nat.ltb_spec t (d + k)); [auto|lia].
  - destruct (Nat.ltb_spec (t - d) k), (Nat.ltb_spec t (d + k)); try lia; auto. f_equal. lia.
Qed.
Lemma smp_hush d k y t : smp (hush 0%R d k y) t = pushed d (smp y) t.
Proof.
  unfold pushed. destruct (later_pad d k y) as [H1 H2].
  destruct (Nat.ltb_spec t d) as [H|H]; [apply H2; auto|].
  specialize (H1 (t - d)). replace (d + (t - d)) with t in H1 by lia. exact H1.
Qed.
Lemma silence_chan j k a c x : has_chan a c x -> has_chan (silence j k a) c (hush 0%R j k x).
Proof.
  intros [H E]. split; [rewrite n_chan_silence; auto|]. cbn [a_chans silence].
  rewrite (nth_indep _ [] (hush (Fin 0) j k [])) by (rewrite map_length; auto).
  change (fun c0 => repeat (Fin 0) j ++ c0 ++ repeat (Fin 0) k) with (hush (Fin 0) j k).
  rewrite (map_nth (hush (Fin 0) j k)), E. symmetry. apply (hush_map Fin).
Qed.

Lemma sdr_entry_loaded b o ref est m c d x y M : wf ref -> wf est ->
  sdr_coh b o ref est = Ok m -> use_cg_iter o = None ->
  2 <= filter_length o <= Nat.max (a_len ref) (a_len est) ->
  has_chan ref c x -> has_chan est d y ->
  a_len ref + filter_length o - 1 <= M ->
  exists q, mat_of m c d = Fin q /\
    lsq (filter_length o) M (delays (unit_of (pre (zero_mean o) x))) (loadv (load_diag o))
        (smp (unit_of (pre (zero_mean o) y))) q.
Proof.
  intros Hwr Hwe E Hcg HL Hx Hy HM.
  destruct (has_chan_pchan (zero_mean o) ref c x Hwr Hx) as [Px Lx].
  destruct (has_chan_pchan (zero_mean o) est d y Hwe Hy) as [Py Ly].
  destruct (sdr_entry b o ref est m c d _ _ E Hcg ltac:(lia) (proj1 Hx) (proj1 Hy) Px Py) as (q & Hq & Eq).
  exists q. split; auto. pose proof (n_fft_ge (a_len ref) (a_len est) (proj1 Hwr)) as G.
  pose proof (proj1 Hwr) as H0. rewrite Nat.min_l in Hq by lia.
  eapply lsq_plain; [exact Hq| | |]; rewrite ?length_unit_of, ?length_pre; lia.
Qed.

Theorem delay_mono b o ref est k m m' c d x y j : wf ref -> wf est ->
  use_cg_iter o = None -> (0 <= loadv (load_diag o))%R -> zero_mean o = false ->
  2 <= filter_length o <= Nat.max (a_len ref) (a_len est) ->
  j + filter_length o <= Nat.max (a_len ref) (j + a_len est + k) ->
  has_chan ref c x -> has_chan est d y ->
  pairwise_sdr_loss b o est ref = Ok m ->
  pairwise_sdr_loss b (with_length o (j + filter_length o)) (silence j k est) ref = Ok m' ->
  xle (mat_of m' c d) (mat_of m c d).
Proof.
  intros Hwr Hwe Hcg Hld Hzm HL HL' Hx Hy H H'.
  destruct (loss_inv _ _ _ _ _ H) as (n & E & ->). destruct (loss_inv _ _ _ _ _ H') as (n' & E' & ->).
  rewrite !to_db_entry. change (clamp_db (with_length o (j + filter_length o))) with (clamp_db o).
  pose proof (silence_chan j k est d y Hy) as Hy'. pose proof (wf_silence j k est Hwe) as Hwe'.
  set (M := a_len ref + filter_length o - 1 + (a_len est + k)).
  destruct (sdr_entry_loaded b o ref est n c d x y M Hwr Hwe E Hcg HL Hx Hy ltac:(unfold M; lia)) as (q & Eq & Hq).
  destruct (sdr_entry_loaded b (with_length o (j + filter_length o)) ref (silence j k est) n' c d x _ (j + M) Hwr Hwe' E' Hcg
    ltac:(cbn; lia) Hx Hy' ltac:(unfold M; cbn [filter_length with_length]; lia)) as (q' & Eq' & Hq').
  destruct (sdr_coh_unit_range b o ref est n c d x y) as (q1 & Eq1 & Rq); auto; try (intros; lia).
  destruct (sdr_coh_unit_range b (with_length o (j + filter_length o)) ref (silence j k est) n' c d x (hush 0%R j k y)) as (q2 & Eq2 & Rq2); auto;
    try (cbn; intros; lia).
  assert (q1 = q) by congruence. assert (q2 = q') by congruence. subst q1 q2.
  rewrite Eq, Eq'. apply neg_sdr_mono; try lra.
  cbn [filter_length with_length zero_mean load_diag] in Hq'. rewrite Hzm in Hq, Hq'. cbn [pre] in Hq, Hq'.
  rewrite unit_hush in Hq'.
  apply (lsq_pushed j) in Hq.
  assert (Hq2 : lsq (j + filter_length o) (j + M) (delays (unit_of x)) (loadv (load_diag o)) (pushed j (smp (unit_of y))) q').
  { eapply lsq_ext; [| |exact Hq']; auto. intros i Hi. apply dot_ext; auto. intros t _. apply smp_hush. }
  eapply (lsq_mono _ _ _ _ _ _ _ _ _ _ (fun k => j + k)); [split; [exact Hld|apply Rle_refl]| | | |exact Hq|exact Hq2].
  - intros; lia.
  - intros; lia.
  - intros i t _ _. unfold delays. apply pushed_delayed.
Qed.

(** a copy delayed by less than the filter length is perfect *)
Theorem delayed_copy b o ref est m c d x j k : wf ref -> wf est ->
  use_cg_iter o = None -> load_diag o = None -> zero_mean o = false ->
  filter_length o <= Nat.max (a_len ref) (a_len est) ->
  (filter_length o = 1 -> a_len ref = a_len est) ->
  j < filter_length o -> has_chan ref c x -> has_chan est d (hush 0%R j k x) -> (norm_eps <= norm2 x)%R ->
  pairwise_sdr_loss b o est ref = Ok m ->
  (clamp_db o = None -> mat_of m c d = NInf) /\
  (forall D, clamp_db o = Some D -> (0 <= D)%R -> mat_of m c d = Fin (- D)).
Proof.
  intros Hwr Hwe Hcg Hld Hzm HL HL1 Hj Hx Hy Hn H.
  destruct (sdr_perfect b o ref est m c d x (hush 0%R j k x) (a_len ref + filter_length o + a_len est)) as [P1 P2]; auto; try lia.
  - rewrite Hzm. intros H1. split; auto.
  - rewrite Hzm. cbn [pre]. rewrite norm2_hush. auto.
  - assert (S : in_span (filter_length o) (a_len ref + filter_length o + a_len est) (delays (pre (zero_mean o) x))
        (smp (pre (zero_mean o) (hush 0%R j k x)))).
    { rewrite Hzm. cbn [pre]. exists (fun i => if i =? j then 1 else 0)%R. intros t Ht.
      rewrite (Rsum_single _ j); [|auto|intros i Hi Ni; cbv beta; destruct (Nat.eqb_spec i j); [contradiction|ring]].
      rewrite Nat.eqb_refl. unfold delays. rewrite smp_hush. unfold pushed, delayed. ring. }
    split; [intros Hc; apply P1; auto|]. intros D HD H0. apply (P2 D); auto.
Qed.

(** ** Estimates out of reach of the filter *)
(** y starts only after the last sample that L delays of x reach *)
Definition too_late (L : nat) (x y : list R) : Prop :=
  forall t, t < length x + L - 1 -> smp y t = 0%R.
(** y is over before x begins *)
Definition too_early (x y : list R) : Prop :=
  exists T, (forall t, t < T -> smp x t = 0%R) /\ (forall t, T <= t -> smp y t = 0%R).
Lemma late_orth L x y : too_late L x y -> orthogonal_to L x y.
Proof.
  intros H l Hl. apply Rsum_zero. intros t Ht. rewrite (H (t + l)) by lia. ring.
Qed.
Lemma early_orth L x y : too_early x y -> orthogonal_to L x y.
Proof.
  intros (T & H1 & H2) l Hl. apply Rsum_zero. intros t Ht.
  destruct (Nat.lt_ge_cases t T); [rewrite H1 by auto|rewrite (H2 (t + l)) by lia]; ring.
Qed.
Theorem out_of_reach b o ref est m c d x y : wf ref -> wf est ->
  1 <= filter_length o <= Nat.max (a_len ref) (a_len est) ->
  (filter_length o = 1 -> a_len ref = a_len est) -> zero_mean o = false ->
  (forall D, clamp_db o = Some D -> 0 <= D)%R ->
  has_chan ref c x -> has_chan est d y ->
  too_late (filter_length o) x y \/ too_early x y ->
  pairwise_sdr_loss b o est ref = Ok m -> mat_of m c d = worst_loss o.
Proof.
  intros Hwr Hwe HL HL1 Hzm HD Hx Hy Ho H. apply (orth_loss b o ref est m c d x y); auto.
  rewrite Hzm. cbn [pre]. destruct Ho; [apply late_orth|apply early_orth]; auto.
Qed.

(** a copy that is late by exactly the filter length, or early by one sample, can score -inf *)
Definition click (j k : nat) : arr := silence j k (rarr 1 [[1%R]]).
Lemma click_wf j k : wf (click j k).
Proof. apply wf_silence, rarr_wf; [lia|repeat constructor]. Qed.
Lemma click_len j k : a_len (click j k) = j + 1 + k.
Proof. reflexivity. Qed.
Lemma click_chan j k : has_chan (click j k) 0 (hush 0%R j k [1%R]).
Proof. apply silence_chan, rarr_chan. cbn. lia. Qed.
Lemma click_ok b L j k j' k' : 1 <= L -> L <= Nat.max (1 + j + k) (1 + j' + k') -> j + k = j' + k' ->
  is_ok (pairwise_sdr_loss b (plain_opts L) (click j k) (click j' k')).
Proof.
  intros HL HLm Hl. destruct (Nat.eq_dec L 1) as [->|N].
  - unfold pairwise_sdr_loss, sdr_coh. cbn [filter_length plain_opts Nat.eqb]. unfold bc_len.
    replace (a_len (click j' k')) with (a_len (click j k)) by (cbn; lia). rewrite Nat.eqb_refl. cbn. eexists. reflexivity.
  - destruct (loss_raises_iff b (plain_opts L) (click j' k') (click j k) (click_wf _ _) eq_refl ltac:(cbn; lra)
      ltac:(cbn; lia)) as [_ H].
    destruct (pairwise_sdr_loss _ _ _ _) as [v|e]; [eexists; reflexivity|].
    destruct H as [H _]. destruct H as (_ & c & x & [Hc Hx] & Hs); [eexists; reflexivity|].
    exfalso. cbn in Hc. assert (c = 0) by (unfold n_chan in Hc; cbn in Hc; lia). subst c.
    destruct (click_chan j' k') as [_ E]. rewrite E in Hx. symmetry in Hx. apply map_Fin_inj in Hx. subst x.
    specialize (Hs j'). cbn [zero_mean plain_opts pre] in Hs. rewrite smp_hush in Hs. unfold pushed in Hs.
    rewrite Nat.ltb_irrefl, Nat.sub_diag in Hs. cbn in Hs. lra.
Qed.
Theorem late_refuted b L : 1 <= L -> exists ref est m x, wf ref /\ wf est /\ a_len ref = a_len est /\ L <= a_len ref /\
  has_chan ref 0 (x ++ repeat 0%R L) /\ has_chan est 0 (repeat 0%R L ++ x) /\
  pairwise_sdr_loss b (plain_opts L) est ref = Ok m /\ mat_of m 0 0 = PInf.
Proof.
  intros HL. destruct (click_ok b L L 0 0 L HL ltac:(lia) ltac:(lia)) as [m Hm].
  exists (click 0 L), (click L 0), m, [1%R].
  split; [apply click_wf|]. split; [apply click_wf|]. split; [cbn; lia|]. split; [cbn; lia|].
  split; [exact (click_chan 0 L)|]. split; [|split; [exact Hm|]].
  { pose proof (click_chan L 0) as H. unfold hush in H. cbn [repeat] in H. rewrite app_nil_r in H. exact H. }
  apply (orth_loss b (plain_opts L) (click 0 L) (click L 0) m 0 0 (hush 0%R 0 L [1%R]) (hush 0%R L 0 [1%R])); auto using click_wf, click_chan.
  - rewrite !click_len. cbn [filter_length plain_opts]. lia.
  - intros _. rewrite !click_len. lia.
  - discriminate.
  - cbn [zero_mean plain_opts pre filter_length]. intros l Hl. apply Rsum_zero. intros t Ht. rewrite !smp_hush. unfold pushed.
    destruct t as [|t].
    + cbn [Nat.add]. apply Nat.ltb_lt in Hl. rewrite Hl. ring.
    + replace (S t <? 0) with false by reflexivity. unfold smp at 1. rewrite nth_overflow by (cbn; lia). ring.
Qed.
Theorem early_refuted b L : 1 <= L -> exists ref est m x, wf ref /\ wf est /\ a_len ref = a_len est /\ L <= a_len ref /\
  has_chan ref 0 (0%R :: x) /\ has_chan est 0 (x ++ [0%R]) /\
  pairwise_sdr_loss b (plain_opts L) est ref = Ok m /\ mat_of m 0 0 = PInf.
Proof.
  intros HL. destruct (click_ok b L 0 (S L) 1 L HL ltac:(lia) ltac:(lia)) as [m Hm].
  exists (click 1 L), (click 0 (S L)), m, (1%R :: repeat 0%R L).
  split; [apply click_wf|]. split; [apply click_wf|]. split; [cbn; lia|]. split; [cbn; lia|].
  split; [exact (click_chan 1 L)|]. split; [|split; [exact Hm|]].
  { pose proof (click_chan 0 (S L)) as H. unfold hush in H. cbn [repeat app] in H.
    rewrite repeat_cons in H. exact H. }
  apply (out_of_reach b (plain_opts L) (click 1 L) (click 0 (S L)) m 0 0 (hush 0%R 1 L [1%R]) (hush 0%R 0 (S L) [1%R])); auto using click_wf, click_chan.
  - rewrite !click_len. cbn [filter_length plain_opts]. lia.
  - cbn. discriminate.
  - right. exists 1. split; intros t Ht; rewrite smp_hush; unfold pushed.
    + assert (t = 0) as -> by lia. reflexivity.
    + replace (t <? 0) with false by reflexivity. unfold smp. apply nth_overflow. cbn. lia.
Qed.
