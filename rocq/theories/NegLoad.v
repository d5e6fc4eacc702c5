(** * Negative diagonal loading *)
From Coq Require Import Reals Lra Classical.
From Verif Require Import Prelude ExtReal Spec SpecSig Sums Helpers Linalg LinalgProofs Metrics StatsProofs LeastSq
  PrepProofs DbProofs MetricsProofs SarProofs ProjTheorems MetricTheorems Edge LoadBias Delay Cells Solvability.
Local Open Scope nat_scope.

Ltac minmax := repeat match goal with |- context [Rle_dec ?a ?b] =>
  lazymatch constr:((a, b)) with context [Rle_dec] => fail | _ => destruct (Rle_dec a b) end end.

(** ** The loss over all real coherences *)
Lemma neg_sdr_clip D q : coherence_to_neg_sdr D (Fin q) = coherence_to_neg_sdr D (Fin (Rmax 0 (Rmin q 1))).
Proof.
  unfold coherence_to_neg_sdr, clamp. rewrite !xmax_fin, !xmin_fin.
  set (e := match D with Some d => db_clamp_eps d | None => 0%R end).
  assert (He : (0 <= e < 1)%R) by (destruct D as [d|]; unfold e; [pose proof (eps_bounds d)|]; lra).
  replace (Rmin (Rmax (Rmax 0 (Rmin q 1)) e) (1 - e)) with (Rmin (Rmax q e) (1 - e)); auto.
  unfold Rmin, Rmax. minmax; lra.
Qed.
Lemma neg_sdr_antitone D a b : (a <= b)%R -> xle (coherence_to_neg_sdr D (Fin b)) (coherence_to_neg_sdr D (Fin a)).
Proof.
  intros H. rewrite (neg_sdr_clip D a), (neg_sdr_clip D b). apply neg_sdr_mono;
  unfold Rmin, Rmax; minmax; lra.
Qed.
Lemma neg_sdr_worst o q : (forall D, clamp_db o = Some D -> 0 <= D)%R -> (q <= 0)%R ->
  coherence_to_neg_sdr (clamp_db o) (Fin q) = worst_loss o.
Proof.
  intros H Hq. rewrite neg_sdr_clip. replace (Rmax 0 (Rmin q 1)) with 0%R; [apply worst_loss_coh; auto|].
  unfold Rmin, Rmax; minmax; lra.
Qed.

(** ** Least squares with a definite system *)
Lemma gram_definite K M a lam : (forall g, (0 < sq K g)%R -> (energy M (comb K a g) + lam * sq K g <> 0)%R) ->
  nonsingular K (gram M a lam).
Proof.
  intros H v Hv. pose proof (gram_form K M a lam v v) as E.
  rewrite Rsum_zero in E by (intros i Hi; rewrite Hv by auto; ring).
  apply sq_zero. destruct (Rle_lt_or_eq_dec _ _ (sq_nonneg K v)) as [Hp|]; auto.
  exfalso. apply (H v Hp). symmetry. exact E.
Qed.
Lemma q_load_mono K M a l1 l2 y h1 h2 : (forall g, (0 <= energy M (comb K a g) + l1 * sq K g)%R) -> (l1 <= l2)%R ->
  normal_eq K M a l1 y h1 -> normal_eq K M a l2 y h2 -> (qval K M a y h2 <= qval K M a y h1)%R.
Proof.
  intros HP Hl N1 N2.
  pose proof (qval_form K M a l1 y h1 h2 N1) as E. pose proof (q_energy K M a l1 y h1 N1) as E1.
  pose proof (q_energy K M a l2 y h2 N2) as E2. pose proof (HP (fun k => h2 k - h1 k)%R) as P.
  assert (A1 : energy M (comb K a (fun k => h2 k - h1 k)%R) =
    (energy M (comb K a h2) - 2 * dot M (comb K a h2) (comb K a h1) + energy M (comb K a h1))%R).
  { rewrite <- energy_sub. apply energy_ext. intros t _. unfold comb. rewrite <- Rsum_minus.
    apply Rsum_ext. intros; ring. }
  assert (A2 : sq K (fun k => h2 k - h1 k)%R = (sq K h2 - 2 * Rsum K (fun i => h2 i * h1 i) + sq K h1)%R).
  { exact (energy_sub K h2 h1). }
  rewrite A1, A2 in P. pose proof (sq_nonneg K h2) as S2. nra.
Qed.

(** ** The SDR *)
Section Sdr.
Variables (b : backend) (o : opts) (ref est : arr).
Hypotheses (Wr : wf ref) (Hcg : use_cg_iter o = None) (HL : 2 <= filter_length o).
Let nf := n_fft (a_len ref) (a_len est).
Let K := Nat.min (filter_length o) nf.

Lemma sdr_coh_solvable : (forall c x, has_chan ref c x ->
    nonsingular K (gram nf (cdelayed nf (unit_of (pre (zero_mean o) x))) (loadv (load_diag o)))) ->
  is_ok (sdr_coh b o ref est).
Proof.
  intros H. rewrite sdr_coh_unfold by lia. rewrite Hcg. fold nf.
  destruct (mapM _ _) as [r|e] eqn:E; [exists r; auto|]. exfalso.
  apply mapM_raise in E. destruct E as (v & Hin & Hx). destruct v as [v|]; [|discriminate].
  apply coh_row_raise in Hx. destruct Hx as [_ Hx]. rewrite row_nonsingular in Hx.
  destruct (in_prep _ _ _ Hin) as (c & Hc & Ec). destruct (pchan_inv _ _ _ _ Wr Ec) as (v0 & E0 & Hl0 & ->).
  apply Hx, (H c v0). split; auto.
Qed.

Lemma neg_form x u lam : (lam < - INR (filter_length o))%R -> length x = a_len ref -> u = unit_of (pre (zero_mean o) x) ->
  forall g, (energy nf (comb K (cdelayed nf u) g) + lam * sq K g <= (INR (filter_length o) + lam) * sq K g)%R.
Proof.
  intros Hl Lx -> g. pose proof (nf_ge_ref (a_len ref) (a_len est) (proj1 Wr)) as G. fold nf in G.
  assert (B : (energy nf (comb K (cdelayed nf (unit_of (pre (zero_mean o) x))) g) <= INR K * sq K g)%R).
  { apply comb_energy. intros k Hk. rewrite energy_cdelayed by (unfold K in Hk; lia).
    apply energy_unit_le1. rewrite length_pre. lia. }
  assert (C : (INR K <= INR (filter_length o))%R) by (apply le_INR; unfold K; lia).
  pose proof (sq_nonneg K g). nra.
Qed.
Theorem very_negative_load : (loadv (load_diag o) < - INR (filter_length o))%R -> wf est ->
  (forall D, clamp_db o = Some D -> 0 <= D)%R ->
  exists m, pairwise_sdr_loss b o est ref = Ok m /\
  forall c d x y, has_chan ref c x -> has_chan est d y -> mat_of m c d = worst_loss o.
Proof.
  intros Hl We HD.
  destruct sdr_coh_solvable as [m E].
  { intros c x Hx. apply gram_definite. intros g Hg.
    destruct (has_chan_pchan (zero_mean o) ref c x Wr Hx) as [_ Lx].
    pose proof (neg_form x _ _ Hl Lx eq_refl g). nra. }
  exists (to_db o m). split; [unfold pairwise_sdr_loss; rewrite E; reflexivity|].
  intros c d x y Hx Hy.
  destruct (has_chan_pchan (zero_mean o) ref c x Wr Hx) as [Px Lx].
  destruct (has_chan_pchan (zero_mean o) est d y We Hy) as [Py Ly].
  destruct (sdr_entry b o ref est m c d _ _ E Hcg ltac:(lia) (proj1 Hx) (proj1 Hy) Px Py) as (q & (h & N & ->) & Eq).
  rewrite to_db_entry, Eq. apply neg_sdr_worst; auto. fold nf in N |- *. fold K in N |- *.
  rewrite (q_energy _ _ _ _ _ _ N). pose proof (neg_form x _ _ Hl Lx eq_refl h) as B.
  pose proof (sq_nonneg K h). nra.
Qed.
End Sdr.

(** ** Which loads make the system singular *)
(** g is an eigenvector of the autocorrelation matrix of the signal u (L lags) for the value v *)
Definition acf_eigen (L M : nat) (u : list R) (v : R) (g : nat -> R) : Prop :=
  (exists k, k < L /\ g k <> 0%R) /\
  forall i, i < L -> Rsum L (fun j => dot M (delays u i) (delays u j) * g j)%R = (v * g i)%R.

Lemma delays_gram nf M u lam L i j : length u + L - 1 <= nf -> length u + L - 1 <= M -> L <= nf -> i < L -> j < L ->
  gram nf (cdelayed nf u) lam i j = gram M (delays u) lam i j.
Proof.
  intros H1 H2 HL Hi Hj. unfold gram. f_equal.
  rewrite (dot_ext nf _ (delayed u i) _ (delayed u j)) by (intros t Ht; apply cdelayed_plain; lia).
  unfold delays. destruct (Nat.le_ge_cases i j).
  - rewrite !dot_delayed2 by lia. auto.
  - rewrite (dot_comm nf), (dot_comm M), !dot_delayed2 by lia. auto.
Qed.
Lemma singular_eigen L M u lam : ~ nonsingular L (gram M (delays u) lam) <-> exists g, acf_eigen L M u (- lam) g.
Proof.
  assert (E : forall g i, i < L -> Rmv L (gram M (delays u) lam) g i =
     (Rsum L (fun j => dot M (delays u i) (delays u j) * g j) + lam * g i)%R).
  { intros g i Hi. rewrite gram_mv by auto. rewrite dot_comb_r. f_equal. apply Rsum_ext. intros; ring. }
  split.
  - intros H. apply not_all_ex_not in H. destruct H as [g H]. exists g.
    apply imply_to_and in H. destruct H as [H1 H2]. split.
    + apply not_all_ex_not in H2. destruct H2 as [k H2]. exists k. apply imply_to_and in H2. auto.
    + intros i Hi. specialize (H1 i Hi). rewrite E in H1 by auto. lra.
  - intros (g & (k & Hk & Gk) & H) N. apply Gk. apply (N g); auto. intros i Hi. rewrite E by auto. rewrite H by auto. ring.
Qed.
Theorem load_raises_iff b o ref est M : wf ref -> use_cg_iter o = None ->
  2 <= filter_length o <= Nat.max (a_len ref) (a_len est) -> a_len ref + filter_length o - 1 <= M ->
  raises (pairwise_sdr_loss b o est ref) <->
  exists c x g, has_chan ref c x /\ acf_eigen (filter_length o) M (unit_of (pre (zero_mean o) x)) (- loadv (load_diag o)) g.
Proof.
  intros Wr Hcg HL HM. pose proof (n_fft_ge (a_len ref) (a_len est) (proj1 Wr)) as G. pose proof (proj1 Wr) as H0.
  set (nf := n_fft (a_len ref) (a_len est)) in *.
  assert (EQ : forall c x, has_chan ref c x ->
    nonsingular (Nat.min (filter_length o) nf) (gram nf (cdelayed nf (unit_of (pre (zero_mean o) x))) (loadv (load_diag o))) <->
    nonsingular (filter_length o) (gram M (delays (unit_of (pre (zero_mean o) x))) (loadv (load_diag o)))).
  { intros c x Hx. destruct (has_chan_pchan (zero_mean o) ref c x Wr Hx) as [_ Lx]. rewrite Nat.min_l by lia.
    split; apply nonsingular_ext; intros i j Hi Hj; [|symmetry]; 
      (apply (delays_gram nf M _ _ (filter_length o)); auto; rewrite ?length_unit_of, ?length_pre; lia). }
  assert (RR : raises (pairwise_sdr_loss b o est ref) <-> raises (sdr_coh b o ref est)).
  { unfold pairwise_sdr_loss. destruct (sdr_coh b o ref est) as [m|e0]; simpl; split; intros [e H]; try discriminate; exists e; auto. }
  rewrite RR. split.
  - intros [e H]. apply NNPP. intros HN.
    destruct (sdr_coh_solvable b o ref est Wr Hcg ltac:(lia)) as [m E]; [|congruence].
    intros c x Hx. fold nf. apply (EQ c x Hx). apply NNPP. intros S. apply singular_eigen in S. destruct S as [g S].
    apply HN. exists c, x, g. auto.
  - intros (c & x & g & Hx & S). destruct (sdr_coh b o ref est) as [m|e] eqn:E; [exfalso|exists e; auto].
    assert (NS : ~ nonsingular (filter_length o) (gram M (delays (unit_of (pre (zero_mean o) x))) (loadv (load_diag o))))
      by (apply singular_eigen; eauto).
    apply NS, (EQ c x Hx). rewrite sdr_coh_unfold in E by lia. rewrite Hcg in E. fold nf in E.
    destruct (has_chan_pchan (zero_mean o) ref c x Wr Hx) as [Px Lx].
    destruct (mapM_ok_all _ _ _ (pchan (zero_mean o) ref c) E) as [row Er]; [apply prep_in, Hx|].
    rewrite Px in Er. cbv beta iota in Er. apply coh_row_inv in Er. destruct Er as (_ & HN & _).
    rewrite row_nonsingular in HN. exact HN.
Qed.

(** ** Loads that keep the system positive *)
Theorem load_monotone b o ref est l1 l2 m1 m2 c d x y M : wf ref -> wf est -> use_cg_iter o = None ->
  2 <= filter_length o <= Nat.max (a_len ref) (a_len est) -> a_len ref + filter_length o - 1 <= M ->
  has_chan ref c x -> has_chan est d y -> (loadv l1 <= loadv l2)%R ->
  (forall g, (0 <= energy M (fun t => Rsum (filter_length o) (fun k => g k * delays (unit_of (pre (zero_mean o) x)) k t)) +
                   loadv l1 * Rsum (filter_length o) (fun k => g k * g k))%R) ->
  pairwise_sdr_loss b (with_load o l1) est ref = Ok m1 -> pairwise_sdr_loss b (with_load o l2) est ref = Ok m2 ->
  xle (mat_of m1 c d) (mat_of m2 c d).
Proof.
  intros Wr We Hcg HL HM Hx Hy Hl HP H1 H2.
  destruct (loss_inv _ _ _ _ _ H1) as (n1 & E1 & ->). destruct (loss_inv _ _ _ _ _ H2) as (n2 & E2 & ->).
  rewrite !to_db_entry. change (clamp_db (with_load o l1)) with (clamp_db o).
  change (clamp_db (with_load o l2)) with (clamp_db o).
  destruct (sdr_entry_loaded b (with_load o l1) ref est n1 c d x y M Wr We E1 Hcg HL Hx Hy HM) as (q1 & -> & h1 & N1 & ->).
  destruct (sdr_entry_loaded b (with_load o l2) ref est n2 c d x y M Wr We E2 Hcg HL Hx Hy HM) as (q2 & -> & h2 & N2 & ->).
  apply neg_sdr_antitone. eapply q_load_mono; [|exact Hl|exact N1|exact N2]. exact HP.
Qed.

(** ** References with orthonormal delays *)
Theorem white_load b o ref est m c d x y M : wf ref -> wf est -> use_cg_iter o = None ->
  2 <= filter_length o <= Nat.max (a_len ref) (a_len est) -> a_len ref + filter_length o - 1 <= M ->
  has_chan ref c x -> has_chan est d y ->
  let u := unit_of (pre (zero_mean o) x) in let v := unit_of (pre (zero_mean o) y) in
  (forall i j, i < filter_length o -> j < filter_length o ->
     dot M (delays u i) (delays u j) = if Nat.eqb i j then 1%R else 0%R) ->
  loadv (load_diag o) <> (-1)%R -> pairwise_sdr_loss b o est ref = Ok m ->
  mat_of m c d = coherence_to_neg_sdr (clamp_db o)
    (Fin (Rsum (filter_length o) (fun k => dot M (delays u k) (smp v) ^ 2)%R / (1 + loadv (load_diag o)))).
Proof.
  intros Wr We Hcg HL HM Hx Hy u v HO Hl H. destruct (loss_inv _ _ _ _ _ H) as (m' & E & ->). rewrite to_db_entry.
  destruct (sdr_entry_loaded b o ref est m' c d x y M Wr We E Hcg HL Hx Hy HM) as (q & -> & h & N & ->). do 2 f_equal.
  fold u v in N |- *. set (L := filter_length o) in *. set (ll := loadv (load_diag o)) in *.
  assert (S : forall i, i < L -> ((1 + ll) * h i = dot M (delays u i) (smp v))%R).
  { intros i Hi. rewrite <- (N i Hi), gram_mv, dot_comb_r by auto.
    rewrite (Rsum_ext L _ (fun k => if Nat.eqb k i then h k else 0%R)).
    - rewrite Rsum_delta by auto. ring.
    - intros k Hk. rewrite HO by auto. destruct (Nat.eqb_spec i k), (Nat.eqb_spec k i); try lia; ring. }
  assert (Z : (1 + ll <> 0)%R) by lra. unfold qval, Rdiv. rewrite Rmult_comm, <- Rsum_scal_l. apply Rsum_ext. intros i Hi.
  rewrite <- S by auto. field. auto.
Qed.
Theorem white_load_raises b o ref est c x M : wf ref -> use_cg_iter o = None ->
  2 <= filter_length o <= Nat.max (a_len ref) (a_len est) -> a_len ref + filter_length o - 1 <= M ->
  has_chan ref c x ->
  (forall i j, i < filter_length o -> j < filter_length o ->
     dot M (delays (unit_of (pre (zero_mean o) x)) i) (delays (unit_of (pre (zero_mean o) x)) j) = if Nat.eqb i j then 1%R else 0%R) ->
  loadv (load_diag o) = (-1)%R -> raises (pairwise_sdr_loss b o est ref).
Proof.
  intros Wr Hcg HL HM Hx HO Hl. apply (load_raises_iff b o ref est M); auto.
  exists c, x, (fun k => if Nat.eqb k 0 then 1%R else 0%R). split; auto. split.
  - exists 0. split; [lia|]. simpl. lra.
  - intros i Hi. rewrite Hl. rewrite (Rsum_ext _ _ (fun k => if Nat.eqb k i then (if Nat.eqb k 0 then 1 else 0)%R else 0%R)).
    + rewrite Rsum_delta by auto. lra.
    + intros k Hk. rewrite HO by auto. destruct (Nat.eqb_spec i k), (Nat.eqb_spec k i); try lia; ring.
Qed.

(** ** The SAR *)
Theorem very_negative_sar b o ref est d xs y m sar : wf ref -> wf est -> use_cg_iter o = None -> 1 <= filter_length o ->
  (filter_length o = 1 -> a_len ref = a_len est) -> has_chans ref xs -> has_chan est d y ->
  (forall D, clamp_db o = Some D -> 0 <= D)%R ->
  (loadv (load_diag o) < - INR (filter_length o * n_chan ref))%R -> sq_cos b o ref est = Ok (m, sar) ->
  forall c, snd (bss_mats o (m, sar)) c d = worst_loss o.
Proof.
  intros Wr We Hcg HL HL1 Hx Hy HD Hl H c. simpl.
  assert (P : forall K M a z q, (forall k, k < K -> (energy M (a k) <= 1)%R) -> INR K = INR (filter_length o * n_chan ref) ->
    lsq K M a (loadv (load_diag o)) z q -> (q <= 0)%R).
  { intros K M a z q Ha EK (h & N & ->). rewrite (q_energy _ _ _ _ _ _ N).
    pose proof (comb_energy K M a h Ha) as B. pose proof (sq_nonneg K h). rewrite EK in B. nra. }
  enough (exists q, nth d sar NaN = Fin q /\ (q <= 0)%R) as (q & -> & Hq) by (apply neg_sdr_worst; auto).
  destruct (has_chan_pchan (zero_mean o) est d y We Hy) as [Py Ly].
  assert (H0 : 0 < a_len ref) by apply Wr.
  pose proof (has_chans_clean (zero_mean o) ref xs Wr Hx) as Hcl.
  destruct (Nat.eq_dec (filter_length o) 1) as [E1|N1].
  - destruct (sar_entry1 b o ref est m sar d _ Wr We H E1 (HL1 E1) Hcl (proj1 Hy) Py) as (q & Hq & Eq).
    exists q. split; auto. eapply P; [| |exact Hq].
    + intros i Hi. cbv beta. apply (pchan_energy_le1 (zero_mean o) ref i _ _ Wr (clean_pc _ _ _ Hcl Hi)). auto.
    + rewrite E1, Nat.mul_1_l. reflexivity.
  - destruct (sar_entry b o ref est m sar d _ H Hcg ltac:(lia) Hcl (proj1 Hy) Py) as (B & q & Hq & Eq).
    exists q. split; auto. pose proof (nf_ge_ref (a_len ref) (a_len est) H0) as G2. eapply P; [| |exact Hq]; auto.
    intros i Hi. destruct (lag_split _ _ _ Hi) as (l & c' & Hl' & Hc & ->). rewrite all_cdelays_at by auto.
    rewrite energy_cdelayed by lia. apply (pchan_energy_le1 (zero_mean o) ref c' _ _ Wr (clean_pc _ _ _ Hcl Hc)). auto.
Qed.
Theorem very_negative_bss_ok b o ref est xs : wf ref -> wf est -> use_cg_iter o = None ->
  1 <= filter_length o <= Nat.max (a_len ref) (a_len est) ->
  (filter_length o = 1 -> a_len ref = a_len est) -> has_chans ref xs -> 0 < n_chan ref ->
  (loadv (load_diag o) < - INR (filter_length o * n_chan ref))%R -> is_ok (sq_cos b o ref est).
Proof.
  intros Wr We Hcg HL HL1 Hx Z Hl.
  pose proof (has_chans_clean (zero_mean o) ref xs Wr Hx) as Hcl.
  assert (H0 : 0 < a_len ref) by apply Wr.
  assert (P : forall K M a, (forall k, k < K -> (energy M (a k) <= 1)%R) -> INR K = INR (filter_length o * n_chan ref) ->
    nonsingular K (gram M a (loadv (load_diag o)))).
  { intros K M a Ha EK. apply gram_definite. intros g Hg.
    pose proof (comb_energy K M a g Ha) as B. rewrite EK in B. nra. }
  assert (RC : forall c, c < n_chan ref -> rchan (prep_arr (zero_mean o) ref) c = unit_of (pre (zero_mean o) (xs c)) /\ length (xs c) = a_len ref).
  { intros c Hc. destruct (has_chan_pchan (zero_mean o) ref c (xs c) Wr (has_chans_at _ _ _ Hx Hc)) as [E Hlx].
    unfold rchan. unfold pchan in E. rewrite E. auto. }
  destruct (Nat.eq_dec (filter_length o) 1) as [E1|N1].
  - assert (El := HL1 E1). unfold sq_cos. rewrite E1. simpl Nat.eqb. cbn iota. unfold bc_len.
    rewrite <- El, Nat.eqb_refl. cbn [bind].
    destruct (len1_sar_ok (a_len ref) (load_diag o) (prep_arr (zero_mean o) ref) (prep_arr (zero_mean o) est))
      as (sar & ->); [| |eexists; reflexivity].
    + intros c Hc. rewrite length_prep in Hc. destruct (RC c Hc) as [-> Lx]. rewrite length_unit_of, length_pre. auto.
    + rewrite length_prep. apply P.
      * intros k Hk. destruct (RC k Hk) as [-> Lx]. apply energy_unit_le1. rewrite length_pre. lia.
      * rewrite E1, Nat.mul_1_l. reflexivity.
  - pose proof (n_fft_ge (a_len ref) (a_len est) H0) as Hnf. rewrite sq_cos_cells by lia.
    assert (H2 : (loadv (load_diag o) < - INR (filter_length o))%R).
    { assert (INR (filter_length o) <= INR (filter_length o * n_chan ref))%R; [|lra]. apply le_INR. nia. }
    destruct (sdr_coh_solvable b o ref est Wr Hcg ltac:(lia)) as [m Em].
    { intros c x Hc. apply gram_definite. intros g Hg.
      destruct (has_chan_pchan (zero_mean o) ref c x Wr Hc) as [_ Lx].
      pose proof (neg_form o ref est Wr ltac:(lia) x _ _ H2 Lx eq_refl g). nra. }
    rewrite Em. cbn [bind]. rewrite Hcg.
    destruct (sar_row_ok b (n_fft (a_len ref) (a_len est)) (filter_length o) (load_diag o) true
        (prep_arr (zero_mean o) ref) (prep_arr (zero_mean o) est)) as (sar & ->); auto; try lia.
    + apply clean_tainted. exact Hcl.
    + rewrite length_prep. apply P; [|auto].
      intros i Hi. destruct (lag_split _ _ _ Hi) as (l & c' & Hl' & Hc & ->). rewrite all_cdelays_at by auto.
      rewrite energy_cdelayed by lia. destruct (RC c' Hc) as [-> Lx]. apply energy_unit_le1. rewrite length_pre.
      pose proof (nf_ge_ref (a_len ref) (a_len est) H0). lia.
    + eexists; reflexivity.
Qed.
