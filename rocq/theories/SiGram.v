(** * With one tap, the metrics depend on the inner products of the signals only *)
From Coq Require Import Reals Lra.
From Verif Require Import Prelude ExtReal Spec SpecSig Sums Helpers Linalg LinalgProofs Metrics StatsProofs LeastSq
  PrepProofs DbProofs MetricsProofs SarProofs ProjTheorems MetricTheorems Invariance Symmetry Witness TensorOps.
Local Open Scope nat_scope.

(** all signals of the one problem have the inner products of the signals of the other one *)
Definition same_gram (zm : bool) (nr ne n n' : nat) (xs ys xs' ys' : nat -> list R) : Prop :=
  (forall c c', c < nr -> c' < nr ->
     dot n (smp (pre zm (xs c))) (smp (pre zm (xs c'))) = dot n' (smp (pre zm (xs' c))) (smp (pre zm (xs' c')))) /\
  (forall c d, c < nr -> d < ne ->
     dot n (smp (pre zm (xs c))) (smp (pre zm (ys d))) = dot n' (smp (pre zm (xs' c))) (smp (pre zm (ys' d)))) /\
  (forall d, d < ne -> energy n (smp (pre zm (ys d))) = energy n' (smp (pre zm (ys' d)))).

Lemma gain_energy n x : length x = n -> gain x = (/ Rmax (sqrt (energy n (smp x))) norm_eps)%R.
Proof.
  intros <-. unfold gain, norm2. do 3 f_equal. unfold energy, dot. apply Rsum_ext. intros; ring.
Qed.
Lemma ip_unit n x y : length x = n -> length y = n ->
  ip n (unit_of x) (unit_of y) = (gain x * gain y * dot n (smp x) (smp y))%R.
Proof.
  intros Hx Hy. rewrite ip_dot by (rewrite length_unit_of; auto). unfold dot. rewrite <- Rsum_scal_l.
  apply Rsum_ext. intros t _. rewrite !smp_unit_of. ring.
Qed.

Section Gram.
Variables (b : backend) (sp : scipy_lsa) (o : opts) (ref est ref' est' : arr) (xs ys xs' ys' : nat -> list R).
Hypotheses (Wr : wf ref) (We : wf est) (Wr' : wf ref') (We' : wf est').
Hypotheses (Nr : n_chan ref' = n_chan ref) (Ne : n_chan est' = n_chan est).
Hypotheses (Hl : a_len ref = a_len est) (Hl' : a_len ref' = a_len est').
Hypotheses (Hx : has_chans ref xs) (Hy : has_chans est ys) (Hx' : has_chans ref' xs') (Hy' : has_chans est' ys').
Hypothesis HL : filter_length o = 1.
Hypothesis HG : same_gram (zero_mean o) (n_chan ref) (n_chan est) (a_len ref) (a_len ref') xs ys xs' ys'.
Local Notation zm := (zero_mean o).

Lemma len_chan a zs c : wf a -> has_chans a zs -> c < n_chan a -> length (pre zm (zs c)) = a_len a.
Proof.
  intros W H Hc. rewrite length_pre. apply (has_chan_pchan zm a c (zs c) W). apply has_chans_at; auto.
Qed.
Lemma nth_prep a zs c : wf a -> has_chans a zs -> c < n_chan a ->
  nth c (prep_arr zm a) None = Some (unit_of (pre zm (zs c))).
Proof. intros W H Hc. apply (has_chan_pchan zm a c (zs c) W). apply has_chans_at; auto. Qed.
Lemma gr c : c < n_chan ref -> gain (pre zm (xs c)) = gain (pre zm (xs' c)).
Proof.
  intros Hc. rewrite (gain_energy (a_len ref)) by (apply len_chan; auto).
  rewrite (gain_energy (a_len ref')) by (apply len_chan; auto; lia). unfold energy. rewrite (proj1 HG) by auto. reflexivity.
Qed.
Lemma ge d : d < n_chan est -> gain (pre zm (ys d)) = gain (pre zm (ys' d)).
Proof.
  intros Hc. rewrite (gain_energy (a_len est)) by (apply len_chan; auto).
  rewrite (gain_energy (a_len est')) by (apply len_chan; auto; lia).
  rewrite <- Hl, <- Hl', (proj2 (proj2 HG)) by auto. reflexivity.
Qed.
Lemma ip_rr c c' : c < n_chan ref -> c' < n_chan ref ->
  ip (a_len ref) (unit_of (pre zm (xs c))) (unit_of (pre zm (xs c'))) =
  ip (a_len ref') (unit_of (pre zm (xs' c))) (unit_of (pre zm (xs' c'))).
Proof.
  intros Hc Hc'. rewrite !ip_unit by (apply len_chan; auto; lia). rewrite !gr by auto. rewrite (proj1 HG) by auto. reflexivity.
Qed.
Lemma ip_re c d : c < n_chan ref -> d < n_chan est ->
  ip (a_len ref) (unit_of (pre zm (xs c))) (unit_of (pre zm (ys d))) =
  ip (a_len ref') (unit_of (pre zm (xs' c))) (unit_of (pre zm (ys' d))).
Proof.
  intros Hc Hd.
  rewrite (ip_unit (a_len ref) (pre zm (xs c)) (pre zm (ys d)))
    by (first [apply (len_chan ref xs); auto; fail|rewrite Hl; apply (len_chan est ys); auto]).
  rewrite (ip_unit (a_len ref') (pre zm (xs' c)) (pre zm (ys' d)))
    by (first [apply (len_chan ref' xs'); auto; lia|rewrite Hl'; apply (len_chan est' ys'); auto; lia]).
  rewrite gr, ge by auto. rewrite (proj1 (proj2 HG)) by auto. reflexivity.
Qed.

Lemma pairs c d : c < n_chan ref -> d < n_chan est ->
  lift2 (fun u v => ip (a_len ref) u v ^ 2)%R (nth c (prep_arr zm ref) None) (nth d (prep_arr zm est) None) =
  lift2 (fun u v => ip (a_len ref') u v ^ 2)%R (nth c (prep_arr zm ref') None) (nth d (prep_arr zm est') None).
Proof.
  intros Hc Hd. rewrite (nth_prep ref xs), (nth_prep est ys), (nth_prep ref' xs'), (nth_prep est' ys') by (auto; lia).
  cbn [lift2]. rewrite ip_re by auto. reflexivity.
Qed.
Lemma gram_len1_sdr : len1_sdr (a_len ref) (prep_arr zm ref) (prep_arr zm est) =
  len1_sdr (a_len ref') (prep_arr zm ref') (prep_arr zm est').
Proof.
  unfold len1_sdr. apply (map_nth_eq _ _ _ _ (None : chan)); [rewrite !length_prep; auto|].
  rewrite length_prep. intros c Hc. apply (map_nth_eq _ _ _ _ (None : chan)); [rewrite !length_prep; auto|].
  rewrite length_prep. intros d Hd. apply pairs; auto.
Qed.
Lemma gram_len1_sar : len1_sar (a_len ref) (a_len ref) (load_diag o) (prep_arr zm ref) (prep_arr zm est) =
  len1_sar (a_len ref') (a_len ref') (load_diag o) (prep_arr zm ref') (prep_arr zm est').
Proof.
  unfold len1_sar.
  replace (existsb tainted (prep_arr zm ref)) with false.
  2:{ symmetry. apply clean_tainted. apply (has_chans_clean zm ref xs); auto. }
  replace (existsb tainted (prep_arr zm ref')) with false.
  2:{ symmetry. apply clean_tainted. apply (has_chans_clean zm ref' xs'); auto. }
  cbv zeta. rewrite !length_prep, Nr, Ne.
  set (acm := fun c d => (ip (a_len ref) _ _ + _)%R). set (acm' := fun c d => (ip (a_len ref') _ _ + _)%R).
  set (xc := fun c d => ip (a_len ref) _ _). set (xc' := fun c d => ip (a_len ref') _ _).
  assert (EX : forall c d, c < n_chan ref -> d < n_chan est -> xc c d = xc' c d).
  { intros c d Hc Hd. unfold xc, xc'.
    rewrite (nth_prep ref xs), (nth_prep est ys), (nth_prep ref' xs'), (nth_prep est' ys') by (auto; lia).
    cbn [opt0]. apply ip_re; auto. }
  assert (EA : forall i j, i < n_chan ref -> j < n_chan ref -> acm i j = acm' i j).
  { intros i j Hi Hj. unfold acm, acm'.
    rewrite !(nth_prep ref xs), !(nth_prep ref' xs') by (auto; lia). cbn [opt0]. rewrite ip_rr by auto. reflexivity. }
  pose proof (solve_cols_ext (n_chan ref) (n_chan est) acm acm' xc xc' EA EX) as HS.
  destruct (solve_cols (n_chan ref) (n_chan est) acm xc) as [X|e], (solve_cols (n_chan ref) (n_chan est) acm' xc') as [X'|e'];
    cbn [bind]; try contradiction; try congruence.
  f_equal. apply tab_ext. intros d Hd.
  replace (tainted (nth d (prep_arr zm est) None)) with false by (rewrite (nth_prep est ys) by auto; reflexivity).
  replace (tainted (nth d (prep_arr zm est') None)) with false by (rewrite (nth_prep est' ys') by (auto; lia); reflexivity).
  f_equal. apply Rsum_ext. intros c Hc. f_equal; [exact (EX c d Hc Hd)|apply HS; auto].
Qed.

Lemma bc_len_self n : bc_len b n n = Ok n.
Proof. unfold bc_len. rewrite Nat.eqb_refl. reflexivity. Qed.
Lemma gram_sdr_coh : sdr_coh b o ref est = sdr_coh b o ref' est'.
Proof.
  unfold sdr_coh. rewrite HL. cbn [Nat.eqb]. rewrite <- Hl, <- Hl', !bc_len_self. cbn [bind].
  rewrite gram_len1_sdr. reflexivity.
Qed.
Lemma gram_sq_cos : sq_cos b o ref est = sq_cos b o ref' est'.
Proof.
  unfold sq_cos. rewrite HL. cbn [Nat.eqb]. rewrite <- Hl, <- Hl', !bc_len_self. cbn [bind].
  rewrite gram_len1_sdr, gram_len1_sar. reflexivity.
Qed.
Lemma bc_chan_bound nr ne k i : bc_chan b o nr ne = Ok k -> i < k ->
  (if Nat.eqb nr 1 then 0 else i) < nr /\ (if Nat.eqb ne 1 then 0 else i) < ne.
Proof.
  unfold bc_chan. destruct (Nat.eqb_spec nr ne) as [->|N].
  - intros [= <-] Hi. destruct (Nat.eqb_spec ne 1); lia.
  - destruct (Nat.eqb_spec ne 1) as [->|N1].
    + intros [= <-] Hi. destruct (Nat.eqb_spec nr 1); lia.
    + destruct (Nat.eqb_spec nr 1) as [->|N2]; [|discriminate].
      destruct b, (use_cg_iter o); try (intros [= <-]; lia); destruct (filter_length o =? 1); intros [= <-]; lia.
Qed.
Lemma gram_sdr_coh_diag : sdr_coh_diag b o ref est = sdr_coh_diag b o ref' est'.
Proof.
  unfold sdr_coh_diag. rewrite !HL. cbn [Nat.eqb]. rewrite <- Hl, <- Hl', !bc_len_self. cbn [bind].
  rewrite !length_prep, Nr, Ne.
  destruct (bc_chan b o (n_chan ref) (n_chan est)) as [k|e] eqn:Ek; cbn [bind]; [|reflexivity].
  f_equal. apply tab_ext. intros i Hi. destruct (bc_chan_bound _ _ _ i Ek Hi) as [B1 B2].
  unfold bc_pick. rewrite !length_prep, Nr, Ne. pose proof (pairs _ _ B1 B2) as P.
  destruct (n_chan ref =? 1), (n_chan est =? 1); exact P.
Qed.
Lemma gram_sq_cos_diag : n_chan ref = n_chan est -> sq_cos_diag b o ref est = sq_cos_diag b o ref' est'.
Proof.
  intros Hn. unfold sq_cos_diag. rewrite HL. cbn [Nat.eqb]. rewrite <- Hl, <- Hl', !bc_len_self. cbn [bind].
  rewrite gram_len1_sar. destruct (len1_sar _ _ _ _ _) as [s|e]; cbn [bind]; [|reflexivity].
  rewrite !length_prep, Nr. f_equal. f_equal. apply tab_ext. intros i Hi. apply pairs; auto. rewrite <- Hn. auto.
Qed.

Theorem si_gram cs :
  pairwise_sdr_loss b o est ref = pairwise_sdr_loss b o est' ref' /\
  sdr_loss b o est ref = sdr_loss b o est' ref' /\
  sdr b sp o cs ref est = sdr b sp o cs ref' est' /\
  sdr_pit_loss b sp o est ref = sdr_pit_loss b sp o est' ref' /\
  bss_eval_sources b sp o ref est = bss_eval_sources b sp o ref' est' /\
  (n_chan ref = n_chan est -> bss_eval_sources_noperm b o ref est = bss_eval_sources_noperm b o ref' est').
Proof.
  assert (E1 : pairwise_sdr_loss b o est ref = pairwise_sdr_loss b o est' ref').
  { unfold pairwise_sdr_loss. rewrite gram_sdr_coh. reflexivity. }
  assert (E2 : forall cs, sdr b sp o cs ref est = sdr b sp o cs ref' est').
  { intros cs'. unfold sdr. rewrite E1, Nr, Ne. reflexivity. }
  split; [exact E1|]. split; [unfold sdr_loss; rewrite gram_sdr_coh_diag; reflexivity|].
  split; [apply E2|]. split; [unfold sdr_pit_loss; rewrite E2; reflexivity|].
  split; [unfold bss_eval_sources; rewrite gram_sq_cos, Nr, Ne; reflexivity|].
  intros Hn. unfold bss_eval_sources_noperm. rewrite (gram_sq_cos_diag Hn), Nr, Ne. reflexivity.
Qed.
End Gram.

(** ** Orthogonal transforms and permutations of the samples *)
(** the matrix q, with n columns and n' rows, applied to a signal *)
Definition transform (n n' : nat) (q : nat -> nat -> R) (x : list R) : list R :=
  tab n' (fun t => Rsum n (fun u => q t u * smp x u)%R).
Definition isometry (n n' : nat) (q : nat -> nat -> R) : Prop :=
  forall u v, u < n -> v < n -> Rsum n' (fun t => q t u * q t v)%R = if Nat.eqb u v then 1%R else 0%R.
Lemma smp_transform n n' q x t : t < n' -> smp (transform n n' q x) t = Rsum n (fun u => q t u * smp x u)%R.
Proof. intros H. unfold transform, smp at 1. rewrite nth_tab by auto. reflexivity. Qed.
Lemma transform_dot n n' q x y : isometry n n' q ->
  dot n' (smp (transform n n' q x)) (smp (transform n n' q y)) = dot n (smp x) (smp y).
Proof.
  intros H. unfold dot.
  rewrite (Rsum_ext n' _ (fun t => Rsum n (fun u => Rsum n (fun v => q t u * q t v * (smp x u * smp y v))%R))).
  2:{ intros t Ht. rewrite !smp_transform by auto. rewrite Rsum_mul.
      apply Rsum_ext. intros u Hu. apply Rsum_ext. intros v Hv. ring. }
  rewrite Rsum_swap. apply Rsum_ext. intros u Hu. rewrite Rsum_swap.
  rewrite (Rsum_ext n _ (fun v => if Nat.eqb v u then (smp x u * smp y v)%R else 0%R)).
  - apply (Rsum_delta n u (fun v => smp x u * smp y v)%R). auto.
  - intros v Hv. rewrite Rsum_scal_r, H by auto. rewrite (Nat.eqb_sym v u). destruct (u =? v); ring.
Qed.
(** the samples of x in another order *)
Definition reorder (n : nat) (pi : nat -> nat) (x : list R) : list R := tab n (fun t => smp x (pi t)).
Lemma smp_reorder n pi x t : t < n -> smp (reorder n pi x) t = smp x (pi t).
Proof. intros H. unfold reorder, smp at 1. rewrite nth_tab by auto. reflexivity. Qed.
Lemma reorder_dot n pi x y : perm_of n pi ->
  dot n (smp (reorder n pi x)) (smp (reorder n pi y)) = dot n (smp x) (smp y).
Proof.
  intros H. unfold dot. rewrite <- (Rsum_perm n pi (fun t => smp x t * smp y t)%R H). apply Rsum_ext. intros t Ht. rewrite !smp_reorder by auto. reflexivity.
Qed.
Lemma reorder_pre zm n pi x : perm_of n pi -> length x = n -> pre zm (reorder n pi x) = reorder n pi (pre zm x).
Proof.
  intros H Hx. destruct zm; [|reflexivity]. simpl pre. unfold centered.
  assert (E : mean (reorder n pi x) = mean x).
  { unfold mean. unfold reorder at 1 3. rewrite length_tab, Hx. f_equal.
    rewrite (Rsum_ext n _ (fun t => smp x (pi t))) by (intros; apply smp_reorder; auto). apply (Rsum_perm n pi (smp x) H). }
  rewrite E. unfold reorder, tab. rewrite map_map. apply map_ext_in. intros t Ht. apply in_seq in Ht.
  unfold smp. rewrite nth_map_R; [reflexivity|]. rewrite Hx. apply H. lia.
Qed.

(** the problem made of the transformed channels *)
Definition on_chans (n' : nat) (f : list R -> list R) (k : nat) (zs : nat -> list R) : arr := rarr n' (tab k (fun c => f (zs c))).
Lemma on_chans_wf n' f k zs : 0 < n' -> (forall x, length (f x) = n') -> wf (on_chans n' f k zs).
Proof.
  intros H Hf. apply rarr_wf; auto. apply Forall_forall. intros v Hv. unfold tab in Hv. apply in_map_iff in Hv.
  destruct Hv as (c & <- & _). apply Hf.
Qed.
Lemma on_chans_n n' f k zs : n_chan (on_chans n' f k zs) = k.
Proof. unfold n_chan, on_chans, rarr. simpl. rewrite map_length. apply length_tab. Qed.
Lemma on_chans_chans n' f k zs : has_chans (on_chans n' f k zs) (fun c => f (zs c)).
Proof.
  intros c Hc. rewrite on_chans_n in Hc. unfold on_chans, rarr. simpl.
  rewrite (nth_indep _ [] (map Fin [])) by (rewrite map_length, length_tab; auto).
  rewrite map_nth, nth_tab by auto. reflexivity.
Qed.
Theorem si_orthogonal b sp o cs ref est xs ys n' q : wf ref -> wf est -> has_chans ref xs -> has_chans est ys ->
  filter_length o = 1 -> zero_mean o = false -> a_len ref = a_len est -> 0 < n' -> isometry (a_len ref) n' q ->
  let f := transform (a_len ref) n' q in
  let ref' := on_chans n' f (n_chan ref) xs in let est' := on_chans n' f (n_chan est) ys in
  pairwise_sdr_loss b o est ref = pairwise_sdr_loss b o est' ref' /\
  sdr_loss b o est ref = sdr_loss b o est' ref' /\
  sdr b sp o cs ref est = sdr b sp o cs ref' est' /\
  sdr_pit_loss b sp o est ref = sdr_pit_loss b sp o est' ref' /\
  bss_eval_sources b sp o ref est = bss_eval_sources b sp o ref' est' /\
  (n_chan ref = n_chan est -> bss_eval_sources_noperm b o ref est = bss_eval_sources_noperm b o ref' est').
Proof.
  intros Wr We Hx Hy HL Hz Hl Hn Hq f ref' est'.
  apply (si_gram b sp o ref est ref' est' xs ys (fun c => f (xs c)) (fun d => f (ys d))); auto.
  - apply on_chans_wf; auto. intros x. apply length_tab.
  - apply on_chans_wf; auto. intros x. apply length_tab.
  - apply on_chans_n.
  - apply on_chans_n.
  - apply on_chans_chans.
  - apply on_chans_chans.
  - rewrite Hz. change (a_len ref') with n'. unfold same_gram, energy. simpl pre. unfold f.
    repeat split; intros; symmetry; apply transform_dot; auto.
Qed.
Theorem si_reorder b sp o cs ref est xs ys pi : wf ref -> wf est -> has_chans ref xs -> has_chans est ys ->
  filter_length o = 1 -> a_len ref = a_len est -> perm_of (a_len ref) pi ->
  let f := reorder (a_len ref) pi in
  let ref' := on_chans (a_len ref) f (n_chan ref) xs in let est' := on_chans (a_len ref) f (n_chan est) ys in
  pairwise_sdr_loss b o est ref = pairwise_sdr_loss b o est' ref' /\
  sdr_loss b o est ref = sdr_loss b o est' ref' /\
  sdr b sp o cs ref est = sdr b sp o cs ref' est' /\
  sdr_pit_loss b sp o est ref = sdr_pit_loss b sp o est' ref' /\
  bss_eval_sources b sp o ref est = bss_eval_sources b sp o ref' est' /\
  (n_chan ref = n_chan est -> bss_eval_sources_noperm b o ref est = bss_eval_sources_noperm b o ref' est').
Proof.
  intros Wr We Hx Hy HL Hl Hp f ref' est'.
  assert (H0 : 0 < a_len ref) by apply Wr.
  assert (Lx : forall c, c < n_chan ref -> length (xs c) = a_len ref).
  { intros c Hc. apply (has_chan_pchan (zero_mean o) ref c (xs c) Wr). apply has_chans_at; auto. }
  assert (Ly : forall c, c < n_chan est -> length (ys c) = a_len ref).
  { intros c Hc. rewrite Hl. apply (has_chan_pchan (zero_mean o) est c (ys c) We). apply has_chans_at; auto. }
  apply (si_gram b sp o ref est ref' est' xs ys (fun c => f (xs c)) (fun d => f (ys d))); auto.
  - apply on_chans_wf; auto. intros x. apply length_tab.
  - apply on_chans_wf; auto. intros x. apply length_tab.
  - apply on_chans_n.
  - apply on_chans_n.
  - apply on_chans_chans.
  - apply on_chans_chans.
  - change (a_len ref') with (a_len ref). unfold same_gram, energy, f.
    repeat split; intros; rewrite !reorder_pre by auto; symmetry; apply reorder_dot; auto.
Qed.
