(** * Remixed and additional references (C69) *)
From Coq Require Import Reals Lra.
From Verif Require Import Prelude ExtReal Slice Sums Spec SpecSig Fft FftProofs Helpers HelpersProofs
  PermProofs DbProofs Linalg LinalgProofs Cgd Metrics StatsProofs LeastSq PrepProofs MetricsProofs SarProofs
  ProjTheorems MetricTheorems Outputs Solvability.
Local Open Scope nat_scope.

(** ** Spans *)
Lemma in_span_sum K M a n (g : nat -> R) (u : nat -> nat -> R) :
  (forall i, i < n -> in_span K M a (u i)) -> in_span K M a (fun t => Rsum n (fun i => g i * u i t)%R).
Proof.
  induction n; intros H.
  - exists (fun _ => 0%R). intros t _. cbn. symmetry. apply Rsum_zero. intros; ring.
  - destruct IHn as [h Hh]; [auto|]. destruct (H n) as [w Hw]; [lia|].
    exists (fun k => h k + g n * w k)%R. intros t Ht. cbn. rewrite Hh, Hw by auto.
    rewrite <- Rsum_scal_l, <- Rsum_plus. apply Rsum_ext. intros; ring.
Qed.
Lemma in_span_ext K M a u v : (forall t, t < M -> u t = v t) -> in_span K M a u -> in_span K M a v.
Proof. intros H [g Hg]. exists g. intros t Ht. rewrite <- H by auto. auto. Qed.
Lemma in_span_basis K M a k : k < K -> in_span K M a (a k).
Proof.
  intros Hk. exists (fun i => if i =? k then 1 else 0)%R. intros t Ht.
  rewrite (Rsum_single _ k); [|auto|intros i Hi Ni; cbv beta; destruct (Nat.eqb_spec i k); [contradiction|ring]].
  rewrite Nat.eqb_refl. ring.
Qed.
Lemma in_span_trans K K' M a a' p : (forall k, k < K' -> in_span K M a (a' k)) ->
  in_span K' M a' p -> in_span K M a p.
Proof.
  intros H [g Hg]. eapply in_span_ext; [|apply (in_span_sum K M a K' g a' H)]. intros t Ht. rewrite Hg; auto.
Qed.
Lemma span_orth K M a u z : in_span K M a u -> (forall k, k < K -> dot M (a k) z = 0%R) -> dot M u z = 0%R.
Proof.
  intros [g Hg] H. rewrite (dot_ext M _ (fun t => Rsum K (fun k => g k * a k t)%R) _ z) by auto.
  unfold dot. rewrite (Rsum_ext M _ (fun t => Rsum K (fun k => g k * (a k t * z t))%R)).
  - rewrite Rsum_swap. apply Rsum_zero. intros k Hk. rewrite Rsum_scal_l. unfold dot in H. rewrite H by auto. ring.
  - intros t _. rewrite Rmult_comm, <- Rsum_scal_l. apply Rsum_ext. intros; ring.
Qed.
Definition same_span (M K : nat) (a : nat -> nat -> R) (K' : nat) (a' : nat -> nat -> R) : Prop :=
  (forall k, k < K' -> in_span K M a (a' k)) /\ (forall k, k < K -> in_span K' M a' (a k)).
Lemma projection_span M K a K' a' y p : same_span M K a K' a' ->
  is_projection K M a y p -> is_projection K' M a' y p.
Proof.
  intros [H H'] [S O]. split.
  - apply (in_span_trans K' K M a' a p); auto.
  - intros k Hk. apply (span_orth K M a); auto.
Qed.
Lemma lsq_span M K a K' a' y q q' : same_span M K a K' a' -> lsq K M a 0 y q -> lsq K' M a' 0 y q' -> q = q'.
Proof.
  intros HS H H'. destruct (lsq_has_proj _ _ _ _ _ H) as [p P].
  rewrite (lsq_proj _ _ _ _ _ _ H P). symmetry. apply (lsq_proj _ _ _ _ _ _ H').
  apply (projection_span M K a K' a'); auto.
Qed.
Lemma in_span_smul K M a u s : in_span K M a u -> in_span K M a (fun t => s * u t)%R.
Proof. intros [g Hg]. exists (fun k => s * g k)%R. intros t Ht. rewrite Hg, <- Rsum_scal_l by auto. apply Rsum_ext. intros; ring. Qed.

(** ** Remixing *)
(** every xs' c is a linear combination of the xs i *)
Definition mixes (K : nat) (xs : nat -> list R) (K' : nat) (xs' : nat -> list R) : Prop :=
  exists A : nat -> nat -> R, forall c t, c < K' -> smp (xs' c) t = Rsum K (fun i => A c i * smp (xs i) t)%R.

Lemma smp_pre zm n x t : length x = n -> smp (pre zm x) t =
  if t <? n then (smp x t - if zm then Rsum n (smp x) / INR n else 0)%R else 0%R.
Proof.
  intros <-. destruct (Nat.ltb_spec t (length x)) as [H|H].
  - destruct zm; cbn [pre]; [|ring]. unfold centered, smp. rewrite nth_map_R by auto. reflexivity.
  - unfold smp. apply nth_overflow. rewrite length_pre. auto.
Qed.
Lemma mixes_pre zm n K xs K' xs' : (forall c, c < K -> length (xs c) = n) -> (forall c, c < K' -> length (xs' c) = n) ->
  mixes K xs K' xs' -> mixes K (fun c => pre zm (xs c)) K' (fun c => pre zm (xs' c)).
Proof.
  intros H H' [A HA]. exists A. intros c t Hc. rewrite (smp_pre zm n) by auto.
  rewrite (Rsum_ext K _ (fun i => A c i * if t <? n then (smp (xs i) t - if zm then Rsum n (smp (xs i)) / INR n else 0)%R else 0)%R)
    by (intros i Hi; rewrite (smp_pre zm n) by auto; reflexivity).
  destruct (t <? n).
  2:{ symmetry. apply Rsum_zero. intros; ring. }
  rewrite (Rsum_ext K _ (fun i => A c i * smp (xs i) t + (-1) * (A c i * if zm then Rsum n (smp (xs i)) / INR n else 0))%R)
    by (intros; ring).
  rewrite Rsum_plus, Rsum_scal_l, <- HA by auto. unfold Rminus. f_equal.
  destruct zm.
  2:{ rewrite Rsum_zero by (intros; ring). ring. }
  rewrite (Rsum_ext n (smp (xs' c)) (fun s => Rsum K (fun i => A c i * smp (xs i) s)%R)) by auto.
  rewrite Rsum_swap. unfold Rdiv. rewrite (Rmult_comm (Rsum K _)), <- Rsum_scal_l.
  rewrite (Rsum_ext K (fun i => A c i * (Rsum n (smp (xs i)) * / INR n))%R
    (fun i => / INR n * Rsum n (fun s => A c i * smp (xs i) s))%R); [ring|].
  intros i _. rewrite Rsum_scal_l. ring.
Qed.
Lemma mixes_delays L M K xs K' xs' : mixes K xs K' xs' -> 0 < K ->
  forall k, k < L * K' -> in_span (L * K) M (all_delays K xs) (all_delays K' xs' k).
Proof.
  intros [A HA] HK k Hk. destruct (lag_split K' L k Hk) as (l & c & Hl & Hc & ->).
  unfold all_delays at 2. rewrite lag_div, lag_mod by auto.
  eapply in_span_ext; [|apply (in_span_sum (L * K) M (all_delays K xs) K (A c) (fun i => all_delays K xs (l * K + i)))].
  - intros t _. cbv beta.
    rewrite (Rsum_ext K _ (fun i => A c i * delayed (xs i) l t)%R).
    + unfold delayed. destruct (t <? l); [apply Rsum_zero; intros; ring|]. rewrite HA by auto. reflexivity.
    + intros i Hi. unfold all_delays. rewrite lag_div, lag_mod by auto. reflexivity.
  - intros i Hi. apply in_span_basis. nia.
Qed.
Lemma unit_span L M K xs : 0 < K ->
  same_span M (L * K) (all_delays K (fun c => unit_of (xs c))) (L * K) (all_delays K xs).
Proof.
  intros HK. split; intros k Hk.
  - eapply in_span_ext; [|exact (in_span_smul _ M _ _ (/ gain (xs (k mod K))) (in_span_basis (L * K) M _ k Hk))].
    intros t _. cbv beta. unfold all_delays. rewrite delayed_unit. pose proof (gain_pos (xs (k mod K))). field. lra.
  - eapply in_span_ext; [|exact (in_span_smul _ M _ _ (gain (xs (k mod K))) (in_span_basis (L * K) M _ k Hk))].
    intros t _. cbv beta. unfold all_delays. rewrite delayed_unit. reflexivity.
Qed.
Lemma same_span_sym M K a K' a' : same_span M K a K' a' -> same_span M K' a' K a.
Proof. intros [A B]. split; auto. Qed.
Lemma same_span_trans M K a K' a' K2 a2 : same_span M K a K' a' -> same_span M K' a' K2 a2 -> same_span M K a K2 a2.
Proof.
  intros [A B] [C D]. split; intros k Hk.
  - apply (in_span_trans K K' M a a'); auto.
  - apply (in_span_trans K2 K' M a2 a'); auto.
Qed.

Theorem sar_remix b o ref ref' est m sar m' sar' d xs xs' y : wf ref -> wf ref' -> wf est ->
  use_cg_iter o = None -> load_diag o = None -> a_len ref = a_len ref' -> 0 < n_chan ref -> 0 < n_chan ref' ->
  1 <= filter_length o <= Nat.max (a_len ref) (a_len est) ->
  (filter_length o = 1 -> a_len ref = a_len est) ->
  has_chans ref xs -> has_chans ref' xs' -> has_chan est d y ->
  mixes (n_chan ref) xs (n_chan ref') xs' -> mixes (n_chan ref') xs' (n_chan ref) xs ->
  sq_cos b o ref est = Ok (m, sar) -> sq_cos b o ref' est = Ok (m', sar') ->
  nth d sar NaN = nth d sar' NaN.
Proof.
  intros Hwr Hwr' Hwe Hcg Hld Hl HK HK' HL HL1 Hx Hx' Hy M1 M2 H H'.
  set (M := a_len ref + filter_length o + a_len est).
  destruct (sar_entry_plain b o ref est m sar d xs y M) as (q & -> & Hq); auto; try (unfold M; lia).
  destruct (sar_entry_plain b o ref' est m' sar' d xs' y M) as (q' & -> & Hq'); auto; try (unfold M; lia).
  f_equal. eapply lsq_span; [|exact Hq|exact Hq'].
  assert (A : forall c, c < n_chan ref -> length (xs c) = a_len ref).
  { intros c Hc. apply (has_chan_pchan (zero_mean o) ref c (xs c) Hwr). apply has_chans_at; auto. }
  assert (A' : forall c, c < n_chan ref' -> length (xs' c) = a_len ref).
  { intros c Hc. rewrite Hl. apply (has_chan_pchan (zero_mean o) ref' c (xs' c) Hwr'). apply has_chans_at; auto. }
  eapply same_span_trans; [apply (unit_span _ M _ (fun c => pre (zero_mean o) (xs c))); auto|].
  eapply same_span_trans; [|apply same_span_sym, (unit_span _ M _ (fun c => pre (zero_mean o) (xs' c))); auto].
  split; apply mixes_delays; auto; eapply mixes_pre; eauto.
Qed.

(** what bss_eval_sources reports for an estimate *)
Lemma bss_at b sp o ref est s i a perm k : lsa_contract sp ->
  bss_eval_sources b sp o ref est = Ok (s, i, a, perm) -> k < length s ->
  exists m sar c d, sq_cos b o ref est = Ok (m, sar) /\
    nth k (matching (n_chan ref) (n_chan est) perm) (0, 0) = (c, d) /\ c < n_chan ref /\ d < n_chan est /\
    snd (fst (base_metrics o (mat_of m c d) (nth d sar NaN))) <> NaN /\
    (nth k s NaN, nth k i NaN, nth k a NaN) =
    let '(ns, ni, na) := base_metrics o (mat_of m c d) (nth d sar NaN) in (xneg ns, xneg ni, xneg na).
Proof.
  intros Hsp H Hk.
  destruct (bss_outputs b sp o ref est s i a perm Hsp H) as ([m sar] & Hc & O).
  unfold bss_eval_sources in H. rewrite Hc in H. cbn [bind] in H.
  unfold bss_mats in *. cbv beta iota zeta in H, O.
  destruct (solve_permutation b sp (n_chan ref) (n_chan est) _ _) as [[[v ar] p]|] eqn:E; [|discriminate].
  assert (Hn : forall c d, c < n_chan ref -> d < n_chan est ->
    snd (fst (base_metrics o (mat_of m c d) (nth d sar NaN))) <> NaN).
  { intros c d Hc0 Hd.
    apply (proj1 (solve_perm_total_iff sp Hsp b _ _ _ _) (ex_intro _ _ E)); auto. }
  destruct O as (Hcomp & _ & _ & _ & -> & -> & ->). rewrite map_length in Hk.
  assert (Hm : forall (f : nat * nat -> xr) l k, k < length l -> nth k (map f l) NaN = f (nth k l (0, 0))).
  { intros f l k0 Hk0. rewrite (nth_indep _ NaN (f (0, 0))) by (rewrite map_length; auto). apply map_nth. }
  rewrite !Hm by auto. pose proof (nth_In _ (0, 0) Hk) as Hin.
  destruct (nth k (matching (n_chan ref) (n_chan est) perm) (0, 0)) as [c d] eqn:Ek.
  destruct Hcomp as (_ & Hr & _). destruct (Hr c d Hin) as (Hc0 & Hd).
  exists m, sar, c, d. repeat split; auto.
Qed.

(** the SAR reported for an estimate does not depend on the mixing of the references *)
Theorem bss_remix b sp o ref ref' est s i a perm s' i' a' perm' xs xs' ys k k' c c' d :
  lsa_contract sp -> wf ref -> wf ref' -> wf est ->
  use_cg_iter o = None -> load_diag o = None -> a_len ref = a_len ref' ->
  1 <= filter_length o <= Nat.max (a_len ref) (a_len est) ->
  (filter_length o = 1 -> a_len ref = a_len est) ->
  has_chans ref xs -> has_chans ref' xs' -> has_chans est ys ->
  mixes (n_chan ref) xs (n_chan ref') xs' -> mixes (n_chan ref') xs' (n_chan ref) xs ->
  bss_eval_sources b sp o ref est = Ok (s, i, a, perm) ->
  bss_eval_sources b sp o ref' est = Ok (s', i', a', perm') ->
  k < length s -> k' < length s' ->
  nth k (matching (n_chan ref) (n_chan est) perm) (0, 0) = (c, d) ->
  nth k' (matching (n_chan ref') (n_chan est) perm') (0, 0) = (c', d) ->
  nth k a NaN = nth k' a' NaN.
Proof.
  intros Hsp Hwr Hwr' Hwe Hcg Hld Hl HL HL1 Hx Hx' Hy M1 M2 H H' Hk Hk' Ek Ek'.
  destruct (bss_at _ _ _ _ _ _ _ _ _ _ Hsp H Hk) as (m & sar & c0 & d0 & Q & E & Hc & Hd & _ & V).
  destruct (bss_at _ _ _ _ _ _ _ _ _ _ Hsp H' Hk') as (m' & sar' & c0' & d0' & Q' & E' & Hc' & Hd' & _ & V').
  rewrite Ek in E. injection E as <- <-. rewrite Ek' in E'. injection E' as <- <-.
  cbn in V, V'. injection V as _ _ ->. injection V' as _ _ ->.
  rewrite (sar_remix b o ref ref' est m sar m' sar' d xs xs' (ys d)); auto; try lia.
  apply has_chans_at; auto.
Qed.

(** ** More references *)
Definition extends (ref ref' : arr) (xs xs' : nat -> list R) : Prop :=
  a_len ref' = a_len ref /\ n_chan ref <= n_chan ref' /\ forall c, c < n_chan ref -> xs' c = xs c.

Theorem more_refs_coh b o ref ref' est m sar m' sar' c d xs xs' y : wf ref -> wf ref' -> wf est ->
  use_cg_iter o = None -> (0 <= loadv (load_diag o))%R ->
  1 <= filter_length o -> (filter_length o = 1 -> a_len ref = a_len est) ->
  has_chans ref xs -> has_chans ref' xs' -> has_chan est d y -> extends ref ref' xs xs' -> c < n_chan ref ->
  sq_cos b o ref est = Ok (m, sar) -> sq_cos b o ref' est = Ok (m', sar') ->
  mat_of m' c d = mat_of m c d /\
  exists t t', nth d sar NaN = Fin t /\ nth d sar' NaN = Fin t' /\ (0 <= t <= t')%R /\ (t' <= 1)%R.
Proof.
  intros Hwr Hwr' Hwe Hcg Hld HL HL1 Hx Hx' Hy (El & En & Ex) Hc H H'.
  pose proof (sq_cos_sdr' b o ref est m sar HL H) as Hs. pose proof (sq_cos_sdr' b o ref' est m' sar' HL H') as Hs'.
  destruct (has_chan_pchan (zero_mean o) est d y Hwe Hy) as [Py Ly].
  pose proof (fun c Hc => proj1 (has_chan_pchan (zero_mean o) ref c (xs c) Hwr (has_chans_at _ _ c Hx Hc))) as Px.
  pose proof (fun c Hc => proj1 (has_chan_pchan (zero_mean o) ref' c (xs' c) Hwr' (has_chans_at _ _ c Hx' Hc))) as Px'.
  pose proof (has_chans_clean (zero_mean o) ref xs Hwr Hx) as Hcl.
  pose proof (has_chans_clean (zero_mean o) ref' xs' Hwr' Hx') as Hcl'.
  pose proof (has_chans_pc (zero_mean o) ref xs) as Hpc. pose proof (has_chans_pc (zero_mean o) ref' xs') as Hpc'.
  assert (Hc' : c < n_chan ref') by lia.
  assert (HL1' : filter_length o = 1 -> a_len ref' = a_len est) by (rewrite El; auto).
  destruct (sar_coh_unit_range b o ref est m sar d y xs) as (t & Et & Rt); auto.
  destruct (sar_coh_unit_range b o ref' est m' sar' d y xs') as (t' & Et' & Rt'); auto.
  destruct (Nat.eq_dec (filter_length o) 1) as [E1|N1].
  - split.
    + rewrite (sdr_entry1 b o ref est m c d _ _ Hwr Hwe Hs E1 (HL1 E1) (Px c Hc) Py).
      rewrite (sdr_entry1 b o ref' est m' c d _ _ Hwr' Hwe Hs' E1 (HL1' E1) (Px' c Hc') Py).
      rewrite Ex, El by auto. reflexivity.
    + exists t, t'. repeat split; auto; try apply Rt; try apply Rt'.
      destruct (sar_entry1 b o ref est m sar d _ Hwr Hwe H E1 (HL1 E1) Hcl (proj1 Hy) Py) as (q & Hq & Eq).
      destruct (sar_entry1 b o ref' est m' sar' d _ Hwr' Hwe H' E1 (HL1' E1) Hcl' (proj1 Hy) Py) as (q' & Hq' & Eq').
      assert (q = t) by congruence. assert (q' = t') by congruence. subst q q'. rewrite El in Hq'.
      eapply (lsq_mono _ _ _ _ _ _ _ _ _ _ (fun k => k)); [split; [exact Hld|apply Rle_refl]| | | |exact Hq|exact Hq'].
      * intros; lia.
      * auto.
      * intros k s Hk _. cbv beta. rewrite Hpc, Hpc', Ex by (auto; lia). reflexivity.
  - assert (H2 : 2 <= filter_length o) by lia. split.
    + destruct (sdr_entry b o ref est m c d _ _ Hs Hcg N1 Hc (proj1 Hy) (Px c Hc) Py) as (q & Hq & Eq).
      destruct (sdr_entry b o ref' est m' c d _ _ Hs' Hcg N1 Hc' (proj1 Hy) (Px' c Hc') Py) as (q' & Hq' & Eq').
      rewrite El, Ex in Hq' by auto. rewrite Eq, Eq'. f_equal. eapply lsq_unique; [exact Hld|exact Hq'|exact Hq].
    + exists t, t'. repeat split; auto; try apply Rt; try apply Rt'.
      destruct (sar_entry b o ref est m sar d _ H Hcg H2 Hcl (proj1 Hy) Py) as (HLn & q & Hq & Eq).
      destruct (sar_entry b o ref' est m' sar' d _ H' Hcg H2 Hcl' (proj1 Hy) Py) as (HLn' & q' & Hq' & Eq').
      assert (q = t) by congruence. assert (q' = t') by congruence. subst q q'. rewrite El in Hq'.
      set (K := n_chan ref) in *. set (K' := n_chan ref') in *.
      eapply (lsq_mono _ _ _ _ _ _ _ _ _ _ (fun k => k / K * K' + k mod K)); [split; [exact Hld|apply Rle_refl]| | | |exact Hq|exact Hq'].
      * intros k Hk. destruct (lag_split K (filter_length o) k Hk) as (l & r & Hl & Hr & ->).
        rewrite lag_div, lag_mod by auto. nia.
      * intros k k2 Hk Hk2. destruct (lag_split K (filter_length o) k Hk) as (l & r & Hl & Hr & ->).
        destruct (lag_split K (filter_length o) k2 Hk2) as (l2 & r2 & Hl2 & Hr2 & ->).
        rewrite !lag_div, !lag_mod by auto. intros E. apply lag_inj in E; [|lia|lia]. destruct E as [-> ->]. reflexivity.
      * intros k s Hk _. destruct (lag_split K (filter_length o) k Hk) as (l & r & Hl & Hr & ->).
        rewrite lag_div, lag_mod by auto. rewrite !all_cdelays_at by lia.
        rewrite Hpc, Hpc', Ex by (auto; lia). reflexivity.
Qed.

Lemma xneg_le a b : xle a b -> xle (xneg b) (xneg a).
Proof.
  unfold xle. destruct a, b; simpl; try discriminate; auto.
  destruct (Rle_dec _ _); [|discriminate]. intros _. destruct (Rle_dec _ _); auto. lra.
Qed.
(** SDR, SIR and SAR reported for the same reference and estimate *)
Theorem bss_more_refs b sp o ref ref' est s i a perm s' i' a' perm' xs xs' ys k k' c d :
  lsa_contract sp -> wf ref -> wf ref' -> wf est ->
  use_cg_iter o = None -> (0 <= loadv (load_diag o))%R ->
  2 <= filter_length o \/ (filter_length o = 1 /\ a_len ref = a_len est /\ loadv (load_diag o) = 0%R) ->
  has_chans ref xs -> has_chans ref' xs' -> has_chans est ys -> extends ref ref' xs xs' ->
  bss_eval_sources b sp o ref est = Ok (s, i, a, perm) ->
  bss_eval_sources b sp o ref' est = Ok (s', i', a', perm') ->
  k < length s -> k' < length s' ->
  nth k (matching (n_chan ref) (n_chan est) perm) (0, 0) = (c, d) ->
  nth k' (matching (n_chan ref') (n_chan est) perm') (0, 0) = (c, d) ->
  nth k' s' NaN = nth k s NaN /\ xle (nth k' i' NaN) (nth k i NaN) /\ xle (nth k a NaN) (nth k' a' NaN).
Proof.
  intros Hsp Hwr Hwr' Hwe Hcg Hld HL Hx Hx' Hy He H H' Hk Hk' Ek Ek'.
  destruct (bss_at _ _ _ _ _ _ _ _ _ _ Hsp H Hk) as (m & sar & c0 & d0 & Q & E & Hc & Hd & Hn & V).
  destruct (bss_at _ _ _ _ _ _ _ _ _ _ Hsp H' Hk') as (m' & sar' & c0' & d0' & Q' & E' & Hc' & Hd' & Hn' & V').
  rewrite Ek in E. injection E as <- <-. rewrite Ek' in E'. injection E' as <- <-.
  cbn in V, V'. injection V as -> -> ->. injection V' as -> -> ->.
  destruct (more_refs_coh b o ref ref' est m sar m' sar' c d xs xs' (ys d)) as (Em & t & t' & Et & Et' & R1 & R2);
    auto; try lia; [apply has_chans_at; auto|].
  destruct (sdr_le_sar_coh b o ref est m sar c d (ys d) xs) as (q & t0 & Eq & Et0 & R3 & R4); auto; [apply has_chans_at; auto|].
  assert (t0 = t) by congruence. subst t0. unfold base_metrics in *. cbn [fst snd] in *.
  rewrite Em, Eq, Et, Et' in *. split; auto.
  assert (Nt : t <> 0%R).
  { intros ->. apply Hn. assert (q = 0)%R by lra. subst q. apply neg_sdr_no_nan. simpl.
    replace (Reqb 0 0) with true by (symmetry; apply Reqb_true; auto). reflexivity. }
  rewrite !xdiv_fin by lra. split; apply xneg_le, neg_sdr_mono; try lra.
  - unfold Rdiv. apply Rmult_le_pos; [lra|]. left. apply Rinv_0_lt_compat. lra.
  - unfold Rdiv. apply Rmult_le_compat_l; [lra|]. apply Rinv_le_contravar; lra.
  - apply (Rmult_le_reg_r t); [lra|]. unfold Rdiv. rewrite Rmult_assoc, Rinv_l by lra. lra.
Qed.
