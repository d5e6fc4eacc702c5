(** * Invariances: scale, offsets, channel order *)
From Coq Require Import Reals Lra.
From Coquelicot Require Import Complex.
From Verif Require Import Prelude ExtReal Slice Sums Fft FftProofs Helpers HelpersProofs Linalg
  LinalgProofs Cgd Metrics SpecSig StatsProofs LeastSq PrepProofs DbProofs MetricsProofs SarProofs
  ProjTheorems MetricTheorems.
Local Open Scope nat_scope.

(** ** Everything depends on the preprocessed channels only *)
Definition same_prep (zm : bool) (a a' : arr) : Prop :=
  a_len a = a_len a' /\ prep_arr zm a = prep_arr zm a'.
Lemma same_prep_chan zm a a' : same_prep zm a a' -> n_chan a = n_chan a'.
Proof. intros [_ H]. rewrite <- (length_prep zm a), <- (length_prep zm a'), H. reflexivity. Qed.

Section Same.
Variables (b : backend) (sp : scipy_lsa) (o : opts) (ref ref' est est' : arr).
Hypothesis Hr : same_prep (zero_mean o) ref ref'.
Hypothesis He : same_prep (zero_mean o) est est'.
Lemma same_sdr_coh : sdr_coh b o ref est = sdr_coh b o ref' est'.
Proof. unfold sdr_coh. destruct Hr as [-> ->], He as [-> ->]. reflexivity. Qed.
Lemma same_sdr_coh_diag : sdr_coh_diag b o ref est = sdr_coh_diag b o ref' est'.
Proof. unfold sdr_coh_diag. destruct Hr as [-> ->], He as [-> ->]. reflexivity. Qed.
Lemma same_sq_cos : sq_cos b o ref est = sq_cos b o ref' est'.
Proof. unfold sq_cos. destruct Hr as [-> ->], He as [-> ->]. reflexivity. Qed.
Lemma same_sq_cos_diag : sq_cos_diag b o ref est = sq_cos_diag b o ref' est'.
Proof. unfold sq_cos_diag. destruct Hr as [-> ->], He as [-> ->]. reflexivity. Qed.
Lemma same_pairwise : pairwise_sdr_loss b o est ref = pairwise_sdr_loss b o est' ref'.
Proof. unfold pairwise_sdr_loss. rewrite same_sdr_coh. reflexivity. Qed.
Lemma same_sdr_loss : sdr_loss b o est ref = sdr_loss b o est' ref'.
Proof. unfold sdr_loss. rewrite same_sdr_coh_diag. reflexivity. Qed.
Lemma same_sdr cs : sdr b sp o cs ref est = sdr b sp o cs ref' est'.
Proof. unfold sdr. rewrite same_pairwise, (same_prep_chan _ _ _ Hr), (same_prep_chan _ _ _ He). reflexivity. Qed.
Lemma same_pit : sdr_pit_loss b sp o est ref = sdr_pit_loss b sp o est' ref'.
Proof. unfold sdr_pit_loss. rewrite same_sdr. reflexivity. Qed.
Lemma same_bss : bss_eval_sources b sp o ref est = bss_eval_sources b sp o ref' est'.
Proof. unfold bss_eval_sources. rewrite same_sq_cos, (same_prep_chan _ _ _ Hr), (same_prep_chan _ _ _ He). reflexivity. Qed.
Lemma same_bss_noperm : bss_eval_sources_noperm b o ref est = bss_eval_sources_noperm b o ref' est'.
Proof. unfold bss_eval_sources_noperm. rewrite same_sq_cos_diag, (same_prep_chan _ _ _ Hr), (same_prep_chan _ _ _ He). reflexivity. Qed.
End Same.

(** ** Channel-wise transformations of an array *)
Definition map_chans (f : nat -> xr -> xr) (a : arr) : arr :=
  Arr (a_len a) (tab (n_chan a) (fun c => map (f c) (nth c (a_chans a) []))).
Lemma map_chans_n f a : n_chan (map_chans f a) = n_chan a.
Proof. unfold map_chans, n_chan. simpl. apply length_tab. Qed.
Lemma map_chans_nth f a c : c < n_chan a ->
  nth c (a_chans (map_chans f a)) [] = map (f c) (nth c (a_chans a) []).
Proof. intros H. simpl. rewrite nth_tab by auto. reflexivity. Qed.
Lemma map_chans_wf f a : wf a -> wf (map_chans f a).
Proof.
  intros Hw. split; [apply Hw|]. simpl. apply Forall_forall. intros x Hx.
  apply in_tab in Hx. destruct Hx as (c & Hc & ->). rewrite map_length. apply wf_nth; auto.
Qed.
Lemma list_eq_nth {A} (l l' : list A) d : length l = length l' ->
  (forall i, i < length l -> nth i l d = nth i l' d) -> l = l'.
Proof. intros H1 H2. apply (nth_ext _ _ d d); auto. Qed.
Lemma prep_arr_eq zm a a' : n_chan a = n_chan a' ->
  (forall c, c < n_chan a -> pchan zm a c = pchan zm a' c) -> prep_arr zm a = prep_arr zm a'.
Proof.
  intros Hn H. apply (list_eq_nth _ _ (None : chan)); rewrite !length_prep; auto.
Qed.

(** *** Offsets *)
Definition add_offset (k : nat -> R) (a : arr) : arr := map_chans (fun c v => xadd v (Fin (k c))) a.

Lemma mean_shift v k : 0 < length v -> mean (map (fun u => u + k)%R v) = (mean v + k)%R.
Proof.
  intros H. unfold mean. rewrite map_length.
  rewrite (Rsum_ext _ _ (fun t => smp v t + k)%R).
  - rewrite Rsum_plus, Rsum_const. field. apply not_0_INR. lia.
  - intros t Ht. unfold smp. rewrite (nth_map_R (fun u => u + k)%R) by auto. reflexivity.
Qed.
Lemma prep_shift x k : 0 < length x -> prep true (map (fun v => xadd v (Fin k)) x) = prep true x.
Proof.
  intros Hl. destruct (nonfin_dec x) as [Hf|(i & Hi & Hn)].
  - apply all_fin_map in Hf. destruct Hf as [v ->]. rewrite map_length in Hl.
    rewrite map_map. rewrite (map_ext _ (fun u => Fin (u + k)%R)) by reflexivity.
    rewrite <- (map_map (fun u => u + k)%R Fin).
    rewrite !prep_fin by (rewrite ?map_length; auto). do 2 f_equal. simpl. unfold centered.
    rewrite map_map. rewrite mean_shift by auto. apply map_ext. intros u. ring.
  - rewrite (prep_nonfin true x i) by auto.
    apply (prep_nonfin true _ i); [rewrite map_length; auto|].
    rewrite (nth_indep _ (Fin 0) (xadd (Fin 0) (Fin k))) by (rewrite map_length; auto).
    rewrite (map_nth (fun v => xadd v (Fin k))). apply xadd_nonfin_l; auto.
Qed.
Theorem offset_same k a : wf a -> same_prep true (add_offset k a) a.
Proof.
  intros Hw. split; [reflexivity|]. unfold add_offset. apply prep_arr_eq; [apply map_chans_n|].
  intros c Hc. rewrite map_chans_n in Hc. rewrite !pchan_nth by (auto; rewrite map_chans_n; auto).
  rewrite map_chans_nth by auto. apply prep_shift.
  rewrite wf_nth by auto. apply Hw.
Qed.

(** *** Scaling *)
Definition scale (k : nat -> R) (a : arr) : arr := map_chans (fun c v => xmul (Fin (k c)) v) a.

Definition sgn (k : R) : R := if Rlt_dec k 0 then (-1)%R else 1%R.
Lemma sgn_sq k : (sgn k * sgn k = 1)%R.
Proof. unfold sgn. destruct (Rlt_dec k 0); ring. Qed.
Lemma sgn_abs k : (sgn k * Rabs k = k)%R.
Proof.
  unfold sgn. destruct (Rlt_dec k 0).
  - rewrite Rabs_left by auto. ring.
  - rewrite Rabs_right by lra. ring.
Qed.
Definition rscale (k : R) (v : list R) : list R := map (Rmult k) v.
Lemma smp_rscale k v t : smp (rscale k v) t = (k * smp v t)%R.
Proof.
  unfold smp, rscale. destruct (Nat.lt_ge_cases t (length v)).
  - apply nth_map_R; auto.
  - rewrite !nth_overflow by (rewrite ?map_length; auto). ring.
Qed.
Lemma length_rscale k v : length (rscale k v) = length v.
Proof. apply map_length. Qed.
Lemma mean_rscale k v : 0 < length v -> mean (rscale k v) = (k * mean v)%R.
Proof.
  intros H. unfold mean. rewrite length_rscale.
  rewrite (Rsum_ext _ _ (fun t => k * smp v t)%R) by (intros; apply smp_rscale).
  rewrite Rsum_scal_l. field. apply not_0_INR. lia.
Qed.
Lemma pre_rscale zm k v : 0 < length v -> pre zm (rscale k v) = rscale k (pre zm v).
Proof.
  intros H. destruct zm; simpl; auto. unfold centered. rewrite mean_rscale by auto.
  unfold rscale. rewrite !map_map. apply map_ext. intros; ring.
Qed.
Lemma norm2_rscale k v : norm2 (rscale k v) = (Rabs k * norm2 v)%R.
Proof.
  unfold norm2. rewrite length_rscale.
  rewrite (Rsum_ext _ _ (fun t => k² * smp v t ^ 2)%R).
  - rewrite Rsum_scal_l. rewrite sqrt_mult.
    + rewrite sqrt_Rsqr_abs. reflexivity.
    + apply Rle_0_sqr.
    + apply Rsum_nonneg. intros; apply pow2_ge_0.
  - intros t _. rewrite smp_rscale. unfold Rsqr. ring.
Qed.

(** the norm stays above 1e-6 (or the channel is silent) *)
Definition good_scale (k : R) (v : list R) : Prop :=
  silent v \/ ((norm_eps <= norm2 v)%R /\ (norm_eps <= Rabs k * norm2 v)%R).
Lemma unit_rscale k v : k <> 0%R -> good_scale k v -> unit_of (rscale k v) = rscale (sgn k) (unit_of v).
Proof.
  intros Hk H. unfold unit_of, rscale. rewrite !map_map.
  destruct H as [Hs|[H1 H2]].
  - apply map_ext_in. intros u Hu. apply (In_nth _ _ 0%R) in Hu. destruct Hu as (t & Ht & <-).
    fold (smp v t). rewrite Hs. ring.
  - apply map_ext. intros u. change (map (Rmult k) v) with (rscale k v).
    rewrite (gain_norm v), (gain_norm (rscale k v)) by (auto; rewrite norm2_rscale; auto).
    rewrite norm2_rscale. rewrite <- (sgn_abs k) at 2. pose proof eps_pos.
    pose proof (Rabs_pos_lt k Hk). field. lra.
Qed.

Lemma prep_scale zm x k : 0 < length x -> k <> 0%R ->
  (forall v, x = map Fin v -> good_scale k (pre zm v)) ->
  prep zm (map (xmul (Fin k)) x) =
  match prep zm x with Some u => Some (rscale (sgn k) u) | None => None end.
Proof.
  intros Hl Hk HG. destruct (nonfin_dec x) as [Hf|(i & Hi & Hn)].
  - apply all_fin_map in Hf. destruct Hf as [v ->]. rewrite map_length in Hl.
    rewrite map_map. rewrite (map_ext _ (fun u => Fin (k * u)%R)) by reflexivity.
    rewrite <- (map_map (Rmult k) Fin). rewrite !prep_fin by (rewrite ?map_length; auto). f_equal.
    change (map (Rmult k) v) with (rscale k v). rewrite pre_rscale by auto.
    apply unit_rscale; auto.
  - rewrite (prep_nonfin zm x i) by auto.
    apply (prep_nonfin zm _ i); [rewrite map_length; auto|].
    rewrite (nth_indep _ (Fin 0) (xmul (Fin k) (Fin 0))) by (rewrite map_length; auto).
    rewrite (map_nth (xmul (Fin k))). destruct (nth i x (Fin 0)); try discriminate Hn; simpl; auto;
    unfold xsign_mul_inf; apply Reqb_false in Hk; rewrite Hk;
    match goal with |- is_fin (if ?c then _ else _) = _ => destruct c end; reflexivity.
Qed.
(** [prep_arr] of a scaled array: signs only *)
Definition sign_chan (s : R) (x : chan) : chan := match x with Some u => Some (rscale s u) | None => None end.
Definition flip_chans (s : nat -> R) (l : list chan) : list chan :=
  tab (length l) (fun c => sign_chan (s c) (nth c l None)).
Definition scale_ok (zm : bool) (k : nat -> R) (a : arr) : Prop :=
  forall c, c < n_chan a -> k c <> 0%R /\ forall v, has_chan a c v -> good_scale (k c) (pre zm v).
Lemma prep_arr_scale zm k a : wf a -> scale_ok zm k a ->
  prep_arr zm (scale k a) = flip_chans (fun c => sgn (k c)) (prep_arr zm a).
Proof.
  intros Hw Hk. apply (list_eq_nth _ _ (None : chan)).
  - rewrite length_prep. unfold scale. rewrite map_chans_n. unfold flip_chans. rewrite length_tab, length_prep. auto.
  - intros c Hc. rewrite length_prep in Hc. unfold scale in Hc. rewrite map_chans_n in Hc.
    unfold flip_chans. rewrite nth_tab by (rewrite length_prep; auto).
    change (pchan zm (scale k a) c = sign_chan (sgn (k c)) (pchan zm a c)).
    rewrite !pchan_nth by (auto; unfold scale; rewrite map_chans_n; auto).
    unfold scale. rewrite map_chans_nth by auto. apply prep_scale.
    + rewrite wf_nth by auto. apply Hw.
    + apply Hk; auto.
    + intros v Hv. apply (proj2 (Hk c Hc)). split; auto.
Qed.
Theorem scale_pos_same zm k a : wf a -> scale_ok zm k a -> (forall c, c < n_chan a -> (0 < k c)%R) ->
  same_prep zm (scale k a) a.
Proof.
  intros Hw Hk Hp. split; [reflexivity|]. rewrite prep_arr_scale by auto.
  apply (list_eq_nth _ _ (None : chan)).
  - unfold flip_chans. apply length_tab.
  - unfold flip_chans. rewrite length_tab. intros c Hc. rewrite nth_tab by auto.
    rewrite length_prep in Hc. unfold sgn. destruct (Rlt_dec (k c) 0) as [Hlt|_].
    + specialize (Hp c Hc). lra.
    + unfold sign_chan. destruct (nth c (prep_arr zm a) None) as [u|]; auto. f_equal.
      etransitivity; [|apply map_id]. apply map_ext. intros; ring.
Qed.

(** *** Signs do not matter *)
Definition is_sign (s : R) : Prop := (s * s = 1)%R.

Lemma ccorr_scale nf x y s s' l : ccorr nf (rscale s x) (rscale s' y) l = (s * s' * ccorr nf x y l)%R.
Proof.
  unfold ccorr. rewrite <- Rsum_scal_l. apply Rsum_ext. intros t _.
  change (smp (rscale s x) t * smp (rscale s' y) ((t + l) mod nf) =
    s * s' * (smp x t * smp y ((t + l) mod nf)))%R. rewrite !smp_rscale. ring.
Qed.
Lemma stats_acf_sign nf L x s : 0 < nf -> is_sign s -> stats_acf nf L (rscale s x) = stats_acf nf L x.
Proof.
  intros Hn Hs. apply (list_eq_nth _ _ 0%R); rewrite !length_stats_acf; auto.
  intros l Hl. rewrite !stats_acf_circ by lia.
  change (ccorr nf (rscale s x) (rscale s x) l = ccorr nf x x l).
  rewrite ccorr_scale, Hs. ring.
Qed.
Lemma stats_xcorr_sign nf L x y s s' : 0 < nf ->
  stats_xcorr nf L (rscale s x) (rscale s' y) = rscale (s * s') (stats_xcorr nf L x y).
Proof.
  intros Hn. apply (list_eq_nth _ _ 0%R); rewrite ?length_rscale, !length_stats_xcorr; auto.
  intros l Hl. change (nth l (rscale (s * s') (stats_xcorr nf L x y)) 0%R) with
    (smp (rscale (s * s') (stats_xcorr nf L x y)) l). rewrite smp_rscale. unfold smp.
  rewrite !stats_xcorr_circ by lia. apply ccorr_scale.
Qed.
Lemma ip_sign n x y s s' : ip n (rscale s x) (rscale s' y) = (s * s' * ip n x y)%R.
Proof.
  unfold ip. rewrite <- Rsum_scal_l. apply Rsum_ext. intros t _. unfold bc_get.
  rewrite !length_rscale. pose proof (smp_rscale s x) as Hx. pose proof (smp_rscale s' y) as Hy.
  unfold smp in *. destruct (length x =? 1), (length y =? 1); rewrite Hx, Hy; ring.
Qed.

(** value of a nonsingular system is unique, whatever the loading *)
Lemma lsq_unique_ns K M a lam y q q' : nonsingular K (gram M a lam) ->
  lsq K M a lam y q -> lsq K M a lam y q' -> q = q'.
Proof.
  intros HN (h & N & ->) (h' & N' & ->). apply Rsum_ext. intros k Hk. f_equal.
  apply (nonsingular_uniq K (gram M a lam)); auto. intros i Hi. rewrite N, N'; auto.
Qed.
Lemma gram_sign M a lam s i j : is_sign (s i) ->
  gram M (fun k t => s k * a k t)%R lam i j = (s i * gram M a lam i j * s j)%R.
Proof.
  intros Hi. unfold gram. rewrite dot_scal_l, dot_scal_r. destruct (Nat.eqb_spec i j) as [->|]; [|ring].
  rewrite Rmult_plus_distr_l, Rmult_plus_distr_r.
  replace (s j * lam * s j)%R with lam by (rewrite Rmult_comm, <- Rmult_assoc, Hi; ring). ring.
Qed.
Lemma gram_sign_mv K M a lam s v i : (forall k, k < K -> is_sign (s k)) -> i < K ->
  Rmv K (gram M (fun k t => s k * a k t)%R lam) v i = (s i * Rmv K (gram M a lam) (fun k => s k * v k)%R i)%R.
Proof.
  intros Hs Hi. unfold mulmv. rewrite <- Rsum_scal_l. apply Rsum_ext. intros j Hj.
  rewrite gram_sign by auto. ring.
Qed.
Lemma nonsingular_sign K M a lam s : (forall k, k < K -> is_sign (s k)) ->
  nonsingular K (gram M a lam) -> nonsingular K (gram M (fun k t => s k * a k t)%R lam).
Proof.
  intros Hs HN v Hv j Hj.
  assert (E : (s j * v j = 0)%R).
  { apply (HN (fun k => s k * v k)%R); auto. intros i Hi. specialize (Hv i Hi).
    rewrite gram_sign_mv in Hv by auto. apply Rmult_integral in Hv. destruct Hv as [Hz|]; auto.
    pose proof (Hs i Hi) as H1. unfold is_sign in H1. rewrite Hz in H1. lra. }
  apply Rmult_integral in E. destruct E as [Hz|]; auto.
  pose proof (Hs j Hj) as H1. unfold is_sign in H1. rewrite Hz in H1. lra.
Qed.
Lemma lsq_sign K M a lam y q s s' : (forall k, k < K -> is_sign (s k)) -> is_sign s' ->
  lsq K M a lam y q -> lsq K M (fun k t => s k * a k t)%R lam (fun t => s' * y t)%R q.
Proof.
  intros Hs Hs' (h & N & ->). exists (fun k => s k * s' * h k)%R. split.
  - intros i Hi. rewrite gram_sign_mv by auto. rewrite dot_scal_l, dot_scal_r. f_equal.
    rewrite <- (N i Hi). unfold mulmv. rewrite <- Rsum_scal_l. apply Rsum_ext. intros j Hj.
    pose proof (Hs j Hj) as E. unfold is_sign in E.
    replace (s j * (s j * s' * h j))%R with (s j * s j * (s' * h j))%R by ring. rewrite E. ring.
  - apply Rsum_ext. intros k Hk. rewrite dot_scal_l, dot_scal_r.
    pose proof (Hs k Hk) as E. unfold is_sign in E, Hs'.
    replace (s k * (s' * dot M (a k) y) * (s k * s' * h k))%R
      with (s k * s k * (s' * s') * (dot M (a k) y * h k))%R by ring. rewrite E, Hs'. ring.
Qed.
Lemma lsq_ext_at K M a a' lam y y' q : (forall k t, k < K -> t < M -> a k t = a' k t) ->
  (forall t, t < M -> y t = y' t) -> lsq K M a lam y q -> lsq K M a' lam y' q.
Proof.
  intros Ha Hy. apply lsq_ext.
  - intros i j Hi Hj. apply dot_ext; auto.
  - intros i Hi. apply dot_ext; auto.
Qed.

Lemma nth_flip s l c : nth c (flip_chans s l) None = sign_chan (s c) (nth c l None).
Proof.
  destruct (Nat.lt_ge_cases c (length l)).
  - unfold flip_chans. rewrite nth_tab by auto. auto.
  - unfold flip_chans. rewrite nth_tab_ge, nth_overflow by auto. reflexivity.
Qed.
Lemma length_flip s l : length (flip_chans s l) = length l.
Proof. apply length_tab. Qed.

Lemma mapM_nth_eq {A B} (f g : A -> res B) l l' (dA : A) : length l = length l' ->
  (forall i, i < length l -> f (nth i l dA) = g (nth i l' dA)) -> mapM f l = mapM g l'.
Proof.
  revert l'; induction l as [|x l IH]; intros [|x' l'] Hlen H; simpl in *; try lia; auto.
  pose proof (H 0 ltac:(lia)) as H0. simpl in H0. rewrite H0. destruct (g x'); simpl; auto.
  rewrite (IH l'); auto. intros i Hi. apply (H (S i)). lia.
Qed.
Lemma map_nth_eq {A B} (f g : A -> B) l l' (dA : A) : length l = length l' ->
  (forall i, i < length l -> f (nth i l dA) = g (nth i l' dA)) -> map f l = map g l'.
Proof.
  revert l'; induction l as [|x l IH]; intros [|x' l'] Hlen H; simpl in *; try lia; auto.
  pose proof (H 0 ltac:(lia)) as H0. simpl in H0. rewrite H0. f_equal.
  apply IH; auto. intros i Hi. apply (H (S i)). lia.
Qed.

Definition signs (n : nat) (s : nat -> R) : Prop := forall c, c < n -> is_sign (s c).

Lemma len1_sdr_flip n refs ests s s' : signs (length refs) s -> signs (length ests) s' ->
  len1_sdr n (flip_chans s refs) (flip_chans s' ests) = len1_sdr n refs ests.
Proof.
  intros Hs Hs'. unfold len1_sdr. apply (map_nth_eq _ _ _ _ (None : chan)); [apply length_flip|].
  rewrite length_flip. intros c Hc. apply (map_nth_eq _ _ _ _ (None : chan)); [apply length_flip|].
  rewrite length_flip. intros d Hd. rewrite !nth_flip.
  destruct (nth c refs None) as [x|]; cbn [sign_chan lift2]; auto. destruct (nth d ests None) as [y|]; cbn [sign_chan lift2]; auto.
  apply f_equal. rewrite ip_sign. pose proof (Hs c Hc) as H1. pose proof (Hs' d Hd) as H2. unfold is_sign in *.
  replace ((s c * s' d * ip n x y) ^ 2)%R
    with ((s c * s c) * (s' d * s' d) * ip n x y ^ 2)%R by ring. rewrite H1, H2. ring.
Qed.

Lemma tainted_flip s refs : existsb tainted (flip_chans s refs) = existsb tainted refs.
Proof.
  destruct (existsb tainted refs) eqn:E.
  - apply existsb_exists in E. destruct E as (x & Hin & Hx). apply existsb_exists.
    apply (In_nth _ _ (None : chan)) in Hin. destruct Hin as (c & Hc & Ec).
    exists (nth c (flip_chans s refs) None). split; [apply nth_In; rewrite length_flip; auto|].
    rewrite nth_flip, Ec. destruct x; auto.
  - rewrite existsb_tainted_false in *. rewrite length_flip. intros c Hc H. apply (E c Hc).
    rewrite nth_flip in H. destruct (nth c refs None); auto. discriminate.
Qed.
Lemma rchan_flip s refs c : rchan (flip_chans s refs) c = rscale (s c) (rchan refs c).
Proof. unfold rchan. rewrite nth_flip. destruct (nth c refs None); reflexivity. Qed.
Lemma sign_chan_some s x : sign_chan s (Some x) = Some (rscale s x).
Proof. reflexivity. Qed.
Lemma flip_one s (x : chan) : [sign_chan s x] = flip_chans (fun _ => s) [x].
Proof. reflexivity. Qed.
Lemma bc_pick_flip s refs i : bc_pick (flip_chans s refs) i None =
  sign_chan (s (if Nat.eqb (length refs) 1 then 0 else i)) (bc_pick refs i None).
Proof. unfold bc_pick. rewrite length_flip. destruct (length refs =? 1); apply nth_flip. Qed.
Lemma bc_pick_sign refs i s (x : list R) : signs (length refs) s -> bc_pick refs i (None : chan) = Some x ->
  is_sign (s (if Nat.eqb (length refs) 1 then 0 else i)).
Proof.
  intros Hs H. unfold bc_pick in H. destruct (Nat.eqb_spec (length refs) 1) as [E|E].
  - apply Hs. lia.
  - apply Hs. destruct (Nat.lt_ge_cases i (length refs)); auto. rewrite nth_overflow in H by auto. discriminate.
Qed.
Lemma sq_sign a b (x : R) : is_sign a -> is_sign b -> ((a * b * x) ^ 2 = x ^ 2)%R.
Proof.
  unfold is_sign. intros Ha Hb. replace ((a * b * x) ^ 2)%R with ((a * a) * (b * b) * x ^ 2)%R by ring.
  rewrite Ha, Hb. ring.
Qed.
Lemma lift2_flip n (x y : chan) a b : (x <> None -> is_sign a) -> (y <> None -> is_sign b) ->
  lift2 (fun u v => ip n u v ^ 2)%R (sign_chan a x) (sign_chan b y) =
  lift2 (fun u v => ip n u v ^ 2)%R x y.
Proof.
  intros Ha Hb. destruct x as [x|], y as [y|]; cbn [sign_chan lift2]; auto. apply f_equal.
  rewrite ip_sign. apply sq_sign; [apply Ha|apply Hb]; discriminate.
Qed.
