(** * Coherences are least-squares values *)
From Coq Require Import Reals Lra.
From Coquelicot Require Import Complex.
From Verif Require Import Prelude ExtReal Slice Sums Fft FftProofs Helpers HelpersProofs Linalg
  LinalgProofs Cgd Metrics SpecSig StatsProofs LeastSq PrepProofs DbProofs.
Local Open Scope nat_scope.

(** ** The value of a (regularised) least-squares problem *)
Definition lsq (K M : nat) (a : nat -> nat -> R) (lam : R) (y : nat -> R) (q : R) : Prop :=
  exists h, normal_eq K M a lam y h /\ q = qval K M a y h.

Lemma lsq_ext K M a M' a' lam y y' q :
  (forall i j, i < K -> j < K -> dot M (a i) (a j) = dot M' (a' i) (a' j)) ->
  (forall i, i < K -> dot M (a i) y = dot M' (a' i) y') ->
  lsq K M a lam y q -> lsq K M' a' lam y' q.
Proof.
  intros Ha Hy (h & N & ->). exists h. split.
  - intros i Hi. rewrite <- Hy, <- (N i Hi) by auto. apply Rsum_ext. intros j Hj.
    unfold gram. rewrite Ha; auto.
  - apply Rsum_ext. intros i Hi. rewrite Hy; auto.
Qed.
Lemma lsq_bounds K M a lam y q : (0 <= lam)%R -> lsq K M a lam y q -> (0 <= q <= energy M y)%R.
Proof. intros Hl (h & N & ->). apply (q_bounds K M a lam); auto. Qed.
Lemma lsq_mono K1 K2 M a1 a2 lam1 lam2 y q1 q2 (sg : nat -> nat) :
  (0 <= lam2 <= lam1)%R -> (forall k, k < K1 -> sg k < K2) ->
  (forall k k', k < K1 -> k' < K1 -> sg k = sg k' -> k = k') ->
  (forall k t, k < K1 -> t < M -> a1 k t = a2 (sg k) t) ->
  lsq K1 M a1 lam1 y q1 -> lsq K2 M a2 lam2 y q2 -> (q1 <= q2)%R.
Proof.
  intros H1 H2 H3 H4 (h1 & N1 & ->) (h2 & N2 & ->).
  apply (q_mono K1 K2 M a1 a2 lam1 lam2 y h1 h2 sg); auto.
Qed.
Lemma lsq_unique K M a lam y q q' : (0 <= lam)%R -> lsq K M a lam y q -> lsq K M a lam y q' -> q = q'.
Proof.
  intros Hl H H'. apply Rle_antisym;
    apply (lsq_mono K K M a a lam lam y _ _ (fun k => k)); auto; lra.
Qed.
Lemma lsq_proj K M a y q p : lsq K M a 0 y q -> is_projection K M a y p -> q = energy M p.
Proof. intros (h & N & ->) P. apply (proj_value K M a y h p N P). Qed.
Lemma lsq_has_proj K M a y q : lsq K M a 0 y q -> exists p, is_projection K M a y p.
Proof. intros (h & N & ->). exists (comb K a h). apply normal_projection; auto. Qed.
Lemma lsq_exists K M a lam y : nonsingular K (gram M a lam) -> exists q, lsq K M a lam y q.
Proof.
  intros H. destruct (solve_cols_ok K 1 (gram M a lam) (fun i _ => dot M (a i) y) H) as (X & _ & E).
  eexists. exists (fun j => X j 0). split; [|reflexivity]. intros i Hi. apply (E 0 i Hi).
Qed.
(** value reached by a competitor *)
Lemma lsq_max K M a lam y q g : (0 <= lam)%R -> lsq K M a lam y q ->
  (2 * qval K M a y g - energy M (comb K a g) - lam * sq K g <= q)%R.
Proof. intros Hl (h & N & ->). apply q_max; auto. Qed.

(** ** One row of the SDR matrix (direct solver) *)
Lemma coh_row_inv b acf xc ests row : coh_row b None acf xc ests = Ok row ->
  length row = length ests /\ nonsingular (length acf) (ent (toeplitz b acf)) /\
  forall d, d < length ests ->
    match nth d ests None with
    | None => nth d row NaN = NaN
    | Some y => exists h, (forall i, i < length acf ->
          Rmv (length acf) (ent (toeplitz b acf)) h i = nth i (xc y) 0%R) /\
        nth d row NaN = Fin (dot_nth (length acf) (xc y) h)
    end.
Proof.
  unfold coh_row. intros H.
  destruct (solve_cols _ _ _ _) as [X|] eqn:E; [|discriminate].
  apply solve_cols_inv in E. destruct E as [HN HX]. simpl in H. injection H as <-.
  rewrite length_tab. repeat split; auto. intros d Hd.
  rewrite nth_tab by auto. destruct (nth d ests None) as [y|] eqn:Ey; auto.
  exists (fun l => X l d). split; auto. intros i Hi. rewrite HX by auto. rewrite Ey. reflexivity.
Qed.
Lemma coh_row_ok b acf xc ests : nonsingular (length acf) (ent (toeplitz b acf)) ->
  exists row, coh_row b None acf xc ests = Ok row.
Proof.
  intros H. unfold coh_row.
  destruct (solve_cols_ok (length acf) (length ests) (ent (toeplitz b acf))
    (fun l d => nth l (xc (opt0 (nth d ests None))) 0%R) H) as (X & -> & _).
  simpl. eauto.
Qed.
Lemma coh_row_raise b acf xc ests e : coh_row b None acf xc ests = Raise e ->
  e = LinAlgError /\ ~ nonsingular (length acf) (ent (toeplitz b acf)).
Proof.
  intros H. split.
  - unfold coh_row in H. destruct (solve_cols _ _ _ _) as [X|e'] eqn:E; simpl in H; [discriminate|].
    apply solve_cols_raise in E. destruct E as [-> _]. congruence.
  - intros HN. destruct (coh_row_ok b acf xc ests HN) as [row E]. congruence.
Qed.

Lemma stats_acf_long nf L x : nf <= L -> stats_acf nf L x = stats_acf nf nf x.
Proof.
  intros H. unfold stats_acf, cut. rewrite !(slice_to _ _ 0%R). rewrite length_irfft.
  rewrite !Nat.min_r by lia. reflexivity.
Qed.
Lemma stats_xcorr_long nf L x y : nf <= L -> stats_xcorr nf L x y = stats_xcorr nf nf x y.
Proof.
  intros H. unfold stats_xcorr, cut. rewrite !(slice_to _ _ 0%R). rewrite length_irfft.
  rewrite !Nat.min_r by lia. reflexivity.
Qed.
Lemma stats_acf_min nf L x : stats_acf nf L x = stats_acf nf (Nat.min L nf) x.
Proof.
  destruct (Nat.le_ge_cases L nf); [rewrite Nat.min_l|rewrite Nat.min_r]; auto.
  apply stats_acf_long; auto.
Qed.
Lemma stats_xcorr_min nf L x y : stats_xcorr nf L x y = stats_xcorr nf (Nat.min L nf) x y.
Proof.
  destruct (Nat.le_ge_cases L nf); [rewrite Nat.min_l|rewrite Nat.min_r]; auto.
  apply stats_xcorr_long; auto.
Qed.

Definition sdr_acf (o : opts) (nf : nat) (x : list R) : list R :=
  add_load (load_diag o) (stats_acf nf (filter_length o) x).

Lemma toep_gram b nf L ld x i j : L <= nf -> i < L -> j < L ->
  ent (toeplitz b (add_load ld (stats_acf nf L x))) i j = gram nf (cdelayed nf x) (loadv ld) i j.
Proof. intros HL Hi Hj. destruct (sdr_system_cgram b nf L ld x i j HL Hi Hj) as [_ ->]. reflexivity. Qed.
Lemma length_loaded nf L ld x : length (add_load ld (stats_acf nf L x)) = Nat.min L nf.
Proof. rewrite length_add_load, length_stats_acf. auto. Qed.

Lemma row_lsq b nf L ld x ests row d y :
  coh_row b None (add_load ld (stats_acf nf L x)) (stats_xcorr nf L x) ests = Ok row ->
  d < length ests -> nth d ests None = Some y ->
  exists q, lsq (Nat.min L nf) nf (cdelayed nf x) (loadv ld) (smp y) q /\ nth d row NaN = Fin q.
Proof.
  intros H Hd Hy. rewrite (stats_acf_min nf L x) in H.
  apply coh_row_inv in H. destruct H as (_ & _ & H). specialize (H d Hd). rewrite Hy in H.
  rewrite length_loaded in H. rewrite Nat.min_l in H by lia.
  set (K := Nat.min L nf) in *. destruct H as (h & Hh & Hq).
  assert (HK : K <= nf) by (unfold K; lia).
  assert (Hx : forall i, i < K -> nth i (stats_xcorr nf L x y) 0%R = dot nf (cdelayed nf x i) (smp y)).
  { intros i Hi. apply sdr_crhs; unfold K in *; lia. }
  eexists. split; [exists h; split; [|reflexivity]|].
  - intros i Hi. rewrite <- Hx, <- Hh by auto. apply Rsum_ext. intros j Hj.
    rewrite toep_gram by auto. reflexivity.
  - rewrite Hq. f_equal. apply Rsum_ext. intros i Hi. rewrite Hx; auto.
Qed.
Lemma row_nonsingular b nf L ld x :
  nonsingular (length (add_load ld (stats_acf nf L x))) (ent (toeplitz b (add_load ld (stats_acf nf L x))))
  <-> nonsingular (Nat.min L nf) (gram nf (cdelayed nf x) (loadv ld)).
Proof.
  rewrite length_loaded, (stats_acf_min nf L x). set (K := Nat.min L nf).
  split; apply nonsingular_ext; intros i j Hi Hj; rewrite toep_gram; auto; unfold K; lia.
Qed.

(** ** The SDR coherence matrix *)
Definition pchan (zm : bool) (a : arr) (c : nat) : chan := nth c (prep_arr zm a) None.

Lemma length_prep zm a : length (prep_arr zm a) = n_chan a.
Proof. apply map_length. Qed.

(** filter_length >= 2 *)
Theorem sdr_entry b o ref est m c d x y :
  sdr_coh b o ref est = Ok m -> use_cg_iter o = None -> filter_length o <> 1 ->
  c < n_chan ref -> d < n_chan est ->
  pchan (zero_mean o) ref c = Some x -> pchan (zero_mean o) est d = Some y ->
  let nf := n_fft (a_len ref) (a_len est) in
  exists q, lsq (Nat.min (filter_length o) nf) nf (cdelayed nf x) (loadv (load_diag o)) (smp y) q /\
            mat_of m c d = Fin q.
Proof.
  intros H Hcg HL Hc Hd Hx Hy nf. unfold sdr_coh in H.
  replace (Nat.eqb (filter_length o) 1) with false in H by (symmetry; apply Nat.eqb_neq; auto).
  cbv zeta in H. fold nf in H. rewrite Hcg in H.
  assert (Hc' : c < length (prep_arr (zero_mean o) ref)) by (rewrite length_prep; auto).
  pose proof (mapM_nth _ _ _ (None : chan) [] c H Hc') as E. unfold pchan in Hx. rewrite Hx in E.
  apply (row_lsq _ _ _ _ _ _ _ d y E); auto. rewrite length_prep. auto.
Qed.
(** filter_length = 1 *)
Lemma ip_dot n x y : length x = n -> length y = n -> ip n x y = dot n (smp x) (smp y).
Proof.
  intros Hx Hy. unfold ip, dot, bc_get, smp. apply Rsum_ext. intros t Ht.
  rewrite Hx, Hy. destruct (Nat.eqb_spec n 1); auto.
  replace t with 0 by lia. reflexivity.
Qed.
Lemma prep_length zm x u : 0 < length x -> prep zm x = Some u -> length u = length x.
Proof.
  intros Hl H. destruct (prep_some_inv zm x u Hl H) as (v & -> & ->).
  rewrite length_unit_of, length_pre, map_length. reflexivity.
Qed.
Lemma pchan_nth zm a c : c < n_chan a -> pchan zm a c = prep zm (nth c (a_chans a) []).
Proof.
  intros H. unfold pchan, prep_arr. rewrite (nth_indep _ None (prep zm [])).
  - apply map_nth.
  - rewrite map_length. auto.
Qed.
Lemma wf_nth a c : wf a -> c < n_chan a -> length (nth c (a_chans a) []) = a_len a.
Proof. intros [_ H] Hc. rewrite Forall_forall in H. apply H. apply nth_In. auto. Qed.
Lemma pchan_lt zm a c u : pchan zm a c = Some u -> c < n_chan a.
Proof.
  intros H. destruct (Nat.lt_ge_cases c (n_chan a)); auto.
  unfold pchan in H. rewrite nth_overflow in H; [discriminate|]. rewrite length_prep. auto.
Qed.
Lemma pchan_length zm a c u : wf a -> pchan zm a c = Some u -> length u = a_len a.
Proof.
  intros Hw H. pose proof (pchan_lt zm a c u H) as Hc. rewrite pchan_nth in H by auto.
  rewrite <- (wf_nth a c Hw Hc). apply (prep_length zm); auto. rewrite wf_nth by auto. apply Hw.
Qed.
Lemma pchan_inv zm a c u : wf a -> pchan zm a c = Some u ->
  exists v, nth c (a_chans a) [] = map Fin v /\ length v = a_len a /\ u = unit_of (pre zm v).
Proof.
  intros Hw H. pose proof (pchan_lt zm a c u H) as Hc. rewrite pchan_nth in H by auto.
  apply prep_some_inv in H. 2:{ rewrite wf_nth by auto. apply Hw. }
  destruct H as (v & E & ->). exists v. repeat split; auto.
  rewrite <- (wf_nth a c Hw Hc), E, map_length. auto.
Qed.
Lemma pchan_fin zm a c v : wf a -> c < n_chan a -> nth c (a_chans a) [] = map Fin v ->
  pchan zm a c = Some (unit_of (pre zm v)) /\ length v = a_len a.
Proof.
  intros Hw Hc E. rewrite pchan_nth, E by auto. pose proof (wf_nth a c Hw Hc) as Hl.
  rewrite E, map_length in Hl. split; auto. apply prep_fin. rewrite Hl. apply Hw.
Qed.
Lemma pchan_energy_le1 zm a c u M : wf a -> pchan zm a c = Some u -> a_len a <= M ->
  (energy M (smp u) <= 1)%R.
Proof.
  intros Hw H HM. destruct (pchan_inv zm a c u Hw H) as (v & _ & Hl & ->).
  apply energy_unit_le1. rewrite length_pre. lia.
Qed.

Theorem sdr_entry1 b o ref est m c d x y : wf ref -> wf est ->
  sdr_coh b o ref est = Ok m -> filter_length o = 1 -> a_len ref = a_len est ->
  pchan (zero_mean o) ref c = Some x -> pchan (zero_mean o) est d = Some y ->
  mat_of m c d = Fin (dot (a_len ref) (smp x) (smp y) ^ 2).
Proof.
  intros Hwr Hwe H HL Hlen Hx Hy.
  pose proof (pchan_lt _ _ _ _ Hx) as Hc. pose proof (pchan_lt _ _ _ _ Hy) as Hd.
  unfold sdr_coh in H. rewrite HL in H. simpl Nat.eqb in H. unfold bc_len in H.
  rewrite Hlen, Nat.eqb_refl in H. simpl in H. injection H as <-.
  unfold mat_of, len1_sdr.
  rewrite (nth_indep _ [] (map (fun y0 => lift2 (fun a b0 => ip (a_len est) a b0 ^ 2)%R None y0)
     (prep_arr (zero_mean o) est))) by (rewrite map_length, length_prep; auto).
  rewrite (map_nth (fun x0 => map (fun y0 => lift2 (fun a b0 => ip (a_len est) a b0 ^ 2)%R x0 y0)
     (prep_arr (zero_mean o) est))).
  rewrite (nth_indep _ NaN (lift2 (fun a b0 => ip (a_len est) a b0 ^ 2)%R
     (nth c (prep_arr (zero_mean o) ref) None) None)) by (rewrite map_length, length_prep; auto).
  rewrite (map_nth (lift2 (fun a b0 => ip (a_len est) a b0 ^ 2)%R
     (nth c (prep_arr (zero_mean o) ref) None))).
  assert (Lx := pchan_length _ _ _ _ Hwr Hx). assert (Ly := pchan_length _ _ _ _ Hwe Hy).
  unfold pchan in *. rewrite Hx, Hy. cbn [lift2]. f_equal. rewrite ip_dot by congruence. rewrite Hlen. reflexivity.
Qed.
(** ... which is the least-squares value for one tap when the reference has norm >= 1e-6 *)
Lemma len1_lsq M (a : nat -> nat -> R) (y : nat -> R) : energy M (a 0) = 1%R -> lsq 1 M a 0 y (dot M (a 0) y ^ 2).
Proof.
  intros H. exists (fun _ => dot M (a 0) y). split.
  - intros i Hi. replace i with 0 by lia. unfold mulmv, gram. simpl. unfold energy in H. rewrite H. ring.
  - unfold qval. simpl. ring.
Qed.

(** ** Plain (non circular) delays *)
Lemma lsq_plain nf L x y M q lam : lsq L nf (cdelayed nf x) lam (smp y) q ->
  L <= nf -> length x + L - 1 <= nf -> length x + L - 1 <= M ->
  lsq L M (delays x) lam (smp y) q.
Proof.
  intros H HL Hn HM. apply (lsq_ext L nf (cdelayed nf x) M (delays x) lam (smp y) (smp y)); auto.
  - intros i j Hi Hj. rewrite (dot_ext nf _ (delayed x i) _ (delayed x j)).
    2,3: intros t Ht; apply cdelayed_plain; lia.
    unfold delays. destruct (Nat.le_ge_cases i j).
    + rewrite !dot_delayed2 by lia. auto.
    + rewrite (dot_comm nf), (dot_comm M), !dot_delayed2 by lia. auto.
  - intros i Hi. rewrite (dot_ext nf _ (delayed x i) _ (smp y)); auto.
    2: intros t Ht; apply cdelayed_plain; lia.
    unfold delays. rewrite !dot_delayed by lia. auto.
Qed.
Lemma delayed_unit v i t : delayed (unit_of v) i t = (gain v * delayed v i t)%R.
Proof. unfold delayed. destruct (t <? i); [ring|apply smp_unit_of]. Qed.

(** The SDR coherence in [1 <= L <= max lengths]: relative energy of the projection. *)
Theorem sdr_entry_plain b o ref est m c d x y M : wf ref -> wf est ->
  sdr_coh b o ref est = Ok m -> use_cg_iter o = None -> load_diag o = None ->
  1 <= filter_length o <= Nat.max (a_len ref) (a_len est) ->
  (filter_length o = 1 -> a_len ref = a_len est) ->
  c < n_chan ref -> d < n_chan est ->
  nth c (a_chans ref) [] = map Fin x -> nth d (a_chans est) [] = map Fin y ->
  (filter_length o = 1 -> (norm_eps <= norm2 (pre (zero_mean o) x))%R) ->
  a_len ref + filter_length o - 1 <= M -> a_len est <= M ->
  exists q, mat_of m c d = Fin q /\
    lsq (filter_length o) M (delays (unit_of (pre (zero_mean o) x))) 0
        (smp (unit_of (pre (zero_mean o) y))) q.
Proof.
  intros Hwr Hwe H Hcg Hld HL HL1 Hc Hd Ex Ey Hnx HM1 HM2.
  destruct (pchan_fin (zero_mean o) ref c x Hwr Hc Ex) as [Hx Hlx].
  destruct (pchan_fin (zero_mean o) est d y Hwe Hd Ey) as [Hy Hly].
  set (x' := unit_of (pre (zero_mean o) x)) in *. set (y' := unit_of (pre (zero_mean o) y)) in *.
  assert (Hx' : length x' = a_len ref) by (unfold x'; rewrite length_unit_of, length_pre; auto).
  assert (Hy' : length y' = a_len est) by (unfold y'; rewrite length_unit_of, length_pre; auto).
  destruct (Nat.eq_dec (filter_length o) 1) as [E1|N1].
  - eexists. split; [apply (sdr_entry1 b o ref est m c d x' y'); auto|].
    rewrite E1.
    assert (E : forall t, delays x' 0 t = smp x' t).
    { intros t. unfold delays, delayed. rewrite Nat.sub_0_r. reflexivity. }
    assert (Hd0 : dot (a_len ref) (smp x') (smp y') = dot M (delays x' 0) (smp y')).
    { rewrite (dot_ext M _ (smp x') _ (smp y')) by auto. unfold dot. symmetry.
      apply Rsum_trunc; [lia|]. intros t Ht _. unfold smp at 1. rewrite nth_overflow by lia. ring. }
    rewrite Hd0. apply len1_lsq. rewrite (energy_ext M _ (smp x')) by auto.
    apply energy_unit_1; auto. rewrite length_pre. lia.
  - destruct (sdr_entry b o ref est m c d x' y') as (q & Hq & Eq); auto.
    exists q. split; auto. rewrite Hld in Hq.
    assert (Hwr0 : 0 < a_len ref) by apply Hwr.
    pose proof (n_fft_ge (a_len ref) (a_len est) Hwr0) as Hnf.
    rewrite Nat.min_l in Hq by lia.
    apply (lsq_plain (n_fft (a_len ref) (a_len est))); auto; lia.
Qed.

(** the value for normalised signals: relative energy of the projection of the original ones *)
Lemma lsq_unit K M a a' y p q g : (forall k, k < K -> g k <> 0%R) ->
  (forall k t, k < K -> t < M -> a' k t = (g k * a k t)%R) ->
  length y <= M -> (norm_eps <= norm2 y)%R ->
  lsq K M a' 0 (smp (unit_of y)) q ->
  is_projection K M a (smp y) p ->
  q = (energy M p / energy M (smp y))%R.
Proof.
  intros Hg Ha HM Hy Hq Hp.
  assert (P : is_projection K M a' (smp (unit_of y)) (fun t => gain y * p t)%R).
  { pose proof (projection_scale K M a (smp y) p g (gain y)) as S.
    eapply projection_ext; [| | |apply S; auto].
    - intros k t Hk Ht. cbv beta. rewrite Ha by auto. reflexivity.
    - intros t _. rewrite smp_unit_of. reflexivity.
    - reflexivity. }
  rewrite (lsq_proj _ _ _ _ _ _ Hq P). rewrite energy_scal, gain_norm, energy_smp by auto.
  pose proof eps_pos. field. lra.
Qed.
Lemma neg_sdr_dB a r : (0 <= a)%R -> (0 <= r)%R -> (0 < a + r)%R ->
  coherence_to_neg_sdr None (Fin (a / (a + r))) = dB r a.
Proof.
  intros Ha Hr H. unfold dB. destruct (Req_EM_T a 0) as [->|Na].
  { apply neg_sdr_pos_inf. right. eexists. split; eauto. unfold Rdiv. rewrite Rmult_0_l. lra. }
  destruct (Req_EM_T r 0) as [->|Nr].
  { apply neg_sdr_neg_inf. right. eexists. split; eauto. rewrite Rplus_0_r. right. field. auto. }
  rewrite neg_sdr_fin.
  - unfold gdb. do 3 f_equal. field. lra.
  - split; [apply Rdiv_lt_0_compat; lra|]. apply (Rmult_lt_reg_r (a + r)); auto.
    unfold Rdiv. rewrite Rmult_assoc, Rinv_l by lra. lra.
Qed.
Lemma to_db_entry o m c d : mat_of (to_db o m) c d = coherence_to_neg_sdr (clamp_db o) (mat_of m c d).
Proof.
  unfold mat_of, to_db. rewrite <- (neg_sdr_nan (clamp_db o)) at 1.
  change (@nil xr) with (map (coherence_to_neg_sdr (clamp_db o)) []) at 1.
  rewrite (map_nth (map (coherence_to_neg_sdr (clamp_db o)))). rewrite map_nth. reflexivity.
Qed.
Lemma loss_inv b o est ref m : pairwise_sdr_loss b o est ref = Ok m ->
  exists m', sdr_coh b o ref est = Ok m' /\ m = to_db o m'.
Proof.
  unfold pairwise_sdr_loss. destruct (sdr_coh b o ref est) as [m'|]; simpl; [|discriminate].
  intros H. injection H as <-. eauto.
Qed.
Lemma len1_le K M a y q : 0 < K -> (energy M (a 0%nat) <= 1)%R -> lsq K M a 0 y q ->
  (dot M (a 0%nat) y ^ 2 <= q)%R.
Proof.
  intros HK He Hq. set (g := fun k => if Nat.eqb k 0 then dot M (a 0%nat) y else 0%R).
  pose proof (lsq_max K M a 0 y q g (Rle_refl 0) Hq) as H.
  assert (E1 : qval K M a y g = (dot M (a 0%nat) y ^ 2)%R).
  { unfold qval, g. rewrite (Rsum_ext K _ (fun k => if Nat.eqb k 0 then dot M (a k) y * dot M (a 0%nat) y else 0)%R).
    - rewrite (Rsum_delta K 0 (fun k => dot M (a k) y * dot M (a 0%nat) y)%R) by auto. ring.
    - intros k _. destruct (k =? 0); ring. }
  assert (E2 : energy M (comb K a g) = (dot M (a 0%nat) y ^ 2 * energy M (a 0%nat))%R).
  { rewrite (energy_ext M _ (fun t => dot M (a 0%nat) y * a 0%nat t)%R).
    - apply energy_scal.
    - intros t _. unfold comb, g.
      rewrite (Rsum_ext K _ (fun k => if Nat.eqb k 0 then dot M (a 0%nat) y * a k t else 0)%R).
      + rewrite (Rsum_delta K 0 (fun k => dot M (a 0%nat) y * a k t)%R) by auto. reflexivity.
      + intros k _. destruct (k =? 0); ring. }
  rewrite E1, E2 in H. pose proof (pow2_ge_0 (dot M (a 0%nat) y)).
  assert (dot M (a 0%nat) y ^ 2 * energy M (a 0%nat) <= dot M (a 0%nat) y ^ 2 * 1)%R
    by (apply Rmult_le_compat_l; auto). lra.
Qed.
Lemma dot_sq_le M u v : (energy M u <= 1)%R -> (dot M u v ^ 2 <= energy M v)%R.
Proof.
  intros Hu. pose proof (energy_nonneg M (fun t => v t - dot M u v * u t)%R) as H.
  rewrite energy_sub, dot_scal_r, energy_scal, (dot_comm M v u) in H.
  pose proof (pow2_ge_0 (dot M u v)).
  assert (dot M u v ^ 2 * energy M u <= dot M u v ^ 2 * 1)%R by (apply Rmult_le_compat_l; auto). lra.
Qed.
