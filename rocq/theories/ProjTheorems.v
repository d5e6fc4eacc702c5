(** * SDR, SIR and SAR as projections; bounds, monotonicity, errors *)
From Coq Require Import Reals Lra.
From Coquelicot Require Import Complex.
From Verif Require Import Prelude ExtReal Slice Sums Fft FftProofs Helpers HelpersProofs Linalg
  LinalgProofs Cgd Metrics SpecSig StatsProofs LeastSq PrepProofs DbProofs MetricsProofs SarProofs.
Local Open Scope nat_scope.

(** channel c of the array holds the finite samples v *)
Definition has_chan (a : arr) (c : nat) (v : list R) : Prop :=
  c < n_chan a /\ nth c (a_chans a) [] = map Fin v.

Lemma has_chan_pchan zm a c v : wf a -> has_chan a c v ->
  pchan zm a c = Some (unit_of (pre zm v)) /\ length v = a_len a.
Proof. intros Hw [Hc E]. apply pchan_fin; auto. Qed.

(** ** SDR *)
Theorem sdr_projection b o ref est m c d x y M p : wf ref -> wf est ->
  use_cg_iter o = None -> load_diag o = None -> clamp_db o = None ->
  1 <= filter_length o <= Nat.max (a_len ref) (a_len est) ->
  (filter_length o = 1 ->
     a_len ref = a_len est /\ (norm_eps <= norm2 (pre (zero_mean o) x))%R) ->
  has_chan ref c x -> has_chan est d y ->
  (norm_eps <= norm2 (pre (zero_mean o) y))%R ->
  a_len ref + filter_length o - 1 <= M -> a_len est <= M ->
  is_projection (filter_length o) M (delays (pre (zero_mean o) x)) (smp (pre (zero_mean o) y)) p ->
  pairwise_sdr_loss b o est ref = Ok m ->
  mat_of m c d = dB (energy M (fun t => smp (pre (zero_mean o) y) t - p t)%R) (energy M p).
Proof.
  intros Hwr Hwe Hcg Hld Hcl HL HL1 [Hc Ex] [Hd Ey] Hny HM1 HM2 Hp H.
  destruct (loss_inv _ _ _ _ _ H) as (m' & E & ->). rewrite to_db_entry, Hcl.
  destruct (sdr_entry_plain b o ref est m' c d x y M) as (q & -> & Hq); auto.
  { intros H1; apply HL1; auto. } { intros H1; apply HL1; auto. }
  destruct (pchan_fin (zero_mean o) est d y Hwe Hd Ey) as [_ Hly].
  set (x0 := pre (zero_mean o) x) in *. set (y0 := pre (zero_mean o) y) in *.
  assert (Hl : length y0 <= M) by (unfold y0; rewrite length_pre; lia).
  rewrite (lsq_unit (filter_length o) M (delays x0) (delays (unit_of x0)) y0 p q (fun _ => gain x0)); auto.
  - pose proof (proj_pythagoras _ _ _ _ _ Hp) as P. rewrite P.
    apply neg_sdr_dB; try apply energy_nonneg. rewrite <- P, energy_smp by auto.
    pose proof eps_pos. apply pow_lt. lra.
  - intros _ _. pose proof (gain_pos x0). lra.
  - intros k t _ _. unfold delays. apply delayed_unit.
Qed.

(** ** Coherences lie in [0, 1] *)
Lemma nf_ge_est lx ly : 0 < lx -> ly <= n_fft lx ly.
Proof. intros H. pose proof (n_fft_ge lx ly H). lia. Qed.
Lemma nf_ge_ref lx ly : 0 < lx -> lx <= n_fft lx ly.
Proof. intros H. pose proof (n_fft_ge lx ly H). lia. Qed.

Theorem sdr_coh_unit_range b o ref est m c d x y : wf ref -> wf est ->
  use_cg_iter o = None -> (0 <= loadv (load_diag o))%R ->
  (filter_length o = 1 -> a_len ref = a_len est) ->
  has_chan ref c x -> has_chan est d y ->
  sdr_coh b o ref est = Ok m ->
  exists q, mat_of m c d = Fin q /\ (0 <= q <= 1)%R.
Proof.
  intros Hwr Hwe Hcg Hld HL1 Hx Hy H.
  destruct (has_chan_pchan (zero_mean o) ref c x Hwr Hx) as [Px Lx].
  destruct (has_chan_pchan (zero_mean o) est d y Hwe Hy) as [Py Ly].
  assert (Hwr0 : 0 < a_len ref) by apply Hwr.
  destruct (Nat.eq_dec (filter_length o) 1) as [E1|N1].
  - eexists. split; [apply (sdr_entry1 b o ref est m c d _ _ Hwr Hwe H E1 (HL1 E1) Px Py)|].
    split; [apply pow2_ge_0|]. eapply Rle_trans; [apply dot_sq_le|].
    + apply (pchan_energy_le1 _ _ _ _ _ Hwr Px). lia.
    + apply (pchan_energy_le1 _ _ _ _ _ Hwe Py). rewrite (HL1 E1). lia.
  - destruct (sdr_entry b o ref est m c d _ _ H Hcg N1 (proj1 Hx) (proj1 Hy) Px Py) as (q & Hq & Eq).
    exists q. split; auto. apply lsq_bounds in Hq; auto.
    pose proof (pchan_energy_le1 _ _ _ _ _ Hwe Py (nf_ge_est (a_len ref) (a_len est) Hwr0)). lra.
Qed.

(** all reference channels are finite; channel c holds xs c *)
Definition has_chans (a : arr) (xs : nat -> list R) : Prop :=
  forall c, c < n_chan a -> nth c (a_chans a) [] = map Fin (xs c).
Lemma has_chans_at a xs c : has_chans a xs -> c < n_chan a -> has_chan a c (xs c).
Proof. intros H Hc. split; auto. Qed.
Lemma has_chans_clean zm a xs : wf a -> has_chans a xs -> clean zm a.
Proof.
  intros Hw H c Hc E.
  destruct (has_chan_pchan zm a c (xs c) Hw (has_chans_at a xs c H Hc)) as [E2 _]. congruence.
Qed.
Lemma has_chans_pc zm a xs c : wf a -> has_chans a xs -> c < n_chan a ->
  pc zm a c = unit_of (pre zm (xs c)).
Proof.
  intros Hw H Hc. unfold pc.
  destruct (has_chan_pchan zm a c (xs c) Hw (has_chans_at a xs c H Hc)) as [-> _]. reflexivity.
Qed.

Theorem sar_coh_unit_range b o ref est m sar d y xs : wf ref -> wf est ->
  use_cg_iter o = None -> (0 <= loadv (load_diag o))%R -> 1 <= filter_length o ->
  (filter_length o = 1 -> a_len ref = a_len est) ->
  has_chans ref xs -> has_chan est d y ->
  sq_cos b o ref est = Ok (m, sar) ->
  exists q, nth d sar NaN = Fin q /\ (0 <= q <= 1)%R.
Proof.
  intros Hwr Hwe Hcg Hld HL HL1 Hx Hy H.
  destruct (has_chan_pchan (zero_mean o) est d y Hwe Hy) as [Py Ly].
  assert (Hwr0 : 0 < a_len ref) by apply Hwr.
  pose proof (has_chans_clean (zero_mean o) ref xs Hwr Hx) as Hcl.
  destruct (Nat.eq_dec (filter_length o) 1) as [E1|N1].
  - destruct (sar_entry1 b o ref est m sar d _ Hwr Hwe H E1 (HL1 E1) Hcl (proj1 Hy) Py) as (q & Hq & Eq).
    exists q. split; auto. apply lsq_bounds in Hq; auto.
    assert (energy (a_len ref) (smp (unit_of (pre (zero_mean o) y))) <= 1)%R; [|lra].
    apply (pchan_energy_le1 _ _ _ _ _ Hwe Py). rewrite (HL1 E1). lia.
  - destruct (sar_entry b o ref est m sar d _ H Hcg ltac:(lia) Hcl (proj1 Hy) Py) as (_ & q & Hq & Eq).
    exists q. split; auto. apply lsq_bounds in Hq; auto.
    pose proof (pchan_energy_le1 _ _ _ _ _ Hwe Py (nf_ge_est (a_len ref) (a_len est) Hwr0)). lra.
Qed.

(** ** The SDR coherence never exceeds the SAR coherence *)
Lemma cdelayed_0 nf x t : t < nf -> cdelayed nf x 0 t = smp x t.
Proof.
  intros H. unfold cdelayed, smp. replace (t + (nf - 0)) with (t + 1 * nf) by lia.
  rewrite Nat.mod_add, Nat.mod_small by lia. reflexivity.
Qed.
Lemma all_cdelays_at nf k xs l c : c < k -> all_cdelays nf k xs (l * k + c) = cdelayed nf (xs c) l.
Proof. intros H. unfold all_cdelays. rewrite lag_div, lag_mod by auto. reflexivity. Qed.

Theorem sdr_le_sar_coh b o ref est m sar c d y xs : wf ref -> wf est ->
  use_cg_iter o = None -> (0 <= loadv (load_diag o))%R ->
  2 <= filter_length o \/ (filter_length o = 1 /\ a_len ref = a_len est /\ loadv (load_diag o) = 0%R) ->
  has_chans ref xs -> c < n_chan ref -> has_chan est d y ->
  sq_cos b o ref est = Ok (m, sar) ->
  exists q s, mat_of m c d = Fin q /\ nth d sar NaN = Fin s /\ (0 <= q <= s)%R /\ (s <= 1)%R.
Proof.
  intros Hwr Hwe Hcg Hld HL Hx Hc Hy H.
  assert (HL0 : 1 <= filter_length o) by lia.
  assert (HL1 : filter_length o = 1 -> a_len ref = a_len est) by lia.
  pose proof (sq_cos_sdr' b o ref est m sar HL0 H) as Hs.
  destruct (sdr_coh_unit_range b o ref est m c d (xs c) y) as (q0 & Eq0 & R0); auto.
  { apply has_chans_at; auto. }
  destruct (sar_coh_unit_range b o ref est m sar d y xs) as (s0 & Es0 & S0); auto.
  exists q0, s0. repeat split; try tauto; try apply R0; try apply S0.
  destruct (has_chan_pchan (zero_mean o) est d y Hwe Hy) as [Py Ly].
  destruct (has_chan_pchan (zero_mean o) ref c (xs c) Hwr (has_chans_at _ _ _ Hx Hc)) as [Px Lx].
  assert (Hwr0 : 0 < a_len ref) by apply Hwr.
  pose proof (has_chans_clean (zero_mean o) ref xs Hwr Hx) as Hcl.
  pose proof (has_chans_pc (zero_mean o) ref xs c Hwr Hx Hc) as Hpc.
  destruct HL as [HL|(E1 & El & Hl0)].
  - destruct (sdr_entry b o ref est m c d _ _ Hs Hcg ltac:(lia) Hc (proj1 Hy) Px Py) as (q & Hq & Eq).
    destruct (sar_entry b o ref est m sar d _ H Hcg HL Hcl (proj1 Hy) Py) as (HLn & s & Hsq & Es).
    set (nf := n_fft (a_len ref) (a_len est)) in *.
    rewrite Nat.min_l in Hq by auto.
    assert (q0 = q) by congruence. assert (s0 = s) by congruence. subst q0 s0.
    eapply (lsq_mono (filter_length o) (filter_length o * n_chan ref) nf _ _ _ _ _ _ _
             (fun l => l * n_chan ref + c)); [split; [exact Hld|apply Rle_refl]| | | |exact Hq|exact Hsq].
    + intros l Hl. cbv beta. apply Nat.lt_le_trans with (S l * n_chan ref); [simpl; lia|].
      apply Nat.mul_le_mono_r. lia.
    + intros l l' Hl Hl' E. apply lag_inj in E; auto. lia.
    + intros l t Hl Ht. cbv beta. rewrite all_cdelays_at by auto. rewrite Hpc. reflexivity.
  - rewrite (sdr_entry1 b o ref est m c d _ _ Hwr Hwe Hs E1 El Px Py) in Eq0.
    destruct (sar_entry1 b o ref est m sar d _ Hwr Hwe H E1 El Hcl (proj1 Hy) Py) as (s & Hsq & Es).
    assert (s0 = s) by congruence. subst s0. injection Eq0 as <-. rewrite Hl0 in Hsq.
    (* move channel c to the front *)
    destruct Hsq as (h & N & Es2).
    set (n := a_len ref) in *. set (k := n_chan ref) in *.
    set (a := fun c0 => smp (pc (zero_mean o) ref c0)) in *.
    set (y' := smp (unit_of (pre (zero_mean o) y))) in *.
    set (g := fun j => if Nat.eqb j c then dot n (a c) y' else 0%R).
    pose proof (q_max k n a 0 y' h g (Rle_refl 0) N) as Q. rewrite <- Es2 in Q.
    assert (Ea : a c = smp (unit_of (pre (zero_mean o) (xs c)))) by (unfold a; rewrite Hpc; auto).
    assert (E1' : qval k n a y' g = (dot n (a c) y' ^ 2)%R).
    { unfold qval, g. rewrite (Rsum_ext k _ (fun j => if Nat.eqb j c then dot n (a j) y' * dot n (a c) y' else 0)%R).
      - rewrite (Rsum_delta k c (fun j => dot n (a j) y' * dot n (a c) y')%R) by auto. ring.
      - intros j _. destruct (j =? c); ring. }
    assert (E2' : energy n (comb k a g) = (dot n (a c) y' ^ 2 * energy n (a c))%R).
    { rewrite (energy_ext n _ (fun t => dot n (a c) y' * a c t)%R).
      - apply energy_scal.
      - intros t _. unfold comb, g.
        rewrite (Rsum_ext k _ (fun j => if Nat.eqb j c then dot n (a c) y' * a j t else 0)%R).
        + rewrite (Rsum_delta k c (fun j => dot n (a c) y' * a j t)%R) by auto. reflexivity.
        + intros j _. destruct (j =? c); ring. }
    rewrite E1', E2' in Q.
    assert (He : (energy n (a c) <= 1)%R).
    { rewrite Ea. apply (pchan_energy_le1 _ _ _ _ _ Hwr Px). unfold n; lia. }
    rewrite Ea in *. pose proof (pow2_ge_0 (dot n (smp (unit_of (pre (zero_mean o) (xs c)))) y')) as P.
    pose proof (Rmult_le_compat_l _ _ _ P He) as P2. lra.
Qed.

(** In decibels: every pairwise SDR is <= the SAR and <= the SIR (when that is not 0/0). *)
Theorem sdr_le_sar_sir b o ref est m sar c d y xs : wf ref -> wf est ->
  use_cg_iter o = None -> (0 <= loadv (load_diag o))%R ->
  2 <= filter_length o \/ (filter_length o = 1 /\ a_len ref = a_len est /\ loadv (load_diag o) = 0%R) ->
  has_chans ref xs -> c < n_chan ref -> has_chan est d y ->
  sq_cos b o ref est = Ok (m, sar) ->
  let '(nsdr, nsir, nsar) := bss_mats o (m, sar) in
  xle (nsar c d) (nsdr c d) /\ (nsir c d = NaN \/ xle (nsir c d) (nsdr c d)).
Proof.
  intros Hwr Hwe Hcg Hld HL Hx Hc Hy H.
  destruct (sdr_le_sar_coh b o ref est m sar c d y xs) as (q & s & Eq & Es & R1 & R2); auto.
  simpl. rewrite Eq, Es. split.
  - apply neg_sdr_mono; lra.
  - destruct (Req_dec s 0) as [->|Ns].
    + left. assert (q = 0)%R by lra. subst q. apply neg_sdr_no_nan. simpl.
      replace (Reqb 0 0) with true by (symmetry; apply Reqb_true; auto). reflexivity.
    + right. rewrite xdiv_fin by auto. apply neg_sdr_mono; try lra.
      * apply (Rmult_le_reg_r s); [lra|]. unfold Rdiv. rewrite Rmult_assoc, Rinv_l by lra.
        rewrite Rmult_1_r. pose proof (Rmult_le_compat_l q s 1). lra.
      * apply (Rmult_le_reg_r s); [lra|]. unfold Rdiv. rewrite Rmult_assoc, Rinv_l by lra. lra.
Qed.

(** ** SIR and SAR by projections *)
Lemma lsq_all_plain nf L k xs y M q lam n : 
  (forall c, c < k -> length (xs c) = n) ->
  lsq (L * k) nf (all_cdelays nf k xs) lam (smp y) q ->
  L <= nf -> n + L - 1 <= nf -> n + L - 1 <= M ->
  lsq (L * k) M (all_delays k xs) lam (smp y) q.
Proof.
  intros Hn H HL Hnf HM. apply (lsq_ext (L * k) nf (all_cdelays nf k xs) M (all_delays k xs) lam (smp y) (smp y)); auto.
  - intros p q' Hp Hq.
    destruct (lag_split k L p Hp) as (i & r & Hi & Hr & ->).
    destruct (lag_split k L q' Hq) as (j & c & Hj & Hc & ->).
    rewrite !all_cdelays_at by auto. unfold all_delays. rewrite !lag_div, !lag_mod by auto.
    pose proof (Hn r Hr). pose proof (Hn c Hc).
    rewrite (dot_ext nf _ (delayed (xs r) i) _ (delayed (xs c) j)).
    2,3: intros t Ht; apply cdelayed_plain; lia.
    destruct (Nat.le_ge_cases i j).
    + rewrite !dot_delayed2 by lia. auto.
    + rewrite (dot_comm nf), (dot_comm M), !dot_delayed2 by lia. auto.
  - intros p Hp. destruct (lag_split k L p Hp) as (i & r & Hi & Hr & ->).
    rewrite !all_cdelays_at by auto. unfold all_delays. rewrite !lag_div, !lag_mod by auto.
    pose proof (Hn r Hr).
    rewrite (dot_ext nf _ (delayed (xs r) i) _ (smp y)); auto.
    2: intros t Ht; apply cdelayed_plain; lia.
    rewrite !dot_delayed by lia. auto.
Qed.

Theorem sar_entry_plain b o ref est m sar d xs y M : wf ref -> wf est ->
  sq_cos b o ref est = Ok (m, sar) -> use_cg_iter o = None -> load_diag o = None ->
  1 <= filter_length o <= Nat.max (a_len ref) (a_len est) ->
  (filter_length o = 1 -> a_len ref = a_len est) ->
  has_chans ref xs -> has_chan est d y ->
  a_len ref + filter_length o - 1 <= M -> a_len est <= M ->
  exists q, nth d sar NaN = Fin q /\
    lsq (filter_length o * n_chan ref) M
        (all_delays (n_chan ref) (fun c => unit_of (pre (zero_mean o) (xs c)))) 0
        (smp (unit_of (pre (zero_mean o) y))) q.
Proof.
  intros Hwr Hwe H Hcg Hld HL HL1 Hx Hy HM1 HM2.
  destruct (has_chan_pchan (zero_mean o) est d y Hwe Hy) as [Py Ly].
  pose proof (has_chans_clean (zero_mean o) ref xs Hwr Hx) as Hcl.
  assert (Hwr0 : 0 < a_len ref) by apply Hwr.
  assert (Hlen : forall c, c < n_chan ref -> length (pc (zero_mean o) ref c) = a_len ref).
  { intros c Hc. apply (pchan_length (zero_mean o) ref c); auto. apply clean_pc; auto. }
  assert (Hsw : forall K M' q, lsq (K * n_chan ref) M' (all_delays (n_chan ref) (pc (zero_mean o) ref)) 0
             (smp (unit_of (pre (zero_mean o) y))) q ->
    lsq (K * n_chan ref) M' (all_delays (n_chan ref) (fun c => unit_of (pre (zero_mean o) (xs c)))) 0
             (smp (unit_of (pre (zero_mean o) y))) q).
  { intros K M' q Hq. eapply lsq_ext; [| |exact Hq].
    - intros i j Hi Hj. destruct (lag_split _ _ _ Hi) as (l & c & Hl & Hc & ->).
      destruct (lag_split _ _ _ Hj) as (l' & c' & Hl' & Hc' & ->).
      unfold all_delays. rewrite !lag_div, !lag_mod by auto.
      rewrite !(has_chans_pc _ _ xs) by auto. reflexivity.
    - intros i Hi. destruct (lag_split _ _ _ Hi) as (l & c & Hl & Hc & ->).
      unfold all_delays. rewrite !lag_div, !lag_mod by auto.
      rewrite !(has_chans_pc _ _ xs) by auto. reflexivity. }
  destruct (Nat.eq_dec (filter_length o) 1) as [E1|N1].
  - destruct (sar_entry1 b o ref est m sar d _ Hwr Hwe H E1 (HL1 E1) Hcl (proj1 Hy) Py) as (q & Hq & Eq).
    exists q. split; auto. apply Hsw. rewrite E1, Nat.mul_1_l, Hld in *. simpl loadv in Hq.
    assert (Hat : forall c t, c < n_chan ref ->
       all_delays (n_chan ref) (pc (zero_mean o) ref) c t = smp (pc (zero_mean o) ref c) t).
    { intros c t Hc. unfold all_delays. rewrite Nat.mod_small, Nat.div_small by auto.
      unfold delayed. rewrite Nat.sub_0_r. reflexivity. }
    assert (Htr : forall c (v : nat -> R), c < n_chan ref ->
      dot (a_len ref) (smp (pc (zero_mean o) ref c)) v =
      dot M (all_delays (n_chan ref) (pc (zero_mean o) ref) c) v).
    { intros c v Hc. rewrite (dot_ext M _ (smp (pc (zero_mean o) ref c)) _ v) by auto.
      unfold dot. symmetry. apply Rsum_trunc; [lia|]. intros t Ht _. unfold smp at 1.
      rewrite nth_overflow by (rewrite Hlen; auto). ring. }
    eapply lsq_ext; [| |exact Hq].
    + intros i j Hi Hj. cbv beta. rewrite Htr by auto. apply dot_ext; auto.
      intros t Ht. rewrite Hat by auto. reflexivity.
    + intros i Hi. cbv beta. apply Htr; auto.
  - destruct (sar_entry b o ref est m sar d _ H Hcg ltac:(lia) Hcl (proj1 Hy) Py) as (HLn & q & Hq & Eq).
    exists q. split; auto. apply Hsw. rewrite Hld in Hq. simpl loadv in Hq.
    pose proof (n_fft_ge (a_len ref) (a_len est) Hwr0).
    eapply lsq_all_plain; try exact Hq; try exact Hlen; lia.
Qed.

(** the projection on a part of the vectors, seen from the whole span *)
Lemma proj_nested K K' M a a' y p pk (sg : nat -> nat) :
  (forall k, k < K' -> sg k < K) -> (forall k t, k < K' -> t < M -> a' k t = a (sg k) t) ->
  is_projection K M a y p -> is_projection K' M a' y pk ->
  energy M p = (energy M pk + energy M (fun t => p t - pk t))%R.
Proof.
  intros Hsg Ha P Pk.
  assert (Pk' : is_projection K' M a' p pk).
  { destruct Pk as [S Ok']. split; auto. intros k Hk.
    assert (E1 : dot M (a' k) (fun t => y t - p t)%R = 0%R).
    { rewrite (dot_ext M _ (a (sg k)) _ (fun t => y t - p t)%R) by auto. apply P; auto. }
    pose proof (Ok' k Hk) as E2. rewrite dot_sub_r in *. lra. }
  apply (proj_pythagoras _ _ _ _ _ Pk').
Qed.

Theorem sir_sar_projection b o ref est m sar c d xs y M p pk : wf ref -> wf est ->
  use_cg_iter o = None -> load_diag o = None -> clamp_db o = None ->
  1 <= filter_length o <= Nat.max (a_len ref) (a_len est) ->
  (filter_length o = 1 ->
     a_len ref = a_len est /\ (norm_eps <= norm2 (pre (zero_mean o) (xs c)))%R) ->
  has_chans ref xs -> c < n_chan ref -> has_chan est d y ->
  (norm_eps <= norm2 (pre (zero_mean o) y))%R ->
  a_len ref + filter_length o - 1 <= M -> a_len est <= M ->
  is_projection (filter_length o * n_chan ref) M
     (all_delays (n_chan ref) (fun c => pre (zero_mean o) (xs c))) (smp (pre (zero_mean o) y)) p ->
  is_projection (filter_length o) M (delays (pre (zero_mean o) (xs c))) (smp (pre (zero_mean o) y)) pk ->
  sq_cos b o ref est = Ok (m, sar) ->
  let '(nsdr, nsir, nsar) := bss_mats o (m, sar) in
  nsdr c d = dB (energy M (fun t => smp (pre (zero_mean o) y) t - pk t)%R) (energy M pk) /\
  nsar c d = dB (energy M (fun t => smp (pre (zero_mean o) y) t - p t)%R) (energy M p) /\
  (energy M p <> 0%R -> nsir c d = dB (energy M (fun t => p t - pk t)%R) (energy M pk)) /\
  (energy M p = 0%R -> nsir c d = NaN).
Proof.
  intros Hwr Hwe Hcg Hld Hcl HL HL1 Hx Hc Hy Hny HM1 HM2 Hp Hpk H.
  assert (Hs : sdr_coh b o ref est = Ok m) by (apply (sq_cos_sdr' b o ref est m sar); auto; lia).
  destruct (has_chans_at _ _ _ Hx Hc) as [_ Ex].
  destruct (sdr_entry_plain b o ref est m c d (xs c) y M) as (q & Eq & Hq); auto; try apply Hy.
  { intros H1; apply HL1; auto. } { intros H1; apply HL1; auto. }
  destruct (sar_entry_plain b o ref est m sar d xs y M) as (s & Es & Hsq); auto.
  { intros H1; apply HL1; auto. }
  destruct (has_chan_pchan (zero_mean o) est d y Hwe Hy) as [_ Hly].
  set (y0 := pre (zero_mean o) y) in *.
  set (x0 := fun c => pre (zero_mean o) (xs c)) in *.
  assert (Hl : length y0 <= M) by (unfold y0; rewrite length_pre; lia).
  assert (Eq2 : q = (energy M pk / energy M (smp y0))%R).
  { apply (lsq_unit (filter_length o) M (delays (x0 c)) (delays (unit_of (x0 c))) y0 pk q
             (fun _ => gain (x0 c))); auto.
    - intros _ _. pose proof (gain_pos (x0 c)). lra.
    - intros k t _ _. unfold delays. apply delayed_unit. }
  assert (Es2 : s = (energy M p / energy M (smp y0))%R).
  { apply (lsq_unit (filter_length o * n_chan ref) M (all_delays (n_chan ref) x0)
      (all_delays (n_chan ref) (fun c => unit_of (x0 c))) y0 p s
      (fun i => gain (x0 (i mod n_chan ref)))); auto.
    - intros k _. pose proof (gain_pos (x0 (k mod n_chan ref))). lra.
    - intros k t _ _. unfold all_delays. apply delayed_unit. }
  assert (Hy0 : (0 < energy M (smp y0))%R).
  { rewrite energy_smp by auto. pose proof eps_pos. apply pow_lt. lra. }
  pose proof (proj_pythagoras _ _ _ _ _ Hp) as P.
  pose proof (proj_pythagoras _ _ _ _ _ Hpk) as Pk.
  assert (N : energy M p = (energy M pk + energy M (fun t => p t - pk t))%R).
  { apply (proj_nested (filter_length o * n_chan ref) (filter_length o) M
      (all_delays (n_chan ref) x0) (delays (x0 c)) (smp y0) p pk (fun l => l * n_chan ref + c)); auto.
    - intros l Hl'. cbv beta. apply Nat.lt_le_trans with (S l * n_chan ref); [simpl; lia|].
      apply Nat.mul_le_mono_r. lia.
    - intros l t Hl' Ht. unfold all_delays. rewrite lag_div, lag_mod by auto. reflexivity. }
  simpl. rewrite Eq, Es, Hcl. repeat split.
  - rewrite Eq2, Pk. apply neg_sdr_dB; try apply energy_nonneg. rewrite <- Pk. auto.
  - rewrite Es2, P. apply neg_sdr_dB; try apply energy_nonneg. rewrite <- P. auto.
  - intros Hnz. rewrite xdiv_fin.
    2:{ rewrite Es2. unfold Rdiv. apply Rmult_integral_contrapositive_currified; auto.
        apply Rinv_neq_0_compat. lra. }
    replace (q / s)%R with (energy M pk / (energy M pk + energy M (fun t => p t - pk t)))%R.
    + apply neg_sdr_dB; try apply energy_nonneg. rewrite <- N.
      pose proof (energy_nonneg M p). lra.
    + rewrite Eq2, Es2, <- N. field. split; auto. lra.
  - intros Hz. apply neg_sdr_no_nan.
    pose proof (energy_nonneg M pk). pose proof (energy_nonneg M (fun t => p t - pk t)%R).
    assert (Hk0 : energy M pk = 0%R) by lra.
    rewrite Eq2, Es2, Hz, Hk0. unfold Rdiv. rewrite Rmult_0_l. simpl.
    replace (Reqb 0 0) with true by (symmetry; apply Reqb_true; auto). reflexivity.
Qed.
