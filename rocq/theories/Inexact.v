(** * Inexact statistics, inexact solvers

    The exact model against any program of the same structure whose correlations, linear solver and
    final sum are only approximate.  Nothing is assumed about how the errors arise. *)
From Coq Require Import Reals Lra.
From Verif Require Import Prelude ExtReal Spec SpecSig Sums Helpers PermProofs DbProofs Linalg LinalgProofs Metrics StatsProofs LeastSq
  PrepProofs MetricsProofs SarProofs ProjTheorems MetricTheorems Sensitivity Delay Perturb SiRoundFlt.
Local Open Scope nat_scope.

(** ** Linear systems *)
Lemma Rsum_abs_le n f g : (forall i, i < n -> (Rabs (f i) <= g i)%R) -> (Rabs (Rsum n f) <= Rsum n g)%R.
Proof. intros H. eapply Rle_trans; [apply Rabs_sum|]. apply Rsum_le. exact H. Qed.

(** 1-norm against 2-norm *)
Lemma norm1_le K h : (Rsum K (fun i => Rabs (h i)) <= sqrt (INR K * sq K h))%R.
Proof.
  set (s := Rsum K (fun i => Rabs (h i))).
  assert (P : (0 <= s)%R) by (apply Rsum_nonneg; intros; apply Rabs_pos).
  rewrite <- (sqrt_pow2 s P). apply sqrt_le_1_alt.
  pose proof (cauchy K (fun _ => 1%R) (fun i => Rabs (h i))) as C.
  replace (dot K (fun _ => 1%R) (fun i => Rabs (h i))) with s in C by (unfold s, dot; apply Rsum_ext; intros; ring).
  replace (energy K (fun _ => 1%R)) with (INR K) in C.
  2:{ unfold energy, dot. rewrite (Rsum_ext K _ (fun _ => 1%R)) by (intros; ring). rewrite Rsum_const. ring. }
  replace (energy K (fun i => Rabs (h i))) with (sq K h) in C; auto.
  unfold sq, energy, dot. apply Rsum_ext. intros i _. rewrite <- Rabs_mult. symmetry. apply Rabs_right, Rle_ge, Rle_0_sqr.
Qed.

(** b' g against b h, where A h = b and g nearly solves a system near A and b *)
Lemma inexact_value K (A A' : nat -> nat -> R) (b b' h g : nat -> R) delta eta rho :
  (forall i j, i < K -> j < K -> A i j = A j i) ->
  (forall i, i < K -> Rmv K A h i = b i) ->
  (forall i, i < K -> (Rabs (b' i - b i) <= delta)%R) ->
  (forall i j, i < K -> j < K -> (Rabs (A' i j - A i j) <= eta)%R) ->
  (forall i, i < K -> (Rabs (Rsum K (fun j => A' i j * g j) - b' i) <= rho)%R) ->
  let S := Rsum K (fun i => Rabs (g i)) in
  (Rabs (Rsum K (fun i => b' i * g i) - Rsum K (fun i => b i * h i)) <=
   delta * S + (delta + rho + eta * S) * Rsum K (fun i => Rabs (h i)))%R.
Proof.
  intros Sym Hh Hb HA Hr S.
  assert (E : Rsum K (fun i => b i * g i)%R = Rsum K (fun i => h i * Rsum K (fun j => A i j * g j))%R).
  { rewrite (Rsum_ext K _ (fun i => Rsum K (fun j => A i j * h j * g i)%R)).
    2:{ intros i Hi. rewrite <- (Hh i Hi). unfold mulmv. rewrite Rsum_scal_r. ring. }
    rewrite Rsum_swap. apply Rsum_ext. intros j Hj. rewrite <- Rsum_scal_l. apply Rsum_ext. intros i Hi. rewrite (Sym i j) by auto. ring. }
  replace (Rsum K (fun i => b' i * g i) - Rsum K (fun i => b i * h i))%R
    with (Rsum K (fun i => (b' i - b i) * g i) + Rsum K (fun i => h i * (Rsum K (fun j => A i j * g j) - b i)))%R.
  2:{ rewrite (Rsum_ext K (fun i => (b' i - b i) * g i)%R (fun i => b' i * g i - b i * g i)%R) by (intros; ring).
      rewrite (Rsum_ext K (fun i => h i * (_ - b i))%R (fun i => h i * Rsum K (fun j => A i j * g j) - b i * h i)%R) by (intros; ring).
      rewrite !Rsum_minus, E. ring. }
  eapply Rle_trans; [apply Rabs_triang|]. apply Rplus_le_compat.
  - unfold S. rewrite <- Rsum_scal_l. apply Rsum_abs_le. intros i Hi. rewrite Rabs_mult.
    apply Rmult_le_compat_r; [apply Rabs_pos|auto].
  - rewrite <- Rsum_scal_l. apply Rsum_abs_le. intros i Hi. rewrite Rabs_mult, Rmult_comm. apply Rmult_le_compat_r; [apply Rabs_pos|].
    replace (Rsum K (fun j => A i j * g j) - b i)%R
      with ((b' i - b i) + (Rsum K (fun j => A' i j * g j) - b' i) + Rsum K (fun j => (A i j - A' i j) * g j))%R.
    2:{ rewrite (Rsum_ext K (fun j => (A i j - A' i j) * g j)%R (fun j => A i j * g j - A' i j * g j)%R) by (intros; ring).
        rewrite Rsum_minus. ring. }
    eapply Rle_trans; [apply Rabs_triang|]. apply Rplus_le_compat.
    + eapply Rle_trans; [apply Rabs_triang|]. apply Rplus_le_compat; auto.
    + unfold S. rewrite <- Rsum_scal_l. apply Rsum_abs_le. intros j Hj. rewrite Rabs_mult.
      apply Rmult_le_compat_r; [apply Rabs_pos|]. rewrite Rabs_minus_sym. auto.
Qed.

(** ** The value of the normal equations *)
Lemma inexact_lsq K M a load y q A' b' g delta eta rho gam c' lam : (0 <= load)%R -> lsq K M a load y q -> (0 < lam)%R ->
  (forall v, (lam * sq K v <= energy M (comb K a v) + load * sq K v)%R) ->
  (forall i, i < K -> (Rabs (b' i - dot M (a i) y) <= delta)%R) ->
  (forall i j, i < K -> j < K -> (Rabs (A' i j - gram M a load i j) <= eta)%R) ->
  (forall i, i < K -> (Rabs (Rsum K (fun j => A' i j * g j) - b' i) <= rho)%R) ->
  (0 <= delta)%R -> (0 <= eta)%R -> (0 <= rho)%R ->
  (Rabs (c' - Rsum K (fun i => b' i * g i)) <= gam)%R ->
  let S := Rsum K (fun i => Rabs (g i)) in
  (Rabs (c' - q) <= gam + delta * S + (delta + rho + eta * S) * sqrt (INR K * q / lam))%R.
Proof.
  intros Hld (h & N & ->) Hlam Hco Hb HA Hr Pd Pe Pr Hc S.
  assert (Sym : forall i j, i < K -> j < K -> gram M a load i j = gram M a load j i).
  { intros i j _ _. unfold gram. rewrite (dot_comm M (a i)), (Nat.eqb_sym i j). reflexivity. }
  assert (H : (Rabs (Rsum K (fun i => b' i * g i) - qval K M a y h) <= delta * S + (delta + rho + eta * S) * Rsum K (fun i => Rabs (h i)))%R)
    by exact (inexact_value K (gram M a load) A' (fun i => dot M (a i) y) b' h g delta eta rho Sym N Hb HA Hr).
  assert (PS : (0 <= S)%R) by (apply Rsum_nonneg; intros; apply Rabs_pos).
  assert (Hh : (Rsum K (fun i => Rabs (h i)) <= sqrt (INR K * qval K M a y h / lam))%R).
  { eapply Rle_trans; [apply norm1_le|]. apply sqrt_le_1_alt. unfold Rdiv. rewrite Rmult_assoc.
    apply Rmult_le_compat_l; [apply pos_INR|]. apply Rmult_le_reg_r with lam; auto. rewrite Rmult_assoc, Rinv_l by lra.
    rewrite (q_energy K M a load y h N). pose proof (Hco h). lra. }
  replace (c' - qval K M a y h)%R with ((c' - Rsum K (fun i => b' i * g i)) + (Rsum K (fun i => b' i * g i) - qval K M a y h))%R by ring.
  eapply Rle_trans; [apply Rabs_triang|].
  assert (Hm : ((delta + rho + eta * S) * Rsum K (fun i => Rabs (h i)) <= (delta + rho + eta * S) * sqrt (INR K * qval K M a y h / lam))%R).
  { apply Rmult_le_compat_l; auto. pose proof (Rmult_le_pos eta S Pe PS). lra. }
  lra.
Qed.

Lemma load_coercive K M a load v : (load * sq K v <= energy M (comb K a v) + load * sq K v)%R.
Proof. pose proof (energy_nonneg M (comb K a v)). lra. Qed.

(** the bound without the unknown value: it is at most 1 *)
Lemma bound_one K q lam A B : (0 < lam)%R -> (q <= 1)%R -> (0 <= B)%R ->
  (A + B * sqrt (INR K * q / lam) <= A + B * sqrt (INR K / lam))%R.
Proof.
  intros Hl Hq HB. apply Rplus_le_compat_l, Rmult_le_compat_l; auto. apply sqrt_le_1_alt. unfold Rdiv.
  apply Rmult_le_compat_r; [left; apply Rinv_0_lt_compat; auto|]. rewrite <- (Rmult_1_r (INR K)) at 2.
  apply Rmult_le_compat_l; [apply pos_INR|auto].
Qed.

(** ** The SDR coherence *)
Definition lag (i j : nat) : nat := if i <=? j then j - i else i - j.
Lemma gram_lags L M x load i j : i < L -> j < L -> length x + L - 1 <= M ->
  gram M (delays x) load i j = (xcorr x x (lag i j) + if Nat.eqb (lag i j) 0 then load else 0)%R.
Proof.
  intros Hi Hj HM. unfold gram, lag, delays. destruct (Nat.leb_spec i j).
  - rewrite dot_delayed2 by lia. destruct (Nat.eqb_spec i j), (Nat.eqb_spec (j - i) 0); auto; lia.
  - rewrite dot_comm, dot_delayed2 by lia. destruct (Nat.eqb_spec i j), (Nat.eqb_spec (i - j) 0); auto; lia.
Qed.

Theorem sdr_inexact b o ref est m c d x y M acf' xc' sol' c' delta eta rho gam lam : wf ref -> wf est ->
  use_cg_iter o = None -> (0 <= loadv (load_diag o))%R -> 2 <= filter_length o <= Nat.max (a_len ref) (a_len est) ->
  has_chan ref c x -> has_chan est d y -> a_len ref + filter_length o - 1 <= M -> a_len est <= M ->
  sdr_coh b o ref est = Ok m ->
  let L := filter_length o in
  let ux := unit_of (pre (zero_mean o) x) in let uy := unit_of (pre (zero_mean o) y) in
  (0 < lam)%R ->
  (forall v, (lam * energy L v <= energy M (fun t => Rsum L (fun k => v k * delayed ux k t)) + loadv (load_diag o) * energy L v)%R) ->
  (forall l, l < L -> (Rabs (xc' l - xcorr ux uy l) <= delta)%R) ->
  (forall l, l < L -> (Rabs (acf' l - (xcorr ux ux l + if Nat.eqb l 0 then loadv (load_diag o) else 0)) <= eta)%R) ->
  (forall i, i < L -> (Rabs (Rsum L (fun j => acf' (if (i <=? j)%nat then (j - i)%nat else (i - j)%nat) * sol' j) - xc' i) <= rho)%R) ->
  (Rabs (c' - Rsum L (fun l => xc' l * sol' l)) <= gam)%R ->
  let S := Rsum L (fun l => Rabs (sol' l)) in
  exists q, mat_of m c d = Fin q /\ (0 <= q <= 1)%R /\
    (Rabs (c' - q) <= gam + delta * S + (delta + rho + eta * S) * sqrt (INR L * q / lam))%R.
Proof.
  intros Hwr Hwe Hcg Hld HL Hx Hy HM1 HM2 H L ux uy Hlam Hco Hxc Hacf Hr Hc S.
  destruct (has_chan_pchan (zero_mean o) ref c x Hwr Hx) as [_ Lx].
  destruct (has_chan_pchan (zero_mean o) est d y Hwe Hy) as [_ Ly].
  assert (Lux : length ux = a_len ref) by (unfold ux; rewrite length_unit_of, length_pre; auto).
  destruct (sdr_entry_loaded b o ref est m c d x y M Hwr Hwe H Hcg HL Hx Hy HM1) as (q & Eq & Hq). fold L ux uy in Hq.
  exists q. split; auto.
  assert (P : forall f e, (Rabs f <= e)%R -> (0 <= e)%R) by (intros f e He; pose proof (Rabs_pos f); lra).
  pose proof (P _ _ (Hxc 0 ltac:(unfold L; lia))) as Pd. pose proof (P _ _ (Hacf 0 ltac:(unfold L; lia))) as Pe.
  pose proof (P _ _ (Hr 0 ltac:(unfold L; lia))) as Pr.
  split.
  - pose proof (lsq_bounds _ _ _ _ _ _ Hld Hq) as B.
    pose proof (energy_unit_le1 M (pre (zero_mean o) y) ltac:(rewrite length_pre; lia)) as B1. fold uy in B1. lra.
  - apply (inexact_lsq L M (delays ux) (loadv (load_diag o)) (smp uy) q (fun i j => acf' (lag i j)) xc' sol' delta eta rho gam c' lam); auto.
    + intros i Hi. unfold delays. rewrite dot_delayed by (unfold L in Hi; lia). auto.
    + intros i j Hi Hj. rewrite (gram_lags L) by (auto; unfold L in *; lia). apply Hacf. unfold lag. destruct (i <=? j); lia.
Qed.

(** with load_diag everything but the computed quantities is known *)
Theorem sdr_inexact_loaded b o ref est m c d x y acf' xc' sol' c' delta eta rho gam lam : wf ref -> wf est ->
  use_cg_iter o = None -> load_diag o = Some lam -> (0 < lam)%R -> 2 <= filter_length o <= Nat.max (a_len ref) (a_len est) ->
  has_chan ref c x -> has_chan est d y -> sdr_coh b o ref est = Ok m ->
  let L := filter_length o in
  let ux := unit_of (pre (zero_mean o) x) in let uy := unit_of (pre (zero_mean o) y) in
  (forall l, l < L -> (Rabs (xc' l - xcorr ux uy l) <= delta)%R) ->
  (forall l, l < L -> (Rabs (acf' l - (xcorr ux ux l + if Nat.eqb l 0 then lam else 0)) <= eta)%R) ->
  (forall i, i < L -> (Rabs (Rsum L (fun j => acf' (if (i <=? j)%nat then (j - i)%nat else (i - j)%nat) * sol' j) - xc' i) <= rho)%R) ->
  (Rabs (c' - Rsum L (fun l => xc' l * sol' l)) <= gam)%R ->
  let S := Rsum L (fun l => Rabs (sol' l)) in
  exists q, mat_of m c d = Fin q /\
    (Rabs (c' - q) <= gam + delta * S + (delta + rho + eta * S) * sqrt (INR L / lam))%R.
Proof.
  intros Hwr Hwe Hcg Hld Hlam HL Hx Hy H L ux uy Hxc Hacf Hr Hc S.
  assert (Elv : loadv (load_diag o) = lam) by (rewrite Hld; reflexivity).
  destruct (sdr_inexact b o ref est m c d x y (a_len ref + L + a_len est) acf' xc' sol' c' delta eta rho gam lam) as (q & Eq & B & HB);
    auto; try (rewrite Elv; auto); try (unfold L; lia).
  - lra.
  - intros v. pose proof (energy_nonneg (a_len ref + L + a_len est)
      (fun t => Rsum (filter_length o) (fun k => v k * delayed (unit_of (pre (zero_mean o) x)) k t)%R)). lra.
  - exists q. split; auto. eapply Rle_trans; [exact HB|]. apply bound_one; auto; [lra|].
    assert (P : forall f e, (Rabs f <= e)%R -> (0 <= e)%R) by (intros f e He; pose proof (Rabs_pos f); lra).
    pose proof (P _ _ (Hxc 0 ltac:(unfold L; lia))) as Pd. pose proof (P _ _ (Hacf 0 ltac:(unfold L; lia))) as Pe.
    pose proof (P _ _ (Hr 0 ltac:(unfold L; lia))) as Pr.
    assert (PS : (0 <= S)%R) by (apply Rsum_nonneg; intros; apply Rabs_pos).
    pose proof (Rmult_le_pos eta S Pe PS). fold L S. lra.
Qed.

(** ** The SAR coherence *)
Lemma sar_entry_loaded b o ref est m sar d xs y M : wf ref -> wf est ->
  sq_cos b o ref est = Ok (m, sar) -> use_cg_iter o = None ->
  2 <= filter_length o <= Nat.max (a_len ref) (a_len est) ->
  has_chans ref xs -> has_chan est d y -> a_len ref + filter_length o - 1 <= M ->
  exists q, nth d sar NaN = Fin q /\
    lsq (filter_length o * n_chan ref) M (all_delays (n_chan ref) (fun c => unit_of (pre (zero_mean o) (xs c))))
        (loadv (load_diag o)) (smp (unit_of (pre (zero_mean o) y))) q.
Proof.
  intros Hwr Hwe H Hcg HL Hx Hy HM.
  destruct (has_chan_pchan (zero_mean o) est d y Hwe Hy) as [Py Ly].
  pose proof (has_chans_clean (zero_mean o) ref xs Hwr Hx) as Hcl. pose proof (proj1 Hwr) as Hwr0.
  assert (Hlen : forall c, c < n_chan ref -> length (pc (zero_mean o) ref c) = a_len ref).
  { intros c Hc. apply (pchan_length (zero_mean o) ref c); auto. apply clean_pc; auto. }
  destruct (sar_entry b o ref est m sar d _ H Hcg ltac:(lia) Hcl (proj1 Hy) Py) as (HLn & q & Hq & Eq).
  exists q. split; auto. pose proof (n_fft_ge (a_len ref) (a_len est) Hwr0).
  assert (Hq' : lsq (filter_length o * n_chan ref) M (all_delays (n_chan ref) (pc (zero_mean o) ref)) (loadv (load_diag o))
    (smp (unit_of (pre (zero_mean o) y))) q) by (eapply lsq_all_plain; try exact Hq; try exact Hlen; lia).
  eapply lsq_ext; [| |exact Hq'].
  - intros i j Hi Hj. destruct (lag_split _ _ _ Hi) as (l & c & Hl & Hc & ->).
    destruct (lag_split _ _ _ Hj) as (l' & c' & Hl' & Hc' & ->).
    unfold all_delays. rewrite !lag_div, !lag_mod by auto. rewrite !(has_chans_pc _ _ xs) by auto. reflexivity.
  - intros i Hi. destruct (lag_split _ _ _ Hi) as (l & c & Hl & Hc & ->).
    unfold all_delays. rewrite !lag_div, !lag_mod by auto. rewrite !(has_chans_pc _ _ xs) by auto. reflexivity.
Qed.

Theorem sar_inexact_loaded b o ref est m sar d xs y M A' b' sol' c' delta eta rho gam lam : wf ref -> wf est ->
  use_cg_iter o = None -> load_diag o = Some lam -> (0 < lam)%R -> 2 <= filter_length o <= Nat.max (a_len ref) (a_len est) ->
  has_chans ref xs -> 0 < n_chan ref -> has_chan est d y -> a_len ref + filter_length o - 1 <= M -> a_len est <= M ->
  sq_cos b o ref est = Ok (m, sar) ->
  let K := filter_length o * n_chan ref in
  let a := all_delays (n_chan ref) (fun c => unit_of (pre (zero_mean o) (xs c))) in
  (forall i, i < K -> (Rabs (b' i - dot M (a i) (smp (unit_of (pre (zero_mean o) y)))) <= delta)%R) ->
  (forall i j, i < K -> j < K -> (Rabs (A' i j - (dot M (a i) (a j) + if Nat.eqb i j then lam else 0)) <= eta)%R) ->
  (forall i, i < K -> (Rabs (Rsum K (fun j => A' i j * sol' j) - b' i) <= rho)%R) ->
  (Rabs (c' - Rsum K (fun i => b' i * sol' i)) <= gam)%R ->
  let S := Rsum K (fun i => Rabs (sol' i)) in
  exists q, nth d sar NaN = Fin q /\
    (Rabs (c' - q) <= gam + delta * S + (delta + rho + eta * S) * sqrt (INR K / lam))%R.
Proof.
  intros Hwr Hwe Hcg Hld Hlam HL Hx H0 Hy HM1 HM2 H K a Hb HA Hr Hc S.
  destruct (has_chan_pchan (zero_mean o) est d y Hwe Hy) as [_ Ly].
  destruct (sar_entry_loaded b o ref est m sar d xs y M Hwr Hwe H Hcg HL Hx Hy HM1) as (q & Eq & Hq).
  rewrite Hld in Hq. change (loadv (Some lam)) with lam in Hq. fold K a in Hq.
  exists q. split; auto.
  assert (HK : 0 < K) by (unfold K; nia).
  assert (P : forall f e, (Rabs f <= e)%R -> (0 <= e)%R) by (intros f e He; pose proof (Rabs_pos f); lra).
  pose proof (P _ _ (Hb 0 HK)) as Pd. pose proof (P _ _ (HA 0 0 HK HK)) as Pe. pose proof (P _ _ (Hr 0 HK)) as Pr.
  assert (PS : (0 <= S)%R) by (apply Rsum_nonneg; intros; apply Rabs_pos).
  pose proof (lsq_bounds _ _ _ _ _ _ (Rlt_le _ _ Hlam) Hq) as B.
  pose proof (energy_unit_le1 M (pre (zero_mean o) y) ltac:(rewrite length_pre; lia)) as B1.
  pose proof (inexact_lsq K M a lam _ q A' b' sol' delta eta rho gam c' lam (Rlt_le _ _ Hlam) Hq Hlam
    (load_coercive K M a lam) Hb HA Hr Pd Pe Pr Hc) as HB. cbv zeta in HB. fold S in HB.
  eapply Rle_trans; [exact HB|]. apply bound_one; auto; [lra|]. pose proof (Rmult_le_pos eta S Pe PS). lra.
Qed.

(** ** From the coherences to the selected assignment *)
Definition slope (D : R) : R :=
  (10 / (ln 10 * (Rpower 10 (- D / 10) / (1 + Rpower 10 (- D / 10)) * (1 - Rpower 10 (- D / 10) / (1 + Rpower 10 (- D / 10))))))%R.

Lemma total_close (c c' : nat -> nat -> R) e n m l : complete_assignment n m l -> 
  (forall i j, i < n -> j < m -> (Rabs (c' i j - c i j) <= e)%R) ->
  (Rabs (total_cost c' l - total_cost c l) <= INR (Nat.min n m) * e)%R.
Proof.
  intros (E & Hin & _ & _) H. rewrite <- E. clear E. induction l as [|[i j] l IH].
  - unfold total_cost. simpl. rewrite Rminus_0_r, Rabs_R0. lra.
  - change (total_cost c' ((i, j) :: l)) with (c' i j + total_cost c' l)%R. change (total_cost c ((i, j) :: l)) with (c i j + total_cost c l)%R.
    cbn [length]. rewrite S_INR. destruct (Hin i j (or_introl eq_refl)) as [Hi Hj].
    pose proof (H i j Hi Hj) as H1. pose proof (IH (fun i j Hl => Hin i j (or_intror Hl))) as H2.
    replace (c' i j + total_cost c' l - (c i j + total_cost c l))%R with ((c' i j - c i j) + (total_cost c' l - total_cost c l))%R by ring.
    eapply Rle_trans; [apply Rabs_triang|]. lra.
Qed.

Theorem select_inexact b sp n_ref n_est (loss loss' : nat -> nat -> xr) e : lsa_contract sp ->
  (forall i j, i < n_ref -> j < n_est -> exists p p', loss i j = Fin p /\ loss' i j = Fin p' /\ (Rabs (p' - p) <= e)%R) ->
  exists vals perm vals' perm',
    solve_permutation b sp n_ref n_est loss [] = Ok (vals, [], perm) /\
    solve_permutation b sp n_ref n_est loss' [] = Ok (vals', [], perm') /\
    let N := Nat.min n_ref n_est in
    let total := fun perm => total_cost (fun i j => to_R (loss i j)) (matching n_ref n_est perm) in
    (total perm <= total perm' <= total perm + 2 * INR N * e)%R /\
    (Rabs (sumR (map to_R vals') - sumR (map to_R vals)) <= INR N * e)%R /\
    (forall i, i < N -> exists v v', at_pair loss (pair_at n_ref n_est perm' i) = Fin v /\ nth i vals' NaN = Fin v' /\ (Rabs (v' - v) <= e)%R).
Proof.
  intros Hsp H.
  destruct (solve_perm_optimal sp Hsp b n_ref n_est loss []) as (vals & o1 & perm & E1 & O1).
  { intros i j Hi Hj. destruct (H i j Hi Hj) as (p & p' & -> & _). reflexivity. }
  destruct (solve_perm_optimal sp Hsp b n_ref n_est loss' []) as (vals' & o2 & perm' & E2 & O2).
  { intros i j Hi Hj. destruct (H i j Hi Hj) as (p & p' & _ & -> & _). reflexivity. }
  destruct (solve_perm_outputs sp Hsp b n_ref n_est loss [] vals o1 perm E1) as (C1 & _ & _ & _ & V1 & X1).
  destruct (solve_perm_outputs sp Hsp b n_ref n_est loss' [] vals' o2 perm' E2) as (C2 & _ & _ & _ & V2 & X2).
  simpl in X1, X2. subst o1 o2. exists vals, perm, vals', perm'. split; auto. split; auto. cbv zeta.
  set (c := fun i j => to_R (loss i j)). set (c' := fun i j => to_R (loss' i j)).
  assert (Hcl : forall i j, i < n_ref -> j < n_est -> (Rabs (c' i j - c i j) <= e)%R).
  { intros i j Hi Hj. destruct (H i j Hi Hj) as (p & p' & E & E' & B). unfold c, c'. rewrite E, E'. exact B. }
  pose proof (total_close c c' e _ _ _ C1 Hcl) as D1. pose proof (total_close c c' e _ _ _ C2 Hcl) as D2.
  pose proof (proj2 O1 _ C2) as G1. pose proof (proj2 O2 _ C1) as G2. fold c in G1. fold c' in G2.
  assert (S1 : sumR (map to_R vals) = total_cost c (matching n_ref n_est perm)) by (rewrite V1, map_map; reflexivity).
  assert (S2 : sumR (map to_R vals') = total_cost c' (matching n_ref n_est perm')) by (rewrite V2, map_map; reflexivity).
  assert (A : forall u e0, (Rabs u <= e0 -> - e0 <= u <= e0)%R).
  { intros u e0 Hu. pose proof (Rle_abs u). pose proof (Rle_abs (- u)) as Hn. rewrite Rabs_Ropp in Hn. lra. }
  apply A in D1, D2. split; [lra|]. split.
  - rewrite S1, S2. unfold Rabs; destruct Rcase_abs; lra.
  - intros i Hi. assert (In (pair_at n_ref n_est perm' i) (matching n_ref n_est perm')).
    { unfold matching. apply in_map, in_seq. lia. }
    destruct C2 as (LC & Hin & _). destruct (pair_at n_ref n_est perm' i) as [r s] eqn:EP. destruct (Hin r s H0) as [Hr Hs].
    destruct (H r s Hr Hs) as (p & p' & E & E' & B). exists p, p'. unfold at_pair. simpl. split; auto. split; auto.
    rewrite V2. rewrite (nth_indep _ NaN (at_pair loss' (0, 0))) by (rewrite map_length; lia). rewrite map_nth.
    unfold matching. rewrite (nth_indep _ _ (pair_at n_ref n_est perm' 0)) by (rewrite map_length, seq_length; auto).
    rewrite map_nth, seq_nth by auto. rewrite Nat.add_0_l, EP. exact E'.
Qed.

(** sdr with clamp_db, coherences with errors up to e *)
Theorem sdr_selection_inexact b sp o ref est m D coh' e : lsa_contract sp -> clamp_db o = Some D -> (0 <= D)%R ->
  sdr_coh b o ref est = Ok m ->
  (forall c d, c < n_chan ref -> d < n_chan est -> exists q, mat_of m c d = Fin q /\ (Rabs (coh' c d - q) <= e)%R) ->
  exists loss vals perm vals' perm',
    pairwise_sdr_loss b o est ref = Ok loss /\ sdr b sp o true ref est = Ok (vals, perm) /\
    solve_permutation b sp (n_chan ref) (n_chan est) (fun c d => coherence_to_neg_sdr (Some D) (Fin (coh' c d))) [] = Ok (vals', [], perm') /\
    let N := Nat.min (n_chan ref) (n_chan est) in
    let total := fun perm => total_cost (fun i j => to_R (mat_of loss i j)) (matching (n_chan ref) (n_chan est) perm) in
    (total perm <= total perm' <= total perm + 2 * INR N * (slope D * e))%R /\
    (Rabs (sumR (map to_R vals') - sumR (map to_R vals)) <= INR N * (slope D * e))%R /\
    (forall i, i < N -> exists v v', at_pair (mat_of loss) (pair_at (n_chan ref) (n_chan est) perm' i) = Fin v /\
       nth i vals' NaN = Fin v' /\ (Rabs (v' - v) <= slope D * e)%R).
Proof.
  intros Hsp HD HD0 Hm H.
  destruct (pairwise_sdr_loss b o est ref) as [loss|] eqn:EL.
  2:{ unfold pairwise_sdr_loss in EL. rewrite Hm in EL. discriminate EL. }
  destruct (loss_inv _ _ _ _ _ EL) as (m' & Em & El). rewrite Hm in Em. injection Em as <-.
  destruct (select_inexact b sp (n_chan ref) (n_chan est) (mat_of loss) (fun c d => coherence_to_neg_sdr (Some D) (Fin (coh' c d)))
    (slope D * e) Hsp) as (vals & perm & vals' & perm' & E1 & E2 & R).
  - intros i j Hi Hj. destruct (H i j Hi Hj) as (q & Eq & B). destruct (clamped_lip D q (coh' i j) HD0) as (p & p' & P1 & P2 & P3).
    exists p, p'. rewrite El, to_db_entry, Eq, HD. split; auto. split; auto. eapply Rle_trans; [exact P3|].
    unfold slope, db_clamp_eps. apply Rmult_le_compat_l; auto. pose proof (eps_bounds D). unfold db_clamp_eps in *.
    left. apply Rdiv_lt_0_compat; [lra|]. apply Rmult_lt_0_compat; [apply ln10_pos|]. apply Rmult_lt_0_compat; lra.
  - exists loss, vals, perm, vals', perm'. split; auto. split; [|split; auto].
    unfold sdr. rewrite EL. cbn [bind]. rewrite E1. reflexivity.
Qed.

(** ** bss_eval_sources: SIR and selection *)
Lemma quotient_inexact s a s' a' e1 e2 : (0 <= s <= a)%R -> (0 < a)%R -> (0 < a')%R -> (Rabs (s' - s) <= e1)%R -> (Rabs (a' - a) <= e2)%R ->
  (Rabs (s' / a' - s / a) <= (e1 + e2) / a')%R.
Proof.
  intros Hs Ha Ha' H1 H2. replace (s' / a' - s / a)%R with (((s' - s) - s / a * (a' - a)) / a')%R by (field; lra).
  unfold Rdiv at 1. rewrite Rabs_mult, Rabs_inv, (Rabs_right a') by lra. apply Rmult_le_compat_r; [left; apply Rinv_0_lt_compat; auto|].
  unfold Rminus at 1. eapply Rle_trans; [apply Rabs_triang|]. apply Rplus_le_compat; auto. rewrite Rabs_Ropp, Rabs_mult.
  assert (0 <= s / a <= 1)%R.
  { split; [apply Rmult_le_pos; [lra|left; apply Rinv_0_lt_compat; lra]|].
    apply Rmult_le_reg_r with a; auto. unfold Rdiv. rewrite Rmult_assoc, Rinv_l by lra. lra. }
  rewrite Rabs_right by lra. pose proof (Rabs_pos (a' - a)). 
  apply Rle_trans with (1 * Rabs (a' - a))%R; [apply Rmult_le_compat_r; lra|lra].
Qed.

Lemma slope_pos D : (0 < slope D)%R.
Proof.
  pose proof (eps_bounds D) as H. unfold slope, db_clamp_eps in *. apply Rdiv_lt_0_compat; [lra|].
  apply Rmult_lt_0_compat; [apply ln10_pos|]. apply Rmult_lt_0_compat; lra.
Qed.
Lemma db_inexact D q q' e : (0 <= D)%R -> (Rabs (q' - q) <= e)%R ->
  exists p p', coherence_to_neg_sdr (Some D) (Fin q) = Fin p /\ coherence_to_neg_sdr (Some D) (Fin q') = Fin p' /\ (Rabs (p' - p) <= slope D * e)%R.
Proof.
  intros HD B. destruct (clamped_lip D q q' HD) as (p & p' & P1 & P2 & P3). exists p, p'. split; auto. split; auto.
  eapply Rle_trans; [exact P3|]. apply Rmult_le_compat_l; auto. left. apply slope_pos.
Qed.

Theorem bss_selection_inexact b sp o ref est m sar D coh' sar' e1 e2 a0 xs ys : lsa_contract sp -> wf ref -> wf est ->
  use_cg_iter o = None -> (0 <= loadv (load_diag o))%R -> clamp_db o = Some D -> (0 <= D)%R ->
  2 <= filter_length o \/ (filter_length o = 1 /\ a_len ref = a_len est /\ loadv (load_diag o) = 0%R) ->
  has_chans ref xs -> has_chans est ys -> 0 < n_chan ref -> sq_cos b o ref est = Ok (m, sar) ->
  (forall c d, c < n_chan ref -> d < n_chan est -> exists q, mat_of m c d = Fin q /\ (Rabs (coh' c d - q) <= e1)%R) ->
  (forall d, d < n_chan est -> exists a, nth d sar NaN = Fin a /\ (Rabs (sar' d - a) <= e2)%R) ->
  (forall d, d < n_chan est -> (a0 <= sar' d)%R) -> (e2 < a0)%R ->
  let f := coherence_to_neg_sdr (Some D) in
  exists out perm s' i' a' perm', bss_eval_sources b sp o ref est = Ok (out, perm) /\
    solve_permutation b sp (n_chan ref) (n_chan est) (fun c d => f (Fin (coh' c d / sar' d)))
      [(fun c d => f (Fin (coh' c d))); (fun c d => f (Fin (sar' d)))] = Ok (i', [s'; a'], perm') /\
    let '(nsdr, nsir, nsar) := bss_mats o (m, sar) in
    let N := Nat.min (n_chan ref) (n_chan est) in
    let total := fun perm => total_cost (fun c d => to_R (nsir c d)) (matching (n_chan ref) (n_chan est) perm) in
    let near := fun (M : nat -> nat -> xr) (vs : list xr) e => forall i, i < N -> exists v v',
      at_pair M (pair_at (n_chan ref) (n_chan est) perm' i) = Fin v /\ nth i vs NaN = Fin v' /\ (Rabs (v' - v) <= slope D * e)%R in
    (total perm <= total perm' <= total perm + 2 * INR N * (slope D * ((e1 + e2) / a0)))%R /\
    near nsdr s' e1 /\ near nsir i' ((e1 + e2) / a0)%R /\ near nsar a' e2.
Proof.
  intros Hsp Hwr Hwe Hcg Hld HD HD0 HL Hx Hy H0 H HS HA Ha0 He2 f.
  assert (He2' : forall d, d < n_chan est -> (0 <= e2)%R).
  { intros d Hd. destruct (HA d Hd) as (a & _ & B). pose proof (Rabs_pos (sar' d - a)). lra. }
  assert (HB : forall c d, c < n_chan ref -> d < n_chan est -> exists q a, mat_of m c d = Fin q /\ nth d sar NaN = Fin a /\
     (0 <= q <= a)%R /\ (0 < a)%R /\ (0 < sar' d)%R /\ (Rabs (coh' c d - q) <= e1)%R /\ (Rabs (sar' d - a) <= e2)%R).
  { intros c d Hc Hd. destruct (sdr_le_sar_coh b o ref est m sar c d (ys d) xs) as (q & a & Eq & Ea & Hqa & _); auto.
    { apply has_chans_at; auto. }
    destruct (HS c d Hc Hd) as (q1 & E1 & B1). destruct (HA d Hd) as (a1 & E2 & B2). rewrite Eq in E1. rewrite Ea in E2.
    injection E1 as <-. injection E2 as <-. exists q, a. pose proof (Ha0 d Hd). pose proof (He2' d Hd).
    repeat (split; auto); try apply Hqa; try lra. pose proof (Rle_abs (sar' d - a)). lra. }
  assert (E : bss_mats o (m, sar) = (fun i j => f (mat_of m i j), fun i j => f (xdiv (mat_of m i j) (nth j sar NaN)), fun i j => f (nth j sar NaN))).
  { unfold bss_mats, base_metrics, f. rewrite HD. reflexivity. }
  set (nsdr := fun i j => f (mat_of m i j)) in *. set (nsir := fun i j => f (xdiv (mat_of m i j) (nth j sar NaN))) in *.
  set (nsar := fun (i j : nat) => f (nth j sar NaN)) in *.
  set (nsdr' := fun c d => f (Fin (coh' c d))). set (nsir' := fun c d => f (Fin (coh' c d / sar' d))). set (nsar' := fun (c d : nat) => f (Fin (sar' d))).
  assert (Fs : forall c d, c < n_chan ref -> d < n_chan est -> exists p p', nsdr c d = Fin p /\ nsdr' c d = Fin p' /\ (Rabs (p' - p) <= slope D * e1)%R).
  { intros c d Hc Hd. destruct (HB c d Hc Hd) as (q & a & Eq & Ea & _ & _ & _ & B1 & _). unfold nsdr, nsdr'. rewrite Eq. apply db_inexact; auto. }
  assert (Fi : forall c d, c < n_chan ref -> d < n_chan est -> exists p p', nsir c d = Fin p /\ nsir' c d = Fin p' /\
     (Rabs (p' - p) <= slope D * ((e1 + e2) / a0))%R).
  { intros c d Hc Hd. destruct (HB c d Hc Hd) as (q & a & Eq & Ea & Hqa & Pa & Pa' & B1 & B2). unfold nsir, nsir'. rewrite Eq, Ea, xdiv_fin by lra.
    apply db_inexact; auto. eapply Rle_trans; [apply (quotient_inexact q a _ _ e1 e2); auto|]. unfold Rdiv. pose proof (Ha0 d Hd). pose proof (He2' d Hd).
    apply Rmult_le_compat_l; [pose proof (Rabs_pos (coh' c d - q)); lra|]. apply Rinv_le_contravar; lra. }
  assert (Fa : forall c d, c < n_chan ref -> d < n_chan est -> exists p p', nsar c d = Fin p /\ nsar' c d = Fin p' /\ (Rabs (p' - p) <= slope D * e2)%R).
  { intros c d Hc Hd. destruct (HB c d Hc Hd) as (q & a & Eq & Ea & _ & _ & _ & _ & B2). unfold nsar, nsar'. rewrite Ea. apply db_inexact; auto. }
  destruct (solve_perm_optimal sp Hsp b (n_chan ref) (n_chan est) nsir [nsdr; nsar]) as (vals & o1 & perm & E1 & O1).
  { intros i j Hi Hj. destruct (Fi i j Hi Hj) as (p & p' & -> & _). reflexivity. }
  destruct (solve_perm_optimal sp Hsp b (n_chan ref) (n_chan est) nsir' [nsdr'; nsar']) as (vals' & o2 & perm' & E2 & O2).
  { intros i j Hi Hj. destruct (Fi i j Hi Hj) as (p & p' & _ & -> & _). reflexivity. }
  destruct (solve_perm_outputs sp Hsp b (n_chan ref) (n_chan est) nsir [nsdr; nsar] vals o1 perm E1) as (C1 & _ & _ & _ & V1 & X1).
  destruct (solve_perm_outputs sp Hsp b (n_chan ref) (n_chan est) nsir' [nsdr'; nsar'] vals' o2 perm' E2) as (C2 & _ & _ & _ & V2 & X2).
  cbn [map] in X1, X2.
  exists (map xneg (nth 0 o1 []), map xneg vals, map xneg (nth 1 o1 [])), perm.
  exists (map (at_pair nsdr') (matching (n_chan ref) (n_chan est) perm')), vals', (map (at_pair nsar') (matching (n_chan ref) (n_chan est) perm')), perm'.
  split; [|split].
  - unfold bss_eval_sources. rewrite H. cbn [bind]. rewrite E. cbv beta iota. rewrite E1. reflexivity.
  - rewrite <- X2. exact E2.
  - rewrite E. cbv beta iota zeta.
    assert (A : forall u e0, (Rabs u <= e0 -> - e0 <= u <= e0)%R).
    { intros u e0 Hu. pose proof (Rle_abs u). pose proof (Rle_abs (- u)) as Hn. rewrite Rabs_Ropp in Hn. lra. }
    assert (Hnear : forall (Mx Mx' : nat -> nat -> xr) e,
      (forall c d, c < n_chan ref -> d < n_chan est -> exists p p', Mx c d = Fin p /\ Mx' c d = Fin p' /\ (Rabs (p' - p) <= slope D * e)%R) ->
      forall i, i < Nat.min (n_chan ref) (n_chan est) -> exists v v', at_pair Mx (pair_at (n_chan ref) (n_chan est) perm' i) = Fin v /\
        nth i (map (at_pair Mx') (matching (n_chan ref) (n_chan est) perm')) NaN = Fin v' /\ (Rabs (v' - v) <= slope D * e)%R).
    { intros Mx Mx' e HM i Hi. assert (Hin1 : In (pair_at (n_chan ref) (n_chan est) perm' i) (matching (n_chan ref) (n_chan est) perm')).
      { unfold matching. apply in_map, in_seq. lia. }
      destruct C2 as (LC & Hin & _). destruct (pair_at (n_chan ref) (n_chan est) perm' i) as [r s] eqn:EP. destruct (Hin r s Hin1) as [Hr Hs].
      destruct (HM r s Hr Hs) as (p & p' & Ep & Ep' & B). exists p, p'. unfold at_pair at 1. cbn [fst snd]. split; auto. split; auto.
      rewrite (nth_indep _ NaN (at_pair Mx' (0, 0))) by (rewrite map_length; lia). rewrite map_nth.
      unfold matching. rewrite (nth_indep _ _ (pair_at (n_chan ref) (n_chan est) perm' 0)) by (rewrite map_length, seq_length; auto).
      rewrite map_nth, seq_nth by auto. rewrite Nat.add_0_l, EP. exact Ep'. }
    split; [|split; [exact (Hnear nsdr nsdr' e1 Fs)|split; [rewrite V2; exact (Hnear nsir nsir' _ Fi)|exact (Hnear nsar nsar' e2 Fa)]]].
    set (c := fun i j => to_R (nsir i j)). set (c' := fun i j => to_R (nsir' i j)).
    assert (Hcl : forall i j, i < n_chan ref -> j < n_chan est -> (Rabs (c' i j - c i j) <= slope D * ((e1 + e2) / a0))%R).
    { intros i j Hi Hj. destruct (Fi i j Hi Hj) as (p & p' & Ep & Ep' & B). unfold c, c'. rewrite Ep, Ep'. exact B. }
    pose proof (total_close c c' _ _ _ _ C1 Hcl) as D1. pose proof (total_close c c' _ _ _ _ C2 Hcl) as D2.
    pose proof (proj2 O1 _ C2) as G1. pose proof (proj2 O2 _ C1) as G2. fold c in G1. fold c' in G2. apply A in D1, D2. lra.
Qed.
