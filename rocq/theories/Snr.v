(** * The SDR and the plain signal to noise ratio of filtered references (C96) *)
From Coq Require Import Reals Lra Psatz.
From Verif Require Import Prelude ExtReal Sums SpecSig Helpers Metrics LeastSq StatsProofs PrepProofs MetricsProofs SarProofs
  ProjTheorems DbProofs MetricTheorems Solvability Edge Witness SigExamples Sensitivity SensitivityDb Gradient GradientExamples.
From Verif Require Recover.
Local Open Scope nat_scope.

Lemma dB_le a b a' b' : (0 <= a)%R -> (0 <= b)%R -> (0 <= a')%R -> (0 <= b')%R ->
  (a' = 0 -> a = 0)%R -> (b = 0 -> b' = 0)%R -> (a * b' <= a' * b)%R -> xle (dB a b) (dB a' b').
Proof.
  intros A B A' B' HA HB H. unfold dB.
  destruct (Req_EM_T b' 0) as [Zb'|Nb'].
  - destruct (Req_EM_T b 0); [reflexivity|]. destruct (Req_EM_T a 0); reflexivity.
  - destruct (Req_EM_T b 0) as [Zb|Nb]; [tauto|].
    destruct (Req_EM_T a' 0) as [Za'|Na'].
    + destruct (Req_EM_T a 0); [reflexivity|tauto].
    + destruct (Req_EM_T a 0); [reflexivity|]. apply xle_fin. apply Rmult_le_compat_l; [lra|].
      apply SensitivityDb.log10_le; [apply Rdiv_lt_0_compat; lra|].
      apply Rmult_le_reg_r with (b * b')%R; [apply Rmult_lt_0_compat; lra|].
      replace (a / b * (b * b'))%R with (a * b')%R by (field; lra).
      replace (a' / b' * (b * b'))%R with (a' * b)%R by (field; lra). exact H.
Qed.

(** ** Geometry: y, its projection p, and any s in the span *)
Section Geometry.
  Variables (K M : nat) (a : nat -> nat -> R) (y p s : nat -> R).
  Hypotheses (Hp : is_projection K M a y p) (Hs : in_span K M a s).
  Local Notation Er := (energy M (fun t => y t - p t)%R).
  Local Notation Ep := (energy M p).
  Local Notation Es := (energy M s).
  Local Notation Ee := (energy M (fun t => y t - s t)%R).
  Local Notation Ez := (energy M (fun t => p t - s t)%R).

  Lemma res_orth : dot M (fun t => y t - p t)%R (fun t => p t - s t)%R = 0%R.
  Proof.
    destruct Hp as [[g Hg] Ho]. destruct Hs as [h Hh].
    rewrite dot_comm.
    rewrite (dot_ext M _ (fun t => Rsum K (fun k => (g k - h k) * a k t))%R _ (fun t => y t - p t)%R).
    - pose proof (proj_orth K M a y p Hp (fun k => g k - h k)%R) as E. exact E.
    - intros t Ht. rewrite Hg, Hh by auto. rewrite <- Rsum_minus. apply Rsum_ext. intros. ring.
    - auto.
  Qed.
  Lemma err_split : Ee = (Er + Ez)%R.
  Proof.
    rewrite (energy_ext M _ (fun t => (y t - p t) - (- 1) * (p t - s t))%R) by (intros; ring).
    rewrite energy_sub, dot_scal_r, energy_scal, res_orth. ring.
  Qed.
  Lemma span_energy : Es = (Ep - 2 * dot M p (fun t => p t - s t)%R + Ez)%R.
  Proof. rewrite <- energy_sub. apply energy_ext. intros. ring. Qed.

  Lemma snr_key : (Er * (Es - Ee) <= Ee * Ep)%R.
  Proof.
    rewrite err_split, span_energy. pose proof (cauchy M p (fun t => p t - s t)%R) as C.
    pose proof (energy_nonneg M p). pose proof (energy_nonneg M (fun t => y t - p t)%R).
    set (g := dot M p (fun t => p t - s t)%R) in *. set (z := Ez) in *. set (r := Er) in *. set (e := Ep) in *.
    pose proof (Rle_0_sqr (r + g)%R) as S. unfold Rsqr in S. nra.
  Qed.
  Lemma snr_dB : (Ee <= Es)%R -> xle (dB Er Ep) (dB Ee (Es - Ee)).
  Proof.
    intros H. pose proof (energy_nonneg M p) as P0. pose proof (energy_nonneg M (fun t => y t - p t)%R) as R0.
    pose proof (energy_nonneg M (fun t => y t - s t)%R) as E0. pose proof (energy_nonneg M (fun t => p t - s t)%R) as Z0.
    pose proof err_split as S.
    assert (Hb : Ep = 0%R -> (Es - Ee = 0)%R).
    { intros Z. pose proof span_energy as T. pose proof (cauchy M p (fun t => p t - s t)%R) as C.
      rewrite Z, Rmult_0_l in C. set (g := dot M p (fun t => p t - s t)%R) in *.
      assert (g = 0)%R by nra. rewrite Z in T. nra. }
    apply dB_le; auto; try lra.
    apply snr_key.
  Qed.
  Lemma gain_dB : (Ee <= energy M y)%R -> xle (dB Er Ep) (dB Ee (energy M y - Ee)).
  Proof.
    intros H. pose proof (energy_nonneg M p) as P0. pose proof (energy_nonneg M (fun t => y t - p t)%R) as R0.
    pose proof (energy_nonneg M (fun t => p t - s t)%R) as Z0. pose proof (proj_pythagoras K M a y p Hp) as Y.
    pose proof err_split as S. apply dB_mono; lra.
  Qed.
End Geometry.

(** The bound is reached. *)
Lemma snr_reached K M a y p : is_projection K M a y p -> (0 < energy M p)%R ->
  exists s, in_span K M a s /\ (energy M (fun t => y t - s t) <= energy M s)%R /\
    dB (energy M (fun t => y t - p t)%R) (energy M p) =
    dB (energy M (fun t => y t - s t)%R) (energy M s - energy M (fun t => y t - s t)%R).
Proof.
  intros Hp P. set (r := energy M (fun t => y t - p t)%R). set (e := energy M p) in *.
  assert (R0 : (0 <= r)%R) by apply energy_nonneg.
  set (k := ((e + r) / e)%R). exists (fun t => k * p t)%R.
  assert (Hs : in_span K M a (fun t => k * p t)%R).
  { destruct Hp as [[g Hg] _]. exists (fun j => k * g j)%R. intros t Ht. rewrite Hg by auto. rewrite <- Rsum_scal_l. apply Rsum_ext. intros. ring. }
  assert (Ee : energy M (fun t => y t - k * p t)%R = (r * (e + r) / e)%R).
  { rewrite (err_split K M a y p _ Hp Hs). fold r.
    rewrite (energy_ext M _ (fun t => (1 - k) * p t)%R) by (intros; ring). rewrite energy_scal. fold e. unfold k. field. lra. }
  assert (Es : energy M (fun t => k * p t)%R = ((e + r) ^ 2 / e)%R).
  { rewrite energy_scal. fold e. unfold k. field. lra. }
  assert (D : ((e + r) ^ 2 / e - r * (e + r) / e = e + r)%R) by (field; lra).
  split; [exact Hs|]. rewrite Ee, Es, D. split; [lra|].
  unfold dB. destruct (Req_EM_T e 0); [lra|]. destruct (Req_EM_T (e + r) 0); [lra|].
  destruct (Req_EM_T r 0) as [Z|N].
  - destruct (Req_EM_T (r * (e + r) / e) 0) as [_|N]; [reflexivity|]. exfalso. apply N. rewrite Z. field. lra.
  - destruct (Req_EM_T (r * (e + r) / e) 0) as [Z|_].
    + exfalso. assert (0 < r * (e + r) / e)%R by (apply Rdiv_lt_0_compat; nra). lra.
    + do 3 f_equal. field. lra.
Qed.

Lemma dB_offset e s k : (0 <= e)%R -> (1 < k)%R -> (k * e <= s)%R ->
  xle (dB e (s - e)) (xadd (dB e s) (Fin (10 * log10 (k / (k - 1))))).
Proof.
  intros He Hk H. unfold dB.
  destruct (Req_EM_T s 0) as [Zs|Ns].
  - assert (e = 0)%R by nra. subst e s. destruct (Req_EM_T (0 - 0) 0); [reflexivity|lra].
  - destruct (Req_EM_T (s - e) 0) as [Z|N]; [exfalso; nra|].
    destruct (Req_EM_T e 0); [reflexivity|]. cbn [xadd]. apply xle_fin.
    assert (E : (0 < e)%R) by lra. assert (S : (0 < s)%R) by nra. assert (S2 : (0 < s - e)%R) by nra.
    rewrite <- Rmult_plus_distr_l. apply Rmult_le_compat_l; [lra|].
    rewrite <- DbProofs.log10_mult by (apply Rdiv_lt_0_compat; lra).
    apply SensitivityDb.log10_le; [apply Rdiv_lt_0_compat; lra|].
    apply Rmult_le_reg_r with ((s - e) * (s * (k - 1)))%R; [apply Rmult_lt_0_compat; [lra|apply Rmult_lt_0_compat; lra]|].
    replace (e / (s - e) * ((s - e) * (s * (k - 1))))%R with (e * (s * (k - 1)))%R by (field; lra).
    replace (e / s * (k / (k - 1)) * ((s - e) * (s * (k - 1))))%R with (e * (k * (s - e)))%R by (field; lra).
    apply Rmult_le_compat_l; [lra|]. nra.
Qed.

Lemma delay0_in_span L M x : 1 <= L -> in_span L M (delays x) (smp x).
Proof.
  intros HL. exists (fun k => if Nat.eqb k 0 then 1%R else 0%R). intros t _.
  rewrite (Rsum_single L 0); [|lia|].
  - simpl. unfold delays, delayed. simpl. rewrite Nat.sub_0_r. ring.
  - intros i _ Hi. destruct (Nat.eqb_spec i 0); [tauto|ring].
Qed.

Section Top.
  Variables (b : backend) (o : opts) (ref est : arr) (m : list (list xr)) (c d : nat) (x y : list R) (M : nat).
  Hypotheses (Wr : wf ref) (We : wf est) (Hcg : use_cg_iter o = None) (Hld : load_diag o = None) (Hcl : clamp_db o = None)
    (HL : 1 <= filter_length o <= Nat.max (a_len ref) (a_len est))
    (H1 : filter_length o = 1 -> a_len ref = a_len est /\ (norm_eps <= norm2 (pre (zero_mean o) x))%R)
    (Hx : has_chan ref c x) (Hy : has_chan est d y) (Hn : (norm_eps <= norm2 (pre (zero_mean o) y))%R)
    (HM : a_len ref + filter_length o - 1 <= M) (HM' : a_len est <= M)
    (Hm : pairwise_sdr_loss b o est ref = Ok m).
  Let Y := smp (pre (zero_mean o) y).
  Let D := delays (pre (zero_mean o) x).
  Let err (s : nat -> R) := energy M (fun t => Y t - s t)%R.

  Lemma sdr_proj : exists p, is_projection (filter_length o) M D Y p /\
    mat_of m c d = dB (energy M (fun t => Y t - p t)%R) (energy M p).
  Proof.
    destruct (projection_exists M D (filter_length o) Y) as [p Hp]. exists p. split; [exact Hp|].
    exact (sdr_projection b o ref est m c d x y M p Wr We Hcg Hld Hcl HL H1 Hx Hy Hn HM HM' Hp Hm).
  Qed.
  Theorem sdr_snr s : in_span (filter_length o) M D s -> (err s <= energy M s)%R ->
    xle (mat_of m c d) (dB (err s) (energy M s - err s)).
  Proof. intros Hs H. destruct sdr_proj as (p & Hp & ->). apply (snr_dB _ _ _ _ _ _ Hp Hs H). Qed.
  Theorem sdr_snr_reached : mat_of m c d <> PInf ->
    exists s, in_span (filter_length o) M D s /\ (err s <= energy M s)%R /\
    mat_of m c d = dB (err s) (energy M s - err s).
  Proof.
    intros H. destruct sdr_proj as (p & Hp & E). rewrite E in *.
    apply snr_reached with (p := p); auto. pose proof (energy_nonneg M p) as P0.
    destruct P0 as [P0|P0]; [exact P0|]. exfalso. apply H. unfold dB. destruct (Req_EM_T (energy M p) 0); [reflexivity|lra].
  Qed.
  Theorem sdr_snr_offset s k : in_span (filter_length o) M D s -> (1 < k)%R -> (k * err s <= energy M s)%R ->
    xle (mat_of m c d) (xadd (dB (err s) (energy M s)) (Fin (10 * log10 (k / (k - 1))))).
  Proof.
    intros Hs Hk H. assert (E0 : (0 <= err s)%R) by apply energy_nonneg.
    eapply Recover.xle_trans; [apply (sdr_snr s Hs); nra|]. apply dB_offset; auto.
  Qed.
  Theorem sdr_gain :
    (forall s, in_span (filter_length o) M D s -> (err s <= energy M Y)%R ->
       xle (mat_of m c d) (dB (err s) (energy M Y - err s))) /\
    exists s, in_span (filter_length o) M D s /\ (err s <= energy M Y)%R /\
       mat_of m c d = dB (err s) (energy M Y - err s).
  Proof.
    destruct sdr_proj as (p & Hp & E). split.
    - intros s Hs H. rewrite E. apply (gain_dB _ _ _ _ _ _ Hp Hs H).
    - exists p. pose proof (proj_pythagoras _ _ _ _ _ Hp) as Q. pose proof (energy_nonneg M p).
      split; [exact (proj1 Hp)|]. unfold err. split; [lra|]. rewrite E. f_equal. lra.
  Qed.
End Top.

(** The SAR: filters on all references. *)
Section TopSar.
  Variables (b : backend) (o : opts) (ref est : arr) (m : list (list xr)) (sar : list xr) (c d : nat) (xs : nat -> list R) (y : list R) (M : nat).
  Hypotheses (Wr : wf ref) (We : wf est) (Hcg : use_cg_iter o = None) (Hld : load_diag o = None) (Hcl : clamp_db o = None)
    (HL : 1 <= filter_length o <= Nat.max (a_len ref) (a_len est))
    (H1 : filter_length o = 1 -> a_len ref = a_len est /\ (norm_eps <= norm2 (pre (zero_mean o) (xs c)))%R)
    (Hxs : has_chans ref xs) (Hc : c < n_chan ref) (Hy : has_chan est d y) (Hn : (norm_eps <= norm2 (pre (zero_mean o) y))%R)
    (HM : a_len ref + filter_length o - 1 <= M) (HM' : a_len est <= M)
    (Hm : sq_cos b o ref est = Ok (m, sar)).
  Let Y := smp (pre (zero_mean o) y).
  Let K := filter_length o * n_chan ref.
  Let A := all_delays (n_chan ref) (fun c => pre (zero_mean o) (xs c)).
  Let err (s : nat -> R) := energy M (fun t => Y t - s t)%R.
  Lemma sar_proj : exists p, is_projection K M A Y p /\
    snd (bss_mats o (m, sar)) c d = dB (energy M (fun t => Y t - p t)%R) (energy M p).
  Proof.
    destruct (projection_exists M A K Y) as [p Hp].
    destruct (projection_exists M (delays (pre (zero_mean o) (xs c))) (filter_length o) Y) as [pk Hpk].
    exists p. split; [exact Hp|].
    pose proof (sir_sar_projection b o ref est m sar c d xs y M p pk Wr We Hcg Hld Hcl HL H1 Hxs Hc Hy Hn HM HM' Hp Hpk Hm) as H.
    destruct (bss_mats o (m, sar)) as [[nsdr nsir] nsar]. exact (proj1 (proj2 H)).
  Qed.
  Theorem sar_snr s : in_span K M A s -> (err s <= energy M s)%R ->
    xle (snd (bss_mats o (m, sar)) c d) (dB (err s) (energy M s - err s)).
  Proof. intros Hs H. destruct sar_proj as (p & Hp & ->). apply (snr_dB _ _ _ _ _ _ Hp Hs H). Qed.
  Theorem sar_gain :
    (forall s, in_span K M A s -> (err s <= energy M Y)%R ->
       xle (snd (bss_mats o (m, sar)) c d) (dB (err s) (energy M Y - err s))) /\
    exists s, in_span K M A s /\ (err s <= energy M Y)%R /\
       snd (bss_mats o (m, sar)) c d = dB (err s) (energy M Y - err s).
  Proof.
    destruct sar_proj as (p & Hp & E). split.
    - intros s Hs H. rewrite E. apply (gain_dB _ _ _ _ _ _ Hp Hs H).
    - exists p. pose proof (proj_pythagoras _ _ _ _ _ Hp) as Q. pose proof (energy_nonneg M p).
      split; [exact (proj1 Hp)|]. unfold err. split; [lra|]. rewrite E. f_equal. lra.
  Qed.
End TopSar.

(** reference (1, 1), estimate (1, 0), one tap *)
Definition hy : list R := [1; 0]%R.
Lemma hy_norm : (norm_eps <= norm2 hy)%R.
Proof.
  unfold norm2, hy, smp. simpl. replace (0 + 1 * (1 * 1) + 0 * (0 * 1))%R with 1%R by ring. rewrite sqrt_1.
  unfold norm_eps. rewrite <- Rinv_1. apply Rinv_le_contravar; lra.
Qed.
Lemma gx_norm : (norm_eps <= norm2 gx)%R.
Proof.
  unfold norm2, gx, smp. simpl. apply Rle_trans with (sqrt 1).
  - rewrite sqrt_1. unfold norm_eps. rewrite <- Rinv_1. apply Rinv_le_contravar; lra.
  - apply sqrt_le_1_alt. lra.
Qed.
Lemma hy_loss b : mat_of (g_loss b 1 hy) 0 0 = Fin 0.
Proof.
  destruct (g_family hy eq_refl) as [W C].
  assert (Hp : is_projection 1 2 (delays gx) (smp hy) (fun t => / 2 * smp gx t)%R).
  { split.
    - exists (fun _ => / 2)%R. intros t Ht. destruct t as [|[|t]]; try lia; unfold gx, delays, delayed, smp; simpl; lra.
    - intros k Hk. assert (k = 0) as -> by lia. unfold dot, gx, hy, delays, delayed, smp. simpl. lra. }
  rewrite (sdr_projection b (plain_opts 1) g_ref (g_est hy) (g_loss b 1 hy) 0 0 gx hy 2 _ g_ref_wf W eq_refl eq_refl eq_refl
    ltac:(simpl; lia) (fun _ => conj eq_refl gx_norm) g_ref_chan C hy_norm ltac:(simpl; lia) ltac:(simpl; lia) Hp
    (g_ok b 1 hy ltac:(lia) eq_refl)).
  cbn [pre zero_mean plain_opts].
  replace (energy 2 (fun t => smp hy t - / 2 * smp gx t)%R) with (/ 2)%R by (unfold energy, dot, gx, hy, smp; simpl; lra).
  replace (energy 2 (fun t => / 2 * smp gx t)%R) with (/ 2)%R by (unfold energy, dot, gx, smp; simpl; lra).
  unfold dB. destruct (Req_EM_T (/ 2) 0); [lra|]. f_equal. replace (/ 2 / / 2)%R with 1%R by field. rewrite log10_1. ring.
Qed.
Theorem snr_above_sdr b : exists m, pairwise_sdr_loss b (plain_opts 1) (g_est hy) g_ref = Ok m /\
  mat_of m 0 0 = Fin 0 /\ energy 2 (smp gx) = 2%R /\ energy 2 (fun t => smp hy t - smp gx t)%R = 1%R.
Proof.
  exists (g_loss b 1 hy). split; [apply g_ok; [lia|reflexivity]|]. split; [apply hy_loss|].
  unfold energy, dot, gx, hy, smp. simpl. lra.
Qed.
