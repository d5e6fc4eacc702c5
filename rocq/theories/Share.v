(** * How several references share one estimate, and several estimates one reference (C98) *)
From Coq Require Import Reals Lra Psatz.
From Verif Require Import Prelude ExtReal Sums SpecSig Helpers Metrics LeastSq StatsProofs PrepProofs MetricsProofs SarProofs
  ProjTheorems DbProofs MetricTheorems Sensitivity SensitivityDb Gradient GradientExamples Snr.
Local Open Scope nat_scope.

(** The part of the energy that a loss of v dB (minus an SDR) leaves to the target: 1 / (1 + 10^(v/10)). *)
Definition share (v : xr) : R :=
  match v with
  | Fin r => (/ (1 + Rpower 10 (r / 10)))%R
  | NInf => 1%R
  | _ => 0%R
  end.

Lemma ln10_pos : (0 < ln 10)%R.
Proof. rewrite <- ln_1. apply ln_increasing; lra. Qed.
Lemma Rpower_log10 x : (0 < x)%R -> Rpower 10 (10 * log10 x / 10) = x.
Proof.
  intros H. replace (10 * log10 x / 10)%R with (log10 x) by field. unfold Rpower, log10. pose proof ln10_pos.
  replace (ln x / ln 10 * ln 10)%R with (ln x) by (field; lra). apply exp_ln; auto.
Qed.
Lemma share_dB a b : (0 <= a)%R -> (0 <= b)%R -> (0 < a + b)%R -> share (dB a b) = (b / (a + b))%R.
Proof.
  intros A B H. unfold dB. destruct (Req_EM_T b 0) as [->|Nb].
  - unfold share. field. lra.
  - destruct (Req_EM_T a 0) as [->|Na]; cbn [share]; [field; lra|].
    rewrite Rpower_log10 by (apply Rdiv_lt_0_compat; lra). field. split; lra.
Qed.
Lemma Rpower10_pos r : (0 < Rpower 10 r)%R.
Proof. apply exp_pos. Qed.
Lemma share_range v : (0 <= share v <= 1)%R.
Proof.
  destruct v as [r| | |]; cbn [share]; try lra. pose proof (Rpower10_pos (r / 10)) as P. split.
  - apply Rlt_le, Rinv_0_lt_compat. lra.
  - rewrite <- Rinv_1. apply Rinv_le_contravar; lra.
Qed.
Lemma share_le v w : xle v w -> (share w <= share v)%R.
Proof.
  intros H. destruct v as [r| | |], w as [s| | |]; cbn [share];
    try (pose proof (share_range (Fin r)) as Q1; cbn [share] in Q1); try (pose proof (share_range (Fin s)) as Q2; cbn [share] in Q2);
    try lra; try (unfold xle in H; simpl in H; discriminate).
  apply xle_fin in H. pose proof (Rpower10_pos (r / 10)) as P. apply Rinv_le_contravar; [lra|].
  apply Rplus_le_compat_l. unfold Rpower. pose proof ln10_pos as L10.
  assert (E : (r / 10 * ln 10 <= s / 10 * ln 10)%R) by (apply Rmult_le_compat_r; lra).
  destruct (Rle_lt_or_eq_dec _ _ E) as [E'|E']; [left; apply exp_increasing; exact E'|right; rewrite E'; auto].
Qed.
Lemma share_0 : share (Fin 0) = (/ 2)%R.
Proof. unfold share. replace (0 / 10)%R with 0%R by field. rewrite Rpower_O by lra. reflexivity. Qed.
Lemma share_lt_inv v w : (share v < share w)%R -> v <> NaN -> w <> NaN -> xlt w v.
Proof.
  intros H Nv Nw. split.
  - destruct v as [r| | |], w as [s| | |]; cbn [share] in H; try lra; try tauto; try reflexivity;
      try (pose proof (share_range (Fin r)) as Q1; cbn [share] in Q1); try (pose proof (share_range (Fin s)) as Q2; cbn [share] in Q2); try lra.
    apply xle_fin. destruct (Rle_dec s r) as [|N]; auto. exfalso.
    pose proof (share_le (Fin r) (Fin s) ltac:(apply xle_fin; lra)) as X. cbn [share] in X. lra.
  - destruct (xleb v w) eqn:E; [|reflexivity]. exfalso. pose proof (share_le v w E). lra.
Qed.

Lemma fin_choice {A} (dflt : A) n (P : nat -> A -> Prop) : (forall c, c < n -> exists p, P c p) ->
  exists ps, forall c, c < n -> P c (ps c).
Proof.
  induction n as [|n IH]; intros H.
  - exists (fun _ => dflt). intros; lia.
  - destruct IH as [ps Hps]; [intros; apply H; lia|]. destruct (H n ltac:(lia)) as [p Hp].
    exists (fun c => if Nat.eqb c n then p else ps c). intros c Hc.
    destruct (Nat.eqb_spec c n) as [->|N]; [exact Hp|apply Hps; lia].
Qed.

(** ** References that stay orthogonal under the delays of the filter *)
Lemma dot_Rsum_r M u n (f : nat -> nat -> R) : dot M u (fun t => Rsum n (fun c => f c t)) = Rsum n (fun c => dot M u (f c)).
Proof.
  unfold dot. rewrite (Rsum_ext M _ (fun t => Rsum n (fun c => u t * f c t))%R).
  - apply Rsum_swap.
  - intros. symmetry. apply Rsum_scal_l.
Qed.

Section Refs.
  Variables (K L M : nat) (xs : nat -> list R) (y : nat -> R) (ps : nat -> nat -> R).
  Hypothesis Hps : forall c, c < K -> is_projection L M (delays (xs c)) y (ps c).
  Hypothesis HA : forall c c', c < K -> c' < K -> c <> c' -> forall k k', k < L -> k' < L ->
    dot M (delayed (xs c) k) (delayed (xs c') k') = 0%R.
  Let P t := Rsum K (fun c => ps c t).

  Lemma cross_orth c c' k : c < K -> c' < K -> c <> c' -> k < L -> dot M (delays (xs c) k) (ps c') = 0%R.
  Proof.
    intros Hc Hc' N Hk. rewrite dot_comm. destruct (Hps c' Hc') as [S _]. apply (dot_span_0 L M (delays (xs c')) _ _ S).
    intros k' Hk'. apply HA; auto.
  Qed.
  Lemma sum_projection : is_projection (L * K) M (all_delays K xs) y P.
  Proof.
    split.
    - destruct (fin_choice (fun _ => 0%R) K (fun c g => forall t, t < M -> ps c t = Rsum L (fun k => g k * delays (xs c) k t)%R)) as [g Hg].
      { intros c Hc. exact (proj1 (Hps c Hc)). }
      exists (fun k => g (k mod K) (k / K)). intros t Ht. unfold P. rewrite Rsum_prod, Rsum_swap.
      apply Rsum_ext. intros c Hc. rewrite (Hg c Hc t Ht). apply Rsum_ext. intros l Hl. unfold all_delays, delays.
      assert (E1 : (l * K + c) mod K = c) by (rewrite Nat.add_comm, Nat.mod_add by lia; apply Nat.mod_small; lia).
      assert (E2 : (l * K + c) / K = l) by (rewrite Nat.add_comm, Nat.div_add by lia; rewrite Nat.div_small by lia; lia).
      rewrite E1, E2. reflexivity.
    - intros k Hk. assert (K <> 0) by (intro; subst K; lia).
      assert (Hc : k mod K < K) by (apply Nat.mod_upper_bound; auto).
      assert (Hl : k / K < L) by (apply Nat.div_lt_upper_bound; [auto|lia]).
      change (all_delays K xs k) with (delays (xs (k mod K)) (k / K)). set (c := k mod K) in *. set (l := k / K) in *.
      rewrite dot_sub_r. unfold P. rewrite dot_Rsum_r.
      rewrite (Rsum_single K c); [|exact Hc|intros c' Hc' N; apply cross_orth; auto].
      rewrite <- dot_sub_r. apply (proj2 (Hps c Hc)). exact Hl.
  Qed.
  Lemma sum_energy : energy M P = Rsum K (fun c => energy M (ps c)).
  Proof.
    pose proof (proj_self _ _ _ _ _ sum_projection) as E. rewrite dot_sub_r in E.
    assert (E2 : dot M P y = Rsum K (fun c => energy M (ps c))).
    { rewrite dot_comm. unfold P. rewrite dot_Rsum_r. apply Rsum_ext. intros c Hc.
      pose proof (proj_self _ _ _ _ _ (Hps c Hc)) as F. rewrite dot_sub_r in F. rewrite dot_comm. unfold energy. lra. }
    unfold energy at 1. lra.
  Qed.
End Refs.

(** ** Orthogonal estimates: Bessel's inequality, and its version for a span *)
Section Ests.
  Variables (D M : nat) (e : nat -> nat -> R).
  Hypothesis Hpos : forall d, d < D -> (0 < energy M (e d))%R.
  Hypothesis Horth : forall d d', d < D -> d' < D -> d <> d' -> dot M (e d) (e d') = 0%R.

  Lemma bessel w : (Rsum D (fun d => dot M (e d) w ^ 2 / energy M (e d)) <= energy M w)%R.
  Proof.
    set (q := fun t => Rsum D (fun d => dot M (e d) w / energy M (e d) * e d t)%R).
    pose proof (energy_nonneg M (fun t => w t - q t)%R) as N. rewrite energy_sub in N.
    assert (E1 : dot M w q = Rsum D (fun d => dot M (e d) w ^ 2 / energy M (e d))%R).
    { unfold q. rewrite (dot_Rsum_r M w D (fun d t => dot M (e d) w / energy M (e d) * e d t)%R). apply Rsum_ext. intros d Hd.
      rewrite (dot_scal_r M w (e d)). rewrite (dot_comm M w (e d)). unfold Rdiv. ring. }
    assert (E2 : energy M q = Rsum D (fun d => dot M (e d) w ^ 2 / energy M (e d))%R).
    { unfold energy at 1. unfold q at 2. rewrite (dot_Rsum_r M q D (fun d t => dot M (e d) w / energy M (e d) * e d t)%R).
      apply Rsum_ext. intros d Hd. rewrite (dot_scal_r M q (e d)). rewrite (dot_comm M q (e d)). unfold q.
      rewrite (dot_Rsum_r M (e d) D (fun d t => dot M (e d) w / energy M (e d) * e d t)%R).
      rewrite (Rsum_single D d); [|exact Hd|intros d' Hd' Nd; rewrite (dot_scal_r M (e d) (e d')), Horth by auto; ring].
      rewrite (dot_scal_r M (e d) (e d)). fold (energy M (e d)). pose proof (Hpos d Hd). field. lra. }
    rewrite E1, E2 in N. lra.
  Qed.

  Lemma bessel_span a : forall K (ps : nat -> nat -> R), (forall d, d < D -> is_projection K M a (e d) (ps d)) ->
    (Rsum D (fun d => energy M (ps d) / energy M (e d)) <= INR K)%R.
  Proof.
    induction K as [|K IH]; intros ps Hps.
    - rewrite Rsum_zero; [simpl; lra|]. intros d Hd. destruct (Hps d Hd) as [[g Hg] _].
      rewrite (energy_ext M _ (fun _ => 0%R)) by (intros t Ht; rewrite (Hg t Ht); reflexivity).
      replace (energy M (fun _ => 0%R)) with 0%R; [unfold Rdiv; ring|].
      symmetry. apply Rsum_zero. intros. ring.
    - destruct (fin_choice (fun _ => 0%R) D (fun d p => is_projection K M a (e d) p)) as [qs Hqs].
      { intros d Hd. apply projection_exists. }
      destruct (projection_exists M a K (a K)) as (s & Ss & Os). set (r := fun t => (a K t - s t)%R).
      assert (Hrk : forall k, k < K -> dot M (a k) r = 0%R) by exact Os.
      assert (Ers : dot M r s = 0%R) by (rewrite dot_comm; apply (dot_span_0 K M a s r Ss Hrk)).
      assert (ErK : dot M r (a K) = energy M r).
      { unfold energy. unfold r at 3. rewrite dot_sub_r, Ers. ring. }
      specialize (IH qs Hqs). rewrite S_INR.
      assert (Step : forall d, d < D -> (energy M (ps d) * energy M r = energy M (qs d) * energy M r + dot M (e d) r ^ 2)%R /\
                                        (energy M r = 0 -> energy M (ps d) = energy M (qs d))%R).
      { intros d Hd. destruct (Hps d Hd) as [Sp Op]. destruct (Hqs d Hd) as [Sq Oq].
        assert (HsK : dot M s (fun t => e d t - ps d t)%R = 0%R).
        { apply (dot_span_0 K M a s); auto. }
        assert (Hre : dot M r (ps d) = dot M (e d) r).
        { pose proof (Op K ltac:(lia)) as O. pose proof (dot_sub_l M (fun t => e d t - ps d t)%R (a K) s) as X. fold r in X.
          rewrite O, HsK in X. rewrite dot_sub_r in X. rewrite (dot_comm M (e d)). lra. }
        destruct (Req_EM_T (energy M r) 0) as [E|E].
        - assert (Eq : energy M (ps d) = energy M (qs d)).
          { apply energy_ext. apply (projection_unique (S K) M a (e d)); [split; auto|]. split; [apply span_mono; auto|].
            intros k Hk. destruct (Nat.eq_dec k K) as [->|Hne]; [|apply Oq; lia].
            rewrite (dot_ext M (a K) s _ (fun t => e d t - qs d t)%R); auto.
            - apply (dot_span_0 K M a); auto.
            - intros t Ht. pose proof (energy_zero M r E t Ht) as Hz. unfold r in Hz. lra. }
          split; [|intros _; exact Eq]. rewrite Eq.
          assert (dot M (e d) r = 0%R) as ->; [|ring].
          apply Rsum_zero. intros t Ht. rewrite (energy_zero M r E t Ht). ring.
        - split; [|tauto]. set (c := (dot M (e d) r / energy M r)%R).
          assert (Eps : energy M (ps d) = energy M (fun t => qs d t + c * r t)%R).
          { apply energy_ext. apply (projection_unique (S K) M a (e d)); [split; auto|]. split.
            - apply span_axpy; [apply span_mono; auto|]. destruct Ss as (g & Hg). exists (fun k => if Nat.eqb k K then 1%R else (- g k)%R). intros t Ht.
              simpl. rewrite Nat.eqb_refl. unfold r. rewrite (Rsum_ext K _ (fun k => - (g k * a k t))%R).
              + rewrite Rsum_opp, (Hg t Ht). ring.
              + intros k Hk. destruct (Nat.eqb_spec k K); [lia|ring].
            - assert (Hlow : forall k, k < K -> dot M (a k) (fun t => e d t - (qs d t + c * r t))%R = 0%R).
              { intros k Hk. rewrite (dot_ext M (a k) (a k) _ (fun t => (e d t - qs d t) - c * r t)%R) by (intros; ring || auto).
                rewrite dot_sub_r, Oq, dot_scal_r, Hrk by auto. ring. }
              intros k Hk. destruct (Nat.eq_dec k K) as [->|Hne]; [|apply Hlow; lia].
              rewrite (dot_ext M (a K) (fun t => r t - (- 1) * s t)%R _ (fun t => e d t - (qs d t + c * r t))%R)
                by (intros; unfold r; ring || auto).
              rewrite dot_sub_l, dot_scal_l. rewrite (dot_span_0 K M a s _ Ss Hlow).
              rewrite (dot_ext M r r _ (fun t => (e d t - qs d t) - c * r t)%R) by (intros; ring || auto).
              rewrite !dot_sub_r, dot_scal_r. rewrite (dot_comm M r (qs d)), (dot_comm M r (e d)).
              rewrite (dot_span_0 K M a (qs d) r Sq Hrk). unfold c. fold (energy M r). field. auto. }
          rewrite Eps, energy_axpy, (dot_span_0 K M a (qs d) r Sq Hrk). unfold c. field. auto. }
      destruct (Req_EM_T (energy M r) 0) as [E|E].
      + rewrite (Rsum_ext D _ (fun d => energy M (qs d) / energy M (e d))%R); [lra|].
        intros d Hd. rewrite (proj2 (Step d Hd) E). reflexivity.
      + pose proof (energy_nonneg M r) as Er. assert (Pr : (0 < energy M r)%R) by lra.
        pose proof (bessel r) as B.
        rewrite (Rsum_ext D _ (fun d => energy M (qs d) / energy M (e d) + dot M (e d) r ^ 2 / energy M (e d) * / energy M r)%R).
        * rewrite Rsum_plus, Rsum_scal_r.
          assert ((Rsum D (fun d => dot M (e d) r ^ 2 / energy M (e d)) * / energy M r <= 1)%R); [|lra].
          apply Rmult_le_reg_r with (energy M r); auto. rewrite Rmult_assoc, Rinv_l by lra. lra.
        * intros d Hd. pose proof (Hpos d Hd). pose proof (proj1 (Step d Hd)) as S1.
          apply Rmult_eq_reg_r with (energy M (e d) * energy M r)%R; [|apply Rgt_not_eq, Rmult_lt_0_compat; lra].
          replace (energy M (ps d) / energy M (e d) * (energy M (e d) * energy M r))%R with (energy M (ps d) * energy M r)%R by (field; lra).
          rewrite S1. field. split; lra.
  Qed.
End Ests.

(** ** The returned values *)
Lemma dB_not_nan a b : dB a b <> NaN.
Proof. unfold dB. destruct (Req_EM_T b 0); [|destruct (Req_EM_T a 0)]; discriminate. Qed.
Lemma share_proj K M a y p : is_projection K M a y p -> (0 < energy M y)%R ->
  share (dB (energy M (fun t => y t - p t)%R) (energy M p)) = (energy M p / energy M y)%R.
Proof.
  intros H P. pose proof (proj_pythagoras _ _ _ _ _ H) as E. pose proof (energy_nonneg M p). pose proof (energy_nonneg M (fun t => y t - p t)%R).
  rewrite share_dB by lra. f_equal. lra.
Qed.
Lemma chan_energy o est d y M : wf est -> has_chan est d y -> a_len est <= M -> (norm_eps <= norm2 (pre (zero_mean o) y))%R ->
  (0 < energy M (smp (pre (zero_mean o) y)))%R.
Proof.
  intros We Hy HM Hn. rewrite energy_smp.
  - assert (0 < norm_eps)%R by (unfold norm_eps; apply Rinv_0_lt_compat; lra). nra.
  - pose proof (proj2 (has_chan_pchan (zero_mean o) est d y We Hy)); destruct (zero_mean o); cbn [pre]; rewrite ?centered_length; lia.
Qed.

Section Top.
  Variables (b : backend) (o : opts) (ref est : arr) (xs : nat -> list R) (M : nat).
  Hypotheses (Wr : wf ref) (We : wf est) (Hcg : use_cg_iter o = None) (Hld : load_diag o = None) (Hcl : clamp_db o = None)
    (HL : 1 <= filter_length o <= Nat.max (a_len ref) (a_len est))
    (H1 : filter_length o = 1 -> a_len ref = a_len est /\ forall c, c < n_chan ref -> (norm_eps <= norm2 (pre (zero_mean o) (xs c)))%R)
    (Hx : has_chans ref xs) (HM : a_len ref + filter_length o - 1 <= M) (HM' : a_len est <= M).
  Let X c := pre (zero_mean o) (xs c).

  Section OneEst.
    Variables (d : nat) (y : list R).
    Hypotheses (Hy : has_chan est d y) (Hn : (norm_eps <= norm2 (pre (zero_mean o) y))%R).
    Hypothesis HA : forall c c', c < n_chan ref -> c' < n_chan ref -> c <> c' -> forall k k', k < filter_length o -> k' < filter_length o ->
      dot M (delayed (X c) k) (delayed (X c') k') = 0%R.
    Let Y := smp (pre (zero_mean o) y).

    Lemma loss_shares m : pairwise_sdr_loss b o est ref = Ok m ->
      exists P, is_projection (filter_length o * n_chan ref) M (all_delays (n_chan ref) X) Y P /\
        Rsum (n_chan ref) (fun c => share (mat_of m c d)) = (energy M P / energy M Y)%R.
    Proof.
      intros Hm. pose proof (chan_energy o est d y M We Hy HM' Hn) as PY. fold Y in PY.
      destruct (fin_choice (fun _ => 0%R) (n_chan ref) (fun c p => is_projection (filter_length o) M (delays (X c)) Y p /\
        mat_of m c d = dB (energy M (fun t => Y t - p t)%R) (energy M p))) as [ps Hps].
      { intros c Hc. apply (sdr_proj b o ref est m c d (xs c) y M); auto.
        - intros E. destruct (H1 E) as [E1 E2]. split; auto.
        - apply has_chans_at; auto. }
      exists (fun t => Rsum (n_chan ref) (fun c => ps c t)). split.
      - apply sum_projection; [intros c Hc; apply (Hps c Hc)|exact HA].
      - rewrite (sum_energy (n_chan ref) (filter_length o) M X Y ps (fun c Hc => proj1 (Hps c Hc)) HA).
        unfold Rdiv. rewrite <- Rsum_scal_r. apply Rsum_ext. intros c Hc. destruct (Hps c Hc) as [Hp ->].
        apply (share_proj _ _ _ _ _ Hp PY).
    Qed.
    Theorem loss_shares_le m : pairwise_sdr_loss b o est ref = Ok m ->
      (Rsum (n_chan ref) (fun c => share (mat_of m c d)) <= 1)%R.
    Proof.
      intros Hm. destruct (loss_shares m Hm) as (P & HP & ->). pose proof (chan_energy o est d y M We Hy HM' Hn) as PY. fold Y in PY.
      pose proof (proj_pythagoras _ _ _ _ _ HP) as E. pose proof (energy_nonneg M (fun t => Y t - P t)%R).
      apply Rmult_le_reg_r with (energy M Y); auto. unfold Rdiv. rewrite Rmult_assoc, Rinv_l by lra. lra.
    Qed.
    Theorem loss_one_positive m c c' : pairwise_sdr_loss b o est ref = Ok m -> c < n_chan ref -> c' < n_chan ref -> c <> c' ->
      xle (mat_of m c d) (Fin 0) -> xle (Fin 0) (mat_of m c' d).
    Proof.
      intros Hm Hc Hc' N H. pose proof (loss_shares_le m Hm) as S.
      assert (NN : mat_of m c' d <> NaN).
      { destruct (sdr_proj b o ref est m c' d (xs c') y M) as (p & _ & ->); auto; [|apply has_chans_at; auto|apply dB_not_nan].
        intros E. destruct (H1 E) as [E1 E2]. split; auto. }
      destruct (xleb (Fin 0) (mat_of m c' d)) eqn:E; [exact E|]. exfalso.
      assert (Lt : xlt (mat_of m c' d) (Fin 0)).
      { split; [|exact E]. destruct (mat_of m c' d) as [r| | |]; try tauto; try reflexivity; [|discriminate].
        apply xle_fin. destruct (Rle_dec 0 r) as [Q|Q]; [|lra]. apply (proj2 (xle_fin 0 r)) in Q. unfold xle in Q. congruence. }
      assert (S' : (/ 2 < share (mat_of m c' d))%R).
      { destruct (mat_of m c' d) as [r| | |] eqn:Em; try tauto.
        - destruct Lt as [L1 L2]. assert (Hr : (r < 0)%R).
          { destruct (Rlt_dec r 0); auto. exfalso. assert (Q : xle (Fin 0) (Fin r)) by (apply xle_fin; lra). unfold xle in Q. congruence. }
          cbn [share]. apply Rinv_lt_contravar; [pose proof (Rpower10_pos (r / 10)); lra|].
          assert (Rpower 10 (r / 10) < 1)%R; [|lra]. rewrite <- (Rpower_O 10) by lra. apply Rpower_lt; lra.
        - destruct Lt as [L1 L2]. discriminate.
        - cbn [share]. lra. }
      pose proof (share_le _ _ H) as S0. rewrite share_0 in S0.
      assert (T : (share (mat_of m c d) + share (mat_of m c' d) <= Rsum (n_chan ref) (fun c => share (mat_of m c d)))%R).
      { clear -Hc Hc' N. revert Hc Hc'. generalize (n_chan ref) as n. induction n as [|n IH]; intros Hc Hc'; [lia|].
        simpl. destruct (Nat.eq_dec c n) as [->|Nc].
        - assert (share (mat_of m c' d) <= Rsum n (fun c => share (mat_of m c d)))%R; [|lra].
          rewrite <- (Rsum_delta n c' (fun c => share (mat_of m c d))) by lia. apply Rsum_le. intros i Hi.
          pose proof (share_range (mat_of m i d)). destruct (Nat.eqb i c'); lra.
        - destruct (Nat.eq_dec c' n) as [->|Nc'].
          + assert (share (mat_of m c d) <= Rsum n (fun c => share (mat_of m c d)))%R; [|lra].
            rewrite <- (Rsum_delta n c (fun c => share (mat_of m c d))) by lia. apply Rsum_le. intros i Hi.
            pose proof (share_range (mat_of m i d)). destruct (Nat.eqb i c); lra.
          + specialize (IH ltac:(lia) ltac:(lia)). pose proof (share_range (mat_of m n d)). lra. }
      lra.
    Qed.
    Theorem bss_shares m sar c : sq_cos b o ref est = Ok (m, sar) -> c < n_chan ref ->
      Rsum (n_chan ref) (fun c => share (fst (fst (bss_mats o (m, sar))) c d)) = share (snd (bss_mats o (m, sar)) c d).
    Proof.
      intros Hm Hc. pose proof (chan_energy o est d y M We Hy HM' Hn) as PY. fold Y in PY.
      assert (H1' : forall c, c < n_chan ref -> filter_length o = 1 -> a_len ref = a_len est /\ (norm_eps <= norm2 (pre (zero_mean o) (xs c)))%R).
      { intros c0 Hc0 E. destruct (H1 E). auto. }
      destruct (fin_choice (fun _ => 0%R) (n_chan ref) (fun c p => is_projection (filter_length o) M (delays (X c)) Y p)) as [ps Hps].
      { intros c0 Hc0. apply projection_exists. }
      pose proof (sum_projection (n_chan ref) (filter_length o) M X Y ps Hps HA) as HP.
      pose proof (sum_energy (n_chan ref) (filter_length o) M X Y ps Hps HA) as EP. cbv zeta in HP.
      assert (V : forall c0, c0 < n_chan ref -> share (fst (fst (bss_mats o (m, sar))) c0 d) = (energy M (ps c0) / energy M Y)%R /\
        share (snd (bss_mats o (m, sar)) c0 d) = (energy M (fun t => Rsum (n_chan ref) (fun c => ps c t)) / energy M Y)%R).
      { intros c0 Hc0.
        pose proof (sir_sar_projection b o ref est m sar c0 d xs y M _ (ps c0) Wr We Hcg Hld Hcl HL (H1' c0 Hc0) Hx Hc0 Hy Hn HM HM' HP (Hps c0 Hc0) Hm) as V.
        destruct (bss_mats o (m, sar)) as [[nsdr nsir] nsar]. destruct V as (V1 & V2 & _). cbn [fst snd]. rewrite V1, V2. split.
        - apply (share_proj _ _ _ _ _ (Hps c0 Hc0) PY).
        - apply (share_proj _ _ _ _ _ HP PY). }
      rewrite (proj2 (V c Hc)), EP. unfold Rdiv. rewrite <- Rsum_scal_r. apply Rsum_ext. intros c0 Hc0. apply (V c0 Hc0).
    Qed.
  End OneEst.

  Section OneRef.
    Variables (ys : nat -> list R).
    Hypotheses (Hys : has_chans est ys) (Hns : forall d, d < n_chan est -> (norm_eps <= norm2 (pre (zero_mean o) (ys d)))%R).
    Hypothesis HB : forall d d', d < n_chan est -> d' < n_chan est -> d <> d' ->
      dot M (smp (pre (zero_mean o) (ys d))) (smp (pre (zero_mean o) (ys d'))) = 0%R.

    Theorem est_shares m c : pairwise_sdr_loss b o est ref = Ok m -> c < n_chan ref ->
      (Rsum (n_chan est) (fun d => share (mat_of m c d)) <= INR (filter_length o))%R.
    Proof.
      intros Hm Hc.
      assert (PY : forall d, d < n_chan est -> (0 < energy M (smp (pre (zero_mean o) (ys d))))%R).
      { intros d Hd. apply (chan_energy o est d); auto. apply has_chans_at; auto. }
      destruct (fin_choice (fun _ => 0%R) (n_chan est) (fun d p => is_projection (filter_length o) M (delays (X c)) (smp (pre (zero_mean o) (ys d))) p /\
        mat_of m c d = dB (energy M (fun t => smp (pre (zero_mean o) (ys d)) t - p t)%R) (energy M p))) as [ps Hps].
      { intros d Hd. apply (sdr_proj b o ref est m c d (xs c) (ys d) M); auto.
        - intros E. destruct (H1 E) as [E1 E2]. split; auto.
        - apply has_chans_at; auto.
        - apply has_chans_at; auto. }
      rewrite (Rsum_ext (n_chan est) _ (fun d => energy M (ps d) / energy M (smp (pre (zero_mean o) (ys d))))%R).
      - apply (bessel_span (n_chan est) M (fun d => smp (pre (zero_mean o) (ys d))) PY HB (delays (X c))). intros d Hd. apply (Hps d Hd).
      - intros d Hd. destruct (Hps d Hd) as [Hp ->]. apply (share_proj _ _ _ _ _ Hp (PY d Hd)).
    Qed.
    Theorem est_count m c v : pairwise_sdr_loss b o est ref = Ok m -> c < n_chan ref ->
      (forall d, d < n_chan est -> xle (mat_of m c d) v) -> (INR (n_chan est) * share v <= INR (filter_length o))%R.
    Proof.
      intros Hm Hc H. eapply Rle_trans; [|apply (est_shares m c Hm Hc)]. rewrite <- (Rsum_const (n_chan est) (share v)).
      apply Rsum_le. intros d Hd. apply share_le. auto.
    Qed.
    Theorem est_sar_shares m sar c : sq_cos b o ref est = Ok (m, sar) -> c < n_chan ref ->
      (Rsum (n_chan est) (fun d => share (snd (bss_mats o (m, sar)) c d)) <= INR (filter_length o * n_chan ref))%R.
    Proof.
      intros Hm Hc.
      assert (PY : forall d, d < n_chan est -> (0 < energy M (smp (pre (zero_mean o) (ys d))))%R).
      { intros d Hd. apply (chan_energy o est d); auto. apply has_chans_at; auto. }
      destruct (fin_choice (fun _ => 0%R) (n_chan est) (fun d p => is_projection (filter_length o * n_chan ref) M (all_delays (n_chan ref) X) (smp (pre (zero_mean o) (ys d))) p /\
        snd (bss_mats o (m, sar)) c d = dB (energy M (fun t => smp (pre (zero_mean o) (ys d)) t - p t)%R) (energy M p))) as [ps Hps].
      { intros d Hd. apply (sar_proj b o ref est m sar c d xs (ys d) M); auto.
        - intros E. destruct (H1 E) as [E1 E2]. split; auto.
        - apply has_chans_at; auto. }
      rewrite (Rsum_ext (n_chan est) _ (fun d => energy M (ps d) / energy M (smp (pre (zero_mean o) (ys d))))%R).
      - apply (bessel_span (n_chan est) M (fun d => smp (pre (zero_mean o) (ys d))) PY HB (all_delays (n_chan ref) X)). intros d Hd. apply (Hps d Hd).
      - intros d Hd. destruct (Hps d Hd) as [Hp ->]. apply (share_proj _ _ _ _ _ Hp (PY d Hd)).
    Qed.
  End OneRef.
End Top.
