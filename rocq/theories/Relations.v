(** * One equation between SDR, SIR and SAR (C67) *)
From Coq Require Import Reals Lra.
From Verif Require Import Prelude ExtReal Slice Sums Spec SpecSig Fft Helpers HelpersProofs PermProofs
  DbProofs Linalg LinalgProofs Cgd Metrics StatsProofs LeastSq PrepProofs MetricsProofs SarProofs
  ProjTheorems MetricTheorems Outputs Solvability.
Local Open Scope nat_scope.

(** Power of estimate over power of its useful part, for a value in dB. *)
Definition total_over_useful (v : xr) : R :=
  match v with Fin a => 1 + Rpower 10 (- a / 10) | _ => 1 end%R.

Lemma tou_gdb c : (0 < c < 1)%R -> total_over_useful (Fin (- gdb c)) = (/ c)%R.
Proof.
  intros H. simpl. unfold gdb. replace (- - (10 * log10 ((1 - c) / c)) / 10)%R with (log10 ((1 - c) / c)) by field.
  unfold log10, Rpower. replace (ln ((1 - c) / c) / ln 10 * ln 10)%R with (ln ((1 - c) / c)).
  - rewrite exp_ln by (apply ratio_pos; auto). field. lra.
  - field. pose proof ln10_pos. lra.
Qed.
Lemma tou_coh c : (0 < c <= 1)%R ->
  xneg (coherence_to_neg_sdr None (Fin c)) <> NInf /\
  total_over_useful (xneg (coherence_to_neg_sdr None (Fin c))) = (/ c)%R.
Proof.
  intros [H1 [H2|H2]].
  - rewrite neg_sdr_fin by lra. split; [discriminate|]. apply tou_gdb. lra.
  - subst c. rewrite neg_sdr_neg_inf by (right; exists 1%R; split; [auto|lra]). split; [discriminate|].
    simpl. field.
Qed.
Lemma neg_coh_0 : xneg (coherence_to_neg_sdr None (Fin 0)) = NInf.
Proof. rewrite neg_sdr_pos_inf; auto. right. exists 0%R. split; [auto|lra]. Qed.

(** Value level: q the SDR coherence, s the SAR coherence. *)
Definition one_equation (S I A : xr) : Prop :=
  (S = NInf <-> I = NInf \/ A = NInf) /\
  (S <> NInf -> total_over_useful S = (total_over_useful I * total_over_useful A)%R).
Lemma coh_equation q s : (0 <= q <= s)%R -> (s <= 1)%R -> (0 < s)%R ->
  one_equation (xneg (coherence_to_neg_sdr None (Fin q)))
    (xneg (coherence_to_neg_sdr None (xdiv (Fin q) (Fin s))))
    (xneg (coherence_to_neg_sdr None (Fin s))).
Proof.
  intros Hq Hs Hs0. rewrite xdiv_fin by lra.
  destruct (tou_coh s) as [As Es]; [lra|].
  destruct (Req_dec q 0) as [->|Nq].
  - unfold Rdiv. rewrite Rmult_0_l, neg_coh_0. split; [split; auto|]. intros H; elim H; auto.
  - assert (Hr : (0 < q / s <= 1)%R).
    { split; [apply Rdiv_lt_0_compat; lra|]. apply (Rmult_le_reg_r s); [lra|].
      unfold Rdiv. rewrite Rmult_assoc, Rinv_l by lra. lra. }
    destruct (tou_coh q) as [Aq Eq]; [lra|]. destruct (tou_coh (q / s) Hr) as [Ar Er].
    split.
    + split; [intros E; elim (Aq E)|]. intros [E|E]; [elim (Ar E)|elim (As E)].
    + intros _. rewrite Eq, Er, Es. field. lra.
Qed.

Theorem bss_one_equation b sp o ref est xs ys s i a perm : lsa_contract sp -> wf ref -> wf est ->
  use_cg_iter o = None -> (0 <= loadv (load_diag o))%R -> clamp_db o = None ->
  2 <= filter_length o \/ (filter_length o = 1 /\ a_len ref = a_len est /\ loadv (load_diag o) = 0%R) ->
  has_chans ref xs -> has_chans est ys ->
  bss_eval_sources b sp o ref est = Ok (s, i, a, perm) ->
  length i = length s /\ length a = length s /\
  forall k, k < length s -> one_equation (nth k s NaN) (nth k i NaN) (nth k a NaN).
Proof.
  intros Hsp Hwr Hwe Hcg Hld Hcl HL Hx Hy H.
  destruct (bss_outputs b sp o ref est s i a perm Hsp H) as ([m sar] & Hc & O).
  unfold bss_eval_sources in H. rewrite Hc in H. cbn [bind] in H.
  pose proof (fun c d Hc0 Hd => sdr_le_sar_coh b o ref est m sar c d (ys d) xs Hwr Hwe Hcg Hld HL Hx Hc0
    (has_chans_at est ys d Hy Hd) Hc) as P.
  unfold bss_mats in *. cbv beta iota zeta in H, O.
  destruct (solve_permutation b sp (n_chan ref) (n_chan est) _ _) as [[[v ar] p]|] eqn:E; [|discriminate].
  assert (Hn : forall c d, c < n_chan ref -> d < n_chan est ->
    snd (fst (base_metrics o (mat_of m c d) (nth d sar NaN))) <> NaN).
  { intros c d Hc0 Hd.
    apply (proj1 (solve_perm_total_iff sp Hsp b _ _ _ _) (ex_intro _ _ E)); auto. }
  destruct O as (Hcomp & _ & _ & _ & -> & -> & ->).
  rewrite !map_length. split; [auto|]. split; [auto|]. intros k Hk.
  assert (Hm : forall (f : nat * nat -> xr) l k, k < length l -> nth k (map f l) NaN = f (nth k l (0, 0))).
  { intros f l k0 Hk0. rewrite (nth_indep _ NaN (f (0, 0))) by (rewrite map_length; auto). apply map_nth. }
  rewrite !Hm by auto. pose proof (nth_In _ (0, 0) Hk) as Hin.
  destruct (nth k (matching (n_chan ref) (n_chan est) perm) (0, 0)) as [c d].
  destruct Hcomp as (_ & Hr & _). destruct (Hr c d Hin) as (Hc0 & Hd).
  destruct (P c d Hc0 Hd) as (q & t & Eq & Et & R1 & R2). specialize (Hn c d Hc0 Hd).
  unfold at_pair, base_metrics in *. cbn [fst snd] in *. rewrite Eq, Et, Hcl in *.
  apply coh_equation; auto.
  destruct (Req_dec t 0) as [->|N]; [|lra]. exfalso. apply Hn.
  assert (q = 0)%R by lra. subst q. apply neg_sdr_no_nan. simpl.
  replace (Reqb 0 0) with true by (symmetry; apply Reqb_true; auto). reflexivity.
Qed.

(** SDR is determined by the two others; for non-negative values it is at most 10 log10 3 dB
    (4.78 dB) below the smaller one. *)
Corollary sdr_from_sir_sar S I A : one_equation (Fin S) (Fin I) (Fin A) ->
  Rpower 10 (- S / 10) = (Rpower 10 (- I / 10) + Rpower 10 (- A / 10) +
                          Rpower 10 (- I / 10) * Rpower 10 (- A / 10))%R.
Proof. intros [_ H]. specialize (H ltac:(discriminate)). simpl in H. lra. Qed.
Corollary sdr_near_min S I A : one_equation (Fin S) (Fin I) (Fin A) -> (0 <= I)%R -> (0 <= A)%R ->
  (Rmin I A - 10 * log10 3 <= S)%R.
Proof.
  intros H HI HA. apply sdr_from_sir_sar in H.
  set (m := Rmin I A). set (u := Rpower 10 (- m / 10)).
  assert (L10 : (1 < 10)%R) by lra.
  assert (Hle : forall x, (m <= x)%R -> (Rpower 10 (- x / 10) <= u)%R).
  { intros x Hx. unfold u. apply Rle_Rpower; lra. }
  assert (Hm0 : (0 <= m)%R) by (unfold m; apply Rmin_glb; auto).
  assert (Hu1 : (u <= 1)%R).
  { unfold u. rewrite <- (Rpower_O 10) by lra. apply Rle_Rpower; lra. }
  assert (Hu0 : (0 < u)%R) by (unfold u, Rpower; apply exp_pos).
  pose proof (Hle I (Rmin_l _ _)) as H1. pose proof (Hle A (Rmin_r _ _)) as H2.
  assert (P1 : (0 < Rpower 10 (- I / 10))%R) by (unfold Rpower; apply exp_pos).
  assert (P2 : (0 < Rpower 10 (- A / 10))%R) by (unfold Rpower; apply exp_pos).
  assert (HS : (Rpower 10 (- S / 10) <= 3 * u)%R) by nra.
  assert (P3 : (0 < Rpower 10 (- S / 10))%R) by (unfold Rpower; apply exp_pos).
  apply log10_le in HS; auto. rewrite log10_mult, !log10_pow in HS by lra. unfold u in HS.
  rewrite log10_pow in HS. lra.
Qed.
