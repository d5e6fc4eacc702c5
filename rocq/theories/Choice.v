(** * The permutations of sdr and of bss_eval_sources

    sdr chooses the permutation by SDR, bss_eval_sources by SIR. *)
From Coq Require Import Reals Lra.
From Verif Require Import Prelude ExtReal Spec SpecSig Sums Helpers PermProofs DbProofs Metrics StatsProofs LeastSq
  PrepProofs MetricsProofs SarProofs ProjTheorems MetricTheorems Outputs Recover.
Local Open Scope nat_scope.

Lemma sum_neg (M : nat -> nat -> xr) l :
  sumR (map to_R (map (fun p => xneg (at_pair M p)) l)) = (- total_cost (fun i j => to_R (M i j)) l)%R.
Proof.
  unfold total_cost, at_pair. rewrite map_map.
  rewrite (map_ext _ (fun p => (- to_R (M (fst p) (snd p)))%R) (fun p => to_R_xneg _)). apply sumR_opp.
Qed.
Lemma bss_solved b sp o ref est s i a perm : bss_eval_sources b sp o ref est = Ok (s, i, a, perm) ->
  exists c, sq_cos b o ref est = Ok c /\
    let '(nsdr, nsir, nsar) := bss_mats o c in
    exists out outs, solve_permutation b sp (n_chan ref) (n_chan est) nsir [nsdr; nsar] = Ok (out, outs, perm).
Proof.
  intros H. unfold bss_eval_sources in H. destruct (sq_cos b o ref est) as [c|]; [|discriminate]. cbn [bind] in H.
  exists c. split; auto. destruct (bss_mats o c) as [[nsdr nsir] nsar].
  destruct (solve_permutation b sp (n_chan ref) (n_chan est) nsir [nsdr; nsar]) as [[[v ar] p]|]; [|discriminate].
  cbn [bind] in H. injection H as _ _ _ <-. eauto.
Qed.
Lemma sdr_of_bss b o ref est m sar loss : 0 < filter_length o -> sq_cos b o ref est = Ok (m, sar) ->
  pairwise_sdr_loss b o est ref = Ok loss -> loss = to_db o m.
Proof.
  intros HL H HP. apply sq_cos_sdr' in H; auto. unfold pairwise_sdr_loss in HP. rewrite H in HP. cbn [bind] in HP. congruence.
Qed.

(** ** Which of the two has the larger total *)
Theorem choice_totals b sp o ref est s i a perm vals perm' c loss : lsa_contract sp -> 0 < filter_length o ->
  bss_eval_sources b sp o ref est = Ok (s, i, a, perm) -> sdr b sp o false ref est = Ok (vals, perm') ->
  sq_cos b o ref est = Ok c -> pairwise_sdr_loss b o est ref = Ok loss ->
  let '(_, nsir, _) := bss_mats o c in
  ((forall r e, r < n_chan ref -> e < n_chan est -> is_fin (mat_of loss r e) = true) ->
   (sumR (map to_R s) <= sumR (map to_R vals))%R) /\
  ((forall r e, r < n_chan ref -> e < n_chan est -> is_fin (nsir r e) = true) ->
   (sumR (map (fun p => to_R (xneg (at_pair nsir p))) (matching (n_chan ref) (n_chan est) perm')) <= sumR (map to_R i))%R).
Proof.
  intros Hsp HL HB HS Hc HP. destruct c as [m sar].
  destruct (bss_outputs b sp o ref est s i a perm Hsp HB) as (c' & Ec & O). rewrite Hc in Ec. injection Ec as <-.
  pose proof (bss_optimal b sp o ref est (m, sar) Hsp Hc) as BO.
  destruct (sdr_outputs b sp o false ref est vals perm' Hsp HS) as (l' & El & CA & _). rewrite HP in El. injection El as <-.
  pose proof (sdr_of_bss b o ref est m sar loss HL Hc HP) as E.
  destruct (bss_mats o (m, sar)) as [[nsdr nsir] nsar] eqn:EM. destruct O as (CB & _ & _ & _ & Es & _ & _). split.
  - intros F. destruct (sdr_optimal b sp o ref est loss Hsp HP F) as (v' & p' & E' & Opt). rewrite HS in E'. injection E' as <- <-.
    specialize (Opt _ CB). rewrite Es, map_map.
    assert (Q : nsdr = mat_of (to_db o m)).
    { unfold bss_mats, base_metrics in EM. injection EM as <- _ _. apply FunctionalExtensionality.functional_extensionality. intros r.
      apply FunctionalExtensionality.functional_extensionality. intros e. rewrite to_db_entry. reflexivity. }
    rewrite Q, <- E. exact Opt.
  - intros F. destruct (BO F) as (s2 & i2 & a2 & p2 & E2 & Opt). rewrite HB in E2. injection E2 as <- <- <- <-. apply Opt. exact CA.
Qed.

(** ** Estimates without artifacts *)
Lemma xdiv_one v : xdiv v (Fin 1) = v.
Proof.
  assert (E : Reqb 1 0 = false) by (destruct (Reqb 1 0) eqn:X; auto; apply Reqb_true in X; lra).
  assert (F : Rltb 1 0 = false) by (unfold Rltb; destruct Rlt_dec; auto; lra).
  destruct v; cbn [xdiv]; rewrite ?E, ?F; auto. f_equal. field.
Qed.
Theorem span_sar b o ref est m sar d xs y M : wf ref -> wf est ->
  sq_cos b o ref est = Ok (m, sar) -> use_cg_iter o = None -> load_diag o = None ->
  1 <= filter_length o <= Nat.max (a_len ref) (a_len est) -> (filter_length o = 1 -> a_len ref = a_len est) ->
  has_chans ref xs -> has_chan est d y -> (norm_eps <= norm2 (pre (zero_mean o) y))%R ->
  a_len ref + filter_length o - 1 <= M -> a_len est <= M ->
  in_span (filter_length o * n_chan ref) M (all_delays (n_chan ref) (fun c => pre (zero_mean o) (xs c))) (smp (pre (zero_mean o) y)) ->
  nth d sar NaN = Fin 1.
Proof.
  intros Hwr Hwe H Hcg Hld HL HL1 Hx Hy Hn HM1 HM2 Sp.
  destruct (sar_entry_plain b o ref est m sar d xs y M) as (s & Es & Hsq); auto. rewrite Es. f_equal.
  destruct (has_chan_pchan (zero_mean o) est d y Hwe Hy) as [_ Hly].
  set (y0 := pre (zero_mean o) y) in *. assert (Hl : length y0 <= M) by (unfold y0; rewrite length_pre; lia).
  assert (Hp : is_projection (filter_length o * n_chan ref) M (all_delays (n_chan ref) (fun c => pre (zero_mean o) (xs c))) (smp y0) (smp y0)).
  { split; auto. intros k Hk. unfold dot. apply Rsum_zero. intros. ring. }
  rewrite (lsq_unit (filter_length o * n_chan ref) M (all_delays (n_chan ref) (fun c => pre (zero_mean o) (xs c)))
      (all_delays (n_chan ref) (fun c => unit_of (pre (zero_mean o) (xs c)))) y0 (smp y0) s
      (fun i => gain (pre (zero_mean o) (xs (i mod n_chan ref))))); auto.
  - assert (0 < energy M (smp y0))%R. { rewrite energy_smp by auto. pose proof eps_pos. apply pow_lt. lra. }
    field. lra.
  - intros k _. pose proof (gain_pos (pre (zero_mean o) (xs (k mod n_chan ref)))). lra.
  - intros k t _ _. unfold all_delays. apply delayed_unit.
Qed.

Definition no_artifacts (o : opts) (M : nat) (ref est : arr) (xs ys : nat -> list R) : Prop :=
  forall d, d < n_chan est -> (norm_eps <= norm2 (pre (zero_mean o) (ys d)))%R /\
    in_span (filter_length o * n_chan ref) M (all_delays (n_chan ref) (fun c => pre (zero_mean o) (xs c))) (smp (pre (zero_mean o) (ys d))).

(** Two optimal assignments, infinite entries counted. *)
Lemma n_inf_ext (P : xr -> bool) C C' n m l : complete_assignment n m l -> (forall i j, i < n -> j < m -> C i j = C' i j) ->
  filter (fun p => P (C (fst p) (snd p))) l = filter (fun p => P (C' (fst p) (snd p))) l.
Proof.
  intros (_ & B & _) E. apply filter_ext_in. intros [i j] Hp. destruct (B i j Hp). simpl. now rewrite E.
Qed.
Lemma finite_sum_ext C C' n m l : complete_assignment n m l -> (forall i j, i < n -> j < m -> C i j = C' i j) ->
  finite_sum C l = finite_sum C' l.
Proof.
  intros (_ & B & _) E. unfold finite_sum, total_cost. f_equal. apply map_ext_in. intros [i j] Hp. destruct (B i j Hp). simpl. now rewrite E.
Qed.
Lemma no_neginf C n m l : complete_assignment n m l -> (forall i j, i < n -> j < m -> C i j <> NInf) -> n_neginf C l = 0.
Proof.
  intros (_ & B & _) H. apply count_zero. intros [i j] Hp. destruct (B i j Hp) as [Hi Hj]. specialize (H i j Hi Hj). simpl.
  destruct (C i j); auto; congruence.
Qed.
Lemma no_posinf C n m l : complete_assignment n m l -> (forall i j, i < n -> j < m -> C i j <> PInf) -> n_posinf C l = 0.
Proof.
  intros (_ & B & _) H. apply count_zero. intros [i j] Hp. destruct (B i j Hp) as [Hi Hj]. specialize (H i j Hi Hj). simpl.
  destruct (C i j); auto; congruence.
Qed.
Lemma same_optimum b sp n_ref n_est C C' args args' out outs perm out' outs' perm' : lsa_contract sp ->
  (forall i j, i < n_ref -> j < n_est -> C i j = C' i j) ->
  solve_permutation b sp n_ref n_est C args = Ok (out, outs, perm) ->
  solve_permutation b sp n_ref n_est C' args' = Ok (out', outs', perm') ->
  let m := matching n_ref n_est perm in let m' := matching n_ref n_est perm' in
  n_neginf C m = n_neginf C m' /\ n_posinf C m = n_posinf C m' /\ finite_sum C m = finite_sum C m'.
Proof.
  intros Hsp E H H' m m'.
  destruct (solved_cases b sp n_ref n_est C args out outs perm Hsp H) as (A & _ & O). fold m in A, O.
  destruct (solved_cases b sp n_ref n_est C' args' out' outs' perm' Hsp H') as (A' & _ & O'). fold m' in A', O'.
  unfold n_neginf, n_posinf in *.
  rewrite <- (n_inf_ext is_neginf C C' n_ref n_est m' A' E), <- (n_inf_ext is_posinf C C' n_ref n_est m' A' E), <- (finite_sum_ext C C' n_ref n_est m' A' E) in O'.
  assert (X : forall l, complete_assignment n_ref n_est l ->
     filter (fun p => is_neginf (C' (fst p) (snd p))) l = filter (fun p => is_neginf (C (fst p) (snd p))) l /\
     filter (fun p => is_posinf (C' (fst p) (snd p))) l = filter (fun p => is_posinf (C (fst p) (snd p))) l /\
     finite_sum C' l = finite_sum C l).
  { intros l Hl. rewrite (n_inf_ext is_neginf C C' n_ref n_est l Hl E), (n_inf_ext is_posinf C C' n_ref n_est l Hl E), (finite_sum_ext C C' n_ref n_est l Hl E). auto. }
  destruct (X m A) as (X1 & X2 & X3).
  destruct O as [(NP & O)|(NN & O)]; destruct O' as [(NP' & O')|(NN' & O')].
  - specialize (O m' A'). specialize (O' m A). rewrite X1, X3 in O'.
    pose proof (no_posinf C n_ref n_est m A NP) as Z1. pose proof (no_posinf C n_ref n_est m' A' NP) as Z2. unfold n_posinf in Z1, Z2.
    split; [lia|]. split; [lia|]. destruct O, O'; try lia. destruct H0, H1. lra.
  - assert (NN : forall i j, i < n_ref -> j < n_est -> C i j <> NInf) by (intros; rewrite E; auto).
    pose proof (no_posinf C n_ref n_est m A NP) as Z1. pose proof (no_posinf C n_ref n_est m' A' NP) as Z2. unfold n_posinf in Z1, Z2.
    pose proof (no_neginf C n_ref n_est m A NN) as Z3. pose proof (no_neginf C n_ref n_est m' A' NN) as Z4. unfold n_neginf in Z3, Z4.
    specialize (O m' A'). specialize (O' m A). rewrite X2, X3 in O'. split; [lia|]. split; [lia|]. destruct O, O'; try lia. destruct H0, H1. lra.
  - assert (NP : forall i j, i < n_ref -> j < n_est -> C i j <> PInf) by (intros; rewrite E; auto).
    pose proof (no_posinf C n_ref n_est m A NP) as Z1. pose proof (no_posinf C n_ref n_est m' A' NP) as Z2. unfold n_posinf in Z1, Z2.
    pose proof (no_neginf C n_ref n_est m A NN) as Z3. pose proof (no_neginf C n_ref n_est m' A' NN) as Z4. unfold n_neginf in Z3, Z4.
    specialize (O m' A'). specialize (O' m A). rewrite X1, X3 in O'. split; [lia|]. split; [lia|]. destruct O, O'; try lia. destruct H0, H1. lra.
  - specialize (O m' A'). specialize (O' m A). rewrite X2, X3 in O'.
    pose proof (no_neginf C n_ref n_est m A NN) as Z1. pose proof (no_neginf C n_ref n_est m' A' NN) as Z2. unfold n_neginf in Z1, Z2.
    split; [lia|]. split; [lia|]. destruct O, O'; try lia. destruct H0, H1. lra.
Qed.

Theorem no_artifacts_same b sp o ref est xs ys M s i a perm vals perm' loss : lsa_contract sp -> wf ref -> wf est ->
  use_cg_iter o = None -> load_diag o = None ->
  1 <= filter_length o <= Nat.max (a_len ref) (a_len est) -> (filter_length o = 1 -> a_len ref = a_len est) ->
  a_len ref + filter_length o - 1 <= M -> a_len est <= M -> has_chans ref xs -> has_chans est ys ->
  no_artifacts o M ref est xs ys ->
  bss_eval_sources b sp o ref est = Ok (s, i, a, perm) -> sdr b sp o false ref est = Ok (vals, perm') ->
  pairwise_sdr_loss b o est ref = Ok loss ->
  i = s /\
  let m := matching (n_chan ref) (n_chan est) perm in let m' := matching (n_chan ref) (n_chan est) perm' in
  n_neginf (mat_of loss) m = n_neginf (mat_of loss) m' /\ n_posinf (mat_of loss) m = n_posinf (mat_of loss) m' /\
  sumR (map to_R s) = sumR (map to_R vals).
Proof.
  intros Hsp Hwr Hwe Hcg Hld HL HL1 HM1 HM2 Hx Hy NA HB HS HP.
  destruct (bss_outputs b sp o ref est s i a perm Hsp HB) as ([m0 sar] & Ec & O).
  destruct (bss_solved b sp o ref est s i a perm HB) as (c' & Ec' & SB). rewrite Ec in Ec'. injection Ec' as <-.
  pose proof (sdr_of_bss b o ref est m0 sar loss ltac:(lia) Ec HP) as El.
  assert (E1 : forall d, d < n_chan est -> nth d sar NaN = Fin 1).
  { intros d Hd. destruct (NA d Hd) as [N S].
    apply (span_sar b o ref est m0 sar d xs (ys d) M); auto. apply has_chans_at; auto. }
  destruct (bss_mats o (m0, sar)) as [[nsdr nsir] nsar] eqn:EM.
  assert (Q : forall r e, nsdr r e = mat_of loss r e).
  { intros r e. unfold bss_mats, base_metrics in EM. injection EM as <- _ _. rewrite El, to_db_entry. reflexivity. }
  assert (QI : forall r e, r < n_chan ref -> e < n_chan est -> nsir r e = mat_of loss r e).
  { intros r e Hr He. unfold bss_mats, base_metrics in EM. injection EM as _ <- _. cbn [fst snd]. rewrite (E1 e He), xdiv_one, El, to_db_entry. reflexivity. }
  destruct O as (CB & _ & _ & _ & Es & Ei & _). split.
  - rewrite Es, Ei. apply map_ext_in. intros [r e] Hp. destruct CB as (_ & B & _). destruct (B r e Hp). unfold at_pair. simpl. now rewrite QI, Q.
  - destruct SB as (out & outs & SB). destruct (sdr_solved b sp o false ref est vals perm' HS) as (l2 & v2 & o2 & E2 & S2).
    rewrite HP in E2. injection E2 as <-.
    destruct (same_optimum b sp _ _ (mat_of loss) nsir _ _ _ _ _ _ _ _ Hsp (fun r e Hr He => eq_sym (QI r e Hr He)) S2 SB) as (A1 & A2 & A3).
    split; [auto|]. split; [auto|].
    destruct (sdr_outputs b sp o false ref est vals perm' Hsp HS) as (l3 & E3 & _ & _ & _ & _ & Ev). rewrite HP in E3. injection E3 as <-.
    cbv zeta iota in Ev. rewrite Ev, Es. rewrite !sum_neg. unfold finite_sum in A3. rewrite A3. f_equal.
    unfold total_cost. f_equal. apply map_ext. intros p. now rewrite Q.
Qed.

(** ** One estimate *)
Lemma one_column n l : 0 < n -> complete_assignment n 1 l -> exists i, i < n /\ l = [(i, 0)].
Proof.
  intros Hn (L & B & _). rewrite Nat.min_r in L by lia. destruct l as [|[i j] [|? ?]]; try discriminate.
  destruct (B i j (or_introl eq_refl)). exists i. split; auto. repeat f_equal. lia.
Qed.
Lemma one_solved b sp n C args out outs perm : lsa_contract sp -> 0 < n ->
  solve_permutation b sp n 1 C args = Ok (out, outs, perm) ->
  exists i, i < n /\ matching n 1 perm = [(i, 0)] /\ forall i', i' < n -> xle (C i 0) (C i' 0).
Proof.
  intros Hsp Hn H. destruct (solved_cases b sp n 1 C args out outs perm Hsp H) as (A & NN & O).
  destruct (one_column n _ Hn A) as (i & Hi & E). rewrite E in O. exists i. split; auto. split; auto.
  intros i' Hi'. pose proof (NN i 0 Hi ltac:(lia)) as N1. pose proof (NN i' 0 Hi' ltac:(lia)) as N2.
  assert (A' : complete_assignment n 1 [(i', 0)]).
  { split; [simpl; lia|]. split; [|split; simpl; repeat constructor; auto].
    intros r e [X|[]]. injection X as <- <-. lia. }
  destruct O as [(P & O)|(P & O)]; specialize (O _ A'); pose proof (P i 0 Hi ltac:(lia)) as P1; pose proof (P i' 0 Hi' ltac:(lia)) as P2;
    revert O; unfold n_neginf, n_posinf, finite_sum, total_cost, xle, xleb; simpl;
    destruct (C i 0) eqn:E1, (C i' 0) eqn:E2; simpl; intros O; try congruence; try (destruct O as [O|[O O']]; lia);
    destruct Rle_dec; auto; destruct O as [O|[O O']]; try lia; lra.
Qed.
Lemma xle_antisym_nn a c : xle a c -> xle c a -> a = c.
Proof.
  unfold xle, xleb. destruct a, c; try discriminate; auto. destruct Rle_dec; try discriminate. destruct Rle_dec; try discriminate.
  intros _ _. f_equal. lra.
Qed.
Theorem one_estimate b sp o ref est xs ys s i a perm vals perm' : lsa_contract sp -> wf ref -> wf est ->
  use_cg_iter o = None -> (0 <= loadv (load_diag o))%R -> clamp_db o = None ->
  2 <= filter_length o \/ (filter_length o = 1 /\ a_len ref = a_len est /\ loadv (load_diag o) = 0%R) ->
  has_chans ref xs -> has_chans est ys -> n_chan est = 1 -> 0 < n_chan ref ->
  bss_eval_sources b sp o ref est = Ok (s, i, a, perm) -> sdr b sp o false ref est = Ok (vals, perm') -> s = vals.
Proof.
  intros Hsp Hwr Hwe Hcg Hld HD HL Hx Hy H1 Hn HB HS.
  destruct (bss_outputs b sp o ref est s i a perm Hsp HB) as ([m sar] & Ec & O).
  destruct (bss_solved b sp o ref est s i a perm HB) as (c' & Ec' & SB). rewrite Ec in Ec'. injection Ec' as <-.
  destruct (sdr_outputs b sp o false ref est vals perm' Hsp HS) as (loss & HP & _ & _ & _ & _ & Ev).
  destruct (sdr_solved b sp o false ref est vals perm' HS) as (l2 & v2 & o2 & E2 & S2). rewrite HP in E2. injection E2 as <-.
  pose proof (sdr_of_bss b o ref est m sar loss ltac:(lia) Ec HP) as El.
  assert (EM : bss_mats o (m, sar) = (fun i j => coherence_to_neg_sdr None (mat_of m i j), fun i j => coherence_to_neg_sdr None (xdiv (mat_of m i j) (nth j sar NaN)),
     fun i j => coherence_to_neg_sdr None (nth j sar NaN))).
  { unfold bss_mats, base_metrics. rewrite HD. reflexivity. }
  rewrite EM in O, SB. destruct SB as (out & outs & SB). destruct O as (_ & _ & _ & _ & Es & _ & _).
  rewrite H1 in *. 
  destruct (one_solved b sp _ _ _ _ _ _ Hsp Hn SB) as (r & Hr & Er & Or).
  destruct (one_solved b sp _ _ _ _ _ _ Hsp Hn S2) as (r' & Hr' & Er' & Or').
  rewrite Er in Es. rewrite Er' in Ev. rewrite Es, Ev. cbn [map]. unfold at_pair. cbn [fst snd]. f_equal. f_equal.
  specialize (Or r' Hr'). specialize (Or' r Hr). rewrite El, !to_db_entry, HD in Or'. rewrite El, to_db_entry, HD.
  assert (H0 : has_chan est 0 (ys 0)) by (apply has_chans_at; auto; lia).
  destruct (sdr_le_sar_coh b o ref est m sar r 0 (ys 0) xs) as (q & s1 & Eq & E1 & Q & A1); auto.
  destruct (sdr_le_sar_coh b o ref est m sar r' 0 (ys 0) xs) as (q' & s2 & Eq' & E2 & Q' & A2); auto.
  rewrite E1 in E2. injection E2 as <-. rewrite Eq, Eq' in Or'. rewrite Eq, Eq', E1 in Or. rewrite Eq, Eq'.
  apply xle_antisym_nn; auto.
  assert (Hle : (q' <= q)%R).
  { destruct (Rle_dec q' q) as [|N]; auto. exfalso. assert (P : (0 < s1)%R) by lra. rewrite !xdiv_fin in Or by lra.
    assert (X : xlt (coherence_to_neg_sdr None (Fin (q' / s1))) (coherence_to_neg_sdr None (Fin (q / s1)))).
    { pose proof (Rinv_0_lt_compat s1 P). apply neg_sdr_decreasing.
      - apply Rmult_le_pos; lra.
      - apply Rmult_lt_compat_r; lra.
      - apply Rmult_le_reg_r with s1; auto. unfold Rdiv. rewrite Rmult_assoc, Rinv_l by lra. lra. }
    destruct X as [_ X]. unfold xle in Or. congruence. }
  apply neg_sdr_mono; lra.
Qed.
