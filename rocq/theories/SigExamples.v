(** * A concrete two-source problem used to show that the signal theorems are not vacuous *)
From Coq Require Import Reals Lra.
From Coquelicot Require Import Complex.
From Verif Require Import Prelude ExtReal Slice Sums SpecSig Fft FftProofs Helpers HelpersProofs PermProofs DbProofs Linalg
  LinalgProofs Cgd Metrics StatsProofs LeastSq PrepProofs MetricsProofs SarProofs ProjTheorems MetricTheorems
  Invariance Symmetry CgdOps CgdPrecond CgProofs CgCirc Cells CgTheorems Diag Outputs Edge Solvability Witness Spec.
Local Open Scope nat_scope.

Definition exr (c : nat) : list R := nth c [[1; 0; 0; 0; 0]; [0; 0; 1; 0; 0]]%R [].
Definition exe (d : nat) : list R := nth d [[2; 1; 1; 1; 1]; [0; 1; 1; 2; 1]]%R [].
Definition ex_ref : arr := rarr 5 [exr 0; exr 1].
Definition ex_est : arr := rarr 5 [exe 0; exe 1].

Lemma two P : P 0 -> P 1 -> forall c, c < 2 -> P c.
Proof. intros H0 H1 [|[|c]] Hc; auto; lia. Qed.
Lemma ex_ref_wf : wf ex_ref. Proof. apply rarr_wf; [lia|repeat constructor]. Qed.
Lemma ex_est_wf : wf ex_est. Proof. apply rarr_wf; [lia|repeat constructor]. Qed.
Lemma ex_ref_chans : has_chans ex_ref exr.
Proof. intros c. apply (two (fun c => nth c (a_chans ex_ref) [] = map Fin (exr c))); reflexivity. Qed.
Lemma ex_est_chans : has_chans ex_est exe.
Proof. intros c. apply (two (fun c => nth c (a_chans ex_est) [] = map Fin (exe c))); reflexivity. Qed.
Lemma ex_ref_chan c : c < 2 -> has_chan ex_ref c (exr c).
Proof. intros H. split; auto. apply ex_ref_chans; auto. Qed.
Lemma ex_est_chan c : c < 2 -> has_chan ex_est c (exe c).
Proof. intros H. split; auto. apply ex_est_chans; auto. Qed.
Lemma norm2_big v : (1 <= Rsum (length v) (fun t => smp v t ^ 2))%R -> (norm_eps <= norm2 v)%R.
Proof.
  intros H. apply Rle_trans with 1%R; [apply eps_le_1|]. unfold norm2. rewrite <- sqrt_1. apply sqrt_le_1; lra.
Qed.
Lemma ex_ref_norm c : c < 2 -> (norm_eps <= norm2 (exr c))%R.
Proof. intros H. apply norm2_big. revert c H. apply (two (fun c => _ <= _)%R); unfold smp; simpl; lra. Qed.
Lemma ex_est_norm c : c < 2 -> (norm_eps <= norm2 (exe c))%R.
Proof. intros H. apply norm2_big. revert c H. apply (two (fun c => _ <= _)%R); unfold smp; simpl; lra. Qed.
Lemma not_silent_at x t : smp x t <> 0%R -> ~ silent x.
Proof. intros H Hs. apply H, Hs. Qed.
Lemma ex_ref_loud c x : has_chan ex_ref c x -> ~ silent x.
Proof.
  intros [Hc Hx]. rewrite (ex_ref_chans c Hc) in Hx.
  assert (x = exr c) as -> by (symmetry; revert Hx; generalize (exr c); clear; intros l; revert x;
    induction l as [|a l IH]; intros [|y x] H; simpl in H; try discriminate; auto; injection H as -> H; f_equal; auto).
  change (c < 2) in Hc. revert c Hc Hx. 
  intros c Hc _. revert c Hc. apply (two (fun c => ~ silent (exr c))); [apply (not_silent_at _ 0)|apply (not_silent_at _ 2)]; unfold smp; simpl; lra.
Qed.

(** any solver, any load *)
Lemma ex_pairwise_ok b L : 2 <= L <= 5 -> is_ok (pairwise_sdr_loss b (plain_opts L) ex_est ex_ref).
Proof.
  intros HL. unfold pairwise_sdr_loss.
  destruct (sdr_coh b (plain_opts L) ex_ref ex_est) as [m|e] eqn:E; [eexists; reflexivity|exfalso].
  destruct (sdr_raises_iff b (plain_opts L) ex_ref ex_est ex_ref_wf eq_refl ltac:(simpl; lra) ltac:(simpl; lia)) as [_ [H _]].
  destruct H as (_ & c & x & Hx & Hs); [eexists; eassumption|].
  exact (ex_ref_loud c x Hx Hs).
Qed.

(** projections on the two shifts of one reference, on the four shifts of both *)
Definition pk0 (d : nat) : list R := nth d [[2; 1; 0; 0; 0; 0]; [0; 1; 0; 0; 0; 0]]%R [].
Definition pk1 (d : nat) : list R := nth d [[0; 0; 1; 1; 0; 0]; [0; 0; 1; 2; 0; 0]]%R [].
Definition pall (d : nat) : list R := nth d [[2; 1; 1; 1; 0; 0]; [0; 1; 1; 2; 0; 0]]%R [].
Ltac case6 t Ht := destruct t as [|[|[|[|[|[|t]]]]]]; try lia.
Lemma ex_proj c d : c < 2 -> d < 2 ->
  is_projection 2 6 (delays (exr c)) (smp (exe d)) (smp (if Nat.eqb c 0 then pk0 d else pk1 d)).
Proof.
  intros Hc Hd. split.
  - exists (fun k => smp (exe d) (2 * c + k)). intros t Ht.
    destruct c as [|[|c]]; try lia; destruct d as [|[|d]]; try lia; case6 t Ht;
      unfold smp, delays, delayed, smp; simpl; ring.
  - intros k Hk. destruct c as [|[|c]]; try lia; destruct d as [|[|d]]; try lia; destruct k as [|[|k]]; try lia;
      unfold dot, delays, delayed, smp; simpl; ring.
Qed.
Lemma ex_proj_all d : d < 2 ->
  is_projection 4 6 (all_delays 2 exr) (smp (exe d)) (smp (pall d)).
Proof.
  intros Hd. split.
  - exists (fun k => smp (exe d) (2 * (k mod 2) + k / 2)). intros t Ht.
    destruct d as [|[|d]]; try lia; case6 t Ht; unfold smp, all_delays, delayed, smp; simpl; ring.
  - intros k Hk. destruct d as [|[|d]]; try lia; destruct k as [|[|[|[|k]]]]; try lia;
      unfold dot, all_delays, delayed, smp; simpl; ring.
Qed.
(** the four shifts are independent *)
Lemma ex_shifts : shifts 2 5 2 exr.
Proof.
  intros g Hg k Hk. specialize (Hg (2 * (k mod 2) + k / 2)).
  destruct k as [|[|[|[|k]]]]; try (simpl in Hk; lia); simpl in Hg; specialize (Hg ltac:(lia)); revert Hg;
    unfold comb, all_delays, delayed, smp; simpl; lra.
Qed.
Lemma ex_sq_cos_ok b : is_ok (sq_cos b (plain_opts 2) ex_ref ex_est).
Proof.
  apply (bss_solvable_iff b (plain_opts 2) ex_ref ex_est exr ex_ref_wf ex_est_wf eq_refl eq_refl
    ltac:(simpl; lia) ltac:(simpl; lia) ex_ref_chans). apply ex_shifts.
Qed.

(** the loss matrix, 10 log10 of residual over explained energy *)
Definition ex_ratio (c d : nat) : R :=
  nth d (nth c [[3 / 5; 6 / 1]; [6 / 2; 2 / 5]] [])%R 0%R.
Lemma dB_pos a r : (0 < a)%R -> (0 < r)%R -> dB r a = Fin (10 * log10 (r / a)).
Proof. intros. unfold dB. destruct (Req_EM_T a 0); [lra|]. destruct (Req_EM_T r 0); [lra|]. reflexivity. Qed.
Ltac fin_eq := match goal with |- Fin (10 * log10 ?u) = Fin (10 * log10 ?v) =>
  replace u with v by (field; try lra); reflexivity end.
Lemma ex_loss b m c d : pairwise_sdr_loss b (plain_opts 2) ex_est ex_ref = Ok m -> c < 2 -> d < 2 ->
  mat_of m c d = Fin (10 * log10 (ex_ratio c d)).
Proof.
  intros Hm Hc Hd.
  rewrite (sdr_projection b (plain_opts 2) ex_ref ex_est m c d (exr c) (exe d) 6 _ ex_ref_wf ex_est_wf
    eq_refl eq_refl eq_refl ltac:(simpl; lia) ltac:(discriminate) (ex_ref_chan c Hc) (ex_est_chan d Hd)
    (ex_est_norm d Hd) ltac:(simpl; lia) ltac:(simpl; lia) (ex_proj c d Hc Hd) Hm).
  simpl pre.
  destruct c as [|[|c]]; try lia; destruct d as [|[|d]]; try lia; unfold energy, dot, smp; simpl;
    rewrite dB_pos by lra; unfold ex_ratio; simpl; fin_eq.
Qed.
Lemma ex_finite b m i j : pairwise_sdr_loss b (plain_opts 2) ex_est ex_ref = Ok m ->
  i < n_chan ex_ref -> j < n_chan ex_est -> is_fin (mat_of m i j) = true.
Proof. intros H Hi Hj. rewrite (ex_loss b m i j H Hi Hj). reflexivity. Qed.

(** the three matrices of bss_eval_sources *)
Definition ex_sir (c d : nat) : R := nth d (nth c [[2 / 5; 5 / 1]; [5 / 2; 1 / 5]] [])%R 0%R.
Definition ex_sar (d : nat) : R := nth d [1 / 7; 1 / 6]%R 0%R.
Lemma ex_bss_mats b m sar c d : sq_cos b (plain_opts 2) ex_ref ex_est = Ok (m, sar) -> c < 2 -> d < 2 ->
  let '(nsdr, nsir, nsar) := bss_mats (plain_opts 2) (m, sar) in
  nsdr c d = Fin (10 * log10 (ex_ratio c d)) /\ nsir c d = Fin (10 * log10 (ex_sir c d)) /\
  nsar c d = Fin (10 * log10 (ex_sar d)).
Proof.
  intros Hm Hc Hd.
  pose proof (sir_sar_projection b (plain_opts 2) ex_ref ex_est m sar c d exr (exe d) 6 _ _ ex_ref_wf ex_est_wf
    eq_refl eq_refl eq_refl ltac:(simpl; lia) ltac:(discriminate) ex_ref_chans Hc (ex_est_chan d Hd)
    (ex_est_norm d Hd) ltac:(simpl; lia) ltac:(simpl; lia) (ex_proj_all d Hd) (ex_proj c d Hc Hd) Hm) as H.
  destruct (bss_mats (plain_opts 2) (m, sar)) as [[nsdr nsir] nsar].
  destruct H as (-> & -> & H3 & _). cbn [zero_mean plain_opts pre] in H3. cbn [zero_mean plain_opts pre]. revert H3.
  destruct c as [|[|c]]; try lia; destruct d as [|[|d]]; try lia; intros H3; rewrite H3 by (unfold energy, dot, smp; simpl; lra);
    clear H3; unfold energy, dot, smp; simpl; rewrite !dB_pos by lra; unfold ex_ratio, ex_sir, ex_sar; simpl; repeat split; fin_eq.
Qed.
Lemma ex_sir_finite b c i j : sq_cos b (plain_opts 2) ex_ref ex_est = Ok c ->
  i < n_chan ex_ref -> j < n_chan ex_est -> is_fin (snd (fst (bss_mats (plain_opts 2) c)) i j) = true.
Proof.
  intros H Hi Hj. destruct c as [m sar]. pose proof (ex_bss_mats b m sar i j H Hi Hj) as E.
  destruct (bss_mats (plain_opts 2) (m, sar)) as [[nsdr nsir] nsar]. destruct E as (_ & E & _). simpl. rewrite E. reflexivity.
Qed.

(** the outputs: the identity permutation wins *)
Lemma log10_lt a b : (0 < a)%R -> (a < b)%R -> (log10 a < log10 b)%R.
Proof.
  intros Ha Hab. unfold log10, Rdiv. apply Rmult_lt_compat_r.
  - apply Rinv_0_lt_compat. rewrite <- ln_1. apply ln_increasing; lra.
  - apply ln_increasing; auto.
Qed.
Theorem ex_sdr b sp : lsa_contract sp ->
  sdr b sp (plain_opts 2) false ex_ref ex_est =
  Ok ([Fin (- (10 * log10 (3 / 5))); Fin (- (10 * log10 (2 / 5)))], [0; 1]).
Proof.
  intros Hsp. destruct (ex_pairwise_ok b 2 ltac:(lia)) as [m Hm].
  destruct (sdr_optimal b sp (plain_opts 2) ex_ref ex_est m Hsp Hm (fun i j => ex_finite b m i j Hm)) as (vals & perm & Es & Hopt).
  destruct (sdr_outputs b sp _ false _ _ vals perm Hsp Es) as (m' & E' & Hc & Hlen & Hnd & Hr & Hv).
  assert (m' = m) by congruence. subst m'.
  specialize (Hopt _ (identity_assignment 2)).
  change (n_chan ex_ref) with 2 in *. change (n_chan ex_est) with 2 in *.
  destruct perm as [|p0 [|p1 [|p2 perm]]]; try (simpl in Hlen; discriminate).
  assert (H0 : p0 < 2) by (apply (Hr p0); simpl; auto).
  assert (H1 : p1 < 2) by (apply (Hr p1); simpl; auto).
  assert (Hne : p0 <> p1) by (inversion Hnd as [|? ? X]; subst; intros ->; apply X; simpl; auto).
  unfold matching in Hv. simpl in Hv. unfold pair_at in Hv. simpl in Hv. unfold at_pair in *.
  cbn [fst snd] in *. subst vals. simpl in Hopt. rewrite !(ex_loss b m) in Hopt by auto.
  rewrite Es, !(ex_loss b m) by auto. simpl in Hopt.
  destruct p0 as [|[|p0]]; try lia; destruct p1 as [|[|p1]]; try lia; [reflexivity|exfalso].
  unfold ex_ratio in Hopt. simpl in Hopt.
  pose proof (log10_lt (3 / 5) (6 / 1) ltac:(lra) ltac:(lra)).
  pose proof (log10_lt (2 / 5) (6 / 2) ltac:(lra) ltac:(lra)). lra.
Qed.
Theorem ex_bss b sp : lsa_contract sp ->
  bss_eval_sources b sp (plain_opts 2) ex_ref ex_est =
  Ok ([Fin (- (10 * log10 (3 / 5))); Fin (- (10 * log10 (2 / 5)))],
      [Fin (- (10 * log10 (2 / 5))); Fin (- (10 * log10 (1 / 5)))],
      [Fin (- (10 * log10 (1 / 7))); Fin (- (10 * log10 (1 / 6)))], [0; 1]).
Proof.
  intros Hsp. destruct (ex_sq_cos_ok b) as [[m sar] Hm].
  pose proof (bss_optimal b sp (plain_opts 2) ex_ref ex_est (m, sar) Hsp Hm) as Hopt.
  pose proof (fun i j => ex_sir_finite b (m, sar) i j Hm) as Hfin.
  pose proof (fun c d => ex_bss_mats b m sar c d Hm) as Hval.
  destruct (bss_mats (plain_opts 2) (m, sar)) as [[nsdr nsir] nsar] eqn:Em. simpl in Hfin.
  destruct (Hopt Hfin) as (s & i & a & perm & Es & Ho). clear Hopt.
  destruct (bss_outputs b sp _ _ _ s i a perm Hsp Es) as (c' & E' & Hv).
  assert (c' = (m, sar)) by congruence. subst c'. rewrite Em in Hv.
  destruct Hv as (Hc & Hlen & Hnd & Hr & Hs & Hi & Ha).
  specialize (Ho _ (identity_assignment 2)).
  change (n_chan ex_ref) with 2 in *. change (n_chan ex_est) with 2 in *.
  destruct perm as [|p0 [|p1 [|p2 perm]]]; try (simpl in Hlen; discriminate).
  assert (H0 : p0 < 2) by (apply (Hr p0); simpl; auto).
  assert (H1 : p1 < 2) by (apply (Hr p1); simpl; auto).
  assert (Hne : p0 <> p1) by (inversion Hnd as [|? ? X]; subst; intros ->; apply X; simpl; auto).
  unfold matching in Hs, Hi, Ha. simpl in Hs, Hi, Ha. unfold pair_at in Hs, Hi, Ha. simpl in Hs, Hi, Ha. unfold at_pair in *.
  cbn [fst snd] in *. subst s i a. simpl in Ho.
  destruct (Hval 0 0 ltac:(lia) ltac:(lia)) as (A0 & B0 & C0). destruct (Hval 1 1 ltac:(lia) ltac:(lia)) as (A1 & B1 & C1).
  destruct (Hval 0 1 ltac:(lia) ltac:(lia)) as (A2 & B2 & C2). destruct (Hval 1 0 ltac:(lia) ltac:(lia)) as (A3 & B3 & C3).
  rewrite Es.
  destruct p0 as [|[|p0]]; try lia; destruct p1 as [|[|p1]]; try lia.
  - rewrite A0, A1, B0, B1, C0, C1. reflexivity.
  - exfalso. rewrite B0, B1, B2, B3 in Ho. unfold ex_sir in Ho. simpl in Ho.
    pose proof (log10_lt (2 / 5) (5 / 1) ltac:(lra) ltac:(lra)).
    pose proof (log10_lt (1 / 5) (5 / 2) ltac:(lra) ltac:(lra)). lra.
Qed.

(** ** The iterative solver on a white reference: one iteration *)
Lemma white_spec nn k : 0 < nn -> spec (1%R :: repeat 0%R (nn - 1)) k = 1%R.
Proof.
  intros Hn. unfold spec. set (col := 1%R :: repeat 0%R (nn - 1)).
  assert (Hl : length col = nn) by (unfold col; simpl; rewrite repeat_length; lia).
  assert (Hz : forall t, 0 < t -> nth t col 0%R = 0%R).
  { intros [|t] Ht; [lia|]. unfold col. simpl. apply nth_repeat. }
  assert (Hs : forall t, t < nn -> smp (sym_col col) t = if Nat.eqb t 0 then 1%R else 0%R).
  { intros t Ht. unfold smp, sym_col. rewrite Hl. rewrite nth_tab by auto.
    destruct (Nat.eqb_spec t 0) as [->|H0]; [reflexivity|]. rewrite !Hz by lia.
    unfold Rdiv. ring. }
  rewrite Hl. unfold dft. rewrite (Csum_ext nn _ (fun t => if Nat.eqb t 0 then RtoC 1 else RtoC 0)).
  - rewrite Csum_delta by auto. reflexivity.
  - intros t Ht. rewrite Hs by auto. destruct (Nat.eqb_spec t 0) as [->|].
    + rewrite Nat.mul_0_r, E_0. unfold Cconj, Cmult, RtoC. simpl. f_equal; ring.
    + unfold Cmult, RtoC. simpl. f_equal; ring.
Qed.
Definition white (nn : nat) : list R := 1%R :: repeat 0%R (nn - 1).
Lemma length_white nn : 0 < nn -> length (white nn) = nn.
Proof. intros. unfold white. simpl. rewrite repeat_length. lia. Qed.
Lemma white_prec nn v : 0 < nn -> length v = nn -> circ_prec (white nn) v = v.
Proof.
  intros Hn Hv. apply (list_eq_nth _ _ 0%R); rewrite length_circ_prec, length_white; auto.
  intros t Ht. rewrite circ_prec_full by (rewrite length_white; auto). rewrite length_white by auto.
  rewrite (Rsum_ext nn _ (fun k => Re (Cmult (dft nn (smp v) k) (E nn (k * t))))).
  2:{ intros k Hk. unfold gain_at, white. rewrite white_spec by auto.
      replace (1 ^ 2)%R with 1%R by ring. rewrite Rmax_left; [unfold Rdiv; rewrite Rinv_1; ring|].
      apply eps_le_1. }
  pose proof (dft_conv nn (fun i => if Nat.eqb i 0 then 1%R else 0%R) (smp v) t Hn Ht) as H.
  assert (H1 : forall k, dft nn (fun i => if Nat.eqb i 0 then 1%R else 0%R) k = RtoC 1).
  { intros k. unfold dft. rewrite (Csum_ext nn _ (fun i => if Nat.eqb i 0 then RtoC 1 else RtoC 0)).
    - apply Csum_delta. auto.
    - intros i Hi. destruct (Nat.eqb_spec i 0) as [->|].
      + rewrite Nat.mul_0_r, E_0. unfold Cconj, Cmult, RtoC. simpl. f_equal; ring.
      + unfold Cmult, RtoC. simpl. f_equal; ring. }
  apply (f_equal Re) in H. rewrite Re_Csum in H.
  rewrite (Rsum_ext nn _ (fun k => Re (Cmult (Cmult (dft nn (fun i => if Nat.eqb i 0 then 1%R else 0%R) k) (dft nn (smp v) k)) (E nn (k * t))))).
  2:{ intros k Hk. rewrite H1. f_equal. f_equal. unfold Cmult, RtoC. destruct (dft nn (smp v) k). simpl. f_equal; ring. }
  rewrite H. simpl Re. rewrite <- Rmult_assoc, Rinv_l, Rmult_1_l by (apply not_0_INR; lia).
  rewrite (Rsum_single nn t); auto.
  - rewrite Nat.add_sub_swap, Nat.sub_diag by lia. rewrite Nat.add_0_l, Nat.mod_same by lia. simpl. unfold smp. ring.
  - intros s Hs Hne. rewrite mod_diff by auto.
    destruct (Nat.leb_spec s t);
      match goal with |- context [Nat.eqb ?u 0] => destruct (Nat.eqb_spec u 0); [lia|ring] end.
Qed.
Lemma white_dense nn v : 0 < nn -> length v = nn -> dense_toeplitz (white nn) v = v.
Proof.
  intros Hn Hv. apply (list_eq_nth _ _ 0%R); rewrite length_dense, length_white; auto.
  intros t Ht. unfold dense_toeplitz. rewrite length_white, nth_tab by auto.
  rewrite (Rsum_single nn t); auto.
  - unfold adist. rewrite Nat.sub_diag. simpl. ring.
  - intros s Hs Hne. assert (H : 0 < adist t s) by (unfold adist; lia).
    unfold white. destruct (adist t s) as [|u]; [lia|]. simpl. rewrite nth_repeat. ring.
Qed.
Theorem white_inactive nn xc k : 0 < nn -> length xc = nn -> (cg_eps <= dotl nn xc xc)%R ->
  cg_inactive (white nn) xc k.
Proof.
  intros Hn Hx He. unfold cg_inactive. rewrite length_white by auto. cbv zeta.
  set (run := cg_run nn (dense_toeplitz (white nn)) (circ_prec (white nn)) xc (repeat 0%R nn)).
  assert (Hxz : axpy nn xc (-1) (repeat 0%R nn) = xc).
  { apply (list_eq_nth _ _ 0%R); rewrite length_axpy; auto. intros i Hi. rewrite nth_axpy, nth_repeat by auto. ring. }
  assert (R0 : run 0 = CG (repeat 0%R nn) xc xc (dotl nn xc xc)).
  { unfold run, cg_run. simpl. unfold cg_init. rewrite white_dense by (auto; apply repeat_length).
    rewrite Hxz, white_prec by auto. reflexivity. }
  assert (Hpos : (0 < dotl nn xc xc)%R) by (pose proof CgProofs.eps_pos; lra).
  assert (R1 : zero_vec nn (cg_r (run 1))).
  { unfold run. rewrite cg_run_S. fold run. rewrite R0. unfold cg_step. cbn [cg_x cg_r cg_p cg_rs].
    change (0 + 1 mod 5 =? 0) with false. cbn iota. rewrite white_dense by auto. rewrite Rmax_left by auto.
    intros i Hi. rewrite nth_axpy by auto. field. lra. }
  intros (i & Hi & Hr). destruct k as [|k].
  - rewrite R0. cbn [cg_p cg_rs]. rewrite white_dense by auto. auto.
  - exfalso. apply Hr. change (S k) with (1 + k). unfold run.
    refine (proj2 (converged_stays nn (dense_toeplitz (white nn)) (circ_prec (white nn))
      xc (repeat 0%R nn) _ _ _ 1 k R1) i Hi).
    + apply repeat_length.
    + intros v Hv. rewrite length_circ_prec. apply length_white. auto.
    + intros v Hv Hz. rewrite white_prec by auto. auto.
Qed.
Lemma ex_ref_unit c : c < 2 -> unit_of (exr c) = exr c.
Proof.
  intros Hc. apply unit_of_one, norm2_one. revert c Hc.
  apply (two (fun c => _ = _)); unfold smp; simpl; ring.
Qed.
Lemma ex_nf : n_fft (a_len ex_ref) (a_len ex_est) = 16. Proof. reflexivity. Qed.
Lemma ex_acf c : c < 2 -> stats_acf 16 2 (exr c) = white 2.
Proof.
  intros Hc. apply (list_eq_nth _ _ 0%R); rewrite length_stats_acf; [reflexivity|].
  intros i Hi. change (Nat.min 2 16) with 2 in Hi.
  rewrite stats_acf_plain by (try lia; revert c Hc; apply (two (fun c => _ <= _)); simpl; lia).
  revert c Hc i Hi. apply (two (fun c => forall i, i < 2 -> _)); apply (two (fun i => _ = _));
    unfold xcorr, smp; simpl; ring.
Qed.
(** with the iterative solver, the example never needs its safeguards *)
Theorem ex_never_guarded n : never_guarded (plain_opts 2) ex_ref ex_est n.
Proof.
  unfold never_guarded. cbv zeta. rewrite ex_nf. intros c d x y Hx Hy k _.
  pose proof (pchan_lt _ _ _ _ Hx) as Hc. pose proof (pchan_lt _ _ _ _ Hy) as Hd.
  change (c < 2) in Hc. change (d < 2) in Hd.
  rewrite (proj1 (has_chan_pchan _ _ _ _ ex_ref_wf (ex_ref_chan c Hc))) in Hx.
  rewrite (proj1 (has_chan_pchan _ _ _ _ ex_est_wf (ex_est_chan d Hd))) in Hy.
  simpl pre in Hx, Hy. rewrite ex_ref_unit in Hx by auto. injection Hx as <-. injection Hy as <-.
  unfold sdr_acf. simpl filter_length. simpl load_diag. simpl add_load. rewrite ex_acf by auto.
  apply white_inactive; [lia|apply length_stats_xcorr|].
  assert (Hlen : length (exr c) + 1 <= 16) by (revert c Hc; apply (two (fun c => _ <= _)); simpl; lia).
  unfold dotl. cbn [zero_mean plain_opts pre].
  rewrite (Rsum_ext 2 _ (fun i => xcorr (exr c) (unit_of (exe d)) i * xcorr (exr c) (unit_of (exe d)) i)%R)
    by (intros i Hi; rewrite stats_xcorr_plain by lia; reflexivity).
  rewrite Rsum_S_l, (Rsum_S_l 0). change (Rsum 0 ?f) with 0%R. cbv beta.
  assert (Hg : (/ 8 <= gain (exe d) ^ 2)%R).
  { rewrite gain_norm by (apply ex_est_norm; auto).
    assert (Hn : (0 < norm2 (exe d) ^ 2 <= 8)%R).
    { rewrite norm2_sq. revert d Hd. apply (two (fun d => 0 < _ <= _)%R); unfold smp; simpl; lra. }
    rewrite pow_inv. apply Rinv_le_contravar; lra. }
  assert (He : (cg_eps <= / 8)%R) by (unfold cg_eps; apply Rinv_le_contravar; simpl; lra).
  assert (Hxc : exists u v : R, xcorr (exr c) (unit_of (exe d)) 0 = (gain (exe d) * u)%R /\
     xcorr (exr c) (unit_of (exe d)) 1 = (gain (exe d) * v)%R /\ (1 <= u ^ 2 + v ^ 2)%R).
  { exists (xcorr (exr c) (exe d) 0), (xcorr (exr c) (exe d) 1).
    assert (Hs : forall l, xcorr (exr c) (unit_of (exe d)) l = (gain (exe d) * xcorr (exr c) (exe d) l)%R).
    { intros l. unfold xcorr. rewrite <- Rsum_scal_l. apply Rsum_ext. intros t Ht. rewrite smp_unit_of. ring. }
    rewrite !Hs. split; auto. split; auto. clear - Hc Hd. revert c Hc d Hd.
    apply (two (fun c => forall d, d < 2 -> _)); apply (two (fun d => 1 <= _)%R); unfold xcorr, smp; simpl; lra. }
  destruct Hxc as (u & v & -> & -> & Huv).
  nra.
Qed.
