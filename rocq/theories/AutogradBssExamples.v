(** * Concrete signals for the gradient of bss_eval_sources *)
From Coq Require Import Reals Lra.
From Verif Require Import Prelude ExtReal Sums Spec SpecSig Helpers LinalgProofs Metrics LeastSq StatsProofs PrepProofs MetricsProofs
  ProjTheorems DbProofs MetricTheorems SarProofs Diag PermProofs Witness Gradient GradientExamples Autograd AutogradPit AutogradPitProofs AutogradPitTheorems
  AutogradPitExamples AutogradBss AutogradBssProofs AutogradBssTheorems.
Local Open Scope nat_scope.

(** one tap, with or without clamping; references e0 and e1 of [q_ref] *)
Definition q_bss_opts (cd : option R) : opts := Opts 1 None false cd None.

Lemma unit_one v : Rsum (length v) (fun t => smp v t ^ 2)%R = 1%R -> unit_of v = v.
Proof.
  intros H. unfold unit_of. rewrite <- (map_id v) at 2. apply map_ext. intros x. unfold gain.
  rewrite Rmax_left by (apply unit_norm; auto). unfold norm2. rewrite H, sqrt_1. field.
Qed.
Lemma q_pc cd c : c < 2 -> pc (zero_mean (q_bss_opts cd)) q_ref c = nth c [[1; 0; 0]; [0; 1; 0]]%R [].
Proof.
  intros Hc. unfold pc. destruct (has_chan_pchan false q_ref c _ q_wf (q_has c Hc)) as [E _]. cbn [zero_mean q_bss_opts]. rewrite E. cbn [opt0 pre].
  apply unit_one. destruct c as [|[|c]]; try lia; unfold smp; simpl; ring.
Qed.
Lemma q_clean cd : clean (zero_mean (q_bss_opts cd)) q_ref.
Proof.
  intros c Hc. change (c < 2) in Hc. destruct (has_chan_pchan false q_ref c _ q_wf (q_has c Hc)) as [E _]. cbn [zero_mean q_bss_opts]. rewrite E. discriminate.
Qed.
Lemma q_unit a b c : (1 < a * a + b * b + c * c)%R -> exists g, unit_of [a; b; c] = [g * a; g * b; g * c]%R /\ (g * g = / (a * a + b * b + c * c))%R.
Proof.
  intros H. exists (gain [a; b; c]). split; [reflexivity|]. pose proof (q_norm a b c H). unfold gain. rewrite Rmax_left by lra.
  pose proof eps_pos. pose proof (norm2_sq [a; b; c]) as E. unfold smp in E. simpl in E.
  rewrite <- Rinv_mult. f_equal. lra.
Qed.

Lemma q_coh cd ys : shaped 2 3 ys -> exists m sar, sq_cos Torch (q_bss_opts cd) q_ref (arr_of 3 ys) = Ok (m, sar) /\
  forall d a b c, d < 2 -> nth d ys [] = [a; b; c] -> (1 < a * a + b * b + c * c)%R \/ (a = 0 /\ b = 0 /\ c = 0)%R ->
    let E := (a * a + b * b + c * c)%R in
    mat_of m 0 d = Fin (a * a / E) /\ mat_of m 1 d = Fin (b * b / E) /\ nth d sar NaN = Fin ((a * a + b * b) / E).
Proof.
  intros S. set (o := q_bss_opts cd).
  assert (HR : forall c, c < 2 -> rchan (prep_arr (zero_mean o) q_ref) c = nth c [[1; 0; 0]; [0; 1; 0]]%R []) by (intros c Hc; exact (q_pc cd c Hc)).
  assert (HS : exists sar, len1_sar 3 3 None (prep_arr (zero_mean o) q_ref) (prep_arr (zero_mean o) (arr_of 3 ys)) = Ok sar).
  { apply len1_sar_ok.
    - intros c Hc. rewrite length_prep in Hc. change (c < 2) in Hc. rewrite HR by auto. destruct c as [|[|c]]; try lia; reflexivity.
    - rewrite length_prep. change (n_chan q_ref) with 2. intros v Hv. pose proof (Hv 0 ltac:(lia)) as H0. pose proof (Hv 1 ltac:(lia)) as H1.
      unfold Rmv, gram in H0, H1. cbn [gsum Nat.eqb] in H0, H1. rewrite !HR in H0, H1 by lia. unfold dot, smp in H0, H1. simpl in H0, H1.
      intros j Hj. destruct j as [|[|j]]; try lia; lra. }
  destruct HS as (sar & HS).
  assert (EC : exists m, sq_cos Torch o q_ref (arr_of 3 ys) = Ok (m, sar)).
  { eexists. unfold sq_cos. change (Nat.eqb (filter_length o) 1) with true. cbv beta iota zeta.
    change (bc_len Torch (a_len q_ref) (a_len (arr_of 3 ys))) with (@Ok nat 3). cbn [bind].
    change (a_len q_ref) with 3. change (load_diag o) with (@None R). rewrite HS. reflexivity. }
  destruct EC as (m & EC). exists m, sar. split; auto.
  intros d a b c Hd Ey Hn E.
  pose proof (arr_of_wf 2 3 ys ltac:(lia) S) as W. pose proof (arr_of_has 2 3 ys d S Hd) as HY. rewrite Ey in HY.
  destruct (has_chan_pchan false (arr_of 3 ys) d _ W HY) as [PY _]. cbn [pre] in PY.
  assert (HU : exists g, unit_of [a; b; c] = [g * a; g * b; g * c]%R /\ (g * g * (a * a) = a * a / E /\ g * g * (b * b) = b * b / E)%R).
  { destruct Hn as [Hn|(-> & -> & ->)].
    - destruct (q_unit a b c Hn) as (g & E1 & E2). exists g. split; auto. unfold E. rewrite E2. split; field; lra.
    - exists (gain [0; 0; 0]%R). split; [reflexivity|]. unfold Rdiv. rewrite !Rmult_0_r, !Rmult_0_l. auto. }
  destruct HU as (g & EU & G1 & G2). rewrite EU in PY.
  pose proof (sq_cos_sdr' Torch o q_ref (arr_of 3 ys) m sar ltac:(cbv; lia) EC) as HSD.
  assert (HE : forall c', c' < 2 -> mat_of m c' d = Fin (dot 3 (smp (nth c' [[1; 0; 0]; [0; 1; 0]]%R [])) (smp [g * a; g * b; g * c]%R) ^ 2)).
  { intros c' Hc'. apply (sdr_entry1 Torch o q_ref (arr_of 3 ys) m c' d); auto.
    - exact q_wf.
    - pose proof (clean_pc _ _ c' (q_clean cd) Hc') as E'. rewrite (q_pc cd c' Hc') in E'. exact E'. }
  rewrite (HE 0 ltac:(lia)), (HE 1 ltac:(lia)).
  destruct (sar_entry1 Torch o q_ref (arr_of 3 ys) m sar d _ q_wf W EC eq_refl eq_refl (q_clean cd) (proj1 HY) PY) as (q & Hq & Es).
  rewrite Es. split; [|split].
  - rewrite <- G1. f_equal. unfold dot, smp. simpl. ring.
  - rewrite <- G2. f_equal. unfold dot, smp. simpl. ring.
  - f_equal. apply (lsq_unique 2 3 (fun c => smp (pc (zero_mean o) q_ref c)) 0 (smp [g * a; g * b; g * c]%R)); [lra|exact Hq|].
    exists (fun k => nth k [g * a; g * b]%R 0%R). split.
    + intros i Hi. unfold Rmv, gram. cbn [gsum]. pose proof (q_pc cd) as P. fold o in P. rewrite !P by lia.
      destruct i as [|[|i]]; try lia; unfold dot, smp; simpl; ring.
    + unfold qval. cbn [gsum]. pose proof (q_pc cd) as P. fold o in P. rewrite !P by lia.
      replace ((a * a + b * b) / E)%R with (g * g * (a * a) + g * g * (b * b))%R by (rewrite G1, G2; unfold Rdiv; ring).
      unfold dot, smp; simpl; ring.
Qed.

(** estimates (2, 1, 1) and (1, 2, 1): coherences 4/6 and 1/6, SAR coherence 5/6 *)
Definition q_bss : list (list R) := q_est 2 1 1 1 2 1.
Lemma q_bss_coh cd : exists c0, sq_cos Torch (q_bss_opts cd) q_ref (arr_of 3 q_bss) = Ok c0 /\
  forall i j, i < 2 -> j < 2 -> mat_of (fst c0) i j = Fin (if Nat.eqb i j then 4 / 6 else 1 / 6) /\ nth j (snd c0) NaN = Fin (5 / 6).
Proof.
  destruct (q_coh cd q_bss (q_est_shape 2 1 1 1 2 1)) as (m & sar & E & H). exists (m, sar). split; auto.
  destruct (H 0 2%R 1%R 1%R ltac:(lia) eq_refl ltac:(left; lra)) as (A1 & A2 & A3).
  destruct (H 1 1%R 2%R 1%R ltac:(lia) eq_refl ltac:(left; lra)) as (B1 & B2 & B3).
  intros i j Hi Hj. simpl fst. simpl snd.
  destruct i as [|[|i]], j as [|[|j]]; try lia; cbn [Nat.eqb]; rewrite ?A1, ?A2, ?A3, ?B1, ?B2, ?B3; split; f_equal; field.
Qed.
Lemma q_bss_db c0 cd : (forall i j, i < 2 -> j < 2 -> mat_of (fst c0) i j = Fin (if Nat.eqb i j then 4 / 6 else 1 / 6) /\ nth j (snd c0) NaN = Fin (5 / 6)) ->
  forall i j, i < 2 -> j < 2 -> unclamped (q_bss_opts cd) c0 i j =
    (Fin (gdb (if Nat.eqb i j then 4 / 6 else 1 / 6)), Fin (gdb (if Nat.eqb i j then 4 / 5 else 1 / 5)), Fin (gdb (5 / 6))).
Proof.
  intros H i j Hi Hj. destruct (H i j Hi Hj) as [E1 E2]. unfold unclamped, base_metrics. rewrite E1, E2. change (clamp_db (with_clamp (q_bss_opts cd) None)) with (@None R).
  assert (E3 : xdiv (Fin (if Nat.eqb i j then 4 / 6 else 1 / 6)) (Fin (5 / 6)) = Fin (if Nat.eqb i j then 4 / 5 else 1 / 5)).
  { rewrite xdiv_fin by lra. destruct (Nat.eqb i j); f_equal; field. }
  rewrite E3. rewrite !neg_sdr_fin; [reflexivity|lra| |]; destruct (Nat.eqb i j); lra.
Qed.
Lemma q_bss_eval sp : lsa_contract sp -> exists c0 sdrs sirs sars perm,
  sq_cos Torch q_opts q_ref (arr_of 3 q_bss) = Ok c0 /\
  (forall i j, i < 2 -> j < 2 -> unclamped q_opts c0 i j =
    (Fin (gdb (if Nat.eqb i j then 4 / 6 else 1 / 6)), Fin (gdb (if Nat.eqb i j then 4 / 5 else 1 / 5)), Fin (gdb (5 / 6)))) /\
  bss_eval_sources Torch sp q_opts q_ref (arr_of 3 q_bss) = Ok (sdrs, sirs, sars, perm) /\
  (forall l, complete_assignment 2 2 l ->
     (total_cost (fun c d => to_R (snd (fst (bss_mats q_opts c0)) c d)) l <=
      total_cost (fun c d => to_R (snd (fst (bss_mats q_opts c0)) c d)) (matching 2 2 perm))%R ->
     incl l (matching 2 2 perm)).
Proof.
  intros Hsp. change q_opts with (q_bss_opts None).
  destruct (q_bss_coh None) as (c0 & E & H). pose proof (q_bss_db c0 None H) as V.
  assert (VS : forall i j, i < 2 -> j < 2 -> snd (fst (bss_mats (q_bss_opts None) c0)) i j = Fin (gdb (if Nat.eqb i j then 4 / 5 else 1 / 5))).
  { intros i j Hi Hj. pose proof (V i j Hi Hj) as Q. destruct c0 as [m sar]. exact (f_equal (fun p => snd (fst p)) Q). }
  destruct (bss_mats (q_bss_opts None) c0) as [[nsdr nsir] nsar] eqn:EM. cbn [fst snd] in VS.
  destruct (solve_perm_optimal sp Hsp Torch 2 2 nsir [nsdr; nsar]) as (out & outs & perm & EP & HO).
  { intros i j Hi Hj. rewrite VS by auto. reflexivity. }
  destruct (solve_perm_outputs sp Hsp Torch 2 2 _ _ _ _ _ EP) as (_ & Lp & _).
  exists c0, (map xneg (nth 0 outs [])), (map xneg out), (map xneg (nth 1 outs [])), perm.
  split; auto. split; auto. split.
  - unfold bss_eval_sources. rewrite E. cbn [bind]. rewrite EM. change (n_chan q_ref) with 2. change (n_chan (arr_of 3 q_bss)) with 2.
    rewrite EP. reflexivity.
  - rewrite EM. cbn [fst snd]. intros l. apply diagonal_only; auto. rewrite !VS by lia. cbn [Nat.eqb to_R].
    assert (gdb (4 / 5) < gdb (1 / 5))%R by (apply gdb_lt; lra). lra.
Qed.

(** an estimate orthogonal to both references beside (2, 1, 1) *)
Definition q_bss0 : list (list R) := q_est 2 1 1 0 0 2.
Lemma q_bss0_coh cd : exists c0, sq_cos Torch (q_bss_opts cd) q_ref (arr_of 3 q_bss0) = Ok c0 /\
  nth 0 (snd c0) NaN = Fin (5 / 6) /\ nth 1 (snd c0) NaN = Fin 0.
Proof.
  destruct (q_coh cd q_bss0 (q_est_shape 2 1 1 0 0 2)) as (m & sar & E & H). exists (m, sar). split; auto.
  destruct (H 0 2%R 1%R 1%R ltac:(lia) eq_refl ltac:(left; lra)) as (A1 & A2 & A3).
  destruct (H 1 0%R 0%R 2%R ltac:(lia) eq_refl ltac:(left; lra)) as (B1 & B2 & B3).
  simpl fst. simpl snd. rewrite A3, B3. split; f_equal; field.
Qed.
Lemma q_has_chans : has_chans q_ref (fun c => nth c [[1; 0; 0]; [0; 1; 0]]%R []).
Proof. intros c Hc. apply q_has. exact Hc. Qed.

(** (2, 0, 1) and (0, 2, 1): SDR = SAR = 6 dB and the SIR is infinite *)
Definition q_bss1 : list (list R) := q_est 2 0 1 0 2 1.
Lemma q_bss1_coh cd : exists c0, sq_cos Torch (q_bss_opts cd) q_ref (arr_of 3 q_bss1) = Ok c0 /\
  forall d, d < 2 -> mat_of (fst c0) d d = Fin (4 / 5) /\ nth d (snd c0) NaN = Fin (4 / 5).
Proof.
  destruct (q_coh cd q_bss1 (q_est_shape 2 0 1 0 2 1)) as (m & sar & E & H). exists (m, sar). split; auto.
  destruct (H 0 2%R 0%R 1%R ltac:(lia) eq_refl ltac:(left; lra)) as (A1 & A2 & A3).
  destruct (H 1 0%R 2%R 1%R ltac:(lia) eq_refl ltac:(left; lra)) as (B1 & B2 & B3).
  intros d Hd. simpl fst. simpl snd.
  destruct d as [|[|d]]; try lia; rewrite ?A1, ?A3, ?B2, ?B3; split; f_equal; field.
Qed.
