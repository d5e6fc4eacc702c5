(** * A reference of two samples without channel axis, against one and against two estimates *)
From Coq Require Import Reals Lra.
From Coquelicot Require Import Complex.
From Verif Require Import Prelude ExtReal Slice Sums Fft FftProofs Helpers HelpersProofs DbProofs Linalg LinalgProofs Cgd CgdOps Metrics Shapes ShapesProofs
  StatsProofs SpecSig PrepProofs MetricsProofs Spec PermProofs Witness Tensor TensorOps TensorProofs TensorSdr TensorDiag Rank RankRaise.
Local Open Scope nat_scope.

(** ref = [3, 4], est = [1, 0], ests = [[1, 0], [0, 1]] *)
Definition rk_ref : tensor R := Tn [2] (fun i => match i with 0 :: _ => 3 | _ => 4 end)%R.
Definition rk_est : tensor R := Tn [2] (fun i => match i with 0 :: _ => 1 | _ => 0 end)%R.
Definition rk_ests : tensor R := Tn [2; 2] (fun i => match i with [a; b] => if Nat.eqb a b then 1 else 0 | _ => 0 end)%R.

Lemma prep2 a b r : (0 < r)%R -> (norm_eps <= r)%R -> (a ^ 2 + b ^ 2 = r ^ 2)%R ->
  prepR false [a; b] = [(a / r)%R; (b / r)%R].
Proof.
  intros Hr He Hn. unfold prepR. rewrite prep_fin by (cbn; lia). cbn [opt0 pre].
  assert (N : norm2 [a; b] = r).
  { apply Rsqr_inj; [apply norm2_nonneg|lra|]. pose proof (norm2_sq [a; b]) as H. cbn [length] in H.
    unfold Rsum, smp in H. simpl in H. unfold Rsqr. lra. }
  unfold unit_of. rewrite (gain_norm [a; b]) by (rewrite N; auto). rewrite N. cbn [map]. unfold Rdiv.
  f_equal; [ring|]. f_equal. ring.
Qed.
Lemma two_nth (x : list R) a b : length x = 2 -> nth 0 x 0%R = a -> nth 1 x 0%R = b -> x = [a; b].
Proof. destruct x as [|u [|v [|]]]; cbn; intros; try lia; subst; auto. Qed.
Lemma rk_nf : n_fft 2 2 = 4. Proof. reflexivity. Qed.
Definition x0 : list R := [(3 / 5)%R; (4 / 5)%R].
Lemma rk_acf : stats_acf 4 2 x0 = [1%R; (12 / 25)%R].
Proof.
  apply two_nth; [rewrite length_stats_acf; reflexivity| |]; rewrite stats_acf_circ by lia; unfold Rsum, x0; simpl; field.
Qed.
Lemma rk_xc0 : stats_xcorr 4 2 x0 [1; 0]%R = [(3 / 5)%R; 0%R].
Proof.
  apply two_nth; [rewrite length_stats_xcorr; reflexivity| |]; rewrite stats_xcorr_circ by lia; unfold Rsum, x0; simpl; field.
Qed.
Lemma rk_xc1 : stats_xcorr 4 2 x0 [0; 1]%R = [(4 / 5)%R; (3 / 5)%R].
Proof.
  apply two_nth; [rewrite length_stats_xcorr; reflexivity| |]; rewrite stats_xcorr_circ by lia; unfold Rsum, x0; simpl; field.
Qed.
Lemma rk_eps : (norm_eps <= 1)%R.
Proof. unfold norm_eps. rewrite <- Rinv_1. apply Rinv_le_contravar; lra. Qed.
Lemma rk_prep : prepR false [3; 4]%R = x0.
Proof. rewrite (prep2 3 4 5); [reflexivity|lra|pose proof rk_eps; lra|ring]. Qed.
Lemma rk_prep0 : prepR false [1; 0]%R = [1; 0]%R.
Proof. rewrite (prep2 1 0 1); [f_equal; [field|f_equal; field]|lra|apply rk_eps|ring]. Qed.
Lemma rk_prep1 : prepR false [0; 1]%R = [0; 1]%R.
Proof. rewrite (prep2 0 1 1); [f_equal; [field|f_equal; field]|lra|apply rk_eps|ring]. Qed.

(** The matrix [[1, 12/25], [12/25, 1]] *)
Lemma rk_ent b i j : i < 2 -> j < 2 -> ent (toeplitz b [1%R; (12 / 25)%R]) i j = (if Nat.eqb i j then 1 else 12 / 25)%R.
Proof. intros Hi Hj. rewrite toeplitz_entry by (cbn; lia). destruct i as [|[|]], j as [|[|]]; try lia; reflexivity. Qed.
Lemma rk_mv b v i : i < 2 -> Rmv 2 (ent (toeplitz b [1%R; (12 / 25)%R])) v i =
  (if Nat.eqb i 0 then v 0%nat + 12 / 25 * v 1%nat else 12 / 25 * v 0%nat + v 1%nat)%R.
Proof.
  intros Hi. unfold Rmv. etransitivity.
  { apply (Rsum_ext 2 _ (fun j => (if Nat.eqb i j then 1 else 12 / 25) * v j)%R). intros j Hj. rewrite rk_ent by auto. reflexivity. }
  destruct i as [|[|]]; try lia; simpl; ring.
Qed.
Lemma rk_solve b k B : exists X, solve_cols 2 k (ent (toeplitz b [1%R; (12 / 25)%R])) B = Ok X /\
  forall d, X 0 d = (625 / 481 * (B 0%nat d - 12 / 25 * B 1%nat d))%R /\ X 1 d = (625 / 481 * (B 1%nat d - 12 / 25 * B 0%nat d))%R.
Proof.
  destruct (solve_cols_ok 2 k (ent (toeplitz b [1%R; (12 / 25)%R])) B) as (X & E & H).
  - intros v Hv. pose proof (Hv 0 ltac:(lia)) as H0. pose proof (Hv 1 ltac:(lia)) as H1.
    rewrite rk_mv in H0, H1 by lia. cbn [Nat.eqb] in H0, H1.
    intros j Hj. destruct j as [|[|]]; try lia; lra.
  - exists X. split; auto. intros d. pose proof (H d 0 ltac:(lia)) as H0. pose proof (H d 1 ltac:(lia)) as H1.
    rewrite rk_mv in H0, H1 by lia. cbn [Nat.eqb] in H0, H1. split; lra.
Qed.

Lemma rk_signal : t_signal rk_ref [] = Arr 2 [[Fin 3; Fin 4]].
Proof. reflexivity. Qed.
Lemma rk_signal0 : t_signal rk_est [] = Arr 2 [[Fin 1; Fin 0]].
Proof. reflexivity. Qed.

(** The estimate [1, 0] alone: coherence 225/481 *)
Lemma rk_loss b : sdr_loss b (plain_opts 2) (Arr 2 [[Fin 1; Fin 0]]) (Arr 2 [[Fin 3; Fin 4]]) = Ok [Fin (10 * log10 (256 / 225))].
Proof.
  unfold sdr_loss, sdr_coh_diag, prep_arr. cbn [zero_mean plain_opts a_chans map filter_length Nat.eqb a_len].
  rewrite rk_nf. change [Fin 3; Fin 4] with (map Fin [3; 4]%R). change [Fin 1; Fin 0] with (map Fin [1; 0]%R).
  rewrite !prepR_eq by (cbn; lia). rewrite rk_prep, rk_prep0.
  change (bc_chan b (plain_opts 2) _ _) with (@Ok nat 1). cbn [bind seq mapM bc_pick length Nat.eqb nth].
  unfold coh_row. cbn [use_cg_iter plain_opts load_diag add_load length]. rewrite rk_acf.
  cbn [length]. destruct (rk_solve b 1 (fun l d => nth l (stats_xcorr 4 2 x0 (opt0 (nth d [Some [1%R; 0%R]] None))) 0%R)) as (X & E & H).
  unfold chan in *. rewrite E. destruct (H 0) as [H0 H1]. cbn [nth opt0] in H0, H1.
  rewrite rk_xc0 in H0, H1. cbn [nth] in H0, H1. cbn [bind tab map seq nth]. rewrite rk_xc0.
  assert (V : dot_nth 2 [(3 / 5)%R; 0%R] (fun k => X k 0) = (225 / 481)%R).
  { unfold dot_nth. simpl. rewrite H0. field. }
  rewrite V. cbn [clamp_db]. rewrite neg_sdr_fin by lra. unfold gdb. do 3 f_equal. f_equal. f_equal. field.
Qed.

(** One pair of signals without channel axis, every library *)
Lemma rk_one l : exists z, t_sdr_loss l false (plain_opts 2) rk_est rk_ref = Ok z /\ tsh z = [] /\
  tat z [] = Fin (10 * log10 (256 / 225)).
Proof.
  assert (HE : Forall2 lt ([] : idx) []) by constructor.
  pose proof (t_sdr_loss_signals l (plain_opts 2) 2 2 [] [] [] rk_ref rk_est eq_refl eq_refl ltac:(lia) ltac:(lia) eq_refl
    ltac:(cbn; lia) ltac:(intros H; exfalso; apply H; reflexivity) ltac:(intros; destruct l; reflexivity)) as H.
  destruct (t_sdr_loss l false (plain_opts 2) rk_est rk_ref) as [z|er].
  - destruct H as [H1 H2]. exists z. split; auto. split; auto. specialize (H2 [] HE). cbn [bix] in H2.
    rewrite rk_signal, rk_signal0, rk_loss in H2. injection H2 as H2. auto.
  - destruct (H ltac:(constructor)) as (m & Hm & er' & Her). inversion Hm; subst. cbn [bix] in Her.
    rewrite rk_signal, rk_signal0, rk_loss in Her. discriminate.
Qed.

(** Two estimates: the two cross-correlations are taken for the rows of a matrix, coherence 81/481 *)
Lemma rk_two l : exists z, t_sdr_loss l false (plain_opts 2) rk_ests rk_ref = Ok z /\ tsh z = [2] /\
  tat z [0] = Fin (10 * log10 (400 / 81)).
Proof.
  assert (Er : sig rk_ref [] = [3; 4]%R) by reflexivity.
  pose proof (prep_sigs false 2 [] [2] rk_ref eq_refl (sle_nil_l _)) as HX1.
  pose proof (prep_sigs false 2 [2] [2] rk_ests eq_refl (sle_refl _)) as HY1.
  assert (T1 := rep_sh _ _ _ _ _ HX1). assert (T2 := rep_sh _ _ _ _ _ HY1). cbn [app] in T1, T2.
  destruct (stats_sig_rep l 2 2 2 [] [2] [2] _ _ _ _ T1 T2 eq_refl HX1 HY1
    (fun m _ => length_sprep false rk_ref _ 2 [] eq_refl) (fun m _ => length_sprep false rk_ests _ 2 [2] eq_refl))
    as (acf & xc & Est & Hacf & Hxc).
  pose proof (sigs_along _ _ _ _ _ Hacf (fun m _ => length_stats_acf _ _ _) (add_load None) _
          (fun x Hx => eq_trans (length_add_load _ _) Hx)) as Hacf'.
  rewrite rk_nf in *. change (Nat.min 2 4) with 2 in *.
  assert (V : forall m, inr [2] m -> stats_xcorr 4 2 (prepR false (sig rk_ref (bix [] m))) (prepR false (sig rk_ests (bix [2] m))) =
    match m with 0 :: _ => [(3 / 5)%R; 0%R] | _ => [(4 / 5)%R; (3 / 5)%R] end).
  { intros m Hm. apply inr1 in Hm. destruct Hm as (i & -> & Hi). replace (bix [] [i]) with (@nil nat) by reflexivity. rewrite Er, rk_prep.
    destruct i as [|[|]]; try lia.
    - replace (sig rk_ests (bix [2] [0])) with [1; 0]%R by reflexivity. rewrite rk_prep0. apply rk_xc0.
    - replace (sig rk_ests (bix [2] [1])) with [0; 1]%R by reflexivity. rewrite rk_prep1. apply rk_xc1. }
  assert (Rx : rep [2] [2] [2] xc (fun m ci => nth (nth 0 ci 0) (match m with 0 :: _ => [(3 / 5)%R; 0%R] | _ => [(4 / 5)%R; (3 / 5)%R] end) 0%R)).
  { eapply rep_eq; [exact Hxc|]. intros m ci Hm Hc. cbv beta. rewrite V by auto. reflexivity. }
  assert (I0 : inr [2] [0]) by (apply inr1'; lia). assert (I1 : inr [2] [1]) by (apply inr1'; lia).
  set (A := along 0 0%R 0%R (add_load None) acf) in *.
  assert (HA : tsh A = [2]) by apply (rep_sh _ _ _ _ _ Hacf').
  assert (Ra : rep [2] [] [] A (fun m ci => nth (nth 0 ci 0) [1%R; (12 / 25)%R] 0%R)).
  { split; auto; [apply sle_refl|]. intros m ci Hm Hc.
    pose proof (rep_at _ _ _ _ _ Hacf' [0] ci I0 Hc) as Q. cbv beta in Q. cbn [bix] in Q. cbn [bix].
    inversion Hm; subst. cbn [bix]. rewrite Q. rewrite Er, rk_prep. cbn [add_load]. rewrite rk_acf. reflexivity. }
  pose proof (toeplitz_rep (bk l) 2 [] [] A _ Ra) as Rt.
  assert (Rb : rep [2; 2] [] [] xc (fun m ci => nth (nth 0 ci 0) (match nth 1 ci 0 with 0 => [(3 / 5)%R; 0%R] | _ => [(4 / 5)%R; (3 / 5)%R] end) 0%R)).
  { split; [exact (rep_sh _ _ _ _ _ Rx)|apply sle_refl|]. intros m ci Hm Hc. inversion Hm; subst.
    apply inr2 in Hc. destruct Hc as (i & j & -> & Hi & Hj). cbn [bix nth app].
    pose proof (rep_at _ _ _ _ _ Rx [j] [i] (inr1' _ _ Hj) (inr1' _ _ Hi)) as Q. cbv beta in Q.
    rewrite (bix_self [2] [j] (inr1' _ _ Hj)) in Q. cbn [app nth] in Q. rewrite Q. destruct j; reflexivity. }
  assert (Hv : vector_rhs l (tsh (t_toeplitz (bk l) A)) (tsh xc) = false).
  { rewrite (rep_sh _ _ _ _ _ Rt), (rep_sh _ _ _ _ _ Rb). destruct l; reflexivity. }
  destruct (rk_solve (bk l) 2 (fun i d => nth d (match i with 0 => [(3 / 5)%R; 0%R] | _ => [(4 / 5)%R; (3 / 5)%R] end) 0%R)) as (X & E & H).
  destruct (solve_rep l 2 2 [] [] [] _ _ _ _ Rt Rb eq_refl Hv) as [(s & Es & _ & Hs)|(_ & m & Hm & er & Her)].
  2: { exfalso. pose proof (eq_trans (eq_sym E) Her) as Q. discriminate. }
  assert (S0 : forall d, d < 2 -> tat s [d; 0] = X 0 d).
  { intros d Hd. pose proof (rep_at _ _ _ _ _ Hs [] [d; 0] ltac:(constructor) (inr2' 2 2 d 0 Hd Nat.lt_0_2)) as Q.
    cbv beta in Q. cbn [bix app] in Q. rewrite Q. exact (f_equal (fun r => okv zero2 r 0 d) E). }
  assert (Rs : rep [2] [2] [2] s (fun m ci => tat s (ci ++ m))).
  { eapply rep_eq; [|intros m ci Hm Hc; cbv beta; rewrite <- (bix_self [2] m Hm) at 2; reflexivity]. apply rep_input; [exact (rep_sh _ _ _ _ _ Hs)|apply sle_refl]. }
  unfold t_sdr_loss, t_sdr_coh. cbn [filter_length plain_opts Nat.eqb zero_mean use_cg_iter load_diag]. rewrite Est. cbn [bind]. fold A.
  rewrite Es. cbn [bind].
  destruct (ein_l_rep l 2 2 2 _ _ _ _ _ _ _ Rx Rs eq_refl) as (z & u & Ez & Eu & Hz).
  cbn in Eu. injection Eu as <-. rewrite Ez. cbn [bind]. eexists. split; [reflexivity|].
  split; [exact (rep_sh _ _ _ _ _ Hz)|]. cbn [t_db tmap tat].
  pose proof (rep_at _ _ _ _ _ Hz [0] [] I0 ltac:(constructor)) as Q. cbn [bix app Nat.eqb] in Q. rewrite Q.
  destruct (H 0) as [H0 _]. destruct (H 1) as [H1 _]. cbn [nth] in H0, H1.
  match goal with |- context [Fin (Rsum 2 ?f)] => assert (W : Rsum 2 f = (81 / 481)%R) end.
  { unfold Rsum. cbn [sel Nat.eqb]. simpl. rewrite S0 by lia. rewrite H0. field. }
  rewrite W. cbn [clamp_db]. rewrite neg_sdr_fin by lra. unfold gdb. do 3 f_equal. field.
Qed.

(** filter_length = 1 has no system to solve: every shape that broadcasts works *)
Lemma rk_si l : exists z, t_sdr_loss l false (plain_opts 1) rk_ests rk_ref = Ok z /\ tsh z = [2] /\
  forall m, m < 2 -> sdr_loss (bk l) (plain_opts 1) (t_signal rk_ests [m]) (t_signal rk_ref []) = Ok [tat z [m]].
Proof.
  pose proof (t_sdr_loss_signals l (plain_opts 1) 2 2 [] [2] [2] rk_ref rk_ests eq_refl eq_refl ltac:(lia) ltac:(lia) eq_refl
    ltac:(cbn; lia) ltac:(intros H; exfalso; apply H; reflexivity) ltac:(intros _ H; exfalso; apply H; reflexivity)) as H.
  destruct (t_sdr_loss l false (plain_opts 1) rk_ests rk_ref) as [z|er].
  - destruct H as [H1 H2]. exists z. split; auto. split; auto. intros m Hm.
    specialize (H2 [m] (inr1' _ _ Hm)). rewrite (bix_self [2] [m] (inr1' _ _ Hm)) in H2. exact H2.
  - destruct (H ltac:(repeat constructor)) as (m & Hm & er' & Her). exfalso.
    apply inr1 in Hm. destruct Hm as (i & -> & Hi). discriminate Her.
Qed.
Lemma rk_refuted l : exists z v,
  t_sdr_loss l false (plain_opts 2) rk_ests rk_ref = Ok z /\ tsh z = [2] /\
  sdr_loss (bk l) (plain_opts 2) (t_signal rk_ests [0]) (t_signal rk_ref []) = Ok [v] /\ tat z [0] <> v.
Proof.
  destruct (rk_two l) as (z & H1 & H2 & H3). exists z. eexists. split; [exact H1|]. split; [exact H2|].
  split; [exact (rk_loss (bk l))|]. rewrite H3. intros Q. injection Q as Q.
  assert (log10 (256 / 225) < log10 (400 / 81))%R by (apply log10_lt; lra). lra.
Qed.
