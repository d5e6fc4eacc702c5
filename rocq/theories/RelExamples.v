(** * Witnesses for the relations of C67 and C68 *)
From Coq Require Import Reals Lra.
From Verif Require Import Prelude ExtReal Slice Sums Spec SpecSig Fft Helpers HelpersProofs PermProofs DbProofs Linalg
  LinalgProofs Cgd Metrics StatsProofs LeastSq PrepProofs MetricsProofs SarProofs ProjTheorems MetricTheorems
  CgTheorems Diag Outputs Edge Solvability Witness SigExamples Relations Silence Remix Decompose Delay.
Local Open Scope nat_scope.

(** With the mean removed silence does matter: the two signals are opposite around their mean. *)
Definition zm_opts : opts := Opts 1 None true None None.
Definition zm_ref : arr := rarr 2 [[1; 3]%R].
Definition zm_est : arr := rarr 2 [[3; 1]%R].
Lemma norm2_ge1 v : (1 <= Rsum (length v) (fun t => smp v t ^ 2))%R -> (norm_eps <= norm2 v)%R.
Proof.
  intros H. apply Rle_trans with 1%R; [apply eps_le_1|]. unfold norm2. rewrite <- sqrt_1. apply sqrt_le_1_alt. auto.
Qed.
Lemma zm_sil : silence 0 1 zm_ref = rarr 3 [[1; 3; 0]%R] /\ silence 0 1 zm_est = rarr 3 [[3; 1; 0]%R].
Proof. split; reflexivity. Qed.
Ltac pre_eq := unfold pre, centered, mean; cbn; repeat (apply f_equal2; [field|]); reflexivity.
Lemma pre_a : pre true [1; 3]%R = [-1; 1]%R. Proof. pre_eq. Qed.
Lemma pre_b : pre true [3; 1]%R = [1; -1]%R. Proof. pre_eq. Qed.
Lemma pre_c : pre true [1; 3; 0]%R = [-1 / 3; 5 / 3; -4 / 3]%R. Proof. pre_eq. Qed.
Lemma pre_d : pre true [3; 1; 0]%R = [5 / 3; -1 / 3; -4 / 3]%R. Proof. pre_eq. Qed.
Theorem silence_zero_mean_refuted b :
  exists o ref est m m', zero_mean o = true /\ wf ref /\ wf est /\ filter_length o <= a_len ref /\ a_len ref = a_len est /\
    pairwise_sdr_loss b o est ref = Ok m /\
    pairwise_sdr_loss b o (silence 0 1 est) (silence 0 1 ref) = Ok m' /\
    mat_of m 0 0 = NInf /\ mat_of m' 0 0 <> NInf.
Proof.
  destruct zm_sil as [Er Ee].
  assert (W1 : wf zm_ref) by (apply rarr_wf; [lia|repeat constructor]).
  assert (W2 : wf zm_est) by (apply rarr_wf; [lia|repeat constructor]).
  assert (O : forall n u v, exists m, pairwise_sdr_loss b zm_opts (rarr n u) (rarr n v) = Ok m).
  { intros n u v. unfold pairwise_sdr_loss. destruct (coh1_ok b zm_opts n v u eq_refl) as [m ->]. eexists. reflexivity. }
  destruct (O 2 [[3; 1]%R] [[1; 3]%R]) as [m Hm]. destruct (O 3 [[3; 1; 0]%R] [[1; 3; 0]%R]) as [m' Hm'].
  exists zm_opts, zm_ref, zm_est, m, m'.
  split; [reflexivity|]. split; [auto|]. split; [auto|]. split; [cbn; lia|]. split; [reflexivity|].
  split; [exact Hm|]. split; [rewrite Er, Ee; exact Hm'|]. split.
  - apply (sdr_perfect b zm_opts zm_ref zm_est m 0 0 [1; 3]%R [3; 1]%R 2); auto; try (cbn; lia).
    + intros _. split; [reflexivity|]. apply norm2_ge1. cbn [zero_mean zm_opts]. rewrite ?pre_a, ?pre_b, ?pre_c, ?pre_d. cbn. lra.
    + apply rarr_chan. cbn. lia.
    + apply rarr_chan. cbn. lia.
    + apply norm2_ge1. cbn [zero_mean zm_opts]. rewrite ?pre_a, ?pre_b, ?pre_c, ?pre_d. cbn. lra.
    + cbn [zero_mean zm_opts filter_length]. rewrite pre_a, pre_b. exists (fun _ => -1)%R. intros t Ht. destruct t as [|[|t]]; [| |lia]; cbn; lra.
  - intros Hn.
    apply (sdr_perfect b zm_opts (rarr 3 [[1; 3; 0]%R]) (rarr 3 [[3; 1; 0]%R]) m' 0 0 [1; 3; 0]%R [3; 1; 0]%R 3) in Hn; auto; try (cbn; lia).
    + cbn [zero_mean zm_opts filter_length] in Hn. rewrite pre_c, pre_d in Hn. destruct Hn as [g Hg]. pose proof (Hg 0 ltac:(lia)) as H0. pose proof (Hg 1 ltac:(lia)) as H1.
      cbn in H0, H1. lra.
    + apply rarr_wf; [lia|repeat constructor].
    + apply rarr_wf; [lia|repeat constructor].
    + intros _. split; [reflexivity|]. apply norm2_ge1. cbn [zero_mean zm_opts]. rewrite ?pre_a, ?pre_b, ?pre_c, ?pre_d. cbn. lra.
    + apply rarr_chan. cbn. lia.
    + apply rarr_chan. cbn. lia.
    + apply norm2_ge1. cbn [zero_mean zm_opts]. rewrite ?pre_a, ?pre_b, ?pre_c, ?pre_d. cbn. lra.
Qed.

(** the two references of ex_ref remixed to their sum and difference, and with a third one *)
Definition mixr (c : nat) : list R := nth c [[1; 0; 1; 0; 0]; [1; 0; -1; 0; 0]]%R [].
Definition mix_ref : arr := rarr 5 [mixr 0; mixr 1].
Definition morer (c : nat) : list R := nth c [[1; 0; 0; 0; 0]; [0; 0; 1; 0; 0]; [0; 0; 0; 0; 1]]%R [].
Definition more_ref : arr := rarr 5 [morer 0; morer 1; morer 2].
Lemma mix_wf : wf mix_ref. Proof. apply rarr_wf; [lia|repeat constructor]. Qed.
Lemma more_wf : wf more_ref. Proof. apply rarr_wf; [lia|repeat constructor]. Qed.
Lemma mix_chans : has_chans mix_ref mixr.
Proof. intros c Hc. change (c < 2) in Hc. destruct c as [|[|c]]; [reflexivity|reflexivity|lia]. Qed.
Lemma more_chans : has_chans more_ref morer.
Proof. intros c Hc. change (c < 3) in Hc. destruct c as [|[|[|c]]]; [reflexivity|reflexivity|reflexivity|lia]. Qed.
Ltac case5 t := destruct t as [|[|[|[|[|t]]]]]; unfold smp; cbn; try lra.
Lemma mix_mixes : mixes 2 exr 2 mixr /\ mixes 2 mixr 2 exr.
Proof.
  split.
  - exists (fun c i => if i =? 0 then 1 else if c =? 0 then 1 else -1)%R. intros c t Hc.
    destruct c as [|[|c]]; [| |lia]; case5 t; destruct t; cbn; lra.
  - exists (fun c i => if i =? 0 then / 2 else if c =? 0 then / 2 else - / 2)%R. intros c t Hc.
    destruct c as [|[|c]]; [| |lia]; case5 t; destruct t; cbn; lra.
Qed.
Lemma mix_shifts : shifts 2 5 2 mixr.
Proof.
  intros g Hg k Hk.
  pose proof (Hg 0 ltac:(lia)) as H0. pose proof (Hg 1 ltac:(lia)) as H1.
  pose proof (Hg 2 ltac:(lia)) as H2. pose proof (Hg 3 ltac:(lia)) as H3.
  unfold comb, all_delays, delayed, smp in *. cbn in *.
  destruct k as [|[|[|[|k]]]]; try lra. lia.
Qed.
Lemma more_shifts : shifts 2 5 3 morer.
Proof.
  intros g Hg k Hk.
  pose proof (Hg 0 ltac:(lia)) as H0. pose proof (Hg 1 ltac:(lia)) as H1.
  pose proof (Hg 2 ltac:(lia)) as H2. pose proof (Hg 3 ltac:(lia)) as H3.
  pose proof (Hg 4 ltac:(lia)) as H4. pose proof (Hg 5 ltac:(lia)) as H5.
  unfold comb, all_delays, delayed, smp in *. cbn in *.
  destruct k as [|[|[|[|[|[|k]]]]]]; try lra. lia.
Qed.
Lemma mix_ok b : is_ok (sq_cos b (plain_opts 2) mix_ref ex_est).
Proof.
  apply (bss_solvable_iff b (plain_opts 2) mix_ref ex_est mixr mix_wf ex_est_wf eq_refl eq_refl
    ltac:(simpl; lia) ltac:(simpl; lia) mix_chans). apply mix_shifts.
Qed.
Lemma more_ok b : is_ok (sq_cos b (plain_opts 2) more_ref ex_est).
Proof.
  apply (bss_solvable_iff b (plain_opts 2) more_ref ex_est morer more_wf ex_est_wf eq_refl eq_refl
    ltac:(simpl; lia) ltac:(simpl; lia) more_chans). apply more_shifts.
Qed.
Lemma more_extends : extends ex_ref more_ref exr morer.
Proof.
  split; [reflexivity|]. split; [cbn; lia|]. intros c Hc. change (c < 2) in Hc.
  destruct c as [|[|c]]; [reflexivity|reflexivity|lia].
Qed.
(** the parts of the first estimate *)
Lemma ex_decomposition : decomposition 2 2 6 exr 0 (smp (exe 0))
  (smp [2; 1; 0; 0; 0; 0]%R) (smp [0; 0; 1; 1; 0; 0]%R) (smp [0; 0; 0; 0; 1; 0]%R).
Proof.
  pose proof (ex_proj 0 0 ltac:(lia) ltac:(lia)) as [S1 _]. pose proof (ex_proj_all 0 ltac:(lia)) as [S2 _].
  split; [|split; [exact S1|split; [|split]]].
  - intros t Ht. case6 t Ht; unfold smp; cbn; lra.
  - eapply in_span_ext; [|exact S2]. intros t Ht. case6 t Ht; unfold smp; cbn; lra.
  - intros k Hk. destruct k as [|[|k]]; [| |lia]; unfold dot, delays, delayed, smp; cbn; lra.
  - intros k Hk. destruct k as [|[|[|[|k]]]]; try lia; unfold dot, all_delays, delayed, smp; cbn; lra.
Qed.
(** a filter longer than the signals: silence makes the difference between an error and a value *)
Theorem silence_long_filter_refuted b : exists o ref est, zero_mean o = false /\ wf ref /\ wf est /\
  a_len ref = a_len est /\ filter_length o = S (a_len ref) /\
  raises (sq_cos b o ref est) /\ is_ok (sq_cos b o (silence 0 1 ref) (silence 0 1 est)).
Proof.
  exists (plain_opts 2), (rarr 1 [[1%R]]), (rarr 1 [[1%R]]).
  assert (W : wf (rarr 1 [[1%R]])) by (apply rarr_wf; [lia|repeat constructor]).
  split; [reflexivity|]. split; [exact W|]. split; [exact W|]. split; [reflexivity|]. split; [reflexivity|]. split.
  - unfold sq_cos. cbn [filter_length plain_opts Nat.eqb].
    rewrite check_sizes_raise by (cbn; lia). eexists. reflexivity.
  - change (silence 0 1 (rarr 1 [[1%R]])) with (rarr 2 [[1; 0]%R]).
    apply (bss_solvable_iff b (plain_opts 2) (rarr 2 [[1; 0]%R]) (rarr 2 [[1; 0]%R]) (fun _ => [1; 0]%R)).
    + apply rarr_wf; [lia|repeat constructor].
    + apply rarr_wf; [lia|repeat constructor].
    + reflexivity.
    + reflexivity.
    + cbn; lia.
    + cbn; lia.
    + intros c Hc. change (c < 1) in Hc. assert (c = 0) as -> by lia. reflexivity.
    + intros g Hg k Hk. change (k < 2) in Hk. change (1 + 1 + 1 - 0) with 3 in Hg.
      pose proof (Hg 0 ltac:(cbn; lia)) as H0. pose proof (Hg 1 ltac:(cbn; lia)) as H1.
      unfold comb, all_delays, delayed, smp in *. cbn in *.
      destruct k as [|[|k]]; try lra. lia.
Qed.
