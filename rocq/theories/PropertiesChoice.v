(** * Properties: the permutations of sdr and of bss_eval_sources (C89) *)
From Coq Require Import Reals Lra.
From Verif Require Import Prelude ExtReal Spec SpecSig Sums Helpers PermProofs DbProofs Metrics StatsProofs PrepProofs MetricsProofs ProjTheorems MetricTheorems
  Outputs Witness SigExamples Choice ChoiceExamples.
Local Open Scope nat_scope.

(** C89: sdr chooses by SDR and bss_eval_sources by SIR, and the choices may differ. *)
Theorem C89_same_permutation_refuted b sp : lsa_contract sp ->
  ~ (forall o ref est xs ys vals s i a p p', wf ref -> wf est -> has_chans ref xs -> has_chans est ys ->
       sdr b sp o false ref est = Ok (vals, p) -> bss_eval_sources b sp o ref est = Ok (s, i, a, p') -> p = p').
Proof.
  intros Hsp H. destruct (dif_perms b sp Hsp) as (vals & s & i & a & E1 & E2).
  specialize (H (plain_opts 1) ex_ref dif_est exr dif vals s i a _ _ ex_ref_wf
    (est_wf dif 2 ltac:(lia) dif_len) ex_ref_chans (est_chans dif 2) E1 E2). discriminate H.
Qed.
Print Assumptions C89_same_permutation_refuted.

(** C89: the total of the SDRs of bss_eval_sources is at most that of sdr, and the total of its SIRs at least the
    total of the SIRs of the pairs chosen by sdr; any solver, any load. *)
Theorem C89_totals b sp o ref est s i a perm vals perm' c loss : lsa_contract sp -> 0 < filter_length o ->
  bss_eval_sources b sp o ref est = Ok (s, i, a, perm) -> sdr b sp o false ref est = Ok (vals, perm') ->
  sq_cos b o ref est = Ok c -> pairwise_sdr_loss b o est ref = Ok loss ->
  let '(_, nsir, _) := bss_mats o c in
  ((forall r e, r < n_chan ref -> e < n_chan est -> is_fin (mat_of loss r e) = true) ->
   (sumR (map to_R s) <= sumR (map to_R vals))%R) /\
  ((forall r e, r < n_chan ref -> e < n_chan est -> is_fin (nsir r e) = true) ->
   (sumR (map (fun p => to_R (xneg (at_pair nsir p))) (matching (n_chan ref) (n_chan est) perm')) <= sumR (map to_R i))%R).
Proof. exact (choice_totals b sp o ref est s i a perm vals perm' c loss). Qed.
Print Assumptions C89_totals.
Example C89_totals_example b sp : lsa_contract sp -> exists vals s i a p p',
  sdr b sp (plain_opts 1) false ex_ref dif_est = Ok (vals, p) /\ bss_eval_sources b sp (plain_opts 1) ex_ref dif_est = Ok (s, i, a, p') /\ p <> p'.
Proof.
  intros Hsp. destruct (dif_perms b sp Hsp) as (vals & s & i & a & E1 & E2). exists vals, s, i, a, [1; 0], [0; 1].
  split; [exact E1|]. split; [exact E2|discriminate].
Qed.

(** C89: if every estimate is a combination of the delayed references, the SIRs returned are the SDRs, and the
    choices of both functions are equally good: the same number of infinite values and the same finite total. *)
Theorem C89_no_artifacts b sp o ref est xs ys M s i a perm vals perm' loss : lsa_contract sp -> wf ref -> wf est ->
  use_cg_iter o = None -> load_diag o = None ->
  1 <= filter_length o <= Nat.max (a_len ref) (a_len est) -> (filter_length o = 1 -> a_len ref = a_len est) ->
  a_len ref + filter_length o - 1 <= M -> a_len est <= M -> has_chans ref xs -> has_chans est ys ->
  (forall d, d < n_chan est -> (norm_eps <= norm2 (pre (zero_mean o) (ys d)))%R /\
     in_span (filter_length o * n_chan ref) M (all_delays (n_chan ref) (fun c => pre (zero_mean o) (xs c))) (smp (pre (zero_mean o) (ys d)))) ->
  bss_eval_sources b sp o ref est = Ok (s, i, a, perm) -> sdr b sp o false ref est = Ok (vals, perm') ->
  pairwise_sdr_loss b o est ref = Ok loss ->
  i = s /\
  let m := matching (n_chan ref) (n_chan est) perm in let m' := matching (n_chan ref) (n_chan est) perm' in
  n_neginf (mat_of loss) m = n_neginf (mat_of loss) m' /\ n_posinf (mat_of loss) m = n_posinf (mat_of loss) m' /\
  sumR (map to_R s) = sumR (map to_R vals).
Proof. exact (no_artifacts_same b sp o ref est xs ys M s i a perm vals perm' loss). Qed.
Print Assumptions C89_no_artifacts.
Example C89_no_artifacts_example b sp : lsa_contract sp -> exists vals s i a p p',
  sdr b sp (plain_opts 1) false ex_ref mix_est = Ok (vals, p) /\ bss_eval_sources b sp (plain_opts 1) ex_ref mix_est = Ok (s, i, a, p') /\
  i = s /\ sumR (map to_R s) = sumR (map to_R vals).
Proof.
  intros Hsp. destruct (mix_ok b sp Hsp) as (vals & s & i & a & p & p' & E1 & E2).
  destruct (sdr_outputs b sp (plain_opts 1) false ex_ref mix_est vals p Hsp E1) as (loss & HP & _).
  destruct (C89_no_artifacts b sp (plain_opts 1) ex_ref mix_est exr mix 5 s i a p' vals p loss Hsp ex_ref_wf
    (est_wf mix 2 ltac:(lia) mix_len) eq_refl eq_refl ltac:(simpl; lia) ltac:(reflexivity) ltac:(simpl; lia) ltac:(simpl; lia) ex_ref_chans
    (est_chans mix 2) mix_clean E2 E1 HP) as (Q1 & _ & _ & Q2).
  exists vals, s, i, a, p, p'. auto.
Qed.

(** C89: with one estimate the SDR returned is the same. *)
Theorem C89_one_estimate b sp o ref est xs ys s i a perm vals perm' : lsa_contract sp -> wf ref -> wf est ->
  use_cg_iter o = None -> (0 <= loadv (load_diag o))%R -> clamp_db o = None ->
  2 <= filter_length o \/ (filter_length o = 1 /\ a_len ref = a_len est /\ loadv (load_diag o) = 0%R) ->
  has_chans ref xs -> has_chans est ys -> n_chan est = 1 -> 0 < n_chan ref ->
  bss_eval_sources b sp o ref est = Ok (s, i, a, perm) -> sdr b sp o false ref est = Ok (vals, perm') -> s = vals.
Proof. exact (one_estimate b sp o ref est xs ys s i a perm vals perm'). Qed.
Print Assumptions C89_one_estimate.
Example C89_one_estimate_example b sp : lsa_contract sp -> exists vals i a p p',
  sdr b sp (plain_opts 1) false ex_ref mono_est = Ok (vals, p) /\ bss_eval_sources b sp (plain_opts 1) ex_ref mono_est = Ok (vals, i, a, p').
Proof.
  intros Hsp. destruct (mono_ok b sp Hsp) as (vals & s & i & a & p & p' & E1 & E2). exists vals, i, a, p, p'. split; [exact E1|].
  assert (L : forall d, d < 1 -> length (exe d) = 5) by (intros d Hd; assert (d = 0) as -> by lia; reflexivity).
  rewrite (C89_one_estimate b sp (plain_opts 1) ex_ref mono_est exr exe s i a p' vals p Hsp ex_ref_wf (est_wf exe 1 ltac:(lia) L)
    eq_refl ltac:(simpl; lra) eq_refl (or_intror (conj eq_refl (conj eq_refl eq_refl))) ex_ref_chans (est_chans exe 1) eq_refl
    ltac:(cbv; lia) E2 E1) in E2. exact E2.
Qed.
