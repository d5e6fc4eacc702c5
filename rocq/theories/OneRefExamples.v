(** * The gradient with one reference; a concrete case *)
From Coq Require Import Reals Lra.
From Verif Require Import Prelude ExtReal Sums Spec SpecSig Helpers PermProofs DbProofs Linalg LinalgProofs Metrics StatsProofs
  LeastSq PrepProofs MetricsProofs SarProofs ProjTheorems MetricTheorems Diag Outputs Edge Solvability Witness SigExamples OneRef
  Autograd AutogradPit AutogradPitProofs AutogradPitTheorems AutogradBss AutogradBssTheorems.
Local Open Scope nat_scope.

Theorem one_ref_grad o ref T y x c0 vs vi va : wf ref -> 0 < T -> length y = T -> n_chan ref = 1 -> has_chan ref 0 x ->
  use_cg_iter o = None -> (0 <= loadv (load_diag o))%R -> clamp_db o = None -> 0 < filter_length o ->
  (filter_length o = 1 -> a_len ref = T /\ load_diag o = None /\ (norm_eps <= norm2 (pre (zero_mean o) x))%R) ->
  sq_cos Torch o ref (arr_of T [y]) = Ok c0 -> vi <> None ->
  bss_noperm_grad o ref (arr_of T [y]) vs vi va = Ok [repeat NaN T].
Proof.
  intros Hwr HT Ly H1 Hx Hcg Hld HD HL HL1 Hc0 Hvi. destruct c0 as [m sar].
  assert (S : shaped 1 T [y]) by (split; auto).
  assert (Hxs : forall c, c < n_chan ref -> exists x, has_chan ref c x).
  { intros c Hc. rewrite H1 in Hc. assert (c = 0) by lia. subst c. eauto. }
  destruct (bss_grad_nan (fun _ _ _ => []) o ref T 1 [y] (m, sar) vs vi va ([], [], [], []) Hwr HT S Hcg HL (fun E => proj1 (HL1 E)) Hxs Hc0) as [_ H].
  destruct (H H1) as (G & E & L & HG). rewrite E. f_equal. destruct G as [|g [|? ?]]; try discriminate L. f_equal.
  pose proof (arr_of_wf 1 T [y] HT S) as We. pose proof (arr_of_has 1 T [y] 0 S ltac:(lia)) as Hy.
  destruct (has_chan_pchan (zero_mean o) _ 0 _ We Hy) as [Py _].
  destruct (one_ref_pair Torch o ref (arr_of T [y]) m sar 0 x _ Hwr We H1 Hx Py (proj1 Hy) Hcg Hld HL) as (s & E1 & P & E2 & _); auto.
  { intros E1. destruct (HL1 E1) as (A & _ & B). split; auto. }
  refine (HG 0 s s ltac:(lia) E1 _ _).
  - unfold snd. rewrite E2. f_equal. destruct (Nat.eqb_spec (filter_length o) 1) as [N|N]; auto.
    destruct (HL1 N) as (_ & Q & _). rewrite Q. simpl. field.
  - right. split; auto.
Qed.

(** the first reference of [ex_ref] alone with both estimates, two taps *)
Definition mono_ref : arr := rarr 5 [exr 0].
Lemma mono_wf : wf mono_ref. Proof. apply rarr_wf; [lia|repeat constructor]. Qed.
Lemma mono_chan : has_chan mono_ref 0 (exr 0).
Proof. apply (rarr_chan 5 [exr 0] 0). simpl. lia. Qed.
Lemma mono_ok b cd ests : Forall (fun v => length v = 5) ests -> is_ok (sq_cos b (Opts 2 None false cd None) mono_ref (rarr 5 ests)).
Proof.
  intros H. apply (bss_solvable_iff b (Opts 2 None false cd None) mono_ref (rarr 5 ests) (fun c => nth c [exr 0] []) mono_wf
    ltac:(apply rarr_wf; [lia|auto]) eq_refl eq_refl ltac:(simpl; lia) ltac:(simpl; lia) (rarr_chans 5 [exr 0])).
  intros g Hg k Hk. specialize (Hg k). destruct k as [|[|k]]; try (simpl in Hk; lia); specialize (Hg ltac:(simpl; lia)); revert Hg;
    unfold comb, all_delays, delayed, smp; simpl; lra.
Qed.
Lemma mono_not_orth d : d < 2 -> ~ orthogonal_to 2 (exr 0) (exe d).
Proof.
  intros Hd H. pose proof (H 0 ltac:(lia)) as H0. pose proof (H 1 ltac:(lia)) as H1.
  destruct d as [|[|d]]; try lia; unfold xcorr, smp in H0, H1; simpl in H0, H1; lra.
Qed.
Lemma mono_est d : d < 2 -> has_chan ex_est d (exe d).
Proof. intros Hd. pose proof (rarr_chan 5 [exe 0; exe 1] d Hd) as H. destruct d as [|[|d]]; try lia; exact H. Qed.
