(** * Properties: bss_eval_sources with one reference (C84) *)
From Coq Require Import Reals Lra.
From Verif Require Import Prelude ExtReal Sums Spec SpecSig Helpers PermProofs Metrics StatsProofs PrepProofs ProjTheorems MetricTheorems
  Diag Edge Witness SigExamples Autograd AutogradPit AutogradPitProofs AutogradPitTheorems AutogradBss AutogradBssTheorems OneRef OneRefExamples.
Local Open Scope nat_scope.

(** C84: one reference, one estimate, no permutation: the SAR equals the SDR and the SIR does not depend on the signals,
    it is +inf (clamp_db without clamping), or NaN for an orthogonal estimate. *)
Theorem C84_noperm b o ref est x y sdrs sirs sars : wf ref -> wf est -> n_chan ref = 1 -> has_chan ref 0 x -> has_chan est 0 y ->
  use_cg_iter o = None -> (0 <= loadv (load_diag o))%R -> (forall D, clamp_db o = Some D -> 0 <= D)%R ->
  1 <= filter_length o <= Nat.max (a_len ref) (a_len est) ->
  (filter_length o = 1 -> a_len ref = a_len est /\ (norm_eps <= norm2 (pre (zero_mean o) x))%R) ->
  bss_eval_sources_noperm b o ref est = Ok (sdrs, sirs, sars) ->
  (filter_length o <> 1 \/ load_diag o = None -> sars = sdrs) /\
  (orthogonal_to (filter_length o) (pre (zero_mean o) x) (pre (zero_mean o) y) -> sirs = [NaN]) /\
  (~ orthogonal_to (filter_length o) (pre (zero_mean o) x) (pre (zero_mean o) y) ->
     sirs = [match clamp_db o with None => PInf | Some D => Fin D end]).
Proof. exact (one_ref_noperm b o ref est x y sdrs sirs sars). Qed.
Print Assumptions C84_noperm.
Example C84_noperm_example b : exists s,
  bss_eval_sources_noperm b (plain_opts 2) mono_ref (rarr 5 [exe 0]) = Ok ([s], [PInf], [s]).
Proof.
  destruct (mono_ok b None [exe 0] ltac:(repeat constructor)) as [c Hc].
  destruct (bss_eval_sources_noperm b (plain_opts 2) mono_ref (rarr 5 [exe 0])) as [[[sdrs sirs] sars]|e] eqn:E.
  2:{ rewrite noperm_diag in E by (auto; simpl; lia). change (plain_opts 2) with (Opts 2 None false None None) in E. rewrite Hc in E.
      destruct c. discriminate E. }
  assert (W : wf (rarr 5 [exe 0])) by (apply rarr_wf; [lia|repeat constructor]).
  destruct (C84_noperm b (plain_opts 2) mono_ref (rarr 5 [exe 0]) (exr 0) (exe 0) sdrs sirs sars mono_wf W eq_refl mono_chan
    (rarr_chan 5 [exe 0] 0 ltac:(simpl; lia)) eq_refl ltac:(simpl; lra) ltac:(discriminate) ltac:(simpl; lia) ltac:(discriminate) E) as (A & _ & B).
  rewrite (A ltac:(left; discriminate)), (B (mono_not_orth 0 ltac:(lia))).
  rewrite noperm_diag in E by (auto; simpl; lia). change (plain_opts 2) with (Opts 2 None false None None) in E. rewrite Hc in E.
  destruct c as [m sar]. injection E as <- _ _. eexists. reflexivity.
Qed.

(** C84: with permutation and without clamp_db there is no result for one reference, whatever the signals. *)
Theorem C84_raises b sp o ref est x : wf ref -> wf est -> n_chan ref = 1 -> has_chan ref 0 x -> 0 < n_chan est ->
  use_cg_iter o = None -> (0 <= loadv (load_diag o))%R -> clamp_db o = None -> 0 < filter_length o ->
  (filter_length o = 1 -> a_len ref = a_len est /\ (norm_eps <= norm2 (pre (zero_mean o) x))%R) ->
  raises (bss_eval_sources b sp o ref est).
Proof. exact (one_ref_raises b sp o ref est x). Qed.
Print Assumptions C84_raises.
Example C84_raises_example b sp : raises (bss_eval_sources b sp (plain_opts 2) mono_ref ex_est).
Proof.
  exact (C84_raises b sp (plain_opts 2) mono_ref ex_est (exr 0) mono_wf ex_est_wf eq_refl mono_chan ltac:(cbv; lia) eq_refl
    ltac:(simpl; lra) eq_refl ltac:(cbv; lia) ltac:(discriminate)).
Qed.

(** C84: with clamp_db all the SIRs are equal, so the selection of the estimate carries no information: for every
    estimate there is a correct assignment solver with which numpy's bss_eval_sources selects it. *)
Theorem C84_clamped b sp o ref est x D m sar : lsa_contract sp -> wf ref -> wf est -> n_chan ref = 1 -> has_chan ref 0 x -> 0 < n_chan est ->
  use_cg_iter o = None -> (0 <= loadv (load_diag o))%R -> clamp_db o = Some D -> (0 <= D)%R ->
  1 <= filter_length o <= Nat.max (a_len ref) (a_len est) ->
  (filter_length o = 1 -> a_len ref = a_len est /\ (norm_eps <= norm2 (pre (zero_mean o) x))%R) ->
  (forall d, d < n_chan est -> exists y, has_chan est d y /\
     ~ orthogonal_to (filter_length o) (pre (zero_mean o) x) (pre (zero_mean o) y)) ->
  sq_cos b o ref est = Ok (m, sar) ->
  (exists sdr1 sar1 d, bss_eval_sources b sp o ref est = Ok ([sdr1], [Fin D], [sar1], [d]) /\ d < n_chan est /\
     (filter_length o <> 1 \/ load_diag o = None -> sar1 = sdr1)) /\
  (b = NumPy -> forall d, d < n_chan est -> exists sp', lsa_contract sp' /\ exists sdr1 sar1,
     bss_eval_sources b sp' o ref est = Ok ([sdr1], [Fin D], [sar1], [d])).
Proof. exact (one_ref_clamped b sp o ref est x D m sar). Qed.
Print Assumptions C84_clamped.
(** two estimates: the solver decides *)
Example C84_clamped_example d : d < 2 -> exists sp, lsa_contract sp /\ exists s a,
  bss_eval_sources NumPy sp (clamp_opts 2 30) mono_ref ex_est = Ok ([s], [Fin 30], [a], [d]).
Proof.
  intros Hd. destruct (mono_ok NumPy (Some 30%R) [exe 0; exe 1] ltac:(repeat constructor)) as [[m sar] Hc].
  destruct (C84_clamped NumPy reference_lsa (clamp_opts 2 30) mono_ref ex_est (exr 0) 30 m sar reference_lsa_contract mono_wf ex_est_wf eq_refl
    mono_chan ltac:(cbv; lia) eq_refl ltac:(simpl; lra) eq_refl ltac:(lra) ltac:(simpl; lia) ltac:(discriminate)) as [_ H]; auto.
  intros d' Hd'. exists (exe d'). split; [apply mono_est; exact Hd'|]. apply mono_not_orth. exact Hd'.
Qed.

(** C84: without clamp_db the gradient of any loss with the SIR is NaN. *)
Theorem C84_gradient o ref T y x c0 vs vi va : wf ref -> 0 < T -> length y = T -> n_chan ref = 1 -> has_chan ref 0 x ->
  use_cg_iter o = None -> (0 <= loadv (load_diag o))%R -> clamp_db o = None -> 0 < filter_length o ->
  (filter_length o = 1 -> a_len ref = T /\ load_diag o = None /\ (norm_eps <= norm2 (pre (zero_mean o) x))%R) ->
  sq_cos Torch o ref (arr_of T [y]) = Ok c0 -> vi <> None ->
  bss_noperm_grad o ref (arr_of T [y]) vs vi va = Ok [repeat NaN T].
Proof. exact (one_ref_grad o ref T y x c0 vs vi va). Qed.
Print Assumptions C84_gradient.
Example C84_gradient_example y vs vi va : length y = 5 ->
  bss_noperm_grad (plain_opts 2) mono_ref (arr_of 5 [y]) vs (Some vi) va = Ok [[NaN; NaN; NaN; NaN; NaN]].
Proof.
  intros Ly. destruct (mono_ok Torch None [y] ltac:(repeat constructor; auto)) as [c Hc].
  apply (C84_gradient (plain_opts 2) mono_ref 5 y (exr 0) c vs (Some vi) va mono_wf ltac:(lia) Ly eq_refl mono_chan eq_refl
    ltac:(simpl; lra) eq_refl ltac:(cbv; lia) ltac:(discriminate)); [exact Hc|discriminate].
Qed.
