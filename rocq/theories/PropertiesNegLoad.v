(** * Properties: negative diagonal loading (C92) *)
From Coq Require Import Reals Lra.
From Verif Require Import Prelude ExtReal Spec SpecSig Sums Helpers Linalg Metrics StatsProofs LeastSq PrepProofs ProjTheorems MetricTheorems Edge Witness SigExamples SumEst NegLoad NegLoadExamples.
Local Open Scope nat_scope.

(** C92: for any load, the loss raises exactly when minus the load is an eigenvalue of the autocorrelation
    matrix of a reference. *)
Theorem C92_raises_iff b o ref est M : wf ref -> use_cg_iter o = None ->
  2 <= filter_length o <= Nat.max (a_len ref) (a_len est) -> a_len ref + filter_length o - 1 <= M ->
  raises (pairwise_sdr_loss b o est ref) <->
  exists c x g, has_chan ref c x /\
    (exists k, k < filter_length o /\ g k <> 0%R) /\
    forall i, i < filter_length o ->
      Rsum (filter_length o) (fun j => dot M (delays (unit_of (pre (zero_mean o) x)) i) (delays (unit_of (pre (zero_mean o) x)) j) * g j)%R
      = (- loadv (load_diag o) * g i)%R.
Proof. exact (load_raises_iff b o ref est M). Qed.
Print Assumptions C92_raises_iff.

(** C92: below minus the number of taps, the worst value for every pair. *)
Theorem C92_very_negative b o ref est : wf ref -> use_cg_iter o = None -> 2 <= filter_length o ->
  (loadv (load_diag o) < - INR (filter_length o))%R -> wf est ->
  (forall D, clamp_db o = Some D -> 0 <= D)%R ->
  exists m, pairwise_sdr_loss b o est ref = Ok m /\
  forall c d x y, has_chan ref c x -> has_chan est d y ->
    mat_of m c d = match clamp_db o with None => PInf | Some D => Fin D end.
Proof. exact (very_negative_load b o ref est). Qed.
Print Assumptions C92_very_negative.
Example C92_very_negative_example b : exists m, pairwise_sdr_loss b (with_load (plain_opts 2) (Some (-3)%R)) ex_ref ex_ref = Ok m /\
  mat_of m 0 0 = PInf.
Proof.
  destruct (C92_very_negative b (with_load (plain_opts 2) (Some (-3)%R)) ex_ref ex_ref ex_ref_wf eq_refl (le_n 2)
    ltac:(simpl; lra) ex_ref_wf ltac:(discriminate)) as (m & E & H).
  exists m. split; [exact E|]. exact (H 0 0 _ _ (ex_ref_chan 0 ltac:(lia)) (ex_ref_chan 0 ltac:(lia))).
Qed.
Theorem C92_very_negative_sar b o ref est d xs y m sar : wf ref -> wf est -> use_cg_iter o = None -> 1 <= filter_length o ->
  (filter_length o = 1 -> a_len ref = a_len est) -> has_chans ref xs -> has_chan est d y ->
  (forall D, clamp_db o = Some D -> 0 <= D)%R ->
  (loadv (load_diag o) < - INR (filter_length o * n_chan ref))%R -> sq_cos b o ref est = Ok (m, sar) ->
  forall c, snd (bss_mats o (m, sar)) c d = match clamp_db o with None => PInf | Some D => Fin D end.
Proof. exact (very_negative_sar b o ref est d xs y m sar). Qed.
Print Assumptions C92_very_negative_sar.
Theorem C92_very_negative_solvable b o ref est xs : wf ref -> wf est -> use_cg_iter o = None ->
  1 <= filter_length o <= Nat.max (a_len ref) (a_len est) ->
  (filter_length o = 1 -> a_len ref = a_len est) -> has_chans ref xs -> 0 < n_chan ref ->
  (loadv (load_diag o) < - INR (filter_length o * n_chan ref))%R -> is_ok (sq_cos b o ref est).
Proof. exact (very_negative_bss_ok b o ref est xs). Qed.
Print Assumptions C92_very_negative_solvable.
Example C92_very_negative_sar_example b : exists m sar, sq_cos b (with_load (plain_opts 2) (Some (-5)%R)) ex_ref ex_ref = Ok (m, sar) /\
  snd (bss_mats (plain_opts 2) (m, sar)) 0 1 = PInf.
Proof.
  destruct (C92_very_negative_solvable b (with_load (plain_opts 2) (Some (-5)%R)) ex_ref ex_ref exr ex_ref_wf ex_ref_wf eq_refl
    ltac:(simpl; lia) ltac:(discriminate) (fun c H => proj2 (ex_ref_chan c H)) ltac:(cbv; lia) ltac:(simpl; lra)) as [[m sar] E].
  exists m, sar. split; [exact E|].
  exact (C92_very_negative_sar b (with_load (plain_opts 2) (Some (-5)%R)) ex_ref ex_ref 1 exr _ m sar ex_ref_wf ex_ref_wf eq_refl
    ltac:(simpl; lia) ltac:(discriminate) (fun c H => proj2 (ex_ref_chan c H)) (ex_ref_chan 1 ltac:(lia)) ltac:(discriminate) ltac:(simpl; lra) E 0).
Qed.

(** C92: as long as the loaded system is positive, a larger load means a larger loss. *)
Theorem C92_monotone b o ref est l1 l2 m1 m2 c d x y M : wf ref -> wf est -> use_cg_iter o = None ->
  2 <= filter_length o <= Nat.max (a_len ref) (a_len est) -> a_len ref + filter_length o - 1 <= M ->
  has_chan ref c x -> has_chan est d y -> (loadv l1 <= loadv l2)%R ->
  (forall g, (0 <= energy M (fun t => Rsum (filter_length o) (fun k => g k * delays (unit_of (pre (zero_mean o) x)) k t)) +
                   loadv l1 * Rsum (filter_length o) (fun k => g k * g k))%R) ->
  pairwise_sdr_loss b (with_load o l1) est ref = Ok m1 -> pairwise_sdr_loss b (with_load o l2) est ref = Ok m2 ->
  xle (mat_of m1 c d) (mat_of m2 c d).
Proof. exact (load_monotone b o ref est l1 l2 m1 m2 c d x y M). Qed.
Print Assumptions C92_monotone.

(** C92: references whose delays are orthonormal (impulses). *)
Theorem C92_white b o ref est m c d x y M : wf ref -> wf est -> use_cg_iter o = None ->
  2 <= filter_length o <= Nat.max (a_len ref) (a_len est) -> a_len ref + filter_length o - 1 <= M ->
  has_chan ref c x -> has_chan est d y ->
  let u := unit_of (pre (zero_mean o) x) in let v := unit_of (pre (zero_mean o) y) in
  (forall i j, i < filter_length o -> j < filter_length o ->
     dot M (delays u i) (delays u j) = if Nat.eqb i j then 1%R else 0%R) ->
  loadv (load_diag o) <> (-1)%R -> pairwise_sdr_loss b o est ref = Ok m ->
  mat_of m c d = coherence_to_neg_sdr (clamp_db o)
    (Fin (Rsum (filter_length o) (fun k => dot M (delays u k) (smp v) ^ 2)%R / (1 + loadv (load_diag o)))).
Proof. exact (white_load b o ref est m c d x y M). Qed.
Print Assumptions C92_white.
Theorem C92_white_raises b o ref est c x M : wf ref -> use_cg_iter o = None ->
  2 <= filter_length o <= Nat.max (a_len ref) (a_len est) -> a_len ref + filter_length o - 1 <= M ->
  has_chan ref c x ->
  (forall i j, i < filter_length o -> j < filter_length o ->
     dot M (delays (unit_of (pre (zero_mean o) x)) i) (delays (unit_of (pre (zero_mean o) x)) j) = if Nat.eqb i j then 1%R else 0%R) ->
  loadv (load_diag o) = (-1)%R -> raises (pairwise_sdr_loss b o est ref).
Proof. exact (white_load_raises b o ref est c x M). Qed.
Print Assumptions C92_white_raises.
Example C92_white_example b : is_ok (pairwise_sdr_loss b (nl_opts (- / 2)) nl_est sum_ref) /\
  raises (pairwise_sdr_loss b (nl_opts (-1)) nl_est sum_ref) /\
  forall g, (0 <= energy 4 (fun t => Rsum 2 (fun k => g k * delays (unit_of [1; 0; 0]) k t)) + - / 2 * Rsum 2 (fun k => g k * g k))%R.
Proof.
  split; [exact (nl_ok b (- / 2) ltac:(lra))|]. split.
  - apply (C92_white_raises b (nl_opts (-1)) sum_ref nl_est 0 [1; 0; 0]%R 4 sum_ref_wf eq_refl ltac:(simpl; lia) ltac:(simpl; lia)
      ltac:(split; [cbv; lia|reflexivity])); [|reflexivity].
    cbn [filter_length nl_opts with_load plain_opts zero_mean pre]. rewrite nl_unit. exact nl_white.
  - intros g. rewrite nl_unit. unfold energy, dot, delays, delayed, smp. simpl.
    pose proof (pow2_ge_0 (g 0)). pose proof (pow2_ge_0 (g 1)). simpl in *. nra.
Qed.

(** C92 (refuted): loading does not always lower the SDR: with load -1/2 an estimate of 0 dB is perfect. *)
Theorem C92_lowers_refuted b : exists m0 m,
  pairwise_sdr_loss b (with_load (plain_opts 2) (Some 0%R)) nl_est sum_ref = Ok m0 /\ mat_of m0 0 0 = Fin 0 /\
  pairwise_sdr_loss b (with_load (plain_opts 2) (Some (- / 2)%R)) nl_est sum_ref = Ok m /\ mat_of m 0 0 = NInf.
Proof. exact (nl_perfect b). Qed.
Print Assumptions C92_lowers_refuted.
