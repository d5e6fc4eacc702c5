(** * Sensitivity to the estimate, one-tap symmetries, sums of estimates, cost of loading (C73-C76) *)
From Coq Require Import Reals Lra.
From Verif Require Import Prelude ExtReal Spec SpecSig Sums Helpers Linalg Metrics StatsProofs PrepProofs ProjTheorems MetricTheorems Symmetry
  Edge Outputs Glue Solvability Witness SigExamples Sensitivity SensitivityDb SensitivityRef SiGram SumEst LoadBias.
From Verif Require Gradient.
Local Open Scope nat_scope.

(** C73 *)
Theorem C73_sdr_coherence b o ref est est' m m' c d d' x y y' : wf ref -> wf est -> wf est' ->
  use_cg_iter o = None -> (0 <= loadv (load_diag o))%R ->
  (filter_length o = 1 -> a_len ref = a_len est) -> a_len est' = a_len est ->
  has_chan ref c x -> has_chan est d y -> has_chan est' d' y' ->
  sdr_coh b o ref est = Ok m -> sdr_coh b o ref est' = Ok m' ->
  exists q q', mat_of m c d = Fin q /\ mat_of m' c d' = Fin q' /\
    (Rabs (sqrt q - sqrt q') <= 2 * sqrt (energy (length y) (fun t => smp y t - smp y' t))
                                / Rmax (norm2 (pre (zero_mean o) y)) norm_eps)%R.
Proof. exact (sdr_stable b o ref est est' m m' c d d' x y y'). Qed.
Print Assumptions C73_sdr_coherence.
Theorem C73_sar_coherence b o ref est est' m m' sar sar' d d' xs y y' : wf ref -> wf est -> wf est' ->
  use_cg_iter o = None -> (0 <= loadv (load_diag o))%R -> 1 <= filter_length o ->
  (filter_length o = 1 -> a_len ref = a_len est) -> a_len est' = a_len est ->
  has_chans ref xs -> has_chan est d y -> has_chan est' d' y' ->
  sq_cos b o ref est = Ok (m, sar) -> sq_cos b o ref est' = Ok (m', sar') ->
  exists q q', nth d sar NaN = Fin q /\ nth d' sar' NaN = Fin q' /\
    (Rabs (sqrt q - sqrt q') <= 2 * sqrt (energy (length y) (fun t => smp y t - smp y' t))
                                / Rmax (norm2 (pre (zero_mean o) y)) norm_eps)%R.
Proof. exact (sar_stable b o ref est est' m m' sar sar' d d' xs y y'). Qed.
Print Assumptions C73_sar_coherence.
Theorem C73_sdr_dB b o ref est' m' c d' x y y' M p : wf ref -> wf est' ->
  use_cg_iter o = None -> load_diag o = None -> clamp_db o = None ->
  1 <= filter_length o <= Nat.max (a_len ref) (a_len est') ->
  (filter_length o = 1 ->
     a_len ref = a_len est' /\ (norm_eps <= norm2 (pre (zero_mean o) x))%R) ->
  has_chan ref c x -> has_chan est' d' y' -> length y = a_len est' ->
  (norm_eps <= norm2 (pre (zero_mean o) y'))%R ->
  a_len ref + filter_length o - 1 <= M -> a_len est' <= M ->
  is_projection (filter_length o) M (delays (pre (zero_mean o) x)) (smp (pre (zero_mean o) y)) p ->
  pairwise_sdr_loss b o est' ref = Ok m' ->
  dB_within (sqrt (energy (length y) (fun t => smp y t - smp y' t)%R))
    (sqrt (energy M (fun t => smp (pre (zero_mean o) y) t - p t)%R)) (sqrt (energy M p)) (mat_of m' c d').
Proof. exact (sdr_stable_dB b o ref est' m' c d' x y y' M p). Qed.
Print Assumptions C73_sdr_dB.
Theorem C73_bss_dB b o ref est' m' sar' c d' xs y y' M p pk : wf ref -> wf est' ->
  use_cg_iter o = None -> load_diag o = None -> clamp_db o = None ->
  1 <= filter_length o <= Nat.max (a_len ref) (a_len est') ->
  (filter_length o = 1 ->
     a_len ref = a_len est' /\ (norm_eps <= norm2 (pre (zero_mean o) (xs c)))%R) ->
  has_chans ref xs -> c < n_chan ref -> has_chan est' d' y' -> length y = a_len est' ->
  (norm_eps <= norm2 (pre (zero_mean o) y'))%R ->
  a_len ref + filter_length o - 1 <= M -> a_len est' <= M ->
  is_projection (filter_length o * n_chan ref) M
     (all_delays (n_chan ref) (fun c => pre (zero_mean o) (xs c))) (smp (pre (zero_mean o) y)) p ->
  is_projection (filter_length o) M (delays (pre (zero_mean o) (xs c))) (smp (pre (zero_mean o) y)) pk ->
  sq_cos b o ref est' = Ok (m', sar') ->
  let e := sqrt (energy (length y) (fun t => smp y t - smp y' t)%R) in
  let '(nsdr, nsir, nsar) := bss_mats o (m', sar') in
  dB_within e (sqrt (energy M (fun t => smp (pre (zero_mean o) y) t - pk t)%R)) (sqrt (energy M pk)) (nsdr c d') /\
  dB_within e (sqrt (energy M (fun t => smp (pre (zero_mean o) y) t - p t)%R)) (sqrt (energy M p)) (nsar c d') /\
  ((e < sqrt (energy M p))%R ->
   dB_within e (sqrt (energy M (fun t => p t - pk t)%R)) (sqrt (energy M pk)) (nsir c d')).
Proof. exact (bss_stable_dB b o ref est' m' sar' c d' xs y y' M p pk). Qed.
Print Assumptions C73_bss_dB.
(** two pairs of references at distance sqrt 2 * dl, the same estimates: the SAR goes from +inf to -inf *)
Theorem C73_reference_refuted b dl : (0 < dl)%R -> exists m sar m' sar',
  sq_cos b (plain_opts 1) (par_ref dl 0) par_est = Ok (m, sar) /\
  sq_cos b (plain_opts 1) (par_ref 0 dl) par_est = Ok (m', sar') /\
  snd (bss_mats (plain_opts 1) (m, sar)) 0 0 = NInf /\
  snd (bss_mats (plain_opts 1) (m', sar')) 0 0 = PInf.
Proof. exact (sar_reference_refuted b dl). Qed.
Print Assumptions C73_reference_refuted.
Example C73_example b : wf ex_ref /\ wf ex_est /\ has_chans ex_ref exr /\ has_chan ex_est 0 (exe 0) /\ has_chan ex_est 1 (exe 1) /\
  is_ok (sq_cos b (plain_opts 2) ex_ref ex_est) /\ is_ok (pairwise_sdr_loss b (plain_opts 2) ex_est ex_ref) /\
  (norm_eps <= norm2 (exe 1))%R /\
  is_projection 2 6 (delays (exr 0)) (smp (exe 0)) (smp (pk0 0)) /\
  is_projection 4 6 (all_delays 2 exr) (smp (exe 0)) (smp (pall 0)).
Proof.
  exact (conj ex_ref_wf (conj ex_est_wf (conj ex_ref_chans (conj (ex_est_chan 0 ltac:(lia)) (conj (ex_est_chan 1 ltac:(lia))
   (conj (ex_sq_cos_ok b) (conj (ex_pairwise_ok b 2 ltac:(lia)) (conj (ex_est_norm 1 ltac:(lia))
   (conj (ex_proj 0 0 ltac:(lia) ltac:(lia)) (ex_proj_all 0 ltac:(lia))))))))))).
Qed.

(** C74 *)
Theorem C74_inner_products b sp o ref est ref' est' xs ys xs' ys' cs : wf ref -> wf est -> wf ref' -> wf est' ->
  n_chan ref' = n_chan ref -> n_chan est' = n_chan est -> a_len ref = a_len est -> a_len ref' = a_len est' ->
  has_chans ref xs -> has_chans est ys -> has_chans ref' xs' -> has_chans est' ys' ->
  filter_length o = 1 ->
  same_gram (zero_mean o) (n_chan ref) (n_chan est) (a_len ref) (a_len ref') xs ys xs' ys' ->
  pairwise_sdr_loss b o est ref = pairwise_sdr_loss b o est' ref' /\
  sdr_loss b o est ref = sdr_loss b o est' ref' /\
  sdr b sp o cs ref est = sdr b sp o cs ref' est' /\
  sdr_pit_loss b sp o est ref = sdr_pit_loss b sp o est' ref' /\
  bss_eval_sources b sp o ref est = bss_eval_sources b sp o ref' est' /\
  (n_chan ref = n_chan est -> bss_eval_sources_noperm b o ref est = bss_eval_sources_noperm b o ref' est').
Proof.
  exact (fun H1 H2 H3 H4 H5 H6 H7 H8 H9 H10 H11 H12 H13 H14 =>
    si_gram b sp o ref est ref' est' xs ys xs' ys' H1 H2 H3 H4 H5 H6 H7 H8 H9 H10 H11 H12 H13 H14 cs).
Qed.
Print Assumptions C74_inner_products.
Theorem C74_orthogonal b sp o cs ref est xs ys n' q : wf ref -> wf est -> has_chans ref xs -> has_chans est ys ->
  filter_length o = 1 -> zero_mean o = false -> a_len ref = a_len est -> 0 < n' -> isometry (a_len ref) n' q ->
  let f := transform (a_len ref) n' q in
  let ref' := on_chans n' f (n_chan ref) xs in let est' := on_chans n' f (n_chan est) ys in
  pairwise_sdr_loss b o est ref = pairwise_sdr_loss b o est' ref' /\
  sdr_loss b o est ref = sdr_loss b o est' ref' /\
  sdr b sp o cs ref est = sdr b sp o cs ref' est' /\
  sdr_pit_loss b sp o est ref = sdr_pit_loss b sp o est' ref' /\
  bss_eval_sources b sp o ref est = bss_eval_sources b sp o ref' est' /\
  (n_chan ref = n_chan est -> bss_eval_sources_noperm b o ref est = bss_eval_sources_noperm b o ref' est').
Proof. exact (si_orthogonal b sp o cs ref est xs ys n' q). Qed.
Print Assumptions C74_orthogonal.
Theorem C74_reordered_samples b sp o cs ref est xs ys pi : wf ref -> wf est -> has_chans ref xs -> has_chans est ys ->
  filter_length o = 1 -> a_len ref = a_len est -> perm_of (a_len ref) pi ->
  let f := reorder (a_len ref) pi in
  let ref' := on_chans (a_len ref) f (n_chan ref) xs in let est' := on_chans (a_len ref) f (n_chan est) ys in
  pairwise_sdr_loss b o est ref = pairwise_sdr_loss b o est' ref' /\
  sdr_loss b o est ref = sdr_loss b o est' ref' /\
  sdr b sp o cs ref est = sdr b sp o cs ref' est' /\
  sdr_pit_loss b sp o est ref = sdr_pit_loss b sp o est' ref' /\
  bss_eval_sources b sp o ref est = bss_eval_sources b sp o ref' est' /\
  (n_chan ref = n_chan est -> bss_eval_sources_noperm b o ref est = bss_eval_sources_noperm b o ref' est').
Proof. exact (si_reorder b sp o cs ref est xs ys pi). Qed.
Print Assumptions C74_reordered_samples.
Theorem C74_two_taps_refuted b : perm_of 3 flip_time /\ exists m m',
  pairwise_sdr_loss b (plain_opts 2) rev_est rev_ref = Ok m /\
  pairwise_sdr_loss b (plain_opts 2) (on_chans 3 (reorder 3 flip_time) 1 (fun _ => [0; 1; 0]%R))
    (on_chans 3 (reorder 3 flip_time) 1 (fun _ => [1; 0; 0]%R)) = Ok m' /\
  mat_of m 0 0 = NInf /\ mat_of m' 0 0 = PInf.
Proof. exact (conj flip_time_perm (reorder_refuted b)). Qed.
Print Assumptions C74_two_taps_refuted.
Example C74_example : wf ex_ref /\ wf ex_est /\ has_chans ex_ref exr /\ has_chans ex_est exe /\ a_len ex_ref = a_len ex_est /\
  perm_of (a_len ex_ref) (fun t => 4 - t) /\
  isometry 2 2 (fun i j => if Nat.eqb i 0 then 3 / 5 * (if Nat.eqb j 0 then 1 else 0) - 4 / 5 * (if Nat.eqb j 0 then 0 else 1)
                           else 4 / 5 * (if Nat.eqb j 0 then 1 else 0) + 3 / 5 * (if Nat.eqb j 0 then 0 else 1))%R.
Proof.
  split; [exact ex_ref_wf|]. split; [exact ex_est_wf|]. split; [exact ex_ref_chans|]. split; [exact ex_est_chans|].
  split; [reflexivity|]. split; [change (a_len ex_ref) with 5; split; intros; lia|].
  intros u v Hu Hv. destruct u as [|[|u]], v as [|[|v]]; try lia; simpl; lra.
Qed.

(** C75 *)
Theorem C75_sum_not_worse b o ref est est' m m' c d1 d2 d' x y1 y2 t : wf ref -> wf est -> wf est' ->
  filter_length o = 1 -> a_len ref = a_len est -> a_len est' = a_len est ->
  has_chan ref c x -> has_chan est d1 y1 -> has_chan est d2 y2 -> has_chan est' d' (Gradient.ray y1 y2 t) -> (0 <= t)%R ->
  (norm_eps <= norm2 (pre (zero_mean o) y1))%R -> (norm_eps <= norm2 (pre (zero_mean o) y2))%R ->
  (norm_eps <= norm2 (pre (zero_mean o) (Gradient.ray y1 y2 t)))%R ->
  (0 <= dot (a_len ref) (smp (pre (zero_mean o) x)) (smp (pre (zero_mean o) y1)))%R ->
  (0 <= dot (a_len ref) (smp (pre (zero_mean o) x)) (smp (pre (zero_mean o) y2)))%R ->
  pairwise_sdr_loss b o est ref = Ok m -> pairwise_sdr_loss b o est' ref = Ok m' ->
  xle (mat_of m' c d') (mat_of m c d1) \/ xle (mat_of m' c d') (mat_of m c d2).
Proof. exact (si_sum b o ref est est' m m' c d1 d2 d' x y1 y2 t). Qed.
Print Assumptions C75_sum_not_worse.
(** reference [1; 0; 0], estimates [1/10; 1; 1] and [1/10; -1; 1], two taps: 0.04 dB each, -20 dB for the sum *)
Theorem C75_two_taps_refuted b : exists m m',
  pairwise_sdr_loss b (plain_opts 2) sum_est sum_ref = Ok m /\ pairwise_sdr_loss b (plain_opts 2) sum_est' sum_ref = Ok m' /\
  mat_of m 0 0 = Fin (10 * log10 (100 / 101)) /\ mat_of m 0 1 = Fin (10 * log10 (100 / 101)) /\
  mat_of m' 0 0 = Fin (10 * log10 100).
Proof. exact (sum_refuted b). Qed.
Print Assumptions C75_two_taps_refuted.
Example C75_example : wf sum_ref /\ wf sum_est /\ wf sum_est' /\ has_chan sum_est 0 sum_y1 /\ has_chan sum_est 1 sum_y2 /\
  has_chan sum_est' 0 (Gradient.ray sum_y1 sum_y2 1) /\
  (0 < dot 3 (smp [1; 0; 0]) (smp sum_y1))%R /\ (0 < dot 3 (smp [1; 0; 0]) (smp sum_y2))%R.
Proof.
  split; [exact sum_ref_wf|]. split; [exact sum_est_wf|]. split; [exact sum_est'_wf|].
  split; [split; [cbv; lia|reflexivity]|]. split; [split; [cbv; lia|reflexivity]|]. split; [split; [cbv; lia|reflexivity]|].
  split; unfold dot, smp; simpl; lra.
Qed.

(** C76 *)
Theorem C76_sdr_ceiling b o ref est c d x y : wf ref -> wf est -> use_cg_iter o = None -> 2 <= filter_length o ->
  has_chan ref c x -> has_chan est d y -> forall lam m, clamp_db o = None -> (0 < lam)%R ->
  pairwise_sdr_loss b (with_load o (Some lam)) est ref = Ok m ->
  xle (Fin (- (10 * log10 (INR (filter_length o) / lam)))) (mat_of m c d).
Proof. exact (sdr_ceiling_dB b o ref est c d x y). Qed.
Print Assumptions C76_sdr_ceiling.
Theorem C76_sar_ceiling b o ref est d xs y : wf ref -> wf est -> use_cg_iter o = None -> 1 <= filter_length o ->
  (filter_length o = 1 -> a_len ref = a_len est) ->
  has_chans ref xs -> has_chan est d y -> 0 < n_chan ref -> forall lam m sar c, clamp_db o = None -> (0 < lam)%R ->
  sq_cos b (with_load o (Some lam)) ref est = Ok (m, sar) ->
  let '(nsdr, nsir, nsar) := bss_mats o (m, sar) in
  xle (Fin (- (10 * log10 (INR (filter_length o * n_chan ref) / lam)))) (nsar c d).
Proof. exact (sar_ceiling_dB b o ref est d xs y). Qed.
Print Assumptions C76_sar_ceiling.
Theorem C76_sdr_bias b o ref est c d x y : wf ref -> wf est -> use_cg_iter o = None -> 2 <= filter_length o ->
  has_chan ref c x -> has_chan est d y -> forall M lam m0 m h p, filter_length o <= Nat.max (a_len ref) (a_len est) ->
  a_len ref + filter_length o - 1 <= M -> (0 <= lam)%R ->
  let ux := unit_of (pre (zero_mean o) x) in
  is_projection (filter_length o) M (delays ux) (smp (unit_of (pre (zero_mean o) y))) p ->
  (forall t, t < M -> p t = Rsum (filter_length o) (fun k => h k * delays ux k t)%R) ->
  sdr_coh b (with_load o None) ref est = Ok m0 -> sdr_coh b (with_load o (Some lam)) ref est = Ok m ->
  exists q0 q, mat_of m0 c d = Fin q0 /\ mat_of m c d = Fin q /\
    (0 <= q0 - q <= lam * Rsum (filter_length o) (fun k => h k * h k))%R.
Proof. exact (sdr_bias b o ref est c d x y). Qed.
Print Assumptions C76_sdr_bias.
Theorem C76_sdr_limit b o ref est c d x y : wf ref -> wf est -> use_cg_iter o = None -> 2 <= filter_length o ->
  has_chan ref c x -> has_chan est d y -> forall m0, filter_length o <= Nat.max (a_len ref) (a_len est) ->
  sdr_coh b (with_load o None) ref est = Ok m0 ->
  exists q0, mat_of m0 c d = Fin q0 /\
  forall eps, (0 < eps)%R -> exists dl, (0 < dl)%R /\ forall lam m, (0 <= lam < dl)%R ->
    sdr_coh b (with_load o (Some lam)) ref est = Ok m ->
    exists q, mat_of m c d = Fin q /\ (q0 - eps < q <= q0)%R.
Proof. exact (sdr_bias_limit b o ref est c d x y). Qed.
Print Assumptions C76_sdr_limit.
Example C76_example b : is_ok (pairwise_sdr_loss b (with_load (plain_opts 2) (Some 1%R)) ex_est ex_ref) /\
  is_ok (sq_cos b (with_load (plain_opts 2) None) ex_ref ex_est).
Proof.
  split; [|exact (ex_sq_cos_ok b)].
  apply loss_never_raises_loaded; [exact ex_ref_wf|reflexivity|simpl; lra|simpl; lia].
Qed.
