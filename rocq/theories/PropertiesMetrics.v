(** * Properties of the metrics: outputs, projections, ranges (C07-C10, C15-C22, C26-C30, C33, C48, C49, C53) *)
From Coq Require Import Reals Lra.
From Verif Require Import FastPath Prelude ExtReal Spec SpecSig Sums Helpers Linalg Metrics StatsProofs LeastSq PrepProofs
  MetricsProofs SarProofs ProjTheorems MetricTheorems Outputs Diag Edge Solvability Witness SigExamples Glue
  PermProofs HungarianTop LinalgProofs.
Local Open Scope nat_scope.

(** C06 at signal level: a perfect mono estimate, or a perfect pair beside an exactly orthogonal one, raises *)
Theorem C06_mono_perfect_raises b sp o cs ref est x y M : wf ref -> wf est ->
  use_cg_iter o = None -> load_diag o = None -> clamp_db o = None ->
  1 <= filter_length o <= Nat.max (a_len ref) (a_len est) ->
  (filter_length o = 1 ->
     a_len ref = a_len est /\ (norm_eps <= norm2 (pre (zero_mean o) x))%R) ->
  n_chan ref = 1 -> n_chan est = 1 -> has_chan ref 0 x -> has_chan est 0 y ->
  (norm_eps <= norm2 (pre (zero_mean o) y))%R ->
  a_len ref + filter_length o - 1 <= M -> a_len est <= M ->
  in_span (filter_length o) M (delays (pre (zero_mean o) x)) (smp (pre (zero_mean o) y)) ->
  raises (sdr b sp o cs ref est).
Proof. exact (mono_perfect_raises b sp o cs ref est x y M). Qed.
Print Assumptions C06_mono_perfect_raises.
Theorem C06_perfect_and_orthogonal_raises b sp o cs ref est c d x y c' d' x' y' M : wf ref -> wf est ->
  use_cg_iter o = None -> load_diag o = None -> clamp_db o = None ->
  1 <= filter_length o <= Nat.max (a_len ref) (a_len est) ->
  (filter_length o = 1 ->
     a_len ref = a_len est /\ (norm_eps <= norm2 (pre (zero_mean o) x))%R) ->
  has_chan ref c x -> has_chan est d y -> has_chan ref c' x' -> has_chan est d' y' ->
  (norm_eps <= norm2 (pre (zero_mean o) y))%R ->
  a_len ref + filter_length o - 1 <= M -> a_len est <= M ->
  in_span (filter_length o) M (delays (pre (zero_mean o) x)) (smp (pre (zero_mean o) y)) ->
  orthogonal_to (filter_length o) (pre (zero_mean o) x') (pre (zero_mean o) y') ->
  raises (sdr b sp o cs ref est).
Proof. exact (perfect_and_orthogonal_raises b sp o cs ref est c d x y c' d' x' y' M). Qed.
Print Assumptions C06_perfect_and_orthogonal_raises.
Example C06_signal_example b sp cs :
  sdr b sp (plain_opts 1) cs (rarr 2 [[1; 0]; [0; 1]]%R) (rarr 2 [[1; 0]; [0; 1]]%R) = Raise ValueError.
Proof. exact (perfect_stereo_raises b sp cs). Qed.

(** C07 *)
Theorem C07_sdr_outputs b sp o cs ref est vals perm : lsa_contract sp ->
  sdr b sp o cs ref est = Ok (vals, perm) ->
  exists loss, pairwise_sdr_loss b o est ref = Ok loss /\
    complete_assignment (n_chan ref) (n_chan est) (matching (n_chan ref) (n_chan est) perm) /\
    length perm = Nat.min (n_chan ref) (n_chan est) /\ NoDup perm /\
    (forall p, In p perm -> p < Nat.max (n_chan ref) (n_chan est)) /\
    vals = map (fun p => let v := at_pair (mat_of loss) p in if cs then v else xneg v)
               (matching (n_chan ref) (n_chan est) perm).
Proof. exact (sdr_outputs b sp o cs ref est vals perm). Qed.
Print Assumptions C07_sdr_outputs.
Theorem C07_sdr_values b sp o cs ref est vals perm i : lsa_contract sp ->
  sdr b sp o cs ref est = Ok (vals, perm) -> i < Nat.min (n_chan ref) (n_chan est) ->
  exists loss, pairwise_sdr_loss b o est ref = Ok loss /\
    let sgn := fun v => if cs then v else xneg v in
    (n_chan ref <= n_chan est -> nth i vals NaN = sgn (mat_of loss i (nth i perm 0))) /\
    (n_chan est < n_chan ref -> nth i vals NaN = sgn (mat_of loss (nth i perm 0) i)).
Proof. exact (sdr_values b sp o cs ref est vals perm i). Qed.
Print Assumptions C07_sdr_values.
Example C07_sdr_example b sp : lsa_contract sp ->
  sdr b sp (plain_opts 2) false ex_ref ex_est =
  Ok ([Fin (- (10 * log10 (3 / 5))); Fin (- (10 * log10 (2 / 5)))], [0; 1]).
Proof. exact (ex_sdr b sp). Qed.

(** C08 *)
Theorem C08_sdr_optimal b sp o ref est loss : lsa_contract sp ->
  pairwise_sdr_loss b o est ref = Ok loss ->
  (forall i j, i < n_chan ref -> j < n_chan est -> is_fin (mat_of loss i j) = true) ->
  exists vals perm, sdr b sp o false ref est = Ok (vals, perm) /\
    forall l', complete_assignment (n_chan ref) (n_chan est) l' ->
      (sumR (map (fun p => to_R (xneg (at_pair (mat_of loss) p))) l') <= sumR (map to_R vals))%R.
Proof. exact (sdr_optimal b sp o ref est loss). Qed.
Print Assumptions C08_sdr_optimal.
Theorem C08_pit_not_worse b sp o ref est loss : lsa_contract sp -> n_chan ref = n_chan est ->
  pairwise_sdr_loss b o est ref = Ok loss ->
  (forall i j, i < n_chan ref -> j < n_chan est -> is_fin (mat_of loss i j) = true) ->
  exists v l, sdr_pit_loss b sp o est ref = Ok v /\ sdr_loss b o est ref = Ok l /\
    (sumR (map to_R v) <= sumR (map to_R l))%R.
Proof. exact (pit_le_plain b sp o ref est loss). Qed.
Print Assumptions C08_pit_not_worse.
Example C08_example b : exists m, pairwise_sdr_loss b (plain_opts 2) ex_est ex_ref = Ok m /\
  forall i j, i < n_chan ex_ref -> j < n_chan ex_est -> is_fin (mat_of m i j) = true.
Proof. destruct (ex_pairwise_ok b 2 ltac:(lia)) as [m H]. exists m. split; auto. intros i j. exact (ex_finite b m i j H). Qed.

(** C09 *)
Theorem C09_bss_outputs b sp o ref est s i a perm : lsa_contract sp ->
  bss_eval_sources b sp o ref est = Ok (s, i, a, perm) ->
  exists c, sq_cos b o ref est = Ok c /\
    let '(nsdr, nsir, nsar) := bss_mats o c in
    complete_assignment (n_chan ref) (n_chan est) (matching (n_chan ref) (n_chan est) perm) /\
    length perm = Nat.min (n_chan ref) (n_chan est) /\ NoDup perm /\
    (forall p, In p perm -> p < Nat.max (n_chan ref) (n_chan est)) /\
    s = map (fun p => xneg (at_pair nsdr p)) (matching (n_chan ref) (n_chan est) perm) /\
    i = map (fun p => xneg (at_pair nsir p)) (matching (n_chan ref) (n_chan est) perm) /\
    a = map (fun p => xneg (at_pair nsar p)) (matching (n_chan ref) (n_chan est) perm).
Proof. exact (bss_outputs b sp o ref est s i a perm). Qed.
Print Assumptions C09_bss_outputs.
Theorem C09_bss_optimal b sp o ref est c : lsa_contract sp ->
  sq_cos b o ref est = Ok c ->
  let '(nsdr, nsir, nsar) := bss_mats o c in
  (forall i j, i < n_chan ref -> j < n_chan est -> is_fin (nsir i j) = true) ->
  exists s i a perm, bss_eval_sources b sp o ref est = Ok (s, i, a, perm) /\
    forall l', complete_assignment (n_chan ref) (n_chan est) l' ->
      (sumR (map (fun p => to_R (xneg (at_pair nsir p))) l') <= sumR (map to_R i))%R.
Proof. exact (bss_optimal b sp o ref est c). Qed.
Print Assumptions C09_bss_optimal.
Example C09_example b sp : lsa_contract sp ->
  bss_eval_sources b sp (plain_opts 2) ex_ref ex_est =
  Ok ([Fin (- (10 * log10 (3 / 5))); Fin (- (10 * log10 (2 / 5)))],
      [Fin (- (10 * log10 (2 / 5))); Fin (- (10 * log10 (1 / 5)))],
      [Fin (- (10 * log10 (1 / 7))); Fin (- (10 * log10 (1 / 6)))], [0; 1]).
Proof. exact (ex_bss b sp). Qed.

(** C10: perm sends reference i to its estimate (C07); the documented opposite reading
    is refuted by three orthogonal sources estimated perfectly in a cyclic order. *)
Theorem C10_documented_direction_refuted b sp : lsa_contract sp -> exists o ref est vals perm,
  sdr b sp o false ref est = Ok (vals, perm) /\
  (forall i, i < 3 -> nth (nth i perm 0) (a_chans est) [] = nth i (a_chans ref) []) /\
  (forall i, i < 3 -> nth (nth i perm 0) (a_chans ref) [] <> nth i (a_chans est) []).
Proof. exact (documented_direction_refuted b sp). Qed.
Print Assumptions C10_documented_direction_refuted.
Example C10_example b sp : lsa_contract sp ->
  sdr b sp (clamp_opts 1 30) false cyc_ref cyc_est = Ok ([Fin 30; Fin 30; Fin 30], [2; 0; 1]).
Proof. exact (cyc_sdr b sp). Qed.

(** C15 *)
Theorem C15_cross_correlation lx ly L x y l : length x = lx -> 0 < lx -> l < L -> L <= Nat.max lx ly ->
  nth l (stats_xcorr (n_fft lx ly) L x y) 0%R = xcorr x y l.
Proof. exact (code_xcorr lx ly L x y l). Qed.
Print Assumptions C15_cross_correlation.
Theorem C15_auto_correlation lx ly L x l : length x = lx -> 0 < lx -> l < L -> L <= Nat.max lx ly ->
  nth l (stats_acf (n_fft lx ly) L x) 0%R = xcorr x x l.
Proof. exact (code_acf lx ly L x l). Qed.
Print Assumptions C15_auto_correlation.
Theorem C15_between_references lx ly L x1 x2 l :
  length x1 = lx -> length x2 = lx -> 0 < lx -> l < L -> L <= Nat.max lx ly ->
  nth l (stats2_acf (n_fft lx ly) L x1 x2) 0%R = xcorr x2 x1 l /\
  (0 < l -> nth (2 * L - l) (stats2_acf (n_fft lx ly) L x1 x2) 0%R = xcorr x1 x2 l).
Proof. exact (code_acf2 lx ly L x1 x2 l). Qed.
Print Assumptions C15_between_references.
Example C15_example : nth 1 (stats_xcorr (n_fft 3 3) 2 [1; 2; 3]%R [4; 5; 6]%R) 0%R = 17%R.
Proof. rewrite (code_xcorr 3 3) by (simpl; lia). unfold xcorr, smp. simpl. ring. Qed.

(** C16: beyond that length the statement of C15 is false *)
Theorem C16_aliasing_refuted : exists x : list R,
  let nf := n_fft (length x) (length x) in
  length x = 2 /\ nf = 4 /\ xcorr x x 3 = 0%R /\ nth 3 (stats_acf nf 4 x) 0%R = 1%R.
Proof. exact aliasing. Qed.
Print Assumptions C16_aliasing_refuted.
(** ... and a non-silent reference makes sdr raise, whatever the estimate *)
Theorem C16_aliasing_raises b sp cs est : a_len est = 2 ->
  sdr b sp (plain_opts 4) cs (rarr 2 [[1; 1]]%R) est = Raise LinAlgError.
Proof. exact (aliasing_raises b sp cs est). Qed.
Print Assumptions C16_aliasing_raises.

(** C17 *)
Theorem C17_sdr_system b lx ly L ld x M i j :
  length x = lx -> 0 < lx -> L <= Nat.max lx ly -> i < L -> j < L -> lx + L - 1 <= M ->
  let acf := add_load ld (stats_acf (n_fft lx ly) L x) in
  length acf = L /\
  ent (toeplitz b acf) i j =
    (dot M (delayed x i) (delayed x j) + if Nat.eqb i j then loadv ld else 0)%R.
Proof. exact (sdr_system_gram b lx ly L ld x M i j). Qed.
Print Assumptions C17_sdr_system.
Theorem C17_sdr_rhs lx ly L x y M l :
  length x = lx -> 0 < lx -> L <= Nat.max lx ly -> l < L -> lx + L - 1 <= M ->
  nth l (stats_xcorr (n_fft lx ly) L x y) 0%R = dot M (delayed x l) (smp y).
Proof. exact (sdr_rhs lx ly L x y M l). Qed.
Print Assumptions C17_sdr_rhs.
Theorem C17_sar_system b lx ly L ld k xs M :
  (forall c, c < k -> length (xs c) = lx) -> 0 < lx -> 2 <= L -> L <= Nat.max lx ly ->
  lx + L - 1 <= M ->
  exists B, block_toeplitz b (2 * L) k k (block_acf (n_fft lx ly) L ld xs) = Ok B /\
    forall p q, p < L * k -> q < L * k ->
      B p q = (dot M (all_delays k xs p) (all_delays k xs q) + if Nat.eqb p q then loadv ld else 0)%R.
Proof. exact (sar_system_gram b lx ly L ld k xs M). Qed.
Print Assumptions C17_sar_system.
Theorem C17_sar_rhs lx ly L k xs y M p :
  (forall c, c < k -> length (xs c) = lx) -> 0 < lx -> L <= Nat.max lx ly ->
  lx + L - 1 <= M -> p < L * k ->
  nth p (Cgd.flatten k L (fun c => stats_xcorr (n_fft lx ly) L (xs c) y)) 0%R
  = dot M (all_delays k xs p) (smp y).
Proof. exact (sar_rhs lx ly L k xs y M p). Qed.
Print Assumptions C17_sar_rhs.
(** the coherences returned with the direct solver, with or without loading *)
Theorem C17_sdr_solution b o ref est m c d x y M : wf ref -> wf est ->
  use_cg_iter o = None -> 2 <= filter_length o <= Nat.max (a_len ref) (a_len est) ->
  has_chan ref c x -> has_chan est d y -> a_len ref + filter_length o - 1 <= M ->
  sdr_coh b o ref est = Ok m ->
  let a := delayed (unit_of (pre (zero_mean o) x)) in
  let v := smp (unit_of (pre (zero_mean o) y)) in
  exists h, (forall i, i < filter_length o ->
      Rsum (filter_length o) (fun j => (dot M (a i) (a j) + if Nat.eqb i j then loadv (load_diag o) else 0) * h j)%R
      = dot M (a i) v) /\
    mat_of m c d = Fin (Rsum (filter_length o) (fun i => dot M (a i) v * h i)%R).
Proof. exact (sdr_solved b o ref est m c d x y M). Qed.
Print Assumptions C17_sdr_solution.
Theorem C17_sar_solution b o ref est m sar d xs y M : wf ref -> wf est ->
  use_cg_iter o = None -> 2 <= filter_length o <= Nat.max (a_len ref) (a_len est) ->
  has_chans ref xs -> has_chan est d y -> a_len ref + filter_length o - 1 <= M ->
  sq_cos b o ref est = Ok (m, sar) ->
  let N := filter_length o * n_chan ref in
  let a := fun p => delayed (unit_of (pre (zero_mean o) (xs (p mod n_chan ref)))) (p / n_chan ref) in
  let v := smp (unit_of (pre (zero_mean o) y)) in
  exists h, (forall i, i < N ->
      Rsum N (fun j => (dot M (a i) (a j) + if Nat.eqb i j then loadv (load_diag o) else 0) * h j)%R = dot M (a i) v) /\
    nth d sar NaN = Fin (Rsum N (fun i => dot M (a i) v * h i)%R).
Proof. exact (sar_solved b o ref est m sar d xs y M). Qed.
Print Assumptions C17_sar_solution.
Example C17_solution_example b : wf ex_ref /\ wf ex_est /\ has_chans ex_ref exr /\ has_chan ex_est 0 (exe 0) /\
  is_ok (sq_cos b (plain_opts 2) ex_ref ex_est).
Proof. exact (conj ex_ref_wf (conj ex_est_wf (conj ex_ref_chans (conj (ex_est_chan 0 ltac:(lia)) (ex_sq_cos_ok b))))). Qed.
Example C17_example b : ent (toeplitz b (stats_acf (n_fft 3 3) 2 [1; 2; 3]%R)) 0 1 = 8%R.
Proof.
  refine (eq_trans (proj2 (sdr_system_gram b 3 3 2 None [1; 2; 3]%R 4 0 1 eq_refl ltac:(lia) ltac:(simpl; lia)
    ltac:(lia) ltac:(lia) ltac:(lia))) _).
  unfold dot, delayed, smp. simpl. ring.
Qed.

(** C18 *)
Theorem C18_sdr_projection b o ref est m c d x y M p : wf ref -> wf est ->
  use_cg_iter o = None -> load_diag o = None -> clamp_db o = None ->
  1 <= filter_length o <= Nat.max (a_len ref) (a_len est) ->
  (filter_length o = 1 ->
     a_len ref = a_len est /\ (norm_eps <= norm2 (pre (zero_mean o) x))%R) ->
  has_chan ref c x -> has_chan est d y ->
  (norm_eps <= norm2 (pre (zero_mean o) y))%R ->
  a_len ref + filter_length o - 1 <= M -> a_len est <= M ->
  is_projection (filter_length o) M (delays (pre (zero_mean o) x)) (smp (pre (zero_mean o) y)) p ->
  pairwise_sdr_loss b o est ref = Ok m ->
  mat_of m c d = dB (energy M (fun t => smp (pre (zero_mean o) y) t - p t)%R) (energy M p).
Proof. exact (sdr_projection b o ref est m c d x y M p). Qed.
Print Assumptions C18_sdr_projection.
Example C18_example b : exists m, pairwise_sdr_loss b (plain_opts 2) ex_est ex_ref = Ok m /\
  mat_of m 0 0 = Fin (10 * log10 (3 / 5)) /\ mat_of m 0 1 = Fin (10 * log10 (6 / 1)) /\
  mat_of m 1 0 = Fin (10 * log10 (6 / 2)) /\ mat_of m 1 1 = Fin (10 * log10 (2 / 5)).
Proof.
  destruct (ex_pairwise_ok b 2 ltac:(lia)) as [m H]. exists m.
  split; [exact H|]. repeat split; apply (ex_loss b m); auto.
Qed.

(** C19 *)
Theorem C19_sir_sar_projection b o ref est m sar c d xs y M p pk : wf ref -> wf est ->
  use_cg_iter o = None -> load_diag o = None -> clamp_db o = None ->
  1 <= filter_length o <= Nat.max (a_len ref) (a_len est) ->
  (filter_length o = 1 ->
     a_len ref = a_len est /\ (norm_eps <= norm2 (pre (zero_mean o) (xs c)))%R) ->
  has_chans ref xs -> c < n_chan ref -> has_chan est d y ->
  (norm_eps <= norm2 (pre (zero_mean o) y))%R ->
  a_len ref + filter_length o - 1 <= M -> a_len est <= M ->
  is_projection (filter_length o * n_chan ref) M
     (all_delays (n_chan ref) (fun c => pre (zero_mean o) (xs c))) (smp (pre (zero_mean o) y)) p ->
  is_projection (filter_length o) M (delays (pre (zero_mean o) (xs c))) (smp (pre (zero_mean o) y)) pk ->
  sq_cos b o ref est = Ok (m, sar) ->
  let '(nsdr, nsir, nsar) := bss_mats o (m, sar) in
  nsdr c d = dB (energy M (fun t => smp (pre (zero_mean o) y) t - pk t)%R) (energy M pk) /\
  nsar c d = dB (energy M (fun t => smp (pre (zero_mean o) y) t - p t)%R) (energy M p) /\
  (energy M p <> 0%R -> nsir c d = dB (energy M (fun t => p t - pk t)%R) (energy M pk)) /\
  (energy M p = 0%R -> nsir c d = NaN).
Proof. exact (sir_sar_projection b o ref est m sar c d xs y M p pk). Qed.
Print Assumptions C19_sir_sar_projection.
Example C19_example b : exists m sar, sq_cos b (plain_opts 2) ex_ref ex_est = Ok (m, sar) /\
  let '(nsdr, nsir, nsar) := bss_mats (plain_opts 2) (m, sar) in
  nsdr 0 0 = Fin (10 * log10 (3 / 5)) /\ nsir 0 0 = Fin (10 * log10 (2 / 5)) /\ nsar 0 0 = Fin (10 * log10 (1 / 7)).
Proof.
  destruct (ex_sq_cos_ok b) as [[m sar] H]. exists m, sar. split; auto.
  exact (ex_bss_mats b m sar 0 0 H ltac:(lia) ltac:(lia)).
Qed.

(** C20 *)
Theorem C20_sdr_range b o ref est m c d x y : wf ref -> wf est ->
  use_cg_iter o = None -> (0 <= loadv (load_diag o))%R ->
  (filter_length o = 1 -> a_len ref = a_len est) ->
  has_chan ref c x -> has_chan est d y ->
  sdr_coh b o ref est = Ok m ->
  exists q, mat_of m c d = Fin q /\ (0 <= q <= 1)%R.
Proof. exact (sdr_coh_unit_range b o ref est m c d x y). Qed.
Print Assumptions C20_sdr_range.
Theorem C20_sar_range b o ref est m sar d y xs : wf ref -> wf est ->
  use_cg_iter o = None -> (0 <= loadv (load_diag o))%R -> 1 <= filter_length o ->
  (filter_length o = 1 -> a_len ref = a_len est) ->
  has_chans ref xs -> has_chan est d y ->
  sq_cos b o ref est = Ok (m, sar) ->
  exists q, nth d sar NaN = Fin q /\ (0 <= q <= 1)%R.
Proof. exact (sar_coh_unit_range b o ref est m sar d y xs). Qed.
Print Assumptions C20_sar_range.
Theorem C20_no_nan b o ref est m c d x y : wf ref -> wf est ->
  has_chan ref c x -> has_chan est d y ->
  pairwise_sdr_loss b o est ref = Ok m -> mat_of m c d <> NaN.
Proof. exact (loss_not_nan b o ref est m c d x y). Qed.
Print Assumptions C20_no_nan.
Example C20_example b : wf ex_ref /\ wf ex_est /\ has_chans ex_ref exr /\ has_chan ex_est 0 (exe 0) /\
  is_ok (sq_cos b (plain_opts 2) ex_ref ex_est).
Proof.
  exact (conj ex_ref_wf (conj ex_est_wf (conj ex_ref_chans (conj (ex_est_chan 0 ltac:(lia)) (ex_sq_cos_ok b))))).
Qed.

(** C21 *)
Theorem C21_sdr_lowest b o ref est m sar c d y xs : wf ref -> wf est ->
  use_cg_iter o = None -> (0 <= loadv (load_diag o))%R ->
  2 <= filter_length o \/ (filter_length o = 1 /\ a_len ref = a_len est /\ loadv (load_diag o) = 0%R) ->
  has_chans ref xs -> c < n_chan ref -> has_chan est d y ->
  sq_cos b o ref est = Ok (m, sar) ->
  let '(nsdr, nsir, nsar) := bss_mats o (m, sar) in
  xle (nsar c d) (nsdr c d) /\ (nsir c d = NaN \/ xle (nsir c d) (nsdr c d)).
Proof. exact (sdr_le_sar_sir b o ref est m sar c d y xs). Qed.
Print Assumptions C21_sdr_lowest.
Theorem C21_outputs_ordered b sp o ref est xs ys s i a perm : lsa_contract sp -> wf ref -> wf est ->
  use_cg_iter o = None -> (0 <= loadv (load_diag o))%R ->
  2 <= filter_length o \/ (filter_length o = 1 /\ a_len ref = a_len est /\ loadv (load_diag o) = 0%R) ->
  has_chans ref xs -> has_chans est ys ->
  bss_eval_sources b sp o ref est = Ok (s, i, a, perm) ->
  le_out s a /\ le_out s i.
Proof. exact (bss_ordered b sp o ref est xs ys s i a perm). Qed.
Print Assumptions C21_outputs_ordered.
Example C21_example b sp : lsa_contract sp -> has_chans ex_ref exr /\ has_chans ex_est exe /\
  is_ok (bss_eval_sources b sp (plain_opts 2) ex_ref ex_est).
Proof. intros H. exact (conj ex_ref_chans (conj ex_est_chans (ex_intro _ _ (ex_bss b sp H)))). Qed.

(** C22 *)
Theorem C22_singular_iff b o ref est : wf ref ->
  use_cg_iter o = None -> (0 <= loadv (load_diag o))%R ->
  2 <= filter_length o <= Nat.max (a_len ref) (a_len est) ->
  (forall e, pairwise_sdr_loss b o est ref = Raise e -> e = LinAlgError) /\
  (raises (pairwise_sdr_loss b o est ref) <->
   loadv (load_diag o) = 0%R /\ exists c x, has_chan ref c x /\ silent (pre (zero_mean o) x)).
Proof. exact (loss_raises_iff b o ref est). Qed.
Print Assumptions C22_singular_iff.
Theorem C22_singular_iff_diag b o ref est : wf ref -> n_chan ref = n_chan est ->
  use_cg_iter o = None -> (0 <= loadv (load_diag o))%R ->
  2 <= filter_length o <= Nat.max (a_len ref) (a_len est) ->
  (forall e, sdr_loss b o est ref = Raise e -> e = LinAlgError) /\
  (raises (sdr_loss b o est ref) <->
   loadv (load_diag o) = 0%R /\ exists c x, has_chan ref c x /\ silent (pre (zero_mean o) x)).
Proof. exact (loss_diag_raises_iff b o ref est). Qed.
Print Assumptions C22_singular_iff_diag.
Theorem C22_loaded_never_raises b o ref est : wf ref ->
  use_cg_iter o = None -> (0 < loadv (load_diag o))%R ->
  2 <= filter_length o <= Nat.max (a_len ref) (a_len est) ->
  is_ok (pairwise_sdr_loss b o est ref).
Proof. exact (loss_never_raises_loaded b o ref est). Qed.
Print Assumptions C22_loaded_never_raises.
Example C22_example b : raises (pairwise_sdr_loss b (plain_opts 2) ex_est (rarr 5 [exr 0; [0; 0; 0; 0; 0]%R])).
Proof.
  apply (loss_raises_iff b (plain_opts 2)); [apply rarr_wf; [lia|repeat constructor]|reflexivity|simpl; lra|simpl; lia|].
  split; [reflexivity|]. exists 1, [0; 0; 0; 0; 0]%R. split; [split; [auto|reflexivity]|].
  intros [|[|[|[|[|[|t]]]]]]; reflexivity.
Qed.

(** C26 *)
Theorem C26_longer_filter b o ref est L L' m m' c d x y : wf ref -> wf est ->
  use_cg_iter o = None -> (0 <= loadv (load_diag o))%R ->
  1 <= L -> L <= L' ->
  (L = 1 -> a_len ref = a_len est /\ loadv (load_diag o) = 0%R) ->
  has_chan ref c x -> has_chan est d y ->
  pairwise_sdr_loss b (with_length o L) est ref = Ok m ->
  pairwise_sdr_loss b (with_length o L') est ref = Ok m' ->
  xle (mat_of m' c d) (mat_of m c d).
Proof. exact (sdr_length_mono b o ref est L L' m m' c d x y). Qed.
Print Assumptions C26_longer_filter.
Example C26_example b : is_ok (pairwise_sdr_loss b (with_length (plain_opts 2) 2) ex_est ex_ref) /\
  is_ok (pairwise_sdr_loss b (with_length (plain_opts 2) 5) ex_est ex_ref).
Proof. split; apply ex_pairwise_ok; lia. Qed.

(** C27 *)
Theorem C27_filtered_is_perfect b o ref est m c d x y M : wf ref -> wf est ->
  use_cg_iter o = None -> load_diag o = None ->
  1 <= filter_length o <= Nat.max (a_len ref) (a_len est) ->
  (filter_length o = 1 ->
     a_len ref = a_len est /\ (norm_eps <= norm2 (pre (zero_mean o) x))%R) ->
  has_chan ref c x -> has_chan est d y ->
  (norm_eps <= norm2 (pre (zero_mean o) y))%R ->
  a_len ref + filter_length o - 1 <= M -> a_len est <= M ->
  pairwise_sdr_loss b o est ref = Ok m ->
  let filtered := in_span (filter_length o) M (delays (pre (zero_mean o) x)) (smp (pre (zero_mean o) y)) in
  (clamp_db o = None -> (mat_of m c d = NInf <-> filtered)) /\
  (forall D, clamp_db o = Some D -> (0 <= D)%R -> filtered -> mat_of m c d = Fin (- D)).
Proof. exact (sdr_perfect b o ref est m c d x y M). Qed.
Print Assumptions C27_filtered_is_perfect.
Example C27_example : in_span 2 6 (delays (exr 1)) (smp [0; 0; 3; -2; 0]%R).
Proof.
  exists (fun k => if Nat.eqb k 0 then 3%R else (-2)%R). intros t Ht.
  destruct t as [|[|[|[|[|[|t]]]]]]; try lia; unfold delays, delayed, smp; simpl; ring.
Qed.

(** C28 *)
Theorem C28_fast_path b nf v w n : length v = n -> length w = n -> 0 < n -> n <= nf ->
  (norm_eps <= norm2 v)%R ->
  coh_row b None (stats_acf nf 1 (unit_of v)) (stats_xcorr nf 1 (unit_of v)) [Some (unit_of w)] =
  Ok [lift2 (fun a c => ip n a c ^ 2)%R (Some (unit_of v)) (Some (unit_of w))].
Proof. exact (fast_path_general b nf v w n). Qed.
Print Assumptions C28_fast_path.
Example C28_example : (norm_eps <= norm2 (exe 0))%R /\ length (exe 0) = 5 /\ 5 <= n_fft 5 5.
Proof. split; [exact (ex_est_norm 0 ltac:(lia))|split; [reflexivity|change (n_fft 5 5) with 16; lia]]. Qed.

(** the whole matrix, for every input: the branch taken for filter_length = 1 returns what the general
    branch (autocorrelation, cross-correlation, 1x1 solve) would *)
Theorem C28_fast_path_loss b o ref est : wf ref -> wf est -> filter_length o = 1 -> a_len ref = a_len est ->
  (forall c x, has_chan ref c x -> (norm_eps <= norm2 (pre (zero_mean o) x))%R) ->
  let nf := n_fft (a_len ref) (a_len est) in
  sdr_coh b o ref est =
  mapM (fun x : chan => match x with
    | None => Ok (map (fun _ => NaN) (prep_arr (zero_mean o) est))
    | Some v => coh_row b None (stats_acf nf 1 v) (stats_xcorr nf 1 v) (prep_arr (zero_mean o) est)
    end) (prep_arr (zero_mean o) ref).
Proof. exact (fast_path_loss b o ref est). Qed.
Print Assumptions C28_fast_path_loss.
Example C28_loss_example : filter_length (plain_opts 1) = 1 /\ a_len ex_ref = a_len ex_ref /\
  forall c x, has_chan ex_ref c x -> (norm_eps <= norm2 (pre (zero_mean (plain_opts 1)) x))%R.
Proof. exact (conj eq_refl (conj eq_refl ex_ref_norms)). Qed.

(** C29 *)
Theorem C29_load_ignored b sp o cs ref est ld : filter_length o = 1 ->
  pairwise_sdr_loss b (with_load o ld) est ref = pairwise_sdr_loss b o est ref /\
  sdr b sp (with_load o ld) cs ref est = sdr b sp o cs ref est.
Proof. exact (fun H => conj (len1_load_loss b o ref est ld H) (len1_load_sdr b sp o cs ref est ld H)). Qed.
Print Assumptions C29_load_ignored.
(** with filter_length = 1 and load_diag = 1: SDR = 30 dB, SAR = 0 dB *)
Theorem C29_ordering_refuted b : exists m sar,
  sq_cos b (Opts 1 None false (Some 30%R) (Some 1%R)) (rarr 1 [[1%R]]) (rarr 1 [[1%R]]) = Ok (m, sar) /\
  let '(nsdr, nsir, nsar) := bss_mats (Opts 1 None false (Some 30%R) (Some 1%R)) (m, sar) in
  nsdr 0 0 = Fin (- 30) /\ nsar 0 0 = Fin 0.
Proof. exact (len1_load_violates b). Qed.
Print Assumptions C29_ordering_refuted.

(** C30 *)
Theorem C30_diagonal b o ref est : n_chan ref = n_chan est ->
  sdr_loss b o est ref =
  do m <- pairwise_sdr_loss b o est ref; Ok (tab (n_chan ref) (fun i => mat_of m i i)).
Proof. exact (sdr_loss_diag b o ref est). Qed.
Print Assumptions C30_diagonal.
Theorem C30_mismatch b o ref est : n_chan ref <> n_chan est -> n_chan ref <> 1 -> n_chan est <> 1 ->
  sdr_loss b o est ref = Raise (shape_exn b).
Proof. exact (sdr_loss_mismatch b o ref est). Qed.
Print Assumptions C30_mismatch.
Theorem C30_bss_mismatch b o ref est : n_chan ref <> n_chan est ->
  bss_eval_sources_noperm b o ref est = Raise AssertionError.
Proof. exact (noperm_mismatch b o ref est). Qed.
Print Assumptions C30_bss_mismatch.
Theorem C30_bss_diagonal b o ref est : 0 < filter_length o -> use_cg_iter o = None -> n_chan ref = n_chan est ->
  bss_eval_sources_noperm b o ref est =
  do c <- sq_cos b o ref est;
  let '(nsdr, nsir, nsar) := bss_mats o c in
  Ok (tab (n_chan ref) (fun i => xneg (nsdr i i)), tab (n_chan ref) (fun i => xneg (nsir i i)),
      tab (n_chan ref) (fun i => xneg (nsar i i))).
Proof. exact (noperm_diag b o ref est). Qed.
Print Assumptions C30_bss_diagonal.
Example C30_example b : n_chan ex_ref = n_chan ex_est /\ is_ok (pairwise_sdr_loss b (plain_opts 2) ex_est ex_ref) /\
  is_ok (sq_cos b (plain_opts 2) ex_ref ex_est).
Proof. exact (conj eq_refl (conj (ex_pairwise_ok b 2 ltac:(lia)) (ex_sq_cos_ok b))). Qed.

(** C33 *)
Theorem C33_pit_is_negated b sp o ref est :
  sdr_pit_loss b sp o est ref =
    (do r <- sdr b sp o false ref est; Ok (map xneg (fst r))) /\
  (forall v p, sdr b sp o true ref est = Ok (v, p) <->
     exists v', sdr b sp o false ref est = Ok (v', p) /\ v = map xneg v').
Proof. exact (pit_is_neg_sdr b sp o ref est). Qed.
Print Assumptions C33_pit_is_negated.
Example C33_example b sp : lsa_contract sp -> is_ok (sdr b sp (plain_opts 2) false ex_ref ex_est).
Proof. intros H. exact (ex_intro _ _ (ex_sdr b sp H)). Qed.

(** C48 *)
Theorem C48_load_monotone b o ref est l1 l2 m1 m2 c d x y : wf ref -> wf est ->
  use_cg_iter o = None -> (0 <= loadv l1 <= loadv l2)%R -> 2 <= filter_length o ->
  has_chan ref c x -> has_chan est d y ->
  pairwise_sdr_loss b (with_load o l1) est ref = Ok m1 ->
  pairwise_sdr_loss b (with_load o l2) est ref = Ok m2 ->
  xle (mat_of m1 c d) (mat_of m2 c d).
Proof. exact (sdr_load_mono b o ref est l1 l2 m1 m2 c d x y). Qed.
Print Assumptions C48_load_monotone.
Example C48_example b : is_ok (pairwise_sdr_loss b (with_load (plain_opts 2) (Some 1%R)) ex_est ex_ref) /\
  is_ok (pairwise_sdr_loss b (with_load (plain_opts 2) None) ex_est ex_ref).
Proof.
  split; [|exact (ex_pairwise_ok b 2 ltac:(lia))].
  apply loss_never_raises_loaded; [exact ex_ref_wf|reflexivity|simpl; lra|simpl; lia].
Qed.

(** C49 *)
Theorem C49_sdr_of_bss b o ref est m sar : 0 < filter_length o ->
  sq_cos b o ref est = Ok (m, sar) -> sdr_coh b o ref est = Ok m.
Proof. exact (sq_cos_sdr' b o ref est m sar). Qed.
Print Assumptions C49_sdr_of_bss.
Example C49_example b : is_ok (sq_cos b (plain_opts 2) ex_ref ex_est).
Proof. exact (ex_sq_cos_ok b). Qed.

(** C53 *)
Theorem C53_bss_solvable_iff b o ref est xs : wf ref -> wf est ->
  use_cg_iter o = None -> loadv (load_diag o) = 0%R ->
  1 <= filter_length o <= Nat.max (a_len ref) (a_len est) ->
  (filter_length o = 1 -> a_len ref = a_len est) ->
  has_chans ref xs ->
  (forall e, sq_cos b o ref est = Raise e -> e = LinAlgError) /\
  (is_ok (sq_cos b o ref est) <->
   independent (filter_length o * n_chan ref) (a_len ref + filter_length o - 1)
     (all_delays (n_chan ref) (fun c => pre (zero_mean o) (xs c)))).
Proof. exact (bss_solvable_iff b o ref est xs). Qed.
Print Assumptions C53_bss_solvable_iff.
Theorem C53_too_short b sp o ref est xs : wf ref -> wf est ->
  use_cg_iter o = None -> loadv (load_diag o) = 0%R ->
  1 <= filter_length o <= Nat.max (a_len ref) (a_len est) ->
  (filter_length o = 1 -> a_len ref = a_len est) ->
  has_chans ref xs ->
  a_len ref + filter_length o - 1 < filter_length o * n_chan ref ->
  bss_eval_sources b sp o ref est = Raise LinAlgError.
Proof. exact (bss_too_short b sp o ref est xs). Qed.
Print Assumptions C53_too_short.
Theorem C53_duplicate_reference b sp o ref est xs i j : wf ref -> wf est ->
  use_cg_iter o = None -> loadv (load_diag o) = 0%R ->
  1 <= filter_length o <= Nat.max (a_len ref) (a_len est) ->
  (filter_length o = 1 -> a_len ref = a_len est) ->
  has_chans ref xs -> i < j -> j < n_chan ref -> xs i = xs j ->
  bss_eval_sources b sp o ref est = Raise LinAlgError.
Proof. exact (bss_duplicate b sp o ref est xs i j). Qed.
Print Assumptions C53_duplicate_reference.
Theorem C53_loaded_ok b o ref est xs : wf ref -> wf est ->
  use_cg_iter o = None -> (0 < loadv (load_diag o))%R ->
  1 <= filter_length o <= Nat.max (a_len ref) (a_len est) ->
  (filter_length o = 1 -> a_len ref = a_len est) ->
  has_chans ref xs -> is_ok (sq_cos b o ref est).
Proof. exact (bss_loaded_ok b o ref est xs). Qed.
Print Assumptions C53_loaded_ok.
Example C53_example : independent (2 * 2) (5 + 2 - 1) (all_delays 2 exr) /\ 5 + 5 - 1 < 5 * n_chan ex_ref.
Proof. split; [exact ex_shifts|simpl; lia]. Qed.
