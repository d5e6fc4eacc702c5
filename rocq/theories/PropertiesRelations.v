(** * Properties C67-C71: relations between the metrics and between inputs *)
From Coq Require Import Reals Lra.
From Verif Require Import Prelude ExtReal SpecSig Spec Sums Helpers HelpersProofs PermProofs Linalg Cgd Metrics StatsProofs
  PrepProofs MetricsProofs SarProofs MetricTheorems ProjTheorems Outputs Edge Solvability Witness SigExamples Relations
  Silence Remix Decompose Delay RelExamples.
Local Open Scope nat_scope.

(** C67 *)
Theorem C67_one_equation b sp o ref est xs ys s i a perm : lsa_contract sp -> wf ref -> wf est ->
  use_cg_iter o = None -> (0 <= loadv (load_diag o))%R -> clamp_db o = None ->
  2 <= filter_length o \/ (filter_length o = 1 /\ a_len ref = a_len est /\ loadv (load_diag o) = 0%R) ->
  has_chans ref xs -> has_chans est ys ->
  bss_eval_sources b sp o ref est = Ok (s, i, a, perm) ->
  length i = length s /\ length a = length s /\
  forall k, k < length s -> one_equation (nth k s NaN) (nth k i NaN) (nth k a NaN).
Proof. exact (bss_one_equation b sp o ref est xs ys s i a perm). Qed.
Print Assumptions C67_one_equation.
Theorem C67_power_form S I A : one_equation (Fin S) (Fin I) (Fin A) ->
  Rpower 10 (- S / 10) = (Rpower 10 (- I / 10) + Rpower 10 (- A / 10) +
                          Rpower 10 (- I / 10) * Rpower 10 (- A / 10))%R.
Proof. exact (sdr_from_sir_sar S I A). Qed.
Print Assumptions C67_power_form.
Theorem C67_near_min S I A : one_equation (Fin S) (Fin I) (Fin A) -> (0 <= I)%R -> (0 <= A)%R ->
  (Rmin I A - 10 * log10 3 <= S)%R.
Proof. exact (sdr_near_min S I A). Qed.
Print Assumptions C67_near_min.
Example C67_example sp : lsa_contract sp ->
  one_equation (Fin (- (10 * log10 (3 / 5)))) (Fin (- (10 * log10 (2 / 5)))) (Fin (- (10 * log10 (1 / 7)))).
Proof.
  intros Hsp. pose proof (ex_bss NumPy sp Hsp) as H.
  destruct (bss_one_equation NumPy sp (plain_opts 2) ex_ref ex_est exr exe _ _ _ _ Hsp ex_ref_wf ex_est_wf eq_refl
    ltac:(cbn; lra) eq_refl ltac:(left; cbn; lia) ex_ref_chans ex_est_chans H) as (_ & _ & E).
  exact (E 0 ltac:(cbn; lia)).
Qed.

(** C68: any solver, loading, clamping and permutation solver; samples may be non-finite *)
Theorem C68_silence_sdr b sp sg o ref est j kr ke : fits o ref est kr ke ->
  pairwise_sdr_loss b o (silence j ke est) (silence j kr ref) = pairwise_sdr_loss b o est ref /\
  sdr_loss b o (silence j ke est) (silence j kr ref) = sdr_loss b o est ref /\
  sdr b sp o sg (silence j kr ref) (silence j ke est) = sdr b sp o sg ref est /\
  sdr_pit_loss b sp o (silence j ke est) (silence j kr ref) = sdr_pit_loss b sp o est ref.
Proof.
  exact (fun F => match F with conj Hz (conj Wr (conj We (conj (conj H0 Hm) H1))) =>
    conj (silence_pairwise b o ref est j kr ke Hz Wr We H0 Hm H1)
   (conj (silence_sdr_loss b o ref est j kr ke Hz Wr We H0 Hm H1)
   (conj (silence_sdr b o ref est j kr ke Hz Wr We H0 Hm H1 sp sg)
         (silence_pit b o ref est j kr ke Hz Wr We H0 Hm H1 sp))) end).
Qed.
Print Assumptions C68_silence_sdr.
Theorem C68_silence_bss b sp o ref est j kr ke : fits o ref est kr ke ->
  bss_eval_sources b sp o (silence j kr ref) (silence j ke est) = bss_eval_sources b sp o ref est /\
  bss_eval_sources_noperm b o (silence j kr ref) (silence j ke est) = bss_eval_sources_noperm b o ref est.
Proof.
  exact (fun F => match F with conj Hz (conj Wr (conj We (conj (conj H0 Hm) H1))) =>
    conj (silence_bss b o ref est j kr ke Hz Wr We H0 Hm H1 sp)
         (silence_noperm b o ref est j kr ke Hz Wr We H0 Hm H1) end).
Qed.
Print Assumptions C68_silence_bss.
(** not so with the mean removed, nor for filters longer than the signals *)
Theorem C68_zero_mean_refuted b :
  exists o ref est m m', zero_mean o = true /\ wf ref /\ wf est /\ filter_length o <= a_len ref /\ a_len ref = a_len est /\
    pairwise_sdr_loss b o est ref = Ok m /\
    pairwise_sdr_loss b o (silence 0 1 est) (silence 0 1 ref) = Ok m' /\
    mat_of m 0 0 = NInf /\ mat_of m' 0 0 <> NInf.
Proof. exact (silence_zero_mean_refuted b). Qed.
Print Assumptions C68_zero_mean_refuted.
Theorem C68_long_filter_refuted b : exists o ref est, zero_mean o = false /\ wf ref /\ wf est /\
  a_len ref = a_len est /\ filter_length o = S (a_len ref) /\
  raises (sq_cos b o ref est) /\ is_ok (sq_cos b o (silence 0 1 ref) (silence 0 1 est)).
Proof. exact (silence_long_filter_refuted b). Qed.
Print Assumptions C68_long_filter_refuted.
Example C68_example b sp : lsa_contract sp ->
  bss_eval_sources b sp (plain_opts 2) (silence 3 1 ex_ref) (silence 3 7 ex_est) =
  Ok ([Fin (- (10 * log10 (3 / 5))); Fin (- (10 * log10 (2 / 5)))],
      [Fin (- (10 * log10 (2 / 5))); Fin (- (10 * log10 (1 / 5)))],
      [Fin (- (10 * log10 (1 / 7))); Fin (- (10 * log10 (1 / 6)))], [0; 1]).
Proof.
  intros Hsp. rewrite (silence_bss b (plain_opts 2) ex_ref ex_est 3 1 7 eq_refl ex_ref_wf ex_est_wf
    ltac:(cbn; lia) ltac:(cbn; lia) ltac:(cbn; lia)). exact (ex_bss b sp Hsp).
Qed.

(** C69 *)
Theorem C69_remix b sp o ref ref' est s i a perm s' i' a' perm' xs xs' ys k k' c c' d :
  lsa_contract sp -> wf ref -> wf ref' -> wf est ->
  use_cg_iter o = None -> load_diag o = None -> a_len ref = a_len ref' ->
  1 <= filter_length o <= Nat.max (a_len ref) (a_len est) ->
  (filter_length o = 1 -> a_len ref = a_len est) ->
  has_chans ref xs -> has_chans ref' xs' -> has_chans est ys ->
  mixes (n_chan ref) xs (n_chan ref') xs' -> mixes (n_chan ref') xs' (n_chan ref) xs ->
  bss_eval_sources b sp o ref est = Ok (s, i, a, perm) ->
  bss_eval_sources b sp o ref' est = Ok (s', i', a', perm') ->
  k < length s -> k' < length s' ->
  nth k (matching (n_chan ref) (n_chan est) perm) (0, 0) = (c, d) ->
  nth k' (matching (n_chan ref') (n_chan est) perm') (0, 0) = (c', d) ->
  nth k a NaN = nth k' a' NaN.
Proof. exact (bss_remix b sp o ref ref' est s i a perm s' i' a' perm' xs xs' ys k k' c c' d). Qed.
Print Assumptions C69_remix.
Theorem C69_remix_coherence b o ref ref' est m sar m' sar' d xs xs' y : wf ref -> wf ref' -> wf est ->
  use_cg_iter o = None -> load_diag o = None -> a_len ref = a_len ref' -> 0 < n_chan ref -> 0 < n_chan ref' ->
  1 <= filter_length o <= Nat.max (a_len ref) (a_len est) ->
  (filter_length o = 1 -> a_len ref = a_len est) ->
  has_chans ref xs -> has_chans ref' xs' -> has_chan est d y ->
  mixes (n_chan ref) xs (n_chan ref') xs' -> mixes (n_chan ref') xs' (n_chan ref) xs ->
  sq_cos b o ref est = Ok (m, sar) -> sq_cos b o ref' est = Ok (m', sar') ->
  nth d sar NaN = nth d sar' NaN.
Proof. exact (sar_remix b o ref ref' est m sar m' sar' d xs xs' y). Qed.
Print Assumptions C69_remix_coherence.
Theorem C69_more_references b sp o ref ref' est s i a perm s' i' a' perm' xs xs' ys k k' c d :
  lsa_contract sp -> wf ref -> wf ref' -> wf est ->
  use_cg_iter o = None -> (0 <= loadv (load_diag o))%R ->
  2 <= filter_length o \/ (filter_length o = 1 /\ a_len ref = a_len est /\ loadv (load_diag o) = 0%R) ->
  has_chans ref xs -> has_chans ref' xs' -> has_chans est ys -> extends ref ref' xs xs' ->
  bss_eval_sources b sp o ref est = Ok (s, i, a, perm) ->
  bss_eval_sources b sp o ref' est = Ok (s', i', a', perm') ->
  k < length s -> k' < length s' ->
  nth k (matching (n_chan ref) (n_chan est) perm) (0, 0) = (c, d) ->
  nth k' (matching (n_chan ref') (n_chan est) perm') (0, 0) = (c, d) ->
  nth k' s' NaN = nth k s NaN /\ xle (nth k' i' NaN) (nth k i NaN) /\ xle (nth k a NaN) (nth k' a' NaN).
Proof. exact (bss_more_refs b sp o ref ref' est s i a perm s' i' a' perm' xs xs' ys k k' c d). Qed.
Print Assumptions C69_more_references.
Example C69_remix_example b : mixes (n_chan ex_ref) exr (n_chan mix_ref) mixr /\ mixes (n_chan mix_ref) mixr (n_chan ex_ref) exr /\
  has_chans mix_ref mixr /\ is_ok (sq_cos b (plain_opts 2) ex_ref ex_est) /\ is_ok (sq_cos b (plain_opts 2) mix_ref ex_est).
Proof. exact (conj (proj1 mix_mixes) (conj (proj2 mix_mixes) (conj mix_chans (conj (ex_sq_cos_ok b) (mix_ok b))))). Qed.
Example C69_more_example b : extends ex_ref more_ref exr morer /\ has_chans more_ref morer /\
  is_ok (sq_cos b (plain_opts 2) more_ref ex_est).
Proof. exact (conj more_extends (conj more_chans (more_ok b))). Qed.

(** C70 *)
Theorem C70_decomposition b sp o ref est xs ys S I A perm k c d M : lsa_contract sp -> wf ref -> wf est ->
  use_cg_iter o = None -> load_diag o = None -> clamp_db o = None ->
  1 <= filter_length o <= Nat.max (a_len ref) (a_len est) ->
  (filter_length o = 1 -> a_len ref = a_len est /\ (norm_eps <= norm2 (pre (zero_mean o) (xs c)))%R) ->
  has_chans ref xs -> has_chans est ys -> (norm_eps <= norm2 (pre (zero_mean o) (ys d)))%R ->
  a_len ref + filter_length o - 1 <= M -> a_len est <= M ->
  bss_eval_sources b sp o ref est = Ok (S, I, A, perm) ->
  k < length S -> nth k (matching (n_chan ref) (n_chan est) perm) (0, 0) = (c, d) ->
  let D := decomposition (n_chan ref) (filter_length o) M (fun c => pre (zero_mean o) (xs c)) c
             (smp (pre (zero_mean o) (ys d))) in
  (exists s i a, D s i a) /\
  forall s i a, D s i a ->
    nth k S NaN = dB (energy M s) (energy M (fun t => i t + a t)%R) /\
    nth k I NaN = dB (energy M s) (energy M i) /\
    nth k A NaN = dB (energy M (fun t => s t + i t)%R) (energy M a).
Proof. exact (bss_is_decomposition b sp o ref est xs ys S I A perm k c d M). Qed.
Print Assumptions C70_decomposition.
Theorem C70_unique K L M xs c y s i a s' i' a' : c < K ->
  decomposition K L M xs c y s i a -> decomposition K L M xs c y s' i' a' ->
  forall t, t < M -> s t = s' t /\ i t = i' t /\ a t = a' t.
Proof. exact (decomposition_unique K L M xs c y s i a s' i' a'). Qed.
Print Assumptions C70_unique.
Theorem C70_energies_add K L M xs c y s i a : c < K -> decomposition K L M xs c y s i a ->
  energy M y = (energy M s + energy M i + energy M a)%R /\
  energy M (fun t => i t + a t)%R = (energy M i + energy M a)%R /\
  energy M (fun t => s t + i t)%R = (energy M s + energy M i)%R.
Proof. exact (decomposition_energy K L M xs c y s i a). Qed.
Print Assumptions C70_energies_add.
Example C70_example b sp : lsa_contract sp ->
  decomposition 2 2 6 exr 0 (smp (exe 0))
    (smp [2; 1; 0; 0; 0; 0]%R) (smp [0; 0; 1; 1; 0; 0]%R) (smp [0; 0; 0; 0; 1; 0]%R) /\
  exists S I A perm, bss_eval_sources b sp (plain_opts 2) ex_ref ex_est = Ok (S, I, A, perm) /\
    nth 0 (matching 2 2 perm) (0, 0) = (0, 0) /\ 0 < length S.
Proof.
  intros Hsp. split; [exact ex_decomposition|]. do 4 eexists. split; [exact (ex_bss b sp Hsp)|]. split; [reflexivity|cbn; lia].
Qed.

(** C71 *)
Theorem C71_longer_filter_undoes_delay b o ref est k m m' c d x y j : wf ref -> wf est ->
  use_cg_iter o = None -> (0 <= loadv (load_diag o))%R -> zero_mean o = false ->
  2 <= filter_length o <= Nat.max (a_len ref) (a_len est) ->
  j + filter_length o <= Nat.max (a_len ref) (j + a_len est + k) ->
  has_chan ref c x -> has_chan est d y ->
  pairwise_sdr_loss b o est ref = Ok m ->
  pairwise_sdr_loss b (with_length o (j + filter_length o)) (silence j k est) ref = Ok m' ->
  xle (mat_of m' c d) (mat_of m c d).
Proof. exact (delay_mono b o ref est k m m' c d x y j). Qed.
Print Assumptions C71_longer_filter_undoes_delay.
Theorem C71_delayed_copy_perfect b o ref est m c d x j k : wf ref -> wf est ->
  use_cg_iter o = None -> load_diag o = None -> zero_mean o = false ->
  filter_length o <= Nat.max (a_len ref) (a_len est) ->
  (filter_length o = 1 -> a_len ref = a_len est) ->
  j < filter_length o -> has_chan ref c x -> has_chan est d (repeat 0%R j ++ x ++ repeat 0%R k) ->
  (norm_eps <= norm2 x)%R ->
  pairwise_sdr_loss b o est ref = Ok m ->
  (clamp_db o = None -> mat_of m c d = NInf) /\
  (forall D, clamp_db o = Some D -> (0 <= D)%R -> mat_of m c d = Fin (- D)).
Proof. exact (delayed_copy b o ref est m c d x j k). Qed.
Print Assumptions C71_delayed_copy_perfect.
Theorem C71_out_of_reach b o ref est m c d x y : wf ref -> wf est ->
  1 <= filter_length o <= Nat.max (a_len ref) (a_len est) ->
  (filter_length o = 1 -> a_len ref = a_len est) -> zero_mean o = false ->
  (forall D, clamp_db o = Some D -> 0 <= D)%R ->
  has_chan ref c x -> has_chan est d y ->
  too_late (filter_length o) x y \/ too_early x y ->
  pairwise_sdr_loss b o est ref = Ok m -> mat_of m c d = worst_loss o.
Proof. exact (out_of_reach b o ref est m c d x y). Qed.
Print Assumptions C71_out_of_reach.
(** a delay of exactly filter_length samples, or an advance of one, is not forgiven *)
Theorem C71_late_refuted b L : 1 <= L -> exists ref est m x, wf ref /\ wf est /\ a_len ref = a_len est /\ L <= a_len ref /\
  has_chan ref 0 (x ++ repeat 0%R L) /\ has_chan est 0 (repeat 0%R L ++ x) /\
  pairwise_sdr_loss b (plain_opts L) est ref = Ok m /\ mat_of m 0 0 = PInf.
Proof. exact (late_refuted b L). Qed.
Print Assumptions C71_late_refuted.
Theorem C71_early_refuted b L : 1 <= L -> exists ref est m x, wf ref /\ wf est /\ a_len ref = a_len est /\ L <= a_len ref /\
  has_chan ref 0 (0%R :: x) /\ has_chan est 0 (x ++ [0%R]) /\
  pairwise_sdr_loss b (plain_opts L) est ref = Ok m /\ mat_of m 0 0 = PInf.
Proof. exact (early_refuted b L). Qed.
Print Assumptions C71_early_refuted.
Example C71_example b : is_ok (pairwise_sdr_loss b (plain_opts 2) ex_est ex_ref) /\
  too_late 2 [3; 1]%R [0; 0; 0; 5; 4]%R /\ too_early [0; 0; 7; 1]%R [2; 9; 0; 0]%R.
Proof.
  split; [exact (ex_pairwise_ok b 2 ltac:(lia))|]. split.
  - intros t Ht. cbn in Ht. destruct t as [|[|[|t]]]; [reflexivity|reflexivity|reflexivity|lia].
  - exists 2. split; intros t Ht; destruct t as [|[|[|[|[|t]]]]]; try lia; reflexivity.
Qed.
