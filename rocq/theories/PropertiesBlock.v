(** * Properties C64-C66: the iterative solver of bss_eval_sources *)
From Coq Require Import Reals Lra.
From Verif Require Import Prelude ExtReal SpecSig Spec Sums Helpers Linalg LinalgProofs Cgd Metrics StatsProofs LeastSq PrepProofs
  MetricsProofs SarProofs MetricTheorems CgdPrecond CgProofs CgCirc Cells CgTheorems ProjTheorems Invariance Witness SigExamples
  CgRateExamples Glue Symmetry Solvability BlockCg BlockRate BlockGlue BlockExamples BlockWitness.
Local Open Scope nat_scope.

(** C64: which inputs make the block preconditioner fail *)
Theorem C64_raises_iff b o it ref est xs : wf ref -> wf est -> loadv (load_diag o) = 0%R ->
  2 <= filter_length o <= Nat.max (a_len ref) (a_len est) -> has_chans ref xs ->
  (forall e, sq_cos b (with_cg o (Some it)) ref est = Raise e -> e = LinAlgError) /\
  (is_ok (sq_cos b (with_cg o (Some it)) ref est) <->
   independent (n_chan ref) (a_len ref) (fun c => smp (pre (zero_mean o) (xs c)))).
Proof. exact (block_cg_raises b o it ref est xs). Qed.
Print Assumptions C64_raises_iff.
Theorem C64_loaded_ok b o it ref est xs : wf ref -> wf est -> (0 < loadv (load_diag o))%R ->
  2 <= filter_length o <= Nat.max (a_len ref) (a_len est) -> has_chans ref xs ->
  is_ok (sq_cos b (with_cg o (Some it)) ref est).
Proof. exact (block_cg_loaded b o it ref est xs). Qed.
Print Assumptions C64_loaded_ok.
Theorem C64_no_worse_than_direct b o it ref est xs : wf ref -> wf est -> (0 <= loadv (load_diag o))%R ->
  2 <= filter_length o <= Nat.max (a_len ref) (a_len est) -> has_chans ref xs ->
  is_ok (sq_cos b (with_cg o None) ref est) -> is_ok (sq_cos b (with_cg o (Some it)) ref est).
Proof. exact (block_cg_no_worse b o it ref est xs). Qed.
Print Assumptions C64_no_worse_than_direct.
Theorem C64_duplicate b sp o it ref est xs i j : wf ref -> wf est -> loadv (load_diag o) = 0%R ->
  2 <= filter_length o <= Nat.max (a_len ref) (a_len est) -> has_chans ref xs ->
  i < j -> j < n_chan ref -> xs i = xs j ->
  bss_eval_sources b sp (with_cg o (Some it)) ref est = Raise LinAlgError.
Proof. exact (bss_cg_duplicate b sp o it ref est xs i j). Qed.
Print Assumptions C64_duplicate.
Theorem C64_too_many b sp o it ref est xs : wf ref -> wf est -> loadv (load_diag o) = 0%R ->
  2 <= filter_length o <= Nat.max (a_len ref) (a_len est) -> has_chans ref xs ->
  a_len ref < n_chan ref ->
  bss_eval_sources b sp (with_cg o (Some it)) ref est = Raise LinAlgError.
Proof. exact (bss_cg_too_many b sp o it ref est xs). Qed.
Print Assumptions C64_too_many.
(** short signals: the direct solver refuses what the iterative one accepts *)
Theorem C64_short b sp o it ref est xs : wf ref -> wf est -> loadv (load_diag o) = 0%R ->
  2 <= filter_length o <= Nat.max (a_len ref) (a_len est) -> has_chans ref xs ->
  a_len ref + filter_length o - 1 < filter_length o * n_chan ref ->
  independent (n_chan ref) (a_len ref) (fun c => smp (pre (zero_mean o) (xs c))) ->
  bss_eval_sources b sp (with_cg o None) ref est = Raise LinAlgError /\
  is_ok (sq_cos b (with_cg o (Some it)) ref est).
Proof. exact (bss_cg_short b sp o it ref est xs). Qed.
Print Assumptions C64_short.
Example C64_short_example : wf short_ref /\ has_chans short_ref shr /\
  2 <= filter_length (plain_opts 2) <= Nat.max (a_len short_ref) (a_len short_ref) /\
  a_len short_ref + filter_length (plain_opts 2) - 1 < filter_length (plain_opts 2) * n_chan short_ref /\
  independent (n_chan short_ref) (a_len short_ref) (fun c => smp (pre (zero_mean (plain_opts 2)) (shr c))).
Proof. exact short_example. Qed.
Example C64_duplicate_example b sp it : bss_eval_sources b sp (with_cg (plain_opts 2) (Some it))
  (rarr 3 [[1; 2; 3]; [0; 1; 0]; [1; 2; 3]]%R) (rarr 3 [[1; 2; 3]; [0; 1; 0]; [1; 1; 1]]%R) = Raise LinAlgError.
Proof.
  apply (bss_cg_duplicate b sp (plain_opts 2) it _ _ (fun c => nth c [[1; 2; 3]; [0; 1; 0]; [1; 2; 3]]%R []) 0 2).
  - apply rarr_wf; [lia|repeat constructor].
  - apply rarr_wf; [lia|repeat constructor].
  - reflexivity.
  - simpl; lia.
  - intros c Hc. change (c < 3) in Hc. destruct c as [|[|[|c]]]; try reflexivity. lia.
  - lia.
  - change (2 < 3). lia.
  - reflexivity.
Qed.

(** C65: enough iterations with the safeguards inactive give the direct result *)
Theorem C65_exact b sp o it ref est xs : wf ref -> wf est -> (0 <= loadv (load_diag o))%R ->
  2 <= filter_length o <= Nat.max (a_len ref) (a_len est) -> has_chans ref xs ->
  0 < n_chan ref -> filter_length o * n_chan ref <= it ->
  never_guarded o ref est (filter_length o) ->
  block_never_guarded true o it ref est (filter_length o * n_chan ref) ->
  is_ok (sq_cos b (with_cg o None) ref est) ->
  bss_eval_sources b sp (with_cg o (Some it)) ref est = bss_eval_sources b sp (with_cg o None) ref est.
Proof. exact (bss_cg_exact b sp o it ref est xs). Qed.
Print Assumptions C65_exact.
Theorem C65_exact_noperm b o it ref est xs : wf ref -> wf est -> (0 <= loadv (load_diag o))%R ->
  2 <= filter_length o <= Nat.max (a_len ref) (a_len est) -> has_chans ref xs ->
  0 < n_chan ref -> filter_length o * n_chan ref <= it ->
  never_guarded o ref est (filter_length o) ->
  block_never_guarded false o it ref est (filter_length o * n_chan ref) ->
  is_ok (sq_cos b (with_cg o None) ref est) ->
  bss_eval_sources_noperm b (with_cg o (Some it)) ref est = bss_eval_sources_noperm b (with_cg o None) ref est.
Proof. exact (noperm_cg_exact b o it ref est xs). Qed.
Print Assumptions C65_exact_noperm.
Example C65_exact_example b pw it n : (pw = true -> 2 <= it) ->
  never_guarded (plain_opts 2) ex_ref ex_est n /\ block_never_guarded pw (plain_opts 2) it ex_ref ex_est n /\
  has_chans ex_ref exr /\ is_ok (sq_cos b (with_cg (plain_opts 2) None) ex_ref ex_est).
Proof. exact (ex_block_ok b pw it n). Qed.

(** any number of iterations, no condition on the safeguards *)
Theorem C65_sar_bounded b o it ref est xs m s m' s' d y : wf ref -> wf est -> (0 <= loadv (load_diag o))%R ->
  2 <= filter_length o <= Nat.max (a_len ref) (a_len est) -> has_chans ref xs -> has_chan est d y ->
  sq_cos b (with_cg o (Some it)) ref est = Ok (m, s) -> sq_cos b (with_cg o None) ref est = Ok (m', s') ->
  exists q q', nth d s NaN = Fin q /\ nth d s' NaN = Fin q' /\ (0 <= q' <= 1)%R /\
    ((q - q') ^ 2 <= q' * (2 * INR (n_chan ref) - 1) ^ 2)%R.
Proof. exact (sar_stable b o it ref est xs m s m' s' d y). Qed.
Print Assumptions C65_sar_bounded.
Theorem C65_sar_rate b o it ref est xs m s m' s' d y mu Lam : wf ref -> wf est -> (0 <= loadv (load_diag o))%R ->
  2 <= filter_length o <= Nat.max (a_len ref) (a_len est) -> has_chans ref xs -> has_chan est d y ->
  sq_cos b (with_cg o (Some it)) ref est = Ok (m, s) -> sq_cos b (with_cg o None) ref est = Ok (m', s') ->
  (0 < mu)%R -> (mu <= Lam)%R ->
  block_between b (n_chan ref) (filter_length o) (sar_acf (n_fft (a_len ref) (a_len est)) (filter_length o)
    (load_diag o) (prep_arr (zero_mean o) ref)) mu Lam ->
  exists q q', nth d s NaN = Fin q /\ nth d s' NaN = Fin q' /\
    ((q - q') ^ 2 <= q' * Rmax (2 * (1 - sqrt (mu / Lam)) ^ it * (2 * INR (n_chan ref) - 1) ^ 2)
      (/ 10 ^ 6 / (mu * Rmin 1 mu)))%R.
Proof. exact (sar_rate_total b o it ref est xs m s m' s' d y mu Lam). Qed.
Print Assumptions C65_sar_rate.
Theorem C65_sar_rate_noperm b o it ref est xs m s m' s' d y mu Lam : wf ref -> wf est -> (0 <= loadv (load_diag o))%R ->
  2 <= filter_length o <= Nat.max (a_len ref) (a_len est) -> has_chans ref xs -> has_chan est d y ->
  n_chan ref = n_chan est ->
  sq_cos_diag b (with_cg o (Some it)) ref est = Ok (m, s) -> sq_cos_diag b (with_cg o None) ref est = Ok (m', s') ->
  (0 < mu)%R -> (mu <= Lam)%R ->
  block_between b (n_chan ref) (filter_length o) (sar_acf (n_fft (a_len ref) (a_len est)) (filter_length o)
    (load_diag o) (prep_arr (zero_mean o) ref)) mu Lam ->
  exists q q', nth d s NaN = Fin q /\ nth d s' NaN = Fin q' /\
    ((q - q') ^ 2 <= q' * Rmax (2 * (1 - sqrt (mu / Lam)) ^ it * q') (/ 10 ^ 6 / (mu * Rmin 1 mu)))%R.
Proof. exact (sar_rate_noperm b o it ref est xs m s m' s' d y mu Lam). Qed.
Print Assumptions C65_sar_rate_noperm.
(** with diagonal loading, in terms of the sizes only *)
Theorem C65_sar_loaded b o it ref est xs m s m' s' d y lam : wf ref -> wf est ->
  load_diag o = Some lam -> (0 < lam)%R -> 0 < n_chan ref ->
  2 <= filter_length o <= Nat.max (a_len ref) (a_len est) -> has_chans ref xs -> has_chan est d y ->
  sq_cos b (with_cg o (Some it)) ref est = Ok (m, s) -> sq_cos b (with_cg o None) ref est = Ok (m', s') ->
  let N := INR (filter_length o * n_chan ref) in
  exists q q', nth d s NaN = Fin q /\ nth d s' NaN = Fin q' /\
    ((q - q') ^ 2 <= q' * Rmax (2 * (1 - lam / (N + lam)) ^ it * (2 * INR (n_chan ref) - 1) ^ 2)
      (/ 10 ^ 6 * ((N + lam) / lam) ^ 2))%R.
Proof. exact (sar_load_total b o it ref est xs m s m' s' d y lam). Qed.
Print Assumptions C65_sar_loaded.
Example C65_rate_example b : n_fft (a_len ex_ref) (a_len ex_est) = 16 /\
  block_between b 2 2 (sar_acf 16 2 None (prep_arr false ex_ref)) 1 1 /\
  is_ok (sq_cos b (with_cg (plain_opts 2) None) ex_ref ex_est).
Proof. exact (ex_block_between b). Qed.
Example C65_loaded_example b it : is_ok (sq_cos b (with_cg ex_load (Some it)) ex_ref ex_est) /\
  is_ok (sq_cos b (with_cg ex_load None) ex_ref ex_est) /\ has_chans ex_ref exr /\ has_chan ex_est 1 (exe 1).
Proof. exact (ex_block_load b it). Qed.

(** C66: the range of the SAR coherence (C20) and the order SDR <= SIR (C21) fail with one iteration,
    for references [1;0;0], [8000;0;15999999], both estimates [1;0;0] and filter_length = 2 *)
Theorem C66_sar_range_refuted b : exists ref est m s q, wf ref /\ wf est /\
  (forall c, c < n_chan ref -> exists x, has_chan ref c x) /\ (forall d, d < n_chan est -> exists y, has_chan est d y) /\
  sq_cos b (with_cg (plain_opts 2) (Some 1)) ref est = Ok (m, s) /\ nth 0 s NaN = Fin q /\ (1 < q)%R.
Proof. exact (sar_range_fails b). Qed.
Print Assumptions C66_sar_range_refuted.
Theorem C66_order_refuted b sp : lsa_contract sp -> exists ref est s i a perm, wf ref /\ wf est /\
  (forall c, c < n_chan ref -> exists x, has_chan ref c x) /\ (forall d, d < n_chan est -> exists y, has_chan est d y) /\
  bss_eval_sources b sp (with_cg (plain_opts 2) (Some 1)) ref est = Ok (s, i, a, perm) /\ ~ le_out s i.
Proof. exact (order_fails b sp). Qed.
Print Assumptions C66_order_refuted.
