(** * Properties of the API layer and of the dB mapping in floating point
      (C34, C35, C46, C47, C50, C54) *)
From Coq Require Import Reals Lra.
From Verif Require Import Prelude ExtReal Helpers Linalg Metrics Api ApiProofs DbFloat.
From Flocq Require Import Core BinarySingleNaN.
Local Open Scope nat_scope.

(** C34 *)
Theorem C34_si_sdr_loss b zm cd est ref cg ld :
  si_sdr_loss b zm cd est ref = sdr_loss b (Opts 1 cg zm cd ld) est ref.
Proof. exact (si_sdr_loss_len1 b zm cd est ref cg ld). Qed.
Print Assumptions C34_si_sdr_loss.
Theorem C34_pairwise_si_sdr_loss b zm cd est ref cg ld :
  pairwise_si_sdr_loss b zm cd est ref = pairwise_sdr_loss b (Opts 1 cg zm cd ld) est ref.
Proof. exact (pairwise_si_len1 b zm cd est ref cg ld). Qed.
Print Assumptions C34_pairwise_si_sdr_loss.
Theorem C34_si_sdr b sp zm cd cs ref est cg ld :
  si_sdr b sp zm cd cs ref est = sdr b sp (Opts 1 cg zm cd ld) cs ref est.
Proof. exact (si_sdr_len1 b sp zm cd cs ref est cg ld). Qed.
Print Assumptions C34_si_sdr.
Theorem C34_si_sdr_pit_loss b sp zm cd est ref cg ld :
  si_sdr_pit_loss b sp zm cd est ref = sdr_pit_loss b sp (Opts 1 cg zm cd ld) est ref.
Proof. exact (si_pit_len1 b sp zm cd est ref cg ld). Qed.
Print Assumptions C34_si_sdr_pit_loss.
Theorem C34_si_bss_eval_sources b sp zm cd ld ref est cg :
  si_bss_eval_sources b sp zm cd ld ref est = bss_eval_sources b sp (Opts 1 cg zm cd ld) ref est /\
  si_bss_eval_sources_noperm b zm cd ld ref est
    = bss_eval_sources_noperm b (Opts 1 cg zm cd ld) ref est.
Proof. exact (conj (si_bss_len1 b sp zm cd ld ref est cg) (si_bss_noperm_len1 b zm cd ld ref est cg)). Qed.
Print Assumptions C34_si_bss_eval_sources.

(** C35 *)
Theorem C35_torch_installed e f ref est : is_ok (import_package e) -> torch_usable e ->
  (run e f ref est = Ok Torch <-> first_arg f ref est = KTensor) /\
  (run e f ref est = Ok NumPy <-> first_arg f ref est = KOther).
Proof. exact (run_torch_iff e f ref est). Qed.
Print Assumptions C35_torch_installed.
Theorem C35_no_torch e f ref est : is_ok (import_package e) -> ~ torch_usable e ->
  (needs_torch f -> run e f ref est = Raise AttributeError) /\
  (~ needs_torch f -> run e f ref est = Ok NumPy).
Proof. exact (run_no_torch e f ref est). Qed.
Print Assumptions C35_no_torch.
(** torch before 1.8 without torch_complex: the import succeeds silently, and a call with
    tensors is given to the numpy backend. *)
Theorem C35_old_torch e ref est :
  e_numpy e = true -> e_scipy e = true -> e_packaging e = true ->
  e_torch e = Some false -> e_torch_complex e = false -> run e F_sdr ref est = Ok NumPy.
Proof. exact (old_torch_silent e ref est). Qed.
Print Assumptions C35_old_torch.
(** Numpy and scipy only: si_sdr does not work. *)
Example C35_example :
  let e := Env true true None false false false in
  is_ok (import_package e) /\ ~ torch_usable e /\ needs_torch F_si_sdr /\
  run e F_si_sdr KOther KOther = Raise AttributeError /\ run e F_sdr KOther KOther = Ok NumPy.
Proof.
  cbn. repeat split; try discriminate; try reflexivity; [now eexists|].
  intros [H|[H _]]; discriminate H.
Qed.
(** torch 2, mixed arguments: the loss functions look at est, the others at ref. *)
Example C35_mixed :
  let e := Env true true (Some true) true true false in
  is_ok (import_package e) /\ torch_usable e /\
  run e F_sdr KTensor KOther = Ok Torch /\ run e F_sdr_loss KTensor KOther = Ok NumPy.
Proof. cbn. repeat split; [now eexists|now left]. Qed.

(** C46 *)
Theorem C46_numpy_sdr np2 o ref est : d_len1 o = true \/ d_cg o = None ->
  np_sdr_dtype np2 o ref est = match ref, est with F32, F32 => F32 | _, _ => F64 end.
Proof. exact (np_sdr_default np2 o ref est). Qed.
Print Assumptions C46_numpy_sdr.
Theorem C46_numpy_bss np2 pw o ref est :
  (d_len1 o = true /\ d_load o = false) \/ (d_len1 o = false /\ d_cg o = None) ->
  let d := match ref, est with F32, F32 => F32 | _, _ => F64 end in
  np_bss_dtype np2 pw o ref est = (d, d, d).
Proof. exact (np_bss_default np2 pw o ref est). Qed.
Print Assumptions C46_numpy_bss.
Theorem C46_numpy_cg_double np2 pw o k ref est : d_len1 o = false -> d_cg o = Some (S k) ->
  np_sdr_dtype np2 o ref est = F64 /\ np_bss_dtype np2 pw o ref est = (F64, F64, F64).
Proof. exact (fun H1 H2 => conj (np_sdr_cg np2 o k ref est H1 H2) (np_bss_cg np2 pw o k ref est H1 H2)). Qed.
Print Assumptions C46_numpy_cg_double.
Theorem C46_numpy_si_load_double np2 pw o : d_len1 o = true -> d_load o = true ->
  np_bss_dtype np2 pw o F32 F32 = (F32, F64, F64).
Proof. exact (np_si_bss_load np2 pw o). Qed.
Print Assumptions C46_numpy_si_load_double.
Theorem C46_torch pw o d : d = F32 \/ d = F64 ->
  t_sdr_dtype F32 pw o d d = Ok d /\ t_bss_dtype F32 pw o d d = Ok (d, d, d).
Proof. exact (fun H => conj (t_sdr_keep pw o d H) (t_bss_keep pw o d H)). Qed.
Print Assumptions C46_torch.
(** Integer tensors, and float32 tensors under a float64 default type, raise. *)
Theorem C46_torch_raises dd pw o est k :
  t_sdr_dtype dd pw o I est = Raise RuntimeError /\
  (d_len1 o = false -> d_cg o = Some k -> t_sdr_dtype F64 pw o F32 F32 = Raise RuntimeError).
Proof. exact (conj (t_int_raises dd pw o est) (t_cg_default64 pw o k)). Qed.
Print Assumptions C46_torch_raises.
Example C46_example :
  np_sdr_dtype false (DOpts false (Some 10) false false) F32 F32 = F64 /\
  np_sdr_dtype false (DOpts false None false true) F32 F32 = F32 /\
  np_sdr_dtype true (DOpts false None true false) I F32 = F64.
Proof. repeat split. Qed.

(** C47: any IEEE binary format, any rounding mode, any log10 that is defined on
    non-negative floats; the bounds of the clamp are 0 and 1 when clamp_db is None. *)
Theorem C47_no_nan (prec emax : Z) (Hp : Prec_gt_0 prec) (He : Prec_lt_emax prec emax)
    md ten flog10 lo hi x :
  pos_const prec emax ten -> log10_defined prec emax flog10 -> clamp_bounds prec emax lo hi ->
  is_nan x = false -> x <> B754_zero true ->
  is_nan (fneg_sdr prec emax _ _ md ten flog10 lo hi x) = false.
Proof. exact (fneg_sdr_not_nan prec emax _ _ md ten flog10 lo hi x). Qed.
Print Assumptions C47_no_nan.
Theorem C47_no_nan_clamped (prec emax : Z) (Hp : Prec_gt_0 prec) (He : Prec_lt_emax prec emax)
    md ten flog10 lo hi x :
  pos_const prec emax ten -> log10_defined prec emax flog10 -> clamp_bounds prec emax lo hi ->
  (0 < B2R lo)%R -> is_nan x = false ->
  is_nan (fneg_sdr prec emax _ _ md ten flog10 lo hi x) = false.
Proof. exact (fneg_sdr_not_nan_pos prec emax _ _ md ten flog10 lo hi x). Qed.
Print Assumptions C47_no_nan_clamped.
Theorem C47_nan_propagates (prec emax : Z) (Hp : Prec_gt_0 prec) (He : Prec_lt_emax prec emax)
    md ten flog10 lo hi :
  (forall x, is_nan x = true -> is_nan (flog10 x) = true) ->
  is_nan (fneg_sdr prec emax _ _ md ten flog10 lo hi B754_nan) = true.
Proof. exact (fneg_sdr_nan prec emax _ _ md ten flog10 lo hi). Qed.
Print Assumptions C47_nan_propagates.
Theorem C47_negative_zero_refuted (prec emax : Z) (Hp : Prec_gt_0 prec) (He : Prec_lt_emax prec emax)
    md ten flog10 : is_nan (flog10 (B754_infinity true)) = true ->
  exists x, is_nan x = false /\
    is_nan (fneg_sdr prec emax _ _ md ten flog10 (B754_zero false) Bone x) = true.
Proof. exact (fneg_sdr_negzero_ex prec emax _ _ md ten flog10). Qed.
Print Assumptions C47_negative_zero_refuted.

(** Single precision, the unclamped bounds 0 and 1. *)
Local Instance p24 : Prec_gt_0 24. Proof. reflexivity. Qed.
Local Instance e128 : Prec_lt_emax 24 128. Proof. reflexivity. Qed.
Example C47_example :
  clamp_bounds 24 128 (B754_zero false) Bone /\ pos_const 24 128 Bone /\
  log10_defined 24 128 (fun x => x) /\
  B2SF (fratio 24 128 _ _ mode_NE (Bdiv mode_NE Bone (Bplus mode_NE Bone (Bplus mode_NE Bone Bone))))
    = SpecFloat.S754_finite false 16777215 (-23).
Proof.
  repeat split; try reflexivity; try (rewrite Bone_correct; lra).
  intros x H _. exact H.
Qed.

(** C50 *)
Theorem C50_import_iff e : is_ok (import_package e) <->
  e_numpy e = true /\ e_scipy e = true /\ (torch_installed e -> e_packaging e = true).
Proof. exact (import_ok_iff e). Qed.
Print Assumptions C50_import_iff.
Theorem C50_packaging_missing e : e_numpy e = true -> torch_installed e -> e_packaging e = false ->
  import_package e = Raise TypeError.
Proof. exact (import_no_packaging e). Qed.
Print Assumptions C50_packaging_missing.
Theorem C50_otherwise_import_error e : (torch_installed e -> e_packaging e = true) ->
  (e_numpy e = false \/ e_scipy e = false) -> import_package e = Raise ImportError.
Proof. exact (import_error_else e). Qed.
Print Assumptions C50_otherwise_import_error.
Theorem C50_has_torch e p : import_package e = Ok p -> (has_torch p = true <-> torch_usable e).
Proof. exact (import_has_torch e p). Qed.
Print Assumptions C50_has_torch.
(** distutils, the fallback of the except clause, does not help. *)
Example C50_example :
  is_ok (import_package (Env true true None false false false)) /\
  import_package (Env true true (Some true) false true false) = Raise TypeError.
Proof. split; [now eexists|reflexivity]. Qed.

(** C54 *)
Theorem C54_float_antitone (prec emax : Z) (Hp : Prec_gt_0 prec) (He : Prec_lt_emax prec emax)
    md ten flog10 lo hi x y :
  pos_const prec emax ten -> log10_monotone prec emax flog10 -> clamp_bounds prec emax lo hi ->
  x <> B754_zero true -> y <> B754_zero true -> Bleb x y = true ->
  Bleb (fneg_sdr prec emax _ _ md ten flog10 lo hi y)
       (fneg_sdr prec emax _ _ md ten flog10 lo hi x) = true.
Proof. exact (fneg_sdr_antitone prec emax _ _ md ten flog10 lo hi x y). Qed.
Print Assumptions C54_float_antitone.
Theorem C54_ratio_error (prec emax : Z) (Hp : Prec_gt_0 prec) (He : Prec_lt_emax prec emax) c :
  (prec + 2 <= emax)%Z -> unit_range prec emax c -> (0 < B2R c < 1)%R ->
  is_finite (fratio prec emax _ _ mode_NE c) = true ->
  exists d, (Rabs d <= 2 * bpow radix2 (- prec) + bpow radix2 (- prec) ^ 2)%R /\
    B2R (fratio prec emax _ _ mode_NE c) = ((1 - B2R c) / B2R c * (1 + d))%R.
Proof. exact (fratio_error prec emax _ _ c). Qed.
Print Assumptions C54_ratio_error.
Example C54_example :
  let c := Bdiv mode_NE Bone (Bplus mode_NE Bone (Bplus mode_NE Bone Bone)) in
  unit_range 24 128 c /\ (0 < B2R c < 1)%R /\ is_finite (fratio 24 128 _ _ mode_NE c) = true /\
  log10_monotone 24 128 (fun x => x).
Proof.
  intros c. split.
  - repeat split; try reflexivity; rewrite <- SF2R_B2SF;
      (replace (B2SF c) with (SpecFloat.S754_finite false 11184811 (-25)) by reflexivity);
      unfold SF2R, F2R; simpl; lra.
  - split; [|split; [reflexivity|intros x y _ H; exact H]].
    rewrite <- SF2R_B2SF.
    replace (B2SF c) with (SpecFloat.S754_finite false 11184811 (-25)) by reflexivity.
    unfold SF2R, F2R; simpl; lra.
Qed.
