(** * Properties: overflow with filter_length=1 (C95) *)
From Coq Require Import Reals Lra Permutation.
From Verif Require Import Prelude ExtReal SpecSig Sums Helpers Metrics PrepProofs ProjTheorems Witness SigExamples SiRound SiRoundProofs SiRoundFlt SiMeanProofs SiOverflow SiOverflowProofs.
From Flocq Require Import Core Relative.
Local Open Scope R_scope.

(** C95, binary64: no overflow while both norms are at most 2^511; the bound of C59 then holds. *)
Theorem C95_binary64_no_overflow b o ref est m c d v w choice fx fy fxy tx ty txy h :
  wf ref -> wf est -> a_len ref = a_len est ->
  sdr_coh b o ref est = Ok m -> filter_length o = 1%nat -> zero_mean o = false ->
  has_chan ref c v -> has_chan est d w -> (2 <= a_len ref)%nat ->
  (Z.of_nat (a_len ref) <= 2 ^ 46)%Z -> (Z.of_nat h < 2 ^ 46)%Z ->
  sums (a_len ref) h tx -> sums (a_len ref) h ty -> sums (a_len ref) h txy ->
  norm2 v <= bpow radix2 511 -> norm2 w <= bpow radix2 511 ->
  exists q r, mat_of m c d = Fin q /\
    ocoh (round radix2 (FLT_exp (-1074) 53) (Znearest choice)) (bpow radix2 1024) fx fy fxy tx ty txy
      (fun i => Fin (smp v i)) (fun i => Fin (smp w i)) = Fin r /\
    Rabs (r - q) <= (8 * INR h + 40) * bpow radix2 (-53).
Proof.
  exact (fun Hr He Hl Hm HL Hz Hc Hd => coh_no_overflow b o ref est m c d v w Hr He Hl Hm HL Hz Hc Hd
    choice fx fy fxy tx ty txy (-1074) 53 1024 511 h ltac:(lia) ltac:(lia) ltac:(lia) ltac:(lia) ltac:(lia)).
Qed.
Print Assumptions C95_binary64_no_overflow.
(** C95, binary64: one sample of 2^512 or more in the reference or the estimate and the loss is the worst possible, whatever the signals. *)
Theorem C95_binary64_overflow ref est c d v w choice fx fy fxy tx ty txy h x i cd :
  wf ref -> wf est -> a_len ref = a_len est ->
  has_chan ref c v -> has_chan est d w -> (2 <= a_len ref)%nat ->
  (Z.of_nat (a_len ref) <= 2 ^ 46)%Z -> (Z.of_nat h < 2 ^ 46)%Z ->
  sums (a_len ref) h tx -> sums (a_len ref) h ty -> sums (a_len ref) h txy ->
  x = v \/ x = w -> (i < a_len ref)%nat -> bpow radix2 512 <= Rabs (smp x i) -> (forall D, cd = Some D -> 0 <= D) ->
  let r := ocoh (round radix2 (FLT_exp (-1074) 53) (Znearest choice)) (bpow radix2 1024) fx fy fxy tx ty txy
      (fun i => Fin (smp v i)) (fun i => Fin (smp w i)) in
  r = Fin 0 /\ coherence_to_neg_sdr cd r = match cd with None => PInf | Some D => Fin D end.
Proof.
  exact (fun Hr He Hl Hc Hd => coh_overflow ref est c d v w Hr He Hl Hc Hd
    choice fx fy fxy tx ty txy (-1074) 53 1024 512 h x i cd ltac:(lia) ltac:(lia) ltac:(lia) ltac:(lia) ltac:(lia)).
Qed.
Print Assumptions C95_binary64_overflow.

(** C95, binary32: no overflow while both norms are at most 2^63; the bound of C59 then holds. *)
Theorem C95_binary32_no_overflow b o ref est m c d v w choice fx fy fxy tx ty txy h :
  wf ref -> wf est -> a_len ref = a_len est ->
  sdr_coh b o ref est = Ok m -> filter_length o = 1%nat -> zero_mean o = false ->
  has_chan ref c v -> has_chan est d w -> (2 <= a_len ref)%nat ->
  (Z.of_nat (a_len ref) <= 2 ^ 17)%Z -> (Z.of_nat h < 2 ^ 17)%Z ->
  sums (a_len ref) h tx -> sums (a_len ref) h ty -> sums (a_len ref) h txy ->
  norm2 v <= bpow radix2 63 -> norm2 w <= bpow radix2 63 ->
  exists q r, mat_of m c d = Fin q /\
    ocoh (round radix2 (FLT_exp (-149) 24) (Znearest choice)) (bpow radix2 128) fx fy fxy tx ty txy
      (fun i => Fin (smp v i)) (fun i => Fin (smp w i)) = Fin r /\
    Rabs (r - q) <= (8 * INR h + 40) * bpow radix2 (-24).
Proof.
  exact (fun Hr He Hl Hm HL Hz Hc Hd => coh_no_overflow b o ref est m c d v w Hr He Hl Hm HL Hz Hc Hd
    choice fx fy fxy tx ty txy (-149) 24 128 63 h ltac:(lia) ltac:(lia) ltac:(lia) ltac:(lia) ltac:(lia)).
Qed.
Print Assumptions C95_binary32_no_overflow.
(** C95, binary32: one sample of 2^64 or more in the reference or the estimate and the loss is the worst possible, whatever the signals. *)
Theorem C95_binary32_overflow ref est c d v w choice fx fy fxy tx ty txy h x i cd :
  wf ref -> wf est -> a_len ref = a_len est ->
  has_chan ref c v -> has_chan est d w -> (2 <= a_len ref)%nat ->
  (Z.of_nat (a_len ref) <= 2 ^ 17)%Z -> (Z.of_nat h < 2 ^ 17)%Z ->
  sums (a_len ref) h tx -> sums (a_len ref) h ty -> sums (a_len ref) h txy ->
  x = v \/ x = w -> (i < a_len ref)%nat -> bpow radix2 64 <= Rabs (smp x i) -> (forall D, cd = Some D -> 0 <= D) ->
  let r := ocoh (round radix2 (FLT_exp (-149) 24) (Znearest choice)) (bpow radix2 128) fx fy fxy tx ty txy
      (fun i => Fin (smp v i)) (fun i => Fin (smp w i)) in
  r = Fin 0 /\ coherence_to_neg_sdr cd r = match cd with None => PInf | Some D => Fin D end.
Proof.
  exact (fun Hr He Hl Hc Hd => coh_overflow ref est c d v w Hr He Hl Hc Hd
    choice fx fy fxy tx ty txy (-149) 24 128 64 h x i cd ltac:(lia) ltac:(lia) ltac:(lia) ltac:(lia) ltac:(lia)).
Qed.
Print Assumptions C95_binary32_overflow.

(** C95: [_normalize], for every filter length: the signal becomes zero. *)
Theorem C95_normalize_binary64 choice fma t v h i j : (2 <= length v)%nat ->
  (Z.of_nat (length v) <= 2 ^ 46)%Z -> (Z.of_nat h < 2 ^ 46)%Z -> sums (length v) h t ->
  (i < length v)%nat -> (j < length v)%nat -> bpow radix2 512 <= Rabs (smp v i) ->
  onormalize (round radix2 (FLT_exp (-1074) 53) (Znearest choice)) (bpow radix2 1024) fma t (fun i => Fin (smp v i)) j = Fin 0.
Proof. exact (normalize_overflow (-1074) 53 1024 512 choice fma t v h i j ltac:(lia) ltac:(lia) ltac:(lia) ltac:(lia) ltac:(lia)). Qed.
Print Assumptions C95_normalize_binary64.
Theorem C95_normalize_binary32 choice fma t v h i j : (2 <= length v)%nat ->
  (Z.of_nat (length v) <= 2 ^ 17)%Z -> (Z.of_nat h < 2 ^ 17)%Z -> sums (length v) h t ->
  (i < length v)%nat -> (j < length v)%nat -> bpow radix2 64 <= Rabs (smp v i) ->
  onormalize (round radix2 (FLT_exp (-149) 24) (Znearest choice)) (bpow radix2 128) fma t (fun i => Fin (smp v i)) j = Fin 0.
Proof. exact (normalize_overflow (-149) 24 128 64 choice fma t v h i j ltac:(lia) ltac:(lia) ltac:(lia) ltac:(lia) ltac:(lia)). Qed.
Print Assumptions C95_normalize_binary32.

(** C95: hence scale invariance fails for large signals: [2^512, 1] as reference and as estimate. *)
Theorem C95_large_refuted b choice fx fy fxy : exists m,
  sdr_coh b (Opts 1 None false None None) (rarr 2 [[bpow radix2 512; 1]]) (rarr 2 [[bpow radix2 512; 1]]) = Ok m /\ mat_of m 0 0 = Fin 1 /\
  ocoh (round radix2 (FLT_exp (-1074) 53) (Znearest choice)) (bpow radix2 1024) fx fy fxy
    (SNode (SLeaf 0) (SLeaf 1)) (SNode (SLeaf 0) (SLeaf 1)) (SNode (SLeaf 0) (SLeaf 1))
    (fun i => Fin (smp [bpow radix2 512; 1] i)) (fun i => Fin (smp [bpow radix2 512; 1] i)) = Fin 0.
Proof. exact (large_refuted b choice fx fy fxy). Qed.
Print Assumptions C95_large_refuted.
(** The hypotheses of the overflow theorems: [2^64, 1] in binary32, clamped at 30 dB. *)
Example C95_ex_overflow choice : let x := fun i => Fin (smp [bpow radix2 64; 1] i) in let t := SNode (SLeaf 0) (SLeaf 1) in
  coherence_to_neg_sdr (Some 30) (ocoh (round radix2 (FLT_exp (-149) 24) (Znearest choice)) (bpow radix2 128)
    (fun _ => false) (fun _ => true) (fun _ => false) t t t x x) = Fin 30.
Proof.
  assert (W : wf (rarr 2 [[bpow radix2 64; 1]])) by (apply rarr_wf; [lia|repeat constructor]).
  refine (proj2 (C95_binary32_overflow (rarr 2 [[bpow radix2 64; 1]]) (rarr 2 [[bpow radix2 64; 1]]) 0 0
    [bpow radix2 64; 1] [bpow radix2 64; 1] choice (fun _ => false) (fun _ => true) (fun _ => false) _ _ _ 1 [bpow radix2 64; 1] 0 (Some 30)
    W W eq_refl _ _ _ _ _ two_sums two_sums two_sums _ _ _ _)); try (split; [cbn; lia|reflexivity]); try (cbn; lia); auto.
  - change (smp [bpow radix2 64; 1] 0) with (bpow radix2 64). rewrite Rabs_pos_eq by apply bpow_ge_0. apply Rle_refl.
  - intros D E. injection E as <-. lra.
Qed.
(** And of the others: five samples. *)
Example C95_ex_no_overflow : exists m q r, sdr_coh NumPy (Opts 1 None false None None) ex_ref ex_est = Ok m /\ mat_of m 0 0 = Fin q /\
  let t := SNode (SNode (SNode (SNode (SLeaf 0) (SLeaf 1)) (SLeaf 2)) (SLeaf 3)) (SLeaf 4) in
  ocoh (round radix2 (FLT_exp (-149) 24) (Znearest (fun x => negb (Z.even x)))) (bpow radix2 128)
     (fun _ => false) (fun _ => false) (fun _ => true) t t t (fun i => Fin (smp (exr 0) i)) (fun i => Fin (smp (exe 0) i)) = Fin r /\
  Rabs (r - q) <= (8 * INR 4 + 40) * bpow radix2 (-24).
Proof.
  assert (H5 : sums 5 4 (SNode (SNode (SNode (SNode (SLeaf 0) (SLeaf 1)) (SLeaf 2)) (SLeaf 3)) (SLeaf 4)))
    by (split; [apply Permutation_refl|cbn; lia]).
  assert (B : 100 <= bpow radix2 63) by (apply Rle_trans with (bpow radix2 7); [simpl; lra|apply bpow_le; lia]).
  destruct (C95_binary32_no_overflow NumPy (Opts 1 None false None None) ex_ref ex_est _ 0 0 (exr 0) (exe 0)
    (fun x => negb (Z.even x)) (fun _ => false) (fun _ => false) (fun _ => true) _ _ _ 4
    ex_ref_wf ex_est_wf eq_refl eq_refl eq_refl eq_refl
    (ex_ref_chan 0 ltac:(lia)) (ex_est_chan 0 ltac:(lia)) ltac:(cbn; lia) ltac:(cbn; lia) ltac:(lia) H5 H5 H5) as (q & r & E & H).
  - apply Rle_trans with 100; [|exact B]. unfold norm2. rewrite <- (sqrt_square 100) by lra. apply sqrt_le_1_alt. unfold smp. simpl. lra.
  - apply Rle_trans with 100; [|exact B]. unfold norm2. rewrite <- (sqrt_square 100) by lra. apply sqrt_le_1_alt. unfold smp. simpl. lra.
  - eexists. exists q, r. split; [reflexivity|]. split; [exact E|exact H].
Qed.
