(** * A concrete case for C100 *)
From Coq Require Import Reals Lra Psatz.
From Coquelicot Require Import Complex.
From Verif Require Import Prelude ExtReal Slice Sums SpecSig Fft FftProofs Helpers Cgd Metrics Linalg LinalgProofs LeastSq StatsProofs PrepProofs ProjTheorems
  SigExamples OneRefExamples Inexact InexactExamples FftRound FftRoundProofs FftRoundExamples FftRoundSar FftRoundSarProofs.
Local Open Scope nat_scope.

Definition exact_mul2 (a b : C) : C := Cmult a (Cconj b).
Lemma exact_mul2_near : mul2_near 0 exact_mul2.
Proof.
  intros a b. unfold exact_mul2. replace (Cminus (Cmult a (Cconj b)) (Cmult a (Cconj b))) with (RtoC 0) by ring. rewrite Cmod_0. lra.
Qed.
Definition loud_mul2 (e : R) (a b : C) : C := Cmult (RtoC (1 + e)%R) (Cmult a (Cconj b)).
Lemma loud_mul2_near e : (0 <= e)%R -> mul2_near e (loud_mul2 e).
Proof.
  intros He a b. right. unfold loud_mul2.
  replace (Cminus (Cmult (RtoC (1 + e)%R) (Cmult a (Cconj b))) (Cmult a (Cconj b))) with (Cmult (RtoC e) (Cmult a (Cconj b))) by (rewrite RtoC_plus; ring).
  rewrite !Cmod_mult, Cmod_conj, Cmod_R, (Rabs_right e) by lra. reflexivity.
Qed.
Lemma loud_acf2 n e L x1 x2 p : 0 < L <= n -> p < 2 * L ->
  nth p (stats2_acf_with (rfft n) exact_mul2 (loud_irfft n e) L x1 x2) 0%R = ((1 + e) * nth p (stats2_acf n L x1 x2) 0)%R.
Proof.
  intros HL Hp. unfold stats2_acf_with, stats2_acf. cbv zeta.
  rewrite (nth_two_ends _ n L p) by (auto; unfold loud_irfft; rewrite map_length; apply length_irfft).
  rewrite (nth_two_ends _ n L p) by (auto; apply length_irfft).
  set (t := if p <? L then p else n - L + (p - L)). assert (Ht : t < n) by (unfold t; destruct (Nat.ltb_spec p L); lia). clearbody t.
  unfold loud_irfft. rewrite (nth_indep _ 0%R ((1 + e) * 0)%R) by (rewrite map_length, length_irfft; lia).
  apply (map_nth (Rmult (1 + e))).
Qed.
Definition loud_blocks : nat -> nat -> list R :=
  block_acf_with (rfft 16) exact_mul2 (loud_irfft 16 (1 / 1000)) 2 (Some (1 / 10)%R) (fun _ => exr 0).
Lemma loud_system b : exists B, block_toeplitz b 4 1 1 loud_blocks = Ok B /\
  forall p q, p < 2 -> q < 2 -> B p q = if Nat.eqb p q then (1101 / 1000)%R else 0%R.
Proof.
  set (a := stats2_acf_with (rfft 16) exact_mul2 (loud_irfft 16 (1 / 1000)) 2 (exr 0) (exr 0)).
  assert (La : length a = 4).
  { unfold a. rewrite (length_acf2_with 16 (1 / 1000)); [reflexivity|apply loud_irfft_near|lia]. }
  assert (V : nth 0 a 0%R = (1001 / 1000)%R /\ nth 1 a 0%R = 0%R /\ nth 3 a 0%R = 0%R).
  { unfold a. rewrite !loud_acf2 by lia. repeat split.
    - rewrite stats2_acf_first by (simpl; lia). unfold xcorr, smp. simpl. lra.
    - rewrite stats2_acf_first by (simpl; lia). unfold xcorr, smp. simpl. lra.
    - pose proof (stats2_acf_last 16 2 (exr 0) (exr 0) 1) as Q. change (2 * Nat.min 2 16 - 1) with 3 in Q. rewrite Q by (simpl; lia). unfold xcorr, smp. simpl. lra. }
  destruct (block_toeplitz_ok b 4 1 1 loud_blocks) as (B & E & G); [lia| |].
  { intros r c Hr Hc. unfold loud_blocks, block_acf_with. destruct (r =? c); rewrite ?length_add_load; fold a; auto. }
  exists B. split; auto. change (4 / 2) with 2 in G. intros p q Hp Hq.
  pose proof (G p 0 q 0 Hp ltac:(lia) Hq ltac:(lia)) as Q. replace (p * 1 + 0) with p in Q by lia. replace (q * 1 + 0) with q in Q by lia.
  rewrite Q. unfold loud_blocks, block_acf_with. change (0 =? 0) with true. cbv beta iota. fold a.
  destruct a as [|a0 [|a1 [|a2 [|a3 [|a4 a]]]]]; try discriminate La. simpl in V. destruct V as (V0 & V1 & V3).
  destruct p as [|[|p]]; [| |lia]; (destruct q as [|[|q]]; [| |lia]); simpl; lra.
Qed.
Lemma sqrt_two_le2 : (0 <= sqrt 2 <= 2)%R.
Proof. split; [apply sqrt_pos|]. rewrite <- (sqrt_pow2 2) at 2 by lra. apply sqrt_le_1_alt. lra. Qed.
Lemma sqrt_twenty_le5 : (0 <= sqrt 20 <= 5)%R.
Proof. split; [apply sqrt_pos|]. rewrite <- (sqrt_pow2 5) by lra. apply sqrt_le_1_alt. lra. Qed.
Lemma sqrt_16 : sqrt (INR 16) = 4%R.
Proof. replace (INR 16) with (4 ^ 2)%R by (simpl; lra). apply sqrt_pow2. lra. Qed.
