(** * Concrete signals for the gradients of sdr and sdr_loss *)
From Coq Require Import Reals Lra.
From Verif Require Import Prelude ExtReal Sums Spec SpecSig Helpers Metrics LeastSq StatsProofs PrepProofs MetricsProofs
  ProjTheorems DbProofs MetricTheorems Solvability Edge Diag PermProofs Witness SigExamples Delay Gradient GradientExamples AutogradCgTheorems
  AutogradPit AutogradPitProofs AutogradPitTheorems.
Local Open Scope nat_scope.

(** references e0 and e1, one tap *)
Definition q_ref : arr := arr_of 3 [[1; 0; 0]; [0; 1; 0]]%R.
Definition q_opts : opts := plain_opts 1.
Definition q_loss (b : backend) (est : arr) : list (list xr) :=
  match pairwise_sdr_loss b q_opts est q_ref with Ok m => m | Raise _ => [] end.
Lemma q_shape : shaped 2 3 [[1; 0; 0]; [0; 1; 0]]%R.
Proof. split; [reflexivity|repeat constructor]. Qed.
Lemma q_wf : wf q_ref. Proof. apply (arr_of_wf 2); [lia|apply q_shape]. Qed.
Lemma q_chans c : c < n_chan q_ref -> exists x, has_chan q_ref c x.
Proof. intros Hc. eexists. apply (arr_of_has 2 3 _ c q_shape). exact Hc. Qed.
Lemma q_ok b ys : pairwise_sdr_loss b q_opts (arr_of 3 ys) q_ref = Ok (q_loss b (arr_of 3 ys)).
Proof. reflexivity. Qed.

Definition q_est (a b c a' b' c' : R) : list (list R) := [[a; b; c]; [a'; b'; c']].
Lemma q_est_shape a b c a' b' c' : shaped 2 3 (q_est a b c a' b' c').
Proof. split; [reflexivity|repeat constructor]. Qed.

Lemma q_norm a b c : (1 < a * a + b * b + c * c)%R -> (norm_eps < norm2 [a; b; c])%R.
Proof. intros H. apply g_norm2. unfold smp; simpl; lra. Qed.

Lemma q_proj0 a b c : is_projection 1 3 (delays [1; 0; 0]%R) (smp [a; b; c]) (smp [a; 0; 0]%R).
Proof.
  split.
  - exists (fun k => a). intros t Ht. destruct t as [|[|[|t]]]; try lia; unfold delays, delayed, smp; simpl; ring.
  - intros k Hk. destruct k; try lia. unfold dot, delays, delayed, smp; simpl; ring.
Qed.
Lemma q_proj1 a b c : is_projection 1 3 (delays [0; 1; 0]%R) (smp [a; b; c]) (smp [0; b; 0]%R).
Proof.
  split.
  - exists (fun k => b). intros t Ht. destruct t as [|[|[|t]]]; try lia; unfold delays, delayed, smp; simpl; ring.
  - intros k Hk. destruct k; try lia. unfold dot, delays, delayed, smp; simpl; ring.
Qed.
Lemma unit_norm v : Rsum (length v) (fun t => smp v t ^ 2)%R = 1%R -> (norm_eps <= norm2 v)%R.
Proof. intros H. unfold norm2. rewrite H, sqrt_1. apply eps_le_1. Qed.

Lemma q_entry0 b ref est m c d y0 y1 y2 : wf ref -> a_len ref = 3 -> wf est -> a_len est = 3 ->
  has_chan ref c [1; 0; 0]%R -> has_chan est d [y0; y1; y2] -> (1 < y0 * y0 + y1 * y1 + y2 * y2)%R ->
  pairwise_sdr_loss b q_opts est ref = Ok m ->
  mat_of m c d = dB (y1 * y1 + y2 * y2) (y0 * y0).
Proof.
  intros W1 L1 W2 L2 H1 H2 HN Hm.
  rewrite (sdr_projection b q_opts ref est m c d [1; 0; 0]%R [y0; y1; y2] 3 (smp [y0; 0; 0]%R)); auto; try reflexivity.
  - f_equal; unfold energy, dot, smp; simpl; ring.
  - rewrite L1, L2. simpl; lia.
  - intros _. split; [congruence|]. apply unit_norm. unfold smp; simpl; ring.
  - left. apply q_norm; auto.
  - rewrite L1. simpl; lia.
  - rewrite L2; lia.
  - apply q_proj0.
Qed.
Lemma q_entry1 b ref est m c d y0 y1 y2 : wf ref -> a_len ref = 3 -> wf est -> a_len est = 3 ->
  has_chan ref c [0; 1; 0]%R -> has_chan est d [y0; y1; y2] -> (1 < y0 * y0 + y1 * y1 + y2 * y2)%R ->
  pairwise_sdr_loss b q_opts est ref = Ok m ->
  mat_of m c d = dB (y0 * y0 + y2 * y2) (y1 * y1).
Proof.
  intros W1 L1 W2 L2 H1 H2 HN Hm.
  rewrite (sdr_projection b q_opts ref est m c d [0; 1; 0]%R [y0; y1; y2] 3 (smp [0; y1; 0]%R)); auto; try reflexivity.
  - f_equal; unfold energy, dot, smp; simpl; ring.
  - rewrite L1, L2. simpl; lia.
  - intros _. split; [congruence|]. apply unit_norm. unfold smp; simpl; ring.
  - left. apply q_norm; auto.
  - rewrite L1. simpl; lia.
  - rewrite L2; lia.
  - apply q_proj1.
Qed.
Lemma q_has c : c < 2 -> has_chan q_ref c (nth c [[1; 0; 0]; [0; 1; 0]]%R []).
Proof. apply (arr_of_has 2 3 _ c q_shape). Qed.
(** the four losses of two estimates *)
Lemma q_values b a0 b0 c0 a1 b1 c1 : (1 < a0 * a0 + b0 * b0 + c0 * c0)%R -> (1 < a1 * a1 + b1 * b1 + c1 * c1)%R ->
  let m := q_loss b (arr_of 3 (q_est a0 b0 c0 a1 b1 c1)) in
  mat_of m 0 0 = dB (b0 * b0 + c0 * c0) (a0 * a0) /\ mat_of m 0 1 = dB (b1 * b1 + c1 * c1) (a1 * a1) /\
  mat_of m 1 0 = dB (a0 * a0 + c0 * c0) (b0 * b0) /\ mat_of m 1 1 = dB (a1 * a1 + c1 * c1) (b1 * b1).
Proof.
  intros H0 H1 m.
  pose proof (q_est_shape a0 b0 c0 a1 b1 c1) as S.
  pose proof (arr_of_wf 2 3 _ ltac:(lia) S) as W.
  pose proof (arr_of_has 2 3 _ 0 S ltac:(lia)) as C0. pose proof (arr_of_has 2 3 _ 1 S ltac:(lia)) as C1. simpl nth in C0, C1.
  pose proof (q_ok b (q_est a0 b0 c0 a1 b1 c1)) as Hm. fold m in Hm.
  pose proof (q_has 0 ltac:(lia)) as R0. pose proof (q_has 1 ltac:(lia)) as R1. simpl nth in R0, R1.
  repeat split.
  - exact (q_entry0 b _ _ m 0 0 a0 b0 c0 q_wf eq_refl W eq_refl R0 C0 H0 Hm).
  - exact (q_entry0 b _ _ m 0 1 a1 b1 c1 q_wf eq_refl W eq_refl R0 C1 H1 Hm).
  - exact (q_entry1 b _ _ m 1 0 a0 b0 c0 q_wf eq_refl W eq_refl R1 C0 H0 Hm).
  - exact (q_entry1 b _ _ m 1 1 a1 b1 c1 q_wf eq_refl W eq_refl R1 C1 H1 Hm).
Qed.

(** estimates (2, 1, 0) and (1, 2, 0): -6 dB with the own reference, 6 dB with the other one *)
Definition q_mix : list (list R) := q_est 2 1 0 1 2 0.
Lemma q_mix_loss b i j : i < 2 -> j < 2 -> mat_of (q_loss b (arr_of 3 q_mix)) i j = Fin (10 * log10 (if Nat.eqb i j then 1 / 4 else 4)).
Proof.
  intros Hi Hj. destruct (q_values b 2 1 0 1 2 0 ltac:(lra) ltac:(lra)) as (E00 & E01 & E10 & E11). fold q_mix in *.
  destruct i as [|[|i]], j as [|[|j]]; try lia; cbn [Nat.eqb].
  - rewrite E00, dB_pos by lra. do 3 f_equal. field.
  - rewrite E01, dB_pos by lra. do 3 f_equal. field.
  - rewrite E10, dB_pos by lra. do 3 f_equal. field.
  - rewrite E11, dB_pos by lra. do 3 f_equal. field.
Qed.
(** twice (1, 1, 0): a tie *)
Definition q_tie : list (list R) := q_est 1 1 0 1 1 0.
Lemma q_tie_loss b i j : i < 2 -> j < 2 -> mat_of (q_loss b (arr_of 3 q_tie)) i j = Fin (10 * log10 1).
Proof.
  intros Hi Hj. destruct (q_values b 1 1 0 1 1 0 ltac:(lra) ltac:(lra)) as (E00 & E01 & E10 & E11). fold q_tie in *.
  destruct i as [|[|i]], j as [|[|j]]; try lia; [rewrite E00|rewrite E01|rewrite E10|rewrite E11];
    rewrite dB_pos by lra; do 3 f_equal; field.
Qed.
(** (1, 0, 1) and (0, 1, 1): 0 dB with the own reference, orthogonal to the other one *)
Definition q_sep : list (list R) := q_est 1 0 1 0 1 1.
Lemma q_sep_loss b i j : i < 2 -> j < 2 -> mat_of (q_loss b (arr_of 3 q_sep)) i j = if Nat.eqb i j then Fin (10 * log10 1) else PInf.
Proof.
  intros Hi Hj. destruct (q_values b 1 0 1 0 1 1 ltac:(lra) ltac:(lra)) as (E00 & E01 & E10 & E11). fold q_sep in *.
  destruct i as [|[|i]], j as [|[|j]]; try lia; cbn [Nat.eqb].
  - rewrite E00, dB_pos by lra. do 3 f_equal. field.
  - rewrite E01. replace (0 * 0)%R with 0%R by ring. unfold dB. repeat destruct (Req_EM_T _ _); try lra; auto.
  - rewrite E10. replace (0 * 0)%R with 0%R by ring. unfold dB. repeat destruct (Req_EM_T _ _); try lra; auto.
  - rewrite E11, dB_pos by lra. do 3 f_equal. field.
Qed.

(** ** Assignments of two channels *)
Lemma two_by_two l : complete_assignment 2 2 l ->
  l = [(0, 0); (1, 1)] \/ l = [(1, 1); (0, 0)] \/ l = [(0, 1); (1, 0)] \/ l = [(1, 0); (0, 1)].
Proof.
  intros (L & B & N1 & N2). destruct l as [|[a b] [|[c d] [|? ?]]]; try discriminate.
  destruct (B a b (or_introl eq_refl)) as [Ha Hb]. destruct (B c d (or_intror (or_introl eq_refl))) as [Hc Hd].
  simpl in N1, N2. inversion_clear N1 as [|? ? Q1 _]. inversion_clear N2 as [|? ? Q2 _]. simpl in Q1, Q2.
  assert (a <> c) by (intros ->; auto). assert (b <> d) by (intros ->; auto).
  destruct a as [|[|a]], b as [|[|b]], c as [|[|c]], d as [|[|d]]; try lia; auto.
Qed.
Lemma matching_2 perm : length perm = 2 -> matching 2 2 perm = [(0, nth 0 perm 0); (1, nth 1 perm 0)].
Proof. intros L. destruct perm as [|a [|b [|? ?]]]; try discriminate. reflexivity. Qed.
(** when the diagonal is cheaper, it is the only optimal assignment *)
Lemma diagonal_only (c : nat -> nat -> R) perm l : (c 0%nat 0%nat + c 1%nat 1%nat < c 0%nat 1%nat + c 1%nat 0%nat)%R ->
  length perm = 2 -> optimal_assignment 2 2 c (matching 2 2 perm) ->
  complete_assignment 2 2 l -> (total_cost c l <= total_cost c (matching 2 2 perm))%R -> incl l (matching 2 2 perm).
Proof.
  intros HD Lp [HC HO] Hl Hle.
  assert (DC : complete_assignment 2 2 [(0, 0); (1, 1)]).
  { split; [reflexivity|]. split; [|split; repeat constructor; simpl; intuition discriminate].
    intros i j [H|[H|[]]]; injection H as <- <-; lia. }
  pose proof (HO _ DC) as Q. rewrite (matching_2 perm Lp) in *.
  destruct (two_by_two _ HC) as [E|[E|[E|E]]]; rewrite E in *; try discriminate E;
    unfold total_cost in *; simpl in Q; try lra.
  destruct (two_by_two _ Hl) as [-> |[-> |[-> | ->]]]; simpl in Hle; try lra; intros x Hx; simpl in *; tauto.
Qed.
Lemma q_sdr b sp cs ys : lsa_contract sp -> shaped 2 3 ys ->
  (forall i j, i < 2 -> j < 2 -> is_fin (mat_of (q_loss b (arr_of 3 ys)) i j) = true) ->
  exists vals perm, sdr b sp q_opts cs q_ref (arr_of 3 ys) = Ok (vals, perm) /\ length perm = 2 /\
    optimal_assignment 2 2 (fun i j => to_R (mat_of (q_loss b (arr_of 3 ys)) i j)) (matching 2 2 perm).
Proof.
  intros Hsp [L2 _] HF.
  destruct (solve_perm_optimal sp Hsp b 2 2 (mat_of (q_loss b (arr_of 3 ys))) [] HF) as (out & outs & perm & E & HO).
  destruct (solve_perm_outputs sp Hsp b 2 2 _ _ _ _ _ E) as (_ & Lp & _).
  exists (if cs then out else map xneg out), perm. split; [|split; auto].
  unfold sdr. rewrite q_ok. cbn [bind]. rewrite arr_of_n, L2. change (n_chan q_ref) with 2. rewrite E. reflexivity.
Qed.
Lemma log10_4 : (0 < log10 4)%R.
Proof. unfold log10. apply Rdiv_lt_0_compat; rewrite <- ln_1; apply ln_increasing; lra. Qed.
Lemma log10_quarter : (log10 (1 / 4) = - log10 4)%R.
Proof. unfold log10, Rdiv. rewrite Rmult_1_l, ln_Rinv by lra. ring. Qed.

Lemma q_smooth m0 d y : (1 < Rsum (length y) (fun t => smp y t ^ 2))%R ->
  (forall c, c < 2 -> exists r, mat_of m0 c d = Fin r) -> smooth q_opts q_ref m0 d y.
Proof.
  intros HN H. split; [apply Rgt_not_eq, g_norm2; exact HN|]. split; [exact H|]. intros it Hit. discriminate Hit.
Qed.
(** the matching of q_sep is the diagonal *)
Lemma q_sep_sdr b sp cs : lsa_contract sp -> sdr b sp q_opts cs q_ref (arr_of 3 q_sep) = Ok ([Fin 0; Fin 0], [0; 1]).
Proof.
  intros Hsp. set (m := q_loss b (arr_of 3 q_sep)).
  assert (V : forall i j, i < 2 -> j < 2 -> mat_of m i j = if Nat.eqb i j then Fin (10 * log10 1) else PInf) by (intros; apply q_sep_loss; auto).
  destruct (solve_perm_posinf sp Hsp b 2 2 (mat_of m) [] 0 0 (10 * log10 1)) as (out & outs & perm & E & HC & HO).
  { intros i j Hi Hj. rewrite V by auto. destruct (Nat.eqb i j); split; try reflexivity; discriminate. }
  { lia. } { lia. } { apply V; lia. }
  destruct (solve_perm_outputs sp Hsp b 2 2 _ _ _ _ _ E) as (_ & Lp & _ & _ & Eo & _).
  assert (DC : complete_assignment 2 2 [(0, 0); (1, 1)]).
  { split; [reflexivity|]. split; [|split; repeat constructor; simpl; intuition discriminate].
    intros i j [H|[H|[]]]; injection H as <- <-; lia. }
  specialize (HO _ DC). rewrite (matching_2 perm Lp) in *.
  assert (EP : perm = [0; 1]).
  { destruct perm as [|a [|c [|? ?]]]; try discriminate Lp. simpl in HC, HO.
    destruct (two_by_two _ HC) as [Q|[Q|[Q|Q]]]; try discriminate Q; injection Q as -> ->; auto. exfalso.
    unfold n_posinf in HO. simpl in HO. rewrite !V in HO by lia. simpl in HO. destruct HO as [HO|[HO _]]; lia. }
  subst perm. simpl in Eo. unfold at_pair in Eo. simpl in Eo. rewrite !V in Eo by lia. simpl in Eo.
  assert (L1 : (10 * log10 1 = 0)%R) by (unfold log10; rewrite ln_1; unfold Rdiv; ring). rewrite L1 in Eo.
  unfold sdr. rewrite q_ok. cbn [bind]. change (n_chan (arr_of 3 q_sep)) with 2. change (n_chan q_ref) with 2. fold m. rewrite E. cbn [bind].
  rewrite Eo. destruct cs; auto. simpl. rewrite Ropp_0. reflexivity.
Qed.
