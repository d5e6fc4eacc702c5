(** * Exactness and rate of the block conjugate gradient solver (C64) *)
From Coq Require Import Reals Lra.
From Coquelicot Require Import Complex.
From Verif Require Import Prelude ExtReal Slice Sums SpecSig Fft FftProofs Helpers Linalg LinalgProofs
  Cgd Metrics StatsProofs LeastSq PrepProofs MetricsProofs SarProofs ProjTheorems MetricTheorems
  CgdOps CgdPrecond CgProofs CgCirc Cells CgTheorems CgRate CgRateToep CgRateSdr BlockPrec Solvability BlockCg.
Local Open Scope nat_scope.

(** the safeguards of step k of a run on the system of all references *)
Definition block_inactive (K L : nat) (acf : nat -> nat -> list R) (inv : list (nat -> nat -> C))
    (xc x0 : list R) (k : nat) : Prop :=
  let A := dense_block (2 * L) K acf in
  let s := cg_run (L * K) A (block_prec K L inv) xc x0 k in
  (exists i, i < L * K /\ nth i (cg_r s) 0%R <> 0%R) ->
  (cg_eps <= dotl (L * K) (cg_p s) (A (cg_p s)))%R /\ (cg_eps <= cg_rs s)%R.

Section Sol.
Variables (nf L : nat) (ld : option R) (refs : list chan) (y x0 : list R).
Let K := length refs.
Let acf := sar_acf nf L ld refs.
Let a := all_cdelays nf K (rchan refs).
Let lam := loadv ld.
Let N := L * K.
Let T := bmat K L acf.
Let xc := sar_xc nf L refs y.
Hypotheses (HL2 : 2 <= L) (HL : L <= nf) (Hlam : (0 <= lam)%R) (Hns : nonsingular N T) (Hx0 : length x0 = N).
Let HL0 : 0 < L := Nat.lt_le_trans 0 2 L Nat.lt_0_2 HL2.
Let inv := inv_list K L acf.
Let A := dense_block (2 * L) K acf.
Let P := block_prec K L inv.
Let Q := pmat K L acf.
Let sol it := block_cg_spec K L acf inv xc x0 it.
Let Tsym : symmetric_mat N T := bm_sym nf L ld refs HL2 HL.
Let Tpsd : psd_mat N T := bm_psd nf L ld refs HL2 HL Hlam.

Lemma s_acts : acts_as N A T.
Proof.
  intros v p Hv Hp. unfold A, dense_block.
  assert (H2 : 2 * L / 2 = L) by (rewrite Nat.mul_comm; apply Nat.div_mul; discriminate). rewrite H2.
  destruct (lag_split K L p Hp) as (i & r & Hi & Hr & ->). rewrite nth_flatten by auto. rewrite nth_tab by auto.
  unfold mulmv, N. rewrite Rsum_prod, Rsum_swap. apply Rsum_ext. intros c Hc. apply Rsum_ext. intros j Hj.
  unfold T, bmat. rewrite !lag_div, !lag_mod by auto. reflexivity.
Qed.
Lemma s_pacts : acts_as N P Q.
Proof. exact (pmat_acts K L acf HL0 Tsym Tpsd Hns). Qed.
Lemma s_plen v : length v = N -> length (P v) = N.
Proof. intros _. apply length_block_prec. Qed.
Lemma s_qsym : symmetric_mat N Q.
Proof. exact (pmat_sym K L acf HL0 Tsym Tpsd Hns). Qed.
Lemma s_qpsd : psd_mat N Q.
Proof. exact (pmat_psd K L acf HL0 Tsym Tpsd Hns). Qed.
Lemma s_xc p : p < N -> nth p xc 0%R = dot nf (a p) (smp y).
Proof.
  intros Hp. unfold xc, sar_xc. fold K. rewrite Nat.min_l by exact HL. apply sar_crhs; auto.
Qed.
Lemma s_qval h : dot_nth N xc h = qval N nf a (smp y) h.
Proof. apply Rsum_ext. intros i Hi. rewrite s_xc by auto. reflexivity. Qed.
Lemma s_pzero v : length v = N -> zero_vec N v -> zero_vec N (P v).
Proof.
  intros Hv Hz i Hi. rewrite s_pacts by auto. apply Rsum_zero. intros j Hj. unfold smp. rewrite Hz by auto. ring.
Qed.
Lemma s_psym u v : length u = N -> length v = N -> dotl N (P u) v = dotl N u (P v).
Proof.
  intros Hu Hv. rewrite dotl_comm.
  transitivity (form N Q (smp v) (smp u)); [apply Rsum_ext; intros; rewrite s_pacts by auto; reflexivity|].
  rewrite (sym_form N Q) by apply s_qsym. apply Rsum_ext. intros. rewrite s_pacts by auto. reflexivity.
Qed.

(** exactness *)
Theorem s_exact it : N <= it -> (forall k, k < N -> block_inactive K L acf inv xc x0 k) ->
  forall i, i < N -> Rmv N T (smp (sol it)) i = nth i xc 0%R.
Proof.
  intros Hit Hin. apply (cg_exact N A P T xc x0 s_acts Hx0 s_plen Tsym s_pzero s_psym it Hit).
  intros k Hk Hz. apply (Hin k Hk). apply not_zero_ex. exact Hz.
Qed.
Theorem s_exact_lsq it : N <= it -> (forall k, k < N -> block_inactive K L acf inv xc x0 k) ->
  lsq N nf a lam (smp y) (dot_nth N xc (smp (sol it))).
Proof.
  intros Hit Hin. exists (smp (sol it)). split; [|apply s_qval]. intros i Hi.
  rewrite <- s_xc, <- (s_exact it Hit Hin) by auto. symmetry. apply (bm_mv nf L ld refs HL2 HL). exact Hi.
Qed.

(** rate *)
Variables mu Lam q' : R.
Hypotheses (Hmu : (0 < mu)%R) (HLam : (mu <= Lam)%R)
  (Hb : forall u, (mu * form N Q u u <= form N T (Rmv N Q u) (Rmv N Q u) <= Lam * form N Q u u)%R)
  (Hq : lsq N nf a lam (smp y) q').
Let coh it := dot_nth N xc (smp (sol it)).
Let E0 := ls_obj N nf a lam (smp y) (smp x0).

Lemma s_obj h : ls_obj N nf a lam (smp y) h = (form N T h h - 2 * qval N nf a (smp y) h + energy nf (smp y))%R.
Proof.
  unfold ls_obj. rewrite energy_sub_comb.
  rewrite (form_mat N T (gram nf a lam)) by (intros; apply (bm_gram nf L ld refs HL2 HL); auto).
  unfold form. rewrite gram_form. unfold sq, energy. ring.
Qed.
Lemma s_sol : exists h, (forall i, i < N -> Rmv N T h i = nth i xc 0%R) /\ form N T h h = q' /\
  (forall g, form N T h g = qval N nf a (smp y) g).
Proof.
  destruct Hq as (h & Hh & Eq). exists h.
  assert (E1 : forall i, i < N -> Rmv N T h i = nth i xc 0%R).
  { intros i Hi. rewrite s_xc by auto. rewrite <- (Hh i Hi). apply (bm_mv nf L ld refs HL2 HL). exact Hi. }
  assert (E2 : forall g, form N T h g = qval N nf a (smp y) g).
  { intros g. rewrite sym_form by apply Tsym. unfold form, qval. apply Rsum_ext. intros i Hi.
    rewrite E1, s_xc by auto. ring. }
  split; auto. split; auto. rewrite E2. auto.
Qed.
Lemma s_start h : (forall g, form N T h g = qval N nf a (smp y) g) -> form N T h h = q' ->
  forall x, sq_err N T h x = (ls_obj N nf a lam (smp y) x - (energy nf (smp y) - q'))%R.
Proof.
  intros E2 Eh x. unfold sq_err.
  rewrite (form_ext N T _ (comb2 1 x (-1) h) _ (comb2 1 x (-1) h)) by (intros; unfold comb2; ring).
  rewrite form_lin, !form_lin_r, Eh, (sym_form N T x h) by apply Tsym. rewrite !E2, s_obj. lra.
Qed.
Lemma s_q_range : (0 <= q' <= energy nf (smp y))%R.
Proof. destruct Hq as (h & Hh & ->). apply (q_bounds N nf a lam); auto. Qed.
Lemma s_close it e : (forall h, (forall g, form N T h g = qval N nf a (smp y) g) -> form N T h h = q' ->
    (forall i, i < N -> Rmv N T h i = nth i xc 0%R) -> (sq_err N T h (smp (sol it)) <= e)%R) ->
  ((coh it - q') ^ 2 <= q' * e)%R.
Proof.
  intros He. destruct s_sol as (h & E1 & Eh & E2). specialize (He h E2 Eh E1).
  assert (Ed : (coh it - q' = form N T h (fun i => smp (sol it) i - h i))%R).
  { unfold coh. rewrite s_qval, <- E2.
    rewrite (form_ext N T h h (fun i => smp (sol it) i - h i)%R (comb2 1 (smp (sol it)) (-1) h))
      by (intros; unfold comb2; ring).
    rewrite form_lin_r, Eh by apply Tsym. ring. }
  rewrite Ed. simpl. rewrite Rmult_1_r.
  pose proof (form_cs N T h (fun i => smp (sol it) i - h i)%R Tsym Tpsd) as C. rewrite Eh in C.
  eapply Rle_trans; [exact C|]. apply Rmult_le_compat_l; [apply s_q_range|]. exact He.
Qed.
Theorem s_rate_total it :
  ((coh it - q') ^ 2 <= q' * Rmax (2 * (1 - sqrt (mu / Lam)) ^ it * (E0 - (energy nf (smp y) - q')))
     (cg_eps / (mu * Rmin 1 mu)))%R.
Proof.
  apply s_close. intros h E2 Eh E1. unfold E0. rewrite <- (s_start h E2 Eh).
  destruct (Rsolve_some N Q (fun i => smp x0 i - h i)%R (pmat_nonsingular K L acf HL0 Tsym Tpsd Hns)) as (u0 & Eu).
  pose proof (Rsolve_ok _ _ _ _ Eu) as Hu0.
  exact (rate_total N A P T Q xc x0 h u0 s_acts s_pacts Hx0 s_plen Tsym s_qsym Tpsd s_qpsd E1 Hu0 mu Lam Hmu HLam
    (fun u => proj1 (Hb u)) (fun u => proj2 (Hb u)) it).
Qed.
Theorem s_rate it : (forall k, k < it -> block_inactive K L acf inv xc x0 k) ->
  ((coh it - q') ^ 2 <= q' * (2 * (1 - sqrt (mu / Lam)) ^ it * (E0 - (energy nf (smp y) - q'))))%R.
Proof.
  intros Hin. apply s_close. intros h E2 Eh E1. unfold E0. rewrite <- (s_start h E2 Eh).
  destruct (Rsolve_some N Q (fun i => smp x0 i - h i)%R (pmat_nonsingular K L acf HL0 Tsym Tpsd Hns)) as (u0 & Eu).
  pose proof (Rsolve_ok _ _ _ _ Eu) as Hu0.
  exact (rate N A P T Q xc x0 h u0 s_acts s_pacts Hx0 s_plen Tsym s_qsym Tpsd s_qpsd E1 Hu0 mu Lam Hmu HLam
    (fun u => proj1 (Hb u)) (fun u => proj2 (Hb u)) it (fun k Hk Hz => Hin k Hk (not_zero_ex _ _ Hz))).
Qed.
(** the functional never grows, whatever the safeguards do *)
Theorem s_stable it : ((coh it - q') ^ 2 <= q' * (E0 - (energy nf (smp y) - q')))%R.
Proof.
  apply s_close. intros h E2 Eh E1. unfold E0. rewrite <- (s_start h E2 Eh).
  assert (PP : forall v, length v = N -> (0 <= dotl N v (P v))%R).
  { intros v Hv. replace (dotl N v (P v)) with (form N Q (smp v) (smp v)); [apply s_qpsd|].
    apply Rsum_ext. intros i Hi. rewrite s_pacts by auto. reflexivity. }
  pose proof (cg_monotone N A P T xc x0 s_acts Hx0 s_plen Tsym Tpsd PP 0 it) as H.
  pose proof (err_is_error N T xc Tsym (sol it) h E1) as F1.
  pose proof (err_is_error N T xc Tsym x0 h E1) as F2.
  change (err N T xc (sol it) <= err N T xc x0)%R in H. unfold sq_err, form. lra.
Qed.
End Sol.
