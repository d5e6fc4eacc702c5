(** * Examples for the block conjugate gradient path (C64) *)
From Coq Require Import Reals Lra.
From Coquelicot Require Import Complex.
From Verif Require Import Prelude ExtReal Slice Sums SpecSig Fft FftProofs Helpers Linalg LinalgProofs
  Cgd Metrics StatsProofs LeastSq PrepProofs MetricsProofs SarProofs ProjTheorems MetricTheorems Invariance
  CgdOps CgdPrecond CgProofs CgCirc Cells Diag CgTheorems Witness SigExamples CgRate CgRateToep CgRateSdr
  BlockPrec Solvability BlockCg BlockRate BlockGlue.
Local Open Scope nat_scope.

(** ** References with no correlation across lags: the preconditioner is the inverse *)
Section Lagless.
Variables (k n : nat) (col : nat -> nat -> list R) (M : nat -> nat -> R).
Hypothesis Hn : 0 < n.
Let T := bmat k n col.
Hypotheses (Ts : symmetric_mat (n * k) T) (Tp : psd_mat (n * k) T) (Tn : nonsingular (n * k) T)
  (HM : forall i r j s, i < n -> r < k -> j < n -> s < k -> T (i * k + r) (j * k + s) = if i =? j then M r s else 0%R).
Let Q := pmat k n col.

Lemma lagless_fblk f r s : r < k -> s < k -> fblk n col f r s = RtoC (M r s).
Proof.
  intros Hr Hs. rewrite (fblk_sums n col Hn). assert (Hn0 : INR n <> 0%R) by (apply not_0_INR; lia).
  rewrite (Csum_ext n _ (fun _ => RtoC (M r s))).
  - rewrite Csum_RtoC, Rsum_const, <- RtoC_mult. f_equal. field. auto.
  - intros i Hi. rewrite (Csum_ext n _ (fun j => if j =? i then RtoC (M r s) else RtoC 0)).
    + rewrite Csum_delta by auto. reflexivity.
    + intros j Hj. pose proof (HM i r j s Hi Hr Hj Hs) as HE. unfold T, bmat in HE. rewrite !lag_div, !lag_mod in HE by auto.
      rewrite HE. rewrite (Nat.eqb_sym j i). destruct (Nat.eqb_spec i j) as [->|]; [|ring].
      unfold E. rewrite (Cmult_comm (Cconj _)). rewrite Cmod1. ring.
Qed.
Lemma lagless_ginv f r s : r < k -> ginv k n col f r s = ginv k n col 0 r s.
Proof.
  intros Hr. symmetry. apply (ginv_uniq k n col Hn Ts Tp Tn f s (fun i => ginv k n col 0 i s)); auto.
  intros i Hi. rewrite <- (ginv_right k n col Hn Ts Tp Tn 0 i s) by auto. apply Csum_ext. intros j Hj.
  rewrite !lagless_fblk by auto. reflexivity.
Qed.
Let g r s := Re (ginv k n col 0 r s).
Lemma lagless_pmat i r j s : i < n -> r < k -> j < n -> s < k ->
  Q (i * k + r) (j * k + s) = if i =? j then g r s else 0%R.
Proof.
  intros Hi Hr Hj Hs. assert (Hn0 : INR n <> 0%R) by (apply not_0_INR; lia).
  unfold Q, pmat. rewrite !lag_div, !lag_mod by auto.
  rewrite <- Re_Csum.
  rewrite (Csum_ext n _ (fun f => Cmult (ginv k n col 0 r s) (E n (f * (i + (n - j)))))).
  - rewrite Csum_scal_l, E_orth by auto. destruct (Nat.eqb_spec i j) as [->|N].
    + replace (j + (n - j)) with n by lia. rewrite Nat.mod_same by lia. simpl Nat.eqb. cbv iota.
      unfold g, Re, Cmult, RtoC. simpl. field. auto.
    + destruct (Nat.eqb_spec ((i + (n - j)) mod n) 0) as [Z|_]; [|unfold Re, Cmult, RtoC; simpl; ring].
      exfalso. destruct (Nat.lt_ge_cases i j).
      * rewrite Nat.mod_small in Z by lia. lia.
      * replace (i + (n - j)) with ((i - j) + 1 * n) in Z by lia. rewrite Nat.mod_add, Nat.mod_small in Z by lia. lia.
  - intros f Hf. rewrite lagless_ginv by auto. f_equal.
    rewrite (E_conj_eq n (f * j) (f * (n - j)) f) by (auto; nia). rewrite <- E_add. f_equal. nia.
Qed.
Lemma lagless_g r s : r < k -> s < k -> Rsum k (fun c => M r c * g c s)%R = if r =? s then 1%R else 0%R.
Proof.
  intros Hr Hs. pose proof (ginv_right k n col Hn Ts Tp Tn 0 r s Hr) as E.
  apply (f_equal Re) in E. unfold mulmv in E. rewrite Re_Csum in E.
  transitivity (Re (unit_col s r)).
  - rewrite <- E. apply Rsum_ext. intros c Hc. rewrite lagless_fblk by auto. unfold g, Re, Cmult, RtoC. simpl. ring.
  - unfold unit_col. destruct (r =? s); reflexivity.
Qed.
Lemma lagless_inverse v p : p < n * k -> Rmv (n * k) T (Rmv (n * k) Q v) p = v p.
Proof.
  intros Hp. destruct (lag_split k n p Hp) as (i & r & Hi & Hr & ->).
  assert (HQ : forall c, c < k -> Rmv (n * k) Q v (i * k + c) = Rsum k (fun s => g c s * v (i * k + s)%nat)%R).
  { intros c Hc. unfold mulmv. rewrite Rsum_prod, (Rsum_single n i); auto.
    - apply Rsum_ext. intros s Hs. rewrite lagless_pmat, Nat.eqb_refl by auto. reflexivity.
    - intros j Hj Hne. apply Rsum_zero. intros s Hs. rewrite lagless_pmat by auto.
      destruct (Nat.eqb_spec i j); [lia|ring]. }
  unfold mulmv at 1. rewrite Rsum_prod, (Rsum_single n i); auto.
  - rewrite (Rsum_ext k _ (fun c => Rsum k (fun s => M r c * g c s * v (i * k + s)%nat))%R).
    2:{ intros c Hc. rewrite HM, Nat.eqb_refl, HQ by auto. rewrite <- Rsum_scal_l. apply Rsum_ext. intros. ring. }
    rewrite Rsum_swap. rewrite (Rsum_ext k _ (fun s => if s =? r then v (i * k + s)%nat else 0)%R).
    + rewrite Rsum_delta by auto. reflexivity.
    + intros s Hs. rewrite Rsum_scal_r, lagless_g by auto. rewrite (Nat.eqb_sym s r).
      destruct (r =? s); ring.
  - intros j Hj Hne. apply Rsum_zero. intros s Hs. rewrite HM by auto. destruct (Nat.eqb_spec i j); [lia|ring].
Qed.
Lemma lagless_inverse_l v p : p < n * k -> Rmv (n * k) Q (Rmv (n * k) T v) p = v p.
Proof.
  intros Hp. apply Rminus_diag_uniq.
  apply (Tn (fun p => Rmv (n * k) Q (Rmv (n * k) T v) p - v p)%R); auto.
  intros q Hq. change (Rsum (n * k) (fun j => T q j * (Rmv (n * k) Q (Rmv (n * k) T v) j - v j)) = 0)%R.
  rewrite (Rsum_ext (n * k) _ (fun j => T q j * Rmv (n * k) Q (Rmv (n * k) T v) j - T q j * v j)%R)
    by (intros; ring).
  rewrite Rsum_minus. fold (Rmv (n * k) T (Rmv (n * k) Q (Rmv (n * k) T v)) q). fold (Rmv (n * k) T v q).
  rewrite lagless_inverse by auto. ring.
Qed.
End Lagless.

(** ** One step with an exact preconditioner *)
Section ExactPrec.
Variables (n : nat) (A P : list R -> list R) (M Q : nat -> nat -> R) (b x0 : list R) (xs : nat -> R).
Hypotheses (HA : acts_as n A M) (HP : acts_as n P Q) (Hx0 : length x0 = n)
  (HPl : forall v, length v = n -> length (P v) = n)
  (Hxs : forall i, i < n -> Rmv n M xs i = nth i b 0%R)
  (HQ : forall v i, i < n -> Rmv n Q (Rmv n M v) i = v i).
Let w i := (xs i - smp x0 i)%R.
Let rs := form n M w w.
Let t := (rs / Rmax rs cg_eps)%R.
Let r0 := axpy n b (-1) (A x0).
Lemma ep_r0 i : i < n -> smp r0 i = Rmv n M w i.
Proof.
  intros Hi. unfold smp, r0. rewrite nth_axpy by auto. rewrite HA by auto. rewrite <- Hxs by auto.
  unfold w, mulmv. rewrite <- Rsum_scal_l, <- Rsum_plus. apply Rsum_ext. intros j Hj. unfold smp. ring.
Qed.
Lemma ep_len : length r0 = n. Proof. apply length_axpy. Qed.
Lemma ep_z0 i : i < n -> smp (P r0) i = w i.
Proof.
  intros Hi. unfold smp. rewrite HP by (auto; apply ep_len). rewrite <- (HQ w i Hi).
  apply Rsum_ext. intros j Hj. rewrite ep_r0 by auto. reflexivity.
Qed.
Lemma ep_Ap i : i < n -> smp (A (P r0)) i = Rmv n M w i.
Proof.
  intros Hi. unfold smp. rewrite HA by (auto; apply HPl, ep_len). apply Rsum_ext. intros j Hj. rewrite ep_z0 by auto. reflexivity.
Qed.
Lemma ep_rs : dotl n r0 (P r0) = rs.
Proof. apply Rsum_ext. intros i Hi. fold (smp r0 i) (smp (P r0) i). rewrite ep_r0, ep_z0 by auto. ring. Qed.
Lemma ep_pAp : dotl n (P r0) (A (P r0)) = rs.
Proof. apply Rsum_ext. intros i Hi. fold (smp (A (P r0)) i) (smp (P r0) i). rewrite ep_Ap, ep_z0 by auto. ring. Qed.
Lemma ep_run0 : cg_run n A P b x0 0 = CG x0 r0 (P r0) rs.
Proof. unfold cg_run. simpl. unfold cg_init. fold r0. rewrite ep_rs. reflexivity. Qed.
Theorem ep_step i : i < n -> smp (cg_x (cg_run n A P b x0 1)) i = (smp x0 i + t * w i)%R.
Proof.
  intros Hi. rewrite cg_run_S, ep_run0. unfold cg_step. cbn [cg_x cg_p cg_r cg_rs]. rewrite ep_pAp.
  unfold smp at 1. rewrite nth_axpy by auto. fold (smp (P r0) i) (smp x0 i). rewrite ep_z0 by auto. reflexivity.
Qed.
Theorem ep_inactive : (forall v, length v = n -> zero_vec n v -> zero_vec n (P v)) ->
  (forall i, i < n -> w i = 0%R) \/ (cg_eps <= rs)%R ->
  forall k, (exists i, i < n /\ nth i (cg_r (cg_run n A P b x0 k)) 0%R <> 0%R) ->
  let s := cg_run n A P b x0 k in (cg_eps <= dotl n (cg_p s) (A (cg_p s)))%R /\ (cg_eps <= cg_rs s)%R.
Proof.
  intros Hz [H0|He] k (i & Hi & Hr) s; subst s.
  - exfalso. apply Hr. change k with (0 + k).
    refine (proj2 (converged_stays n A P b x0 Hx0 HPl Hz 0 k _) i Hi).
    rewrite ep_run0. cbn [cg_r]. intros j Hj. fold (smp r0 j). rewrite ep_r0 by auto.
    apply Rsum_zero. intros l Hl. rewrite H0 by auto. ring.
  - destruct k as [|k].
    + rewrite ep_run0. cbn [cg_p cg_rs]. rewrite ep_pAp. auto.
    + exfalso. apply Hr. change (S k) with (1 + k).
      refine (proj2 (converged_stays n A P b x0 Hx0 HPl Hz 1 k _) i Hi).
      intros j Hj. rewrite cg_run_S, ep_run0. unfold cg_step. cbn [cg_x cg_p cg_r cg_rs].
      change (0 + 1 mod 5 =? 0) with false. cbn iota. rewrite ep_pAp, Rmax_left by auto.
      rewrite nth_axpy by auto. fold (smp r0 j) (smp (A (P r0)) j). rewrite ep_r0, ep_Ap by auto.
      pose proof CgProofs.eps_pos. field. lra.
Qed.
End ExactPrec.

Section LaglessRefs.
Variables (nf L : nat) (ld : option R) (refs : list chan) (M : nat -> nat -> R).
Let K := length refs.
Let acf := sar_acf nf L ld refs.
Let N := L * K.
Let T := bmat K L acf.
Let inv := inv_list K L acf.
Hypotheses (HL2 : 2 <= L) (HL : L <= nf) (Hlam : (0 <= loadv ld)%R) (Hns : nonsingular N T)
  (HM : forall i r j s, i < L -> r < K -> j < L -> s < K -> T (i * K + r) (j * K + s) = if i =? j then M r s else 0%R).
Let HL0 : 0 < L := Nat.lt_le_trans 0 2 L Nat.lt_0_2 HL2.
Lemma lr_inverse v p : p < N -> Rmv N (pmat K L acf) (Rmv N T v) p = v p.
Proof.
  apply (lagless_inverse_l K L acf M HL0 (bm_sym nf L ld refs HL2 HL) (bm_psd nf L ld refs HL2 HL Hlam) Hns HM).
Qed.
Lemma lr_step y x0 xs : length x0 = N -> (forall i, i < N -> Rmv N T xs i = nth i (sar_xc nf L refs y) 0%R) ->
  let w := fun i => (xs i - smp x0 i)%R in
  let rs := form N T w w in
  forall i, i < N -> smp (block_cg_spec K L acf inv (sar_xc nf L refs y) x0 1) i =
    (smp x0 i + rs / Rmax rs cg_eps * w i)%R.
Proof.
  intros Hx0 Hxs w rs i Hi.
  exact (ep_step N (dense_block (2 * L) K acf) (block_prec K L inv) T (pmat K L acf) (sar_xc nf L refs y) x0 xs
    (s_acts nf L ld refs) (s_pacts nf L ld refs HL2 HL Hlam Hns) Hx0 (fun v _ => length_block_prec K L inv v) Hxs
    lr_inverse i Hi).
Qed.
Lemma lr_inactive y x0 xs : length x0 = N -> (forall i, i < N -> Rmv N T xs i = nth i (sar_xc nf L refs y) 0%R) ->
  let w := fun i => (xs i - smp x0 i)%R in
  (forall i, i < N -> w i = 0%R) \/ (cg_eps <= form N T w w)%R ->
  forall k, block_inactive K L acf inv (sar_xc nf L refs y) x0 k.
Proof.
  intros Hx0 Hxs w H k. unfold block_inactive. cbv zeta.
  exact (ep_inactive N (dense_block (2 * L) K acf) (block_prec K L inv) T (pmat K L acf) (sar_xc nf L refs y) x0 xs
    (s_acts nf L ld refs) (s_pacts nf L ld refs HL2 HL Hlam Hns) Hx0 (fun v _ => length_block_prec K L inv v) Hxs
    lr_inverse (s_pzero nf L ld refs HL2 HL Hlam Hns) H k).
Qed.
End LaglessRefs.

(** ** Two references e0 and e2, filters of length 2 *)
Lemma ex_bmat i r j s : i < 2 -> r < 2 -> j < 2 -> s < 2 ->
  bmat 2 2 (sar_acf 16 2 None (prep_arr false ex_ref)) (i * 2 + r) (j * 2 + s) =
  if i =? j then (if r =? s then 1 else 0)%R else 0%R.
Proof.
  intros Hi Hr Hj Hs.
  pose proof (bm_gram 16 2 None (prep_arr false ex_ref) ltac:(lia) ltac:(lia) (i * 2 + r) (j * 2 + s)) as H.
  change (length (prep_arr false ex_ref)) with 2 in H. rewrite H by (simpl; lia). clear H.
  unfold gram, all_cdelays. rewrite !lag_div, !lag_mod by auto. simpl loadv.
  assert (ER : forall c, c < 2 -> rchan (prep_arr false ex_ref) c = exr c).
  { intros c Hc. unfold rchan. pose proof (proj1 (has_chan_pchan false _ _ _ ex_ref_wf (ex_ref_chan c Hc))) as E.
    unfold pchan in E. rewrite E. cbn [opt0 pre]. apply ex_ref_unit. auto. }
  rewrite !ER by auto.
  revert i Hi r Hr j Hj s Hs.
  apply (two (fun i => forall r, r < 2 -> forall j, j < 2 -> forall s, s < 2 -> _));
  apply (two (fun r => forall j, j < 2 -> forall s, s < 2 -> _));
  apply (two (fun j => forall s, s < 2 -> _)); apply (two (fun s => _ = _));
  unfold dot, cdelayed, exr; simpl; ring.
Qed.
Lemma ex_T_id v p : p < 4 -> Rmv 4 (bmat 2 2 (sar_acf 16 2 None (prep_arr false ex_ref))) v p = v p.
Proof.
  intros Hp. destruct (lag_split 2 2 p Hp) as (i & r & Hi & Hr & ->).
  unfold mulmv. rewrite (Rsum_single 4 (i * 2 + r)); [|lia|].
  - rewrite ex_bmat, !Nat.eqb_refl by auto. ring.
  - intros q Hq Hne. destruct (lag_split 2 2 q Hq) as (j & s & Hj & Hs & ->). rewrite ex_bmat by auto.
    destruct (Nat.eqb_spec i j); [|ring]. destruct (Nat.eqb_spec r s); [|ring]. subst. lia.
Qed.
Lemma ex_T_ns : nonsingular 4 (bmat 2 2 (sar_acf 16 2 None (prep_arr false ex_ref))).
Proof. intros v Hv p Hp. rewrite <- (ex_T_id v p Hp). auto. Qed.
Lemma ex_rchan c : c < 2 -> rchan (prep_arr false ex_ref) c = exr c.
Proof.
  intros Hc. unfold rchan. pose proof (proj1 (has_chan_pchan false _ _ _ ex_ref_wf (ex_ref_chan c Hc))) as E.
  unfold pchan in E. rewrite E. cbn [opt0 pre]. apply ex_ref_unit. auto.
Qed.
Theorem ex_block_never_guarded pw it n : (pw = true -> 2 <= it) ->
  block_never_guarded pw (plain_opts 2) it ex_ref ex_est n.
Proof.
  intros Hit d y inv Hy Hinv k _. rewrite ex_nf in *. cbn [filter_length load_diag zero_mean plain_opts] in *.
  pose proof (pchan_lt _ _ _ _ Hy) as Hd. change (d < 2) in Hd.
  pose proof (cg_ready 16 2 None (prep_arr false ex_ref) ltac:(lia) ltac:(lia) ltac:(simpl; lra) it ex_T_ns) as Hr.
  unfold sar_ready in Hr. change (length (prep_arr false ex_ref)) with 2 in Hr. change (n_chan ex_ref) with 2 in *.
  rewrite Hinv in Hr. injection Hr as ->.
  set (refs := prep_arr false ex_ref) in *. set (xc := sar_xc 16 2 refs y).
  refine (lr_inactive 16 2 None refs (fun r s => if r =? s then 1 else 0)%R ltac:(lia) ltac:(lia) ltac:(simpl; lra)
    ex_T_ns ex_bmat y (sar_start pw it 16 2 None refs y) (smp xc) (start_len 16 2 it None refs y pw) _ _ k).
  - intros i Hi. change (2 * length refs) with 4 in *. change (length refs) with 2. unfold refs. rewrite ex_T_id by auto. reflexivity.
  - assert (Exc : forall l c, l < 2 -> c < 2 -> smp xc (l * 2 + c) = nth l (stats_xcorr 16 2 (exr c) y) 0%R).
    { intros l c Hl Hc. unfold xc, sar_xc, smp. change (length refs) with 2. change (Nat.min 2 16) with 2.
      rewrite nth_flatten by auto. unfold refs. rewrite ex_rchan by auto. reflexivity. }
    destruct pw.
    + left. intros p Hp. destruct (lag_split 2 2 p Hp) as (l & c & Hl & Hc & ->).
      rewrite Exc by auto. pose proof (start_entry 16 2 it None refs y l c Hl Hc) as E.
      change (length refs) with 2 in E. rewrite E. unfold refs. rewrite ex_rchan by auto. cbn [add_load].
      pose proof (ex_never_guarded 2 c d (exr c) y) as Hg. rewrite ex_nf in Hg.
      pose proof (proj1 (has_chan_pchan false _ _ _ ex_ref_wf (ex_ref_chan c Hc))) as Ex. cbn [pre] in Ex.
      rewrite ex_ref_unit in Ex by auto. specialize (Hg Ex Hy). unfold sdr_acf in Hg.
      cbn [filter_length load_diag plain_opts add_load] in Hg. rewrite (ex_acf c Hc) in Hg |- *.
      pose proof (toeplitz_cg_exact NumPy (white 2) (stats_xcorr 16 2 (exr c) y) it (length_stats_xcorr _ _ _ _) (Hit eq_refl) Hg)
        as (s & Es & _ & Hs).
      rewrite toeplitz_cg_ok, length_stats_xcorr in Es. simpl Nat.eqb in Es. cbv iota in Es. injection Es as <-.
      rewrite <- Hs by (simpl; lia).
      change (length (white 2)) with 2. unfold mulmv. rewrite (Rsum_single 2 l); auto.
      * rewrite toeplitz_entry by (simpl; lia). unfold adist. rewrite Nat.sub_diag. simpl. ring.
      * intros j Hj Hne. rewrite toeplitz_entry by (simpl; lia).
        assert (Ha : adist l j = 1) by (unfold adist; lia). rewrite Ha. simpl. ring.
    + right. unfold form. change (2 * length refs) with 4 in *. change (length refs) with 2.
      rewrite (Rsum_ext 4 _ (fun i => smp xc i * smp xc i)%R).
      2:{ intros i Hi. unfold refs. rewrite ex_T_id by auto. unfold sar_start, smp. rewrite nth_repeat. ring. }
      change 4 with (2 * 2). rewrite Rsum_prod.
      rewrite (Rsum_ext 2 _ (fun l => Rsum 2 (fun c => nth l (stats_xcorr 16 2 (exr c) y) 0 * nth l (stats_xcorr 16 2 (exr c) y) 0))%R)
        by (intros l Hl; apply Rsum_ext; intros c Hc; rewrite Exc by auto; reflexivity).
      rewrite (proj1 (has_chan_pchan _ _ _ _ ex_est_wf (ex_est_chan d Hd))) in Hy. injection Hy as <-.
      assert (Hg : (/ 8 <= gain (exe d) ^ 2)%R).
      { rewrite gain_norm by (apply ex_est_norm; auto).
        assert (Hn : (0 < norm2 (exe d) ^ 2 <= 8)%R).
        { rewrite norm2_sq. clear - Hd. revert d Hd. apply (two (fun d => 0 < _ <= _)%R); intros; unfold smp; simpl; lra. }
        rewrite pow_inv. apply Rinv_le_contravar; lra. }
      assert (He : (cg_eps <= / 8)%R) by (unfold cg_eps; apply Rinv_le_contravar; simpl; lra).
      rewrite (Rsum_ext 2 _ (fun l => Rsum 2 (fun c => gain (exe d) ^ 2 * (xcorr (exr c) (exe d) l * xcorr (exr c) (exe d) l)))%R).
      2:{ intros l Hl. apply Rsum_ext. intros c Hc.
          assert (Hlen : length (exr c) + 1 <= 16) by (revert c Hc; apply (two (fun c => _ <= _)); simpl; lia).
          rewrite stats_xcorr_plain by lia.
          assert (Hs : xcorr (exr c) (unit_of (exe d)) l = (gain (exe d) * xcorr (exr c) (exe d) l)%R).
          { unfold xcorr. rewrite <- Rsum_scal_l. apply Rsum_ext. intros t Ht. rewrite smp_unit_of. ring. }
          cbn [pre]. rewrite Hs. ring. }
      rewrite (Rsum_ext 2 _ (fun l => gain (exe d) ^ 2 * Rsum 2 (fun c => xcorr (exr c) (exe d) l * xcorr (exr c) (exe d) l))%R)
        by (intros; apply Rsum_scal_l).
      rewrite Rsum_scal_l.
      assert (Hx : (1 <= Rsum 2 (fun l => Rsum 2 (fun c => xcorr (exr c) (exe d) l * xcorr (exr c) (exe d) l)))%R).
      { clear - Hd. revert d Hd. apply (two (fun d => 1 <= _)%R); unfold xcorr, smp; simpl; lra. }
      nra.
Qed.
Theorem ex_block_ok b pw it n : (pw = true -> 2 <= it) ->
  never_guarded (plain_opts 2) ex_ref ex_est n /\ block_never_guarded pw (plain_opts 2) it ex_ref ex_est n /\
  has_chans ex_ref exr /\ is_ok (sq_cos b (with_cg (plain_opts 2) None) ex_ref ex_est).
Proof.
  intros H. split; [apply ex_never_guarded|]. split; [apply ex_block_never_guarded; auto|].
  split; [apply ex_ref_chans|]. apply ex_sq_cos_ok.
Qed.
