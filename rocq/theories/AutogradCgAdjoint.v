(** * The backward pass of the conjugate gradient is the adjoint of its derivative *)
From Coq Require Import Reals Lra.
From Coquelicot Require Import Complex.
From Verif Require Import Prelude ExtReal Slice Sums Fft FftProofs Helpers Linalg LinalgProofs Cgd CgdOps CgdPrecond CgProofs CgTheorems Metrics
  SpecSig StatsProofs PrepProofs LeastSq ProjTheorems Gradient Perturb Autograd AutogradFft AutogradRefDeriv AutogradCg.
Local Open Scope nat_scope.

(** ** The operators *)
Lemma filter_adjoint nf Cf g v : 0 < nf -> length Cf = nf / 2 + 1 -> length v <= nf ->
  Rsum (length v) (fun t => nth t (filter_bw nf (length v) Cf g) 0 * nth t v 0)%R =
  Rsum nf (fun t => nth t g 0 * nth t (irfft nf (zip_with Cmult (rfft nf v) Cf)) 0)%R.
Proof.
  intros Hn HC Hv. unfold filter_bw.
  rewrite rfft_adjoint; auto; [|rewrite length_zip, length_irfft_bw, map_length; lia].
  rewrite irfft_adjoint by (auto; rewrite length_zip, length_rfft; lia).
  apply Rsum_ext. intros k Hk.
  rewrite (nth_zip _ _ _ _ (RtoC 0) (RtoC 0)) by (rewrite ?length_irfft_bw, ?map_length; lia).
  rewrite (nth_zip _ _ _ _ (RtoC 0) (RtoC 0)) by (rewrite ?length_rfft; lia).
  rewrite (nth_indep (map Cconj Cf) (RtoC 0) (Cconj (RtoC 0))) by (rewrite map_length; lia).
  rewrite map_nth, Cconj_mult, <- Cmult_assoc. f_equal. f_equal. apply Cmult_comm.
Qed.

(** B is the adjoint of A on vectors of length n *)
Definition adjoint (n : nat) (A B : list R -> list R) : Prop :=
  forall g v, length g = n -> length v = n ->
    Rsum n (fun i => nth i (B g) 0 * nth i v 0)%R = Rsum n (fun i => nth i g 0 * nth i (A v) 0)%R.

Lemma toeplitz_adjoint col : adjoint (length col) (toeplitz_op Torch col) (toeplitz_op_bw col).
Proof.
  intros g v Hg Hv. destruct (Nat.eq_dec (length col) 0) as [E|E]; [rewrite E; reflexivity|].
  set (n := length col) in *. assert (Hn : 0 < n) by lia.
  rewrite toeplitz_op_unfold. fold n.
  change (toeplitz_op_bw col) with (filter_bw (2 * n) n (rfft (length (sym_circ_col Torch col)) (sym_circ_col Torch col))).
  rewrite length_sym_circ by exact Hn. fold n.
  pose proof (filter_adjoint (2 * n) (rfft (2 * n) (sym_circ_col Torch col)) g v ltac:(lia)
    ltac:(apply length_rfft) ltac:(lia)) as F.
  rewrite Hv in F. rewrite F.
  rewrite (Rsum_trunc (2 * n) n) by (try lia; intros i Hi _; rewrite (nth_overflow g) by lia; ring).
  apply Rsum_ext. intros i Hi. rewrite (slice_to _ _ 0%R), length_irfft, nth_tab by lia. reflexivity.
Qed.

Lemma zip_comm l l' : zip_with Cmult l l' = zip_with Cmult l' l.
Proof.
  unfold zip_with. revert l'. induction l as [|a l IH]; intros [|a' l']; simpl; auto. f_equal; [apply Cmult_comm|apply IH].
Qed.
Lemma precond_adjoint col : exists P B, circulant_precond Torch col = Ok P /\ circulant_bw col = Ok B /\
  adjoint (length col) P B /\ (forall v, P v = circ_prec col v).
Proof.
  destruct (circulant_precond_ok Torch col) as (P & EP & HP). exists P.
  unfold circulant_bw. rewrite sym_precond_col_ok. cbn [bind]. eexists. split; [exact EP|]. split; [reflexivity|].
  split; [|exact HP]. intros g v Hg Hv.
  unfold circulant_precond in EP. rewrite sym_precond_col_ok in EP. cbn [bind] in EP. injection EP as <-.
  destruct (Nat.eq_dec (length col) 0) as [E|E]; [rewrite E; reflexivity|].
  assert (Lc : length (sym_col col) = length col).
  { destruct (sym_col_optimal Torch col (fun _ => 0%R) ltac:(lia)) as (c & Ec & Lc & _).
    rewrite sym_precond_col_ok in Ec. injection Ec as <-. exact Lc. }
  rewrite Lc. set (n := length col) in *.
  pose proof (filter_adjoint n (map (precond_freq Torch) (rfft n (sym_col col))) g v ltac:(lia)
    ltac:(rewrite map_length; apply length_rfft) ltac:(lia)) as F.
  rewrite Hv in F. rewrite F. apply Rsum_ext. intros i Hi. f_equal. f_equal. f_equal.
  apply zip_comm.
Qed.

Lemma adjoint_acts n A B : adjoint n A B ->
  acts_as n A (fun i j => nth j (B (tab n (fun k => if Nat.eqb k i then 1 else 0)%R)) 0%R).
Proof.
  intros H v i Hv Hi. unfold Rmv. unfold mulmv. change (gsum 0%R Rplus) with Rsum.
  pose proof (H (tab n (fun k => if Nat.eqb k i then 1 else 0)%R) v ltac:(apply length_tab) Hv) as E.
  unfold smp. rewrite E. rewrite (Rsum_single n i); auto.
  - rewrite nth_tab by auto. rewrite Nat.eqb_refl. ring.
  - intros k Hk Nk. rewrite nth_tab by auto. destruct (Nat.eqb_spec k i); [contradiction|ring].
Qed.

(** ** The derivative of the iterations *)
Section Loop.
  Variables (n : nat) (A Abw P Pbw : list R -> list R).
  Hypothesis HA : adjoint n A Abw.
  Hypothesis HP : adjoint n P Pbw.
  Hypothesis HPl : forall v, length v = n -> length (P v) = n.

  (** the vectors v t have derivative dv at 0 *)
  Definition vderiv (v : R -> list R) (dv : list R) : Prop :=
    length dv = n /\ (forall t, length (v t) = n) /\
    forall i, i < n -> derivable_pt_lim (fun t => nth i (v t) 0%R) 0 (nth i dv 0%R).

  Lemma vderiv_adj F B v dv : adjoint n F B -> (forall v, length v = n -> length (F v) = n) -> vderiv v dv ->
    vderiv (fun t => F (v t)) (F dv).
  Proof.
    intros HF HL (L & Lt & D). pose proof (adjoint_acts n F B HF) as Ha. split; [apply HL; auto|]. split; [auto|].
    intros i Hi. rewrite (Ha dv i L Hi).
    apply (deriv_local (fun t => Rsum n (fun j => nth j (B (tab n (fun k => if Nat.eqb k i then 1 else 0)%R)) 0 * nth j (v t) 0)%R)
      _ _ 1 Rlt_0_1).
    - intros t _. rewrite (Ha (v t) i (Lt t) Hi). reflexivity.
    - apply (deriv_sum n (fun j t => nth j (B (tab n (fun k => if Nat.eqb k i then 1 else 0)%R)) 0 * nth j (v t) 0)%R).
      intros j Hj. eapply deriv_eq; [|apply (deriv_mult (fun _ => nth j (B (tab n (fun k => if Nat.eqb k i then 1 else 0)%R)) 0%R)
        (fun t => nth j (v t) 0%R) 0 _ (derivable_pt_lim_const _ _) (D j Hj))]. unfold smp. ring.
  Qed.
  Lemma vderiv_dot u du v dv : vderiv u du -> vderiv v dv ->
    derivable_pt_lim (fun t => dotl n (u t) (v t)) 0 (dotl n du (v 0%R) + dotl n (u 0%R) dv)%R.
  Proof.
    intros (_ & _ & Du) (_ & _ & Dv). unfold dotl. rewrite <- Rsum_plus.
    apply (deriv_sum n (fun i t => nth i (u t) 0 * nth i (v t) 0)%R). intros i Hi.
    eapply deriv_eq; [|apply (deriv_mult _ _ _ _ (Du i Hi) (Dv i Hi))]. ring.
  Qed.
  Lemma vderiv_axpy x dx a da p dp : vderiv x dx -> derivable_pt_lim a 0 da -> vderiv p dp ->
    vderiv (fun t => axpy n (x t) (a t) (p t)) (axpy n (axpy n dx da (p 0%R)) (a 0%R) dp).
  Proof.
    intros (_ & _ & Dx) Da (_ & _ & Dp). split; [apply length_axpy|]. split; [intros; apply length_axpy|].
    intros i Hi. rewrite !nth_axpy by auto.
    apply (deriv_local (fun t => nth i (x t) 0 + a t * nth i (p t) 0)%R _ _ 1 Rlt_0_1).
    - intros t _. rewrite nth_axpy by auto. reflexivity.
    - eapply deriv_eq; [|apply (derivable_pt_lim_plus _ (fun t => a t * nth i (p t) 0)%R _ _ _ (Dx i Hi) (deriv_mult _ _ _ _ Da (Dp i Hi)))].
      ring.
  Qed.
  Lemma deriv_clamp f l : derivable_pt_lim f 0 l -> f 0%R <> cg_eps ->
    derivable_pt_lim (fun t => Rmax (f t) cg_eps) 0 (if Rle_dec cg_eps (f 0%R) then l else 0%R).
  Proof.
    intros D Hn. destruct (Rle_dec cg_eps (f 0%R)) as [H|H].
    - destruct (near_lt f l cg_eps D ltac:(lra)) as (e & Pe & N).
      apply (deriv_local f _ _ e Pe); auto. intros t Ht. specialize (N t Ht). rewrite Rmax_left by lra. reflexivity.
    - destruct (near_gt f l cg_eps D ltac:(lra)) as (e & Pe & N).
      apply (deriv_local (fun _ => cg_eps) _ _ e Pe); [|apply derivable_pt_lim_const].
      intros t Ht. specialize (N t Ht). rewrite Rmax_right by lra. reflexivity.
  Qed.
  Lemma deriv_quot f l g m : derivable_pt_lim f 0 l -> derivable_pt_lim g 0 m -> (0 < g 0)%R ->
    derivable_pt_lim (fun t => f t / g t)%R 0 (l / g 0 - f 0 / g 0 / g 0 * m)%R.
  Proof.
    intros Df Dg Pg. eapply deriv_eq; [|apply (derivable_pt_lim_div f g 0 l m Df Dg); lra]. unfold Rsqr. field. lra.
  Qed.

  (** S t has derivative T at 0 *)
  Definition sderiv (S : R -> cg_state) (T : cg_state) : Prop :=
    vderiv (fun t => cg_x (S t)) (cg_x T) /\ vderiv (fun t => cg_r (S t)) (cg_r T) /\
    vderiv (fun t => cg_p (S t)) (cg_p T) /\ derivable_pt_lim (fun t => cg_rs (S t)) 0 (cg_rs T).
  Definition pair (g : cg_cot) (T : cg_state) : R :=
    (dotl n (g_x g) (cg_x T) + dotl n (g_r g) (cg_r T) + dotl n (g_p g) (cg_p T) + g_rs g * cg_rs T)%R.
  Definition cot_len (g : cg_cot) : Prop := length (g_x g) = n /\ length (g_r g) = n /\ length (g_p g) = n.

  Hypothesis HAl : forall v, length v = n -> length (A v) = n.

  Lemma dotl_map n' a u v : dotl n' (map (Rmult a) u) v = (a * dotl n' u v)%R.
  Proof.
    unfold dotl. rewrite <- Rsum_scal_l. apply Rsum_ext. intros i _.
    replace (nth i (map (Rmult a) u) 0%R) with (a * nth i u 0)%R; [ring|].
    replace 0%R with (Rmult a 0) at 2 by ring. rewrite map_nth. reflexivity.
  Qed.

  Lemma step_deriv b e S T : sderiv S T ->
    dotl n (cg_p (S 0%R)) (A (cg_p (S 0%R))) <> cg_eps -> cg_rs (S 0%R) <> cg_eps ->
    exists T', sderiv (fun t => cg_step n A P (b t) e (S t)) T' /\
      (zero_vec n (cg_p (S 0%R)) -> cg_rs (S 0%R) = 0%R -> forall i, i < n -> nth i (cg_x T') 0%R = nth i (cg_x T) 0%R) /\
      forall g, cot_len g -> cot_len (cg_step_bw n A Abw P Pbw (S 0%R) g) /\
        pair g T' = pair (cg_step_bw n A Abw P Pbw (S 0%R) g) T.
  Proof.
    intros (Dx & Dr & Dp & Ds) N1 N2.
    destruct T as [dx dr dp ds]. cbn [cg_x cg_r cg_p cg_rs] in Dx, Dr, Dp, Ds.
    pose proof (vderiv_adj A Abw _ _ HA HAl Dp) as DAp.
    pose proof (vderiv_dot _ _ _ _ Dp DAp) as DpAp. cbv beta in DpAp.
    pose proof (deriv_clamp _ _ DpAp N1) as Dc1. cbv beta in Dc1.
    pose proof (deriv_quot _ _ _ _ Ds Dc1 (max_eps_pos _)) as Da. cbv beta in Da.
    pose proof (derivable_pt_lim_opp _ _ _ Da) as Dna.
    pose proof (vderiv_axpy _ _ _ _ _ _ Dx Da Dp) as Dx'. cbv beta in Dx'.
    pose proof (vderiv_axpy _ _ _ _ _ _ Dr Dna DAp) as Dr'. cbv beta in Dr'. unfold opp_fct in Dr'.
    pose proof (vderiv_adj P Pbw _ _ HP HPl Dr') as Dz. cbv beta in Dz.
    pose proof (vderiv_dot _ _ _ _ Dr' Dz) as Drsn. cbv beta in Drsn.
    pose proof (deriv_clamp _ _ Ds N2) as Dc2. cbv beta in Dc2.
    pose proof (deriv_quot _ _ _ _ Drsn Dc2 (max_eps_pos _)) as Db. cbv beta in Db.
    pose proof (vderiv_axpy _ _ _ _ _ _ Dz Db Dp) as Dp'. cbv beta in Dp'.
    eexists (CG _ _ _ _). split.
    { unfold sderiv. cbn [cg_x cg_r cg_p cg_rs].
      assert (ES : forall t, cg_step n A P (b t) e (S t) =
         CG (axpy n (cg_x (S t)) (cg_rs (S t) / Rmax (dotl n (cg_p (S t)) (A (cg_p (S t)))) cg_eps) (cg_p (S t)))
            (axpy n (cg_r (S t)) (- (cg_rs (S t) / Rmax (dotl n (cg_p (S t)) (A (cg_p (S t)))) cg_eps)) (A (cg_p (S t))))
            (cg_p (cg_step n A P (b t) e (S t))) (cg_rs (cg_step n A P (b t) e (S t)))).
      { intros t. unfold cg_step. rewrite never_recompute. reflexivity. }
      assert (Lq : forall t, length (cg_p (cg_step n A P (b t) e (S t))) = n) by (intros; apply cg_step_len).
      split; [exact Dx'|]. split.
      { destruct Dr' as (L1 & L2 & L3). split; [exact L1|]. split; [intros t; rewrite ES; apply length_axpy|].
        intros i Hi. eapply deriv_local; [exact Rlt_0_1| |exact (L3 i Hi)]. intros t _. cbv beta. rewrite (ES t). reflexivity. }
      split.
      { destruct Dp' as (L1 & L2 & L3). split; [exact L1|]. split; [auto|].
        intros i Hi. eapply deriv_local; [exact Rlt_0_1| |exact (L3 i Hi)]. intros t _. cbv beta. unfold cg_step. rewrite never_recompute. reflexivity. }
      eapply deriv_local; [exact Rlt_0_1| |exact Drsn]. intros t _. cbv beta. unfold cg_step. rewrite never_recompute. reflexivity. }
    split.
    { intros Zp Zs i Hi. cbn [cg_x]. rewrite !nth_axpy, Zp by auto. rewrite Zs. unfold Rdiv. ring. }
    intros g (Lgx & Lgr & Lgp). split.
    { unfold cot_len, cg_step_bw. cbn [g_x g_r g_p]. rewrite length_axpy, length_tab. auto. }
    destruct g as [gx gr gp gs]. cbn [g_x g_r g_p g_rs] in Lgx, Lgr, Lgp.
    unfold pair, cg_step_bw. cbv zeta. cbn [cg_x cg_r cg_p cg_rs g_x g_r g_p g_rs].
    set (s := S 0%R) in *. set (p := cg_p s) in *. set (Ap := A p) in *. set (pAp := dotl n p Ap) in *.
    set (c1 := Rmax pAp cg_eps) in *. set (al := (cg_rs s / c1)%R) in *.
    set (r' := axpy n (cg_r s) (- al) Ap) in *. set (z := P r') in *. set (rsn := dotl n r' z) in *.
    set (c2 := Rmax (cg_rs s) cg_eps) in *. set (be := (rsn / c2)%R) in *.
    set (dal := (ds / c1 - al / c1 * (if Rle_dec cg_eps pAp then dotl n dp Ap + dotl n p (A dp) else 0))%R) in *.
    set (dr' := axpy n (axpy n dr (- dal) Ap) (- al) (A dp)) in *.
    set (gb := dotl n gp p). set (grsn := (gs + gb / c2)%R).
    set (GR := axpy n (axpy n gr grsn z) 1 (Pbw (axpy n gp grsn r'))).
    assert (Ldr : length dr' = n) by apply length_axpy.
    assert (Ldp : length dp = n) by apply Dp.
    assert (Lr' : length r' = n) by apply length_axpy.
    (* the gradient of r *)
    assert (EGR : dotl n GR dr' = (dotl n gr dr' + grsn * (dotl n dr' z + dotl n r' (P dr')) + dotl n gp (P dr'))%R).
    { unfold GR. rewrite !dotl_axpy_l. unfold dotl at 3.
      rewrite (HP (axpy n gp grsn r') dr') by (auto; apply length_axpy).
      fold (dotl n (axpy n gp grsn r') (P dr')). rewrite dotl_axpy_l, (dotl_comm n z). ring. }
    set (gal := (dotl n gx p - dotl n GR Ap)%R).
    set (gpAp := if Rle_dec cg_eps pAp then (- gal * (al / c1))%R else 0%R).
    assert (EAp : dotl n (Abw (axpy n (map (Rmult (- al)) GR) gpAp p)) dp = (- al * dotl n GR (A dp) + gpAp * dotl n p (A dp))%R).
    { unfold dotl at 1. rewrite HA by (auto; apply length_axpy).
      fold (dotl n (axpy n (map (Rmult (- al)) GR) gpAp p) (A dp)). rewrite dotl_axpy_l, dotl_map. reflexivity. }
    assert (Egp : dotl n (tab n (fun i => be * nth i gp 0 + al * nth i gx 0 + gpAp * nth i Ap 0 + nth i (Abw (axpy n (map (Rmult (- al)) GR) gpAp p)) 0)%R) dp
       = (be * dotl n gp dp + al * dotl n gx dp + gpAp * dotl n Ap dp + dotl n (Abw (axpy n (map (Rmult (- al)) GR) gpAp p)) dp)%R).
    { unfold dotl. rewrite <- !Rsum_scal_l, <- !Rsum_plus. apply Rsum_ext. intros i Hi. rewrite nth_tab by auto. ring. }
    rewrite Egp, EAp. clear Egp EAp.
    rewrite !dotl_axpy_r.
    set (drsn := (dotl n dr' z + dotl n r' (P dr'))%R) in *.
    assert (EGR2 : dotl n GR dr' = (dotl n GR dr + - dal * dotl n GR Ap + - al * dotl n GR (A dp))%R)
      by (unfold dr'; rewrite !dotl_axpy_r; ring).
    assert (Ec2 : (0 < c2)%R) by apply max_eps_pos.
    assert (Ec1 : (0 < c1)%R) by apply max_eps_pos.
    rewrite EGR2 in EGR. fold gb. fold grsn.
    assert (E1 : dotl n gr dr' = (dotl n GR dr + - dal * dotl n GR Ap + - al * dotl n GR (A dp) - grsn * drsn - dotl n gp (P dr'))%R) by lra.
    replace (gs * drsn)%R with ((grsn - gb / c2) * drsn)%R by (unfold grsn; ring).
    unfold dr' in E1 at 1. rewrite !dotl_axpy_r in E1. 
    rewrite (dotl_comm n Ap dp).
    unfold gpAp. unfold gal in *. unfold dal in *.
    destruct (Rle_dec cg_eps pAp); destruct (Rle_dec cg_eps (cg_rs s)); unfold Rdiv in *; lra.
  Qed.

  Let zero := repeat 0%R n.
  Let run b := cg_run n A P b zero.
  Definition smooth (b : list R) (k : nat) : Prop :=
    dotl n (cg_p (run b k)) (A (cg_p (run b k))) <> cg_eps /\ cg_rs (run b k) <> cg_eps.

  Lemma zero_len : length zero = n.
  Proof. apply repeat_length. Qed.
  Lemma const_vderiv v : length v = n -> vderiv (fun _ => v) zero.
  Proof.
    intros H. split; [apply zero_len|]. split; [auto|]. intros i Hi. unfold zero. rewrite nth_repeat. apply derivable_pt_lim_const.
  Qed.
  Lemma dotl_zero_l u : dotl n zero u = 0%R.
  Proof. rewrite dotl_comm. apply dotl_zero. intros i _. unfold zero. apply nth_repeat. Qed.

  Lemma init_deriv b db : vderiv b db -> exists T, sderiv (fun t => run (b t) 0) T /\
    forall g, cot_len g -> pair g T = dotl n (cg_init_bw n P Pbw (run (b 0%R) 0) g) db.
  Proof.
    intros Db.
    pose proof (vderiv_axpy _ _ _ _ _ _ Db (derivable_pt_lim_const (-1) 0) (const_vderiv _ (HAl zero zero_len))) as Dr.
    cbv beta in Dr. unfold fct_cte in Dr.
    pose proof (vderiv_adj P Pbw _ _ HP HPl Dr) as Dz. cbv beta in Dz.
    pose proof (vderiv_dot _ _ _ _ Dr Dz) as Ds. cbv beta in Ds.
    eexists (CG _ _ _ _). split.
    { unfold sderiv. cbn [cg_x cg_r cg_p cg_rs]. split; [exact (const_vderiv zero zero_len)|]. split; [exact Dr|].
      split; [exact Dz|exact Ds]. }
    intros g (Lx & Lr & Lp). unfold pair, cg_init_bw. cbn [cg_x cg_r cg_p cg_rs].
    rewrite (dotl_comm n (g_x g)), dotl_zero_l.
    unfold run, cg_run. cbn [seq fold_left]. unfold cg_init. cbn [cg_r].
    set (r := axpy n (b 0%R) (-1) (A zero)). set (dr := axpy n (axpy n db 0 (A zero)) (-1) zero).
    assert (Edr : forall u, dotl n u dr = dotl n u db).
    { intros u. unfold dr. rewrite !dotl_axpy_r. rewrite (dotl_comm n u zero), dotl_zero_l. ring. }
    assert (Ldr : length dr = n) by apply length_axpy.
    assert (EP : dotl n (Pbw (axpy n (g_p g) (g_rs g) r)) dr = dotl n (axpy n (g_p g) (g_rs g) r) (P dr))
      by (apply HP; auto; apply length_axpy).
    rewrite <- Edr, !dotl_axpy_l, EP, dotl_axpy_l. rewrite (dotl_comm n dr). ring.
  Qed.

  Lemma run_step b k T : sderiv (fun t => run (b t) k) T -> smooth (b 0%R) k ->
    exists T', sderiv (fun t => run (b t) (S k)) T' /\
      (zero_vec n (cg_p (run (b 0%R) k)) -> cg_rs (run (b 0%R) k) = 0%R -> forall i, i < n -> nth i (cg_x T') 0%R = nth i (cg_x T) 0%R) /\
      forall g, cot_len g -> cot_len (cg_step_bw n A Abw P Pbw (run (b 0%R) k) g) /\
        pair g T' = pair (cg_step_bw n A Abw P Pbw (run (b 0%R) k) g) T.
  Proof.
    intros DT [N1 N2]. destruct (step_deriv b k _ T DT N1 N2) as (T' & DT' & Z & HT').
    exists T'. split; [|split; [exact Z|exact HT']].
    destruct DT' as (D1 & D2 & D3 & D4). unfold run. unfold sderiv, vderiv in *.
    assert (ES : forall t, cg_step n A P (b t) k (run (b t) k) = cg_run n A P (b t) zero (S k)) by (intros; symmetry; apply cg_run_S).
    cbv beta in D1, D2, D3, D4.
    split; [|split; [|split]].
    + destruct D1 as (L1 & L2 & L3). split; [auto|]. split; [intros t; rewrite <- ES; apply L2|].
      intros i Hi. eapply deriv_local; [exact Rlt_0_1| |exact (L3 i Hi)]. intros t _. cbv beta. rewrite ES. reflexivity.
    + destruct D2 as (L1 & L2 & L3). split; [auto|]. split; [intros t; rewrite <- ES; apply L2|].
      intros i Hi. eapply deriv_local; [exact Rlt_0_1| |exact (L3 i Hi)]. intros t _. cbv beta. rewrite ES. reflexivity.
    + destruct D3 as (L1 & L2 & L3). split; [auto|]. split; [intros t; rewrite <- ES; apply L2|].
      intros i Hi. eapply deriv_local; [exact Rlt_0_1| |exact (L3 i Hi)]. intros t _. cbv beta. rewrite ES. reflexivity.
    + eapply deriv_local; [exact Rlt_0_1| |exact D4]. intros t _. cbv beta. rewrite ES. reflexivity.
  Qed.
  Lemma run_deriv b db k : vderiv b db -> (forall j, j < k -> smooth (b 0%R) j) ->
    exists T, sderiv (fun t => run (b t) k) T /\
      forall g, cot_len g -> pair g T = dotl n (cg_init_bw n P Pbw (run (b 0%R) 0) (cg_loop_bw n A Abw P Pbw (run (b 0%R)) k g)) db.
  Proof.
    intros Db. induction k as [|k IH]; intros Hs; [exact (init_deriv b db Db)|].
    destruct IH as (T & DT & HT); [auto|]. destruct (run_step b k T DT (Hs k (le_n _))) as (T' & DT' & _ & HT').
    exists T'. split; [exact DT'|].
    intros g Lg. destruct (HT' g Lg) as [L' E]. rewrite E. cbn [cg_loop_bw]. apply HT. exact L'.
  Qed.

  (** the derivative of the result, and the backward pass as its adjoint *)
  Theorem cg_deriv b db k : vderiv b db -> (forall j, j < k -> smooth (b 0%R) j) ->
    exists dx, vderiv (fun t => cg_x (run (b t) k)) dx /\
      forall gx, length gx = n -> dotl n gx dx = dotl n (cg_bw n A Abw P Pbw (b 0%R) k gx) db.
  Proof.
    intros Db Hs. destruct (run_deriv b db k Db Hs) as (T & (DT & _) & HT). exists (cg_x T). split; [exact DT|].
    intros gx Lg. unfold cg_bw. cbv zeta. change (repeat 0%R n) with zero. fold (run (b 0%R)).
    rewrite <- HT by (repeat split; auto using zero_len).
    unfold pair. cbn [g_x g_r g_p g_rs]. rewrite !dotl_zero_l. ring.
  Qed.

  (** a zero cotangent stays zero *)
  Lemma adj_zero F B g : adjoint n F B -> length g = n -> zero_vec n g -> zero_vec n (B g).
  Proof.
    intros HF Lg Zg. set (v := tab n (fun i => nth i (B g) 0%R)).
    assert (E : Rsum n (fun i => nth i (B g) 0 * nth i (B g) 0)%R = 0%R).
    { transitivity (Rsum n (fun i => nth i (B g) 0 * nth i v 0)%R).
      - apply Rsum_ext. intros i Hi. unfold v. rewrite nth_tab by auto. reflexivity.
      - rewrite HF by (auto; apply length_tab). apply Rsum_zero. intros i Hi. rewrite Zg by auto. ring. }
    intros i Hi. pose proof (Rsum_nonneg_eq0 n _ (fun i _ => Rle_0_sqr (nth i (B g) 0%R)) E i Hi) as H. unfold Rsqr in H. nra.
  Qed.
  Definition cot_zero (g : cg_cot) : Prop :=
    cot_len g /\ zero_vec n (g_x g) /\ zero_vec n (g_r g) /\ zero_vec n (g_p g) /\ g_rs g = 0%R.
  Lemma dotl_z u v : zero_vec n u -> dotl n u v = 0%R.
  Proof. intros H. apply Rsum_zero. intros i Hi. rewrite H by auto. ring. Qed.
  Lemma step_bw_zero s g : cot_zero g -> cot_zero (cg_step_bw n A Abw P Pbw s g).
  Proof.
    intros ((L1 & L2 & L3) & Z1 & Z2 & Z3 & Z4).
    unfold cg_step_bw. cbv zeta. rewrite Z4, !(dotl_z (g_p g)), !(dotl_z (g_x g)) by auto.
    set (r := axpy n (cg_r s) _ _). set (gz := axpy n (g_p g) _ r).
    assert (Zz : zero_vec n gz).
    { intros i Hi. unfold gz. rewrite nth_axpy, Z3 by auto. unfold Rdiv. ring. }
    assert (Zp : zero_vec n (Pbw gz)) by (apply (adj_zero P); auto; apply length_axpy).
    set (gr := axpy n (axpy n (g_r g) _ _) 1 (Pbw gz)).
    assert (Zr : zero_vec n gr).
    { intros i Hi. unfold gr. rewrite !nth_axpy, Z2, Zp by auto. unfold Rdiv. ring. }
    rewrite (dotl_z gr) by auto.
    set (gA := axpy n (map _ gr) _ _).
    assert (ZA : zero_vec n gA).
    { intros i Hi. unfold gA. rewrite nth_axpy by auto.
      rewrite (nth_indep _ 0%R (Rmult (- (cg_rs s / Rmax (dotl n (cg_p s) (A (cg_p s))) cg_eps)) 0)%R) by (rewrite map_length; unfold gr; rewrite length_axpy; auto).
      rewrite (map_nth (Rmult _)), Zr by auto. destruct (Rle_dec _ _); unfold Rdiv; ring. }
    assert (ZAb : zero_vec n (Abw gA)) by (apply (adj_zero A); auto; apply length_axpy).
    unfold cot_zero, cot_len. cbn [g_x g_r g_p g_rs]. repeat split; auto.
    - apply length_axpy.
    - apply length_tab.
    - intros i Hi. rewrite nth_tab, Z1, Z3, ZAb by auto. destruct (Rle_dec _ _); unfold Rdiv; ring.
    - destruct (Rle_dec cg_eps (cg_rs s)); unfold Rdiv; ring.
  Qed.
  Theorem cg_bw_zero b k gx : length gx = n -> zero_vec n gx -> zero_vec n (cg_bw n A Abw P Pbw b k gx).
  Proof.
    intros Lg Zg. unfold cg_bw. cbv zeta. change (repeat 0%R n) with zero.
    assert (Z0 : cot_zero (Cot gx zero zero 0)).
    { repeat split; auto using zero_len; intros i Hi; cbn [g_r g_p]; apply nth_repeat. }
    revert Z0. generalize (Cot gx zero zero 0%R). generalize (cg_run n A P b zero) at 2. intros rn.
    induction k as [|k IH]; intros g Zc.
    - cbn [cg_loop_bw]. destruct Zc as ((L1 & L2 & L3) & Z1 & Z2 & Z3 & Z4). unfold cg_init_bw. cbv zeta. rewrite Z4.
      intros i Hi. rewrite !nth_axpy, Z2 by auto. rewrite (adj_zero P Pbw _ HP); auto; [ring|apply length_axpy|].
      intros j Hj. rewrite nth_axpy, Z3 by auto. ring.
    - cbn [cg_loop_bw]. apply IH. apply step_bw_zero. exact Zc.
  Qed.

  (** ** When the solution is reached *)
  Variable M : nat -> nat -> R.
  Hypothesis HM : acts_as n A M.
  Hypothesis Hsym : symmetric_mat n M.
  Hypothesis HPsym : forall u v, length u = n -> length v = n -> dotl n (P u) v = dotl n u (P v).

  Lemma P_zero v : length v = n -> zero_vec n v -> zero_vec n (P v).
  Proof.
    intros Lv Zv i Hi. rewrite (adjoint_acts n P Pbw HP v i Lv Hi). apply Rsum_zero. intros j Hj. unfold smp. rewrite Zv by auto. ring.
  Qed.
  (** the safeguards are inactive, also for the right-hand sides around b *)
  Definition strict (b : list R) (k : nat) : Prop :=
    (cg_eps < dotl n (cg_p (run b k)) (A (cg_p (run b k))) /\ cg_eps < cg_rs (run b k))%R.

  Lemma strict_near b db k : vderiv b db -> (forall j, j < k -> strict (b 0%R) j) ->
    exists e, (0 < e)%R /\ forall t, (Rabs t < e)%R -> forall j, j < k -> strict (b t) j.
  Proof.
    intros Db. induction k as [|k IH]; intros H; [exists 1%R; split; [lra|intros; lia]|].
    destruct IH as (e & Pe & N); [auto|].
    destruct (run_deriv b db k Db) as (T & (_ & _ & Dp & Ds) & _).
    { intros j Hj. destruct (H j ltac:(lia)). split; lra. }
    pose proof (vderiv_dot _ _ _ _ Dp (vderiv_adj A Abw _ _ HA HAl Dp)) as DpAp. cbv beta in DpAp.
    destruct (H k (le_n _)) as [H1 H2].
    destruct (near_lt _ _ _ DpAp H1) as (e1 & P1 & N1). destruct (near_lt _ _ _ Ds H2) as (e2 & P2 & N2).
    exists (Rmin e (Rmin e1 e2)). split; [repeat apply Rmin_pos; auto|].
    intros t Ht. apply Rmin_Rgt_l in Ht. destruct Ht as [Ht Ht']. apply Rmin_Rgt_l in Ht'. destruct Ht' as [T1 T2].
    intros j Hj. destruct (Nat.eq_dec j k) as [->|]; [split; [apply N1|apply N2]; auto|apply N; [auto|lia]].
  Qed.

  Theorem cg_converged b db k it : vderiv b db -> k <= it -> (forall j, j < k -> strict (b 0%R) j) ->
    zero_vec n (cg_r (run (b 0%R) k)) ->
    (forall j, j < it -> smooth (b 0%R) j) /\
    forall dx, vderiv (fun t => cg_x (run (b t) it)) dx ->
      dotl n (b 0%R) dx = dotl n (cg_x (run (b 0%R) it)) db.
  Proof.
    intros Db Hk Hst Hz.
    assert (Lr : forall b0 j, cg_len n (run b0 j)) by (intros; apply cg_run_len; auto using zero_len).
    assert (Hstay : forall j, zero_vec n (cg_r (run (b 0%R) (k + j))) /\
       forall i, i < n -> nth i (cg_x (run (b 0%R) (k + j))) 0%R = nth i (cg_x (run (b 0%R) k)) 0%R).
    { intros j. destruct (converged_stays n A P (b 0%R) zero zero_len HPl P_zero k j Hz). split; auto. }
    assert (Hzs : forall j, zero_vec n (cg_p (run (b 0%R) (k + j))) /\ cg_rs (run (b 0%R) (k + j)) = 0%R).
    { intros j. apply (zero_state n A P (b 0%R) zero zero_len HPl P_zero). apply Hstay. }
    pose proof CgProofs.eps_pos as Pe.
    assert (Hsm : forall j, j < it -> smooth (b 0%R) j).
    { intros j Hj. destruct (Nat.lt_ge_cases j k) as [H|H].
      - destruct (Hst j H). split; lra.
      - replace j with (k + (j - k)) by lia. destruct (Hzs (j - k)) as [Zp Zs]. split; [|lra].
        rewrite dotl_comm, dotl_zero by exact Zp. lra. }
    split; [exact Hsm|]. intros dx Dx.
    destruct (run_deriv b db k Db) as (T & DT & _); [intros; apply Hsm; lia|].
    (* the derivative does not change after iteration k *)
    assert (Hj : forall j, k + j <= it -> exists T', sderiv (fun t => run (b t) (k + j)) T' /\
       forall i, i < n -> nth i (cg_x T') 0%R = nth i (cg_x T) 0%R).
    { induction j as [|j IH]; intros Hj; [rewrite Nat.add_0_r; exists T; auto|].
      destruct IH as (T1 & D1 & E1); [lia|]. rewrite Nat.add_succ_r.
      destruct (run_step b (k + j) T1 D1) as (T' & D' & Z & _); [apply Hsm; lia|].
      exists T'. split; [exact D'|]. intros i Hi. rewrite Z by (auto; apply Hzs). auto. }
    destruct (Hj (it - k) ltac:(lia)) as (T' & (D' & _) & E').
    replace (k + (it - k)) with it in D' by lia.
    assert (Ed : forall i, i < n -> nth i dx 0%R = nth i (cg_x T) 0%R).
    { intros i Hi. rewrite <- E' by auto. destruct Dx as (_ & _ & Dx), D' as (_ & _ & D').
      exact (uniqueness_limite _ _ _ _ (Dx i Hi) (D' i Hi)). }
    destruct DT as (DX & DR & _ & _).
    set (X := cg_x (run (b 0%R) k)). set (dX := cg_x T) in *. set (dR := cg_r T) in *.
    (* Galerkin around b *)
    assert (G : dotl n X dR = 0%R).
    { destruct (strict_near b db k Db Hst) as (e & Pe' & N).
      pose proof (vderiv_dot _ _ _ _ DX DR) as D. cbv beta in D.
      assert (Z : derivable_pt_lim (fun t => dotl n (cg_x (run (b t) k)) (cg_r (run (b t) k))) 0 0%R).
      { apply (deriv_local (fun _ => 0%R) _ _ e Pe'); [|apply derivable_pt_lim_const].
        intros t Ht. symmetry.
        apply (cg_galerkin n A P M (b t) zero HM zero_len HPl Hsym P_zero HPsym k).
        - intros i _. apply nth_repeat.
        - intros j Hj' _. destruct (N t Ht j Hj') as [Q1 Q2]. split; [left; exact Q1|left; exact Q2]. }
      pose proof (uniqueness_limite _ _ _ _ D Z) as U. rewrite (dotl_zero n _ _ Hz) in U. fold X in U. lra. }
    (* the residual *)
    assert (ER : forall i, i < n -> nth i dR 0%R = (nth i db 0 - Rmv n M (smp dX) i)%R).
    { intros i Hi. destruct DR as (_ & _ & DR).
      apply (uniqueness_limite _ _ _ _ (DR i Hi)).
      apply (deriv_local (fun t => nth i (b t) 0 - Rsum n (fun l => M i l * nth l (cg_x (run (b t) k)) 0))%R _ _ 1 Rlt_0_1).
      - intros t _. pose proof (cg_residual n A P M (b t) zero HM zero_len HPl k i Hi) as E. symmetry. exact E.
      - apply (derivable_pt_lim_minus (fun t => nth i (b t) 0%R)); [apply Db; auto|].
        apply (deriv_sum n (fun l t => M i l * nth l (cg_x (run (b t) k)) 0)%R). intros l Hl.
        eapply deriv_eq; [|apply (deriv_mult (fun _ => M i l) _ 0 _ (derivable_pt_lim_const _ _) (proj2 (proj2 DX) l Hl))].
        unfold smp. ring. }
    assert (EB : forall i, i < n -> nth i (b 0%R) 0%R = Rmv n M (smp X) i).
    { intros i Hi. pose proof (cg_residual n A P M (b 0%R) zero HM zero_len HPl k i Hi) as E.
      change (nth i (cg_r (run (b 0%R) k)) 0%R = (nth i (b 0%R) 0 - Rmv n M (smp X) i)%R) in E. rewrite Hz in E by auto. lra. }
    replace (dotl n (cg_x (run (b 0%R) it)) db) with (dotl n X db).
    2:{ apply Rsum_ext. intros i Hi. replace it with (k + (it - k)) by lia. rewrite (proj2 (Hstay (it - k))) by auto. reflexivity. }
    replace (dotl n (b 0%R) dx) with (Rsum n (fun i => smp dX i * Rmv n M (smp X) i)%R).
    2:{ apply Rsum_ext. intros i Hi. rewrite EB, Ed by auto. unfold smp at 1. ring. }
    rewrite (form_sym n M Hsym).
    assert (E2 : (dotl n X db - dotl n X dR = Rsum n (fun i => smp X i * Rmv n M (smp dX) i))%R).
    { unfold dotl. rewrite <- Rsum_minus. apply Rsum_ext. intros i Hi. rewrite ER by auto. unfold smp at 2. ring. }
    rewrite <- E2, G. ring.
  Qed.
End Loop.
