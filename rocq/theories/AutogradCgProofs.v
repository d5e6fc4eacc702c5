(** * The gradient through the conjugate gradient is the derivative of the loss *)
From Coq Require Import Reals Lra.
From Verif Require Import Prelude ExtReal Slice Sums Fft FftProofs Helpers Linalg LinalgProofs Cgd CgdOps CgdPrecond CgProofs CgCirc Cells
  Metrics SpecSig StatsProofs PrepProofs LeastSq DbProofs MetricsProofs ProjTheorems MetricTheorems CgTheorems Invariance Gradient Perturb
  Autograd AutogradFft AutogradEntry AutogradProofs AutogradTheorems AutogradRefDeriv AutogradCg AutogradCgAdjoint.
Local Open Scope nat_scope.

(** The state of the solver before iteration k. *)
Definition cg_at (acf xc : list R) (k : nat) : cg_state :=
  cg_run (length acf) (dense_toeplitz acf) (circ_prec acf) xc (repeat 0%R (length acf)) k.
Definition cg_curv (acf xc : list R) (k : nat) : R :=
  dotl (length acf) (cg_p (cg_at acf xc k)) (dense_toeplitz acf (cg_p (cg_at acf xc k))).
(** neither denominator of iteration k is at the kink of its clamp *)
Definition cg_smooth (acf xc : list R) (k : nat) : Prop :=
  cg_curv acf xc k <> cg_eps /\ cg_rs (cg_at acf xc k) <> cg_eps.
(** the residual is zero at iteration k, the denominators are above the clamp before *)
Definition cg_reached (acf xc : list R) (k : nat) : Prop :=
  zero_vec (length acf) (cg_r (cg_at acf xc k)) /\
  forall j, j < k -> (cg_eps < cg_curv acf xc j /\ cg_eps < cg_rs (cg_at acf xc j))%R.
Definition cg_rhs_bw (acf xc : list R) (it : nat) (gx : list R) : list R :=
  match toeplitz_cg_bw acf xc it gx with Ok v => v | Raise _ => [] end.

Section Solve.
  Variable acf : list R.
  Let n := length acf.

  Lemma ops : exists P B, circulant_precond Torch acf = Ok P /\ circulant_bw acf = Ok B /\ adjoint n P B /\
    (forall v, P v = circ_prec acf v) /\ (forall v, length v = n -> length (P v) = n) /\
    (forall xc k, cg_run n (toeplitz_op Torch acf) P xc (repeat 0%R n) k = cg_at acf xc k).
  Proof.
    destruct (precond_adjoint acf) as (P & B & EP & EB & HA & HP). exists P, B. repeat split; auto.
    - intros v _. rewrite HP. apply length_circ_prec.
    - intros xc k. unfold cg_at. fold n. apply cg_run_ext; auto.
      + apply repeat_length.
      + intros v Hv. apply toeplitz_op_dense. unfold n in Hv. lia.
      + intros v _. rewrite HP. apply length_circ_prec.
  Qed.
  Lemma op_len v : length v = n -> length (toeplitz_op Torch acf v) = n.
  Proof. intros H. apply length_toeplitz_op. unfold n in H. lia. Qed.
  Lemma at_len xc k : cg_len n (cg_at acf xc k).
  Proof. apply cg_run_len; [apply repeat_length|]. intros; apply length_circ_prec. Qed.
  Lemma curv_op P xc k : (forall k, cg_run n (toeplitz_op Torch acf) P xc (repeat 0%R n) k = cg_at acf xc k) ->
    dotl n (cg_p (cg_run n (toeplitz_op Torch acf) P xc (repeat 0%R n) k))
      (toeplitz_op Torch acf (cg_p (cg_run n (toeplitz_op Torch acf) P xc (repeat 0%R n) k))) = cg_curv acf xc k.
  Proof.
    intros H. rewrite H. unfold cg_curv. fold n. rewrite toeplitz_op_dense; auto.
    pose proof (at_len xc k) as Hl. unfold cg_len in Hl. fold n. lia.
  Qed.

  Theorem solve_deriv_bw b db it : vderiv n b db -> (forall j, j < it -> cg_smooth acf (b 0%R) j) ->
    exists dx, vderiv n (fun t => toeplitz_cg_spec acf (b t) it) dx /\
      forall gx, length gx = n -> dotl n gx dx = dotl n (cg_rhs_bw acf (b 0%R) it gx) db.
  Proof.
    intros Db Hs. destruct ops as (P & B & EP & EB & HA & HPc & HPl & HR).
    destruct (cg_deriv n (toeplitz_op Torch acf) (toeplitz_op_bw acf) P B (toeplitz_adjoint acf) HA HPl op_len b db it Db) as (dx & D & H).
    { intros j Hj. unfold smooth. rewrite (curv_op P _ j (HR (b 0%R))). rewrite HR. apply Hs; auto. }
    exists dx. split.
    - destruct D as (D1 & D2 & D3). split; auto. split.
      + intros t. specialize (D2 t). cbv beta in D2. rewrite HR in D2. exact D2.
      + intros i Hi. eapply deriv_local; [exact Rlt_0_1| |exact (D3 i Hi)]. intros t _. cbv beta. rewrite HR. reflexivity.
    - intros gx Lg. rewrite H by auto. unfold cg_rhs_bw, toeplitz_cg_bw. rewrite EP, EB. cbn [bind]. reflexivity.
  Qed.

  Theorem solve_reached b db k it : vderiv n b db -> k <= it -> cg_reached acf (b 0%R) k ->
    (forall j, j < it -> cg_smooth acf (b 0%R) j) /\
    (forall i, i < n -> Rmv n (ent (toeplitz Torch acf)) (smp (toeplitz_cg_spec acf (b 0%R) it)) i = nth i (b 0%R) 0%R) /\
    forall dx, vderiv n (fun t => toeplitz_cg_spec acf (b t) it) dx ->
      dotl n (b 0%R) dx = dotl n (toeplitz_cg_spec acf (b 0%R) it) db.
  Proof.
    intros Db Hk [Hz Hst]. destruct ops as (P & B & EP & EB & HA & HPc & HPl & HR).
    assert (HM : acts_as n (toeplitz_op Torch acf) (ent (toeplitz Torch acf))).
    { intros v i Lv Hi. apply toeplitz_op_matrix; auto. }
    destruct (cg_converged n (toeplitz_op Torch acf) (toeplitz_op_bw acf) P B (toeplitz_adjoint acf) HA HPl op_len
      (ent (toeplitz Torch acf)) HM (toeplitz_sym Torch acf)
      (fun u v Lu Lv => eq_trans (f_equal (fun a => dotl n a v) (HPc u)) (eq_trans (circ_prec_sym acf u v) (f_equal (dotl n u) (eq_sym (HPc v)))))
      b db k it Db Hk) as [C1 C2].
    { intros j Hj. unfold strict. rewrite (curv_op P _ j (HR (b 0%R))). rewrite HR. apply Hst; auto. }
    { rewrite HR. exact Hz. }
    split; [|split].
    - intros j Hj. specialize (C1 j Hj). unfold smooth in C1. rewrite (curv_op P _ j (HR (b 0%R))) in C1. rewrite HR in C1. exact C1.
    - intros i Hi.
      assert (Z : zero_vec n (cg_r (cg_at acf (b 0%R) it))).
      { replace it with (k + (it - k)) by lia. unfold cg_at. fold n.
        apply (converged_stays n (dense_toeplitz acf) (circ_prec acf) (b 0%R) (repeat 0%R n) (repeat_length _ _)
          (fun v _ => length_circ_prec acf v) (fun v _ => circ_prec_zero acf v) k (it - k)). exact Hz. }
      pose proof (cg_residual n (dense_toeplitz acf) (circ_prec acf) (ent (toeplitz Torch acf)) (b 0%R) (repeat 0%R n)
        (dense_acts Torch acf) (repeat_length _ _) (fun v _ => length_circ_prec acf v) it i Hi) as E.
      change (nth i (cg_r (cg_at acf (b 0%R) it)) 0%R =
        (nth i (b 0%R) 0 - Rmv n (ent (toeplitz Torch acf)) (smp (toeplitz_cg_spec acf (b 0%R) it)) i)%R) in E.
      rewrite Z in E by auto. lra.
    - intros dx Dx. rewrite C2; [unfold toeplitz_cg_spec, conjugate_gradient; rewrite HR; reflexivity|].
      destruct Dx as (D1 & D2 & D3). split; auto. split.
      + intros t. rewrite HR. apply (D2 t).
      + intros i Hi. eapply deriv_local; [exact Rlt_0_1| |exact (D3 i Hi)]. intros t _. cbv beta. rewrite HR. reflexivity.
  Qed.

  Lemma length_rhs_bw xc it gx : length (cg_rhs_bw acf xc it gx) = n.
  Proof.
    destruct ops as (P & B & EP & EB & _). unfold cg_rhs_bw, toeplitz_cg_bw. rewrite EP, EB. cbn [bind].
    unfold cg_bw, cg_init_bw. cbv zeta. apply length_axpy.
  Qed.
  Lemma rhs_bw_ok xc it gx : toeplitz_cg_bw acf xc it gx = Ok (cg_rhs_bw acf xc it gx).
  Proof.
    destruct ops as (P & B & EP & EB & _). unfold cg_rhs_bw, toeplitz_cg_bw. rewrite EP, EB. reflexivity.
  Qed.

  Lemma rhs_bw_zero xc it gx : length gx = n -> zero_vec n gx -> zero_vec n (cg_rhs_bw acf xc it gx).
  Proof.
    intros Lg Zg. destruct ops as (P & B & EP & EB & HA & _). unfold cg_rhs_bw, toeplitz_cg_bw. rewrite EP, EB. cbn [bind].
    apply (cg_bw_zero n (toeplitz_op Torch acf) (toeplitz_op_bw acf) P B (toeplitz_adjoint acf) HA); auto.
  Qed.

  (** The straight line through xc. *)
  Lemma line_vderiv xc db : length xc = n -> length db = n ->
    vderiv n (fun t => tab n (fun i => nth i xc 0 + t * nth i db 0)%R) db.
  Proof.
    intros H1 H2. split; auto. split; [intros; apply length_tab|]. intros i Hi.
    apply (deriv_local (fun t => nth i xc 0 + t * nth i db 0)%R _ _ 1 Rlt_0_1).
    - intros t _. rewrite nth_tab by auto. reflexivity.
    - eapply deriv_eq; [|apply (derivable_pt_lim_plus (fun _ => nth i xc 0%R) (fun t => t * nth i db 0)%R 0 0 (nth i db 0%R))].
      + ring. + apply derivable_pt_lim_const.
      + eapply deriv_eq; [|apply (deriv_mult (fun t => t) (fun _ => nth i db 0%R) 1 0 (derivable_pt_lim_id 0) (derivable_pt_lim_const _ _))].
        ring.
  Qed.
  Lemma line_0 xc db : length xc = n -> tab n (fun i => nth i xc 0 + 0 * nth i db 0)%R = xc.
  Proof.
    intros H. apply (nth_ext _ _ 0%R 0%R); [rewrite length_tab; auto|]. rewrite length_tab. intros i Hi. rewrite nth_tab by auto. ring.
  Qed.
  (** At the solution, the gradient of the right-hand side of <xc, sol> is the solution. *)
  Theorem rhs_bw_reached xc k it g i : length xc = n -> k <= it -> cg_reached acf xc k -> i < n ->
    nth i (cg_rhs_bw acf xc it (tab n (fun l => g * nth l xc 0)%R)) 0%R = (g * nth i (toeplitz_cg_spec acf xc it) 0)%R.
  Proof.
    intros Lx Hk Hr Hi. set (v := cg_rhs_bw acf xc it (tab n (fun l => g * nth l xc 0)%R)).
    set (X := toeplitz_cg_spec acf xc it).
    assert (H : forall db, length db = n -> dotl n v db = (g * dotl n X db)%R).
    { intros db Ld. pose proof (line_vderiv xc db Lx Ld) as Db.
      set (b := fun t => tab n (fun i => nth i xc 0 + t * nth i db 0)%R) in *.
      assert (E0 : b 0%R = xc) by (apply line_0; auto).
      destruct (solve_reached b db k it Db Hk ltac:(rewrite E0; exact Hr)) as (Hs & _ & Hd).
      destruct (solve_deriv_bw b db it Db Hs) as (dx & Dx & Hx).
      specialize (Hd dx Dx). rewrite E0 in *. unfold v. rewrite <- Hx by apply length_tab. fold X in Hd. rewrite <- Hd.
      unfold dotl. rewrite <- Rsum_scal_l. apply Rsum_ext. intros l Hl. rewrite nth_tab by auto. ring. }
    set (d := tab n (fun l => nth l v 0 - g * nth l X 0)%R).
    assert (Z : Rsum n (fun l => nth l d 0 * nth l d 0)%R = 0%R).
    { pose proof (H d (length_tab _ _)) as E.
      transitivity (dotl n v d - g * dotl n X d)%R; [|lra]. unfold dotl. rewrite <- Rsum_scal_l, <- Rsum_minus.
      apply Rsum_ext. intros l Hl. unfold d at 1. rewrite nth_tab by auto. ring. }
    pose proof (Rsum_sq_0 n (fun l => nth l d 0%R) Z i Hi) as E. cbv beta in E. unfold d in E. rewrite nth_tab in E by auto. lra.
  Qed.
End Solve.

(** ** One entry of the loss matrix *)
Section Entry.
  Variables (o : opts) (it lx ly : nat) (x : list R).
  Hypothesis Hcg : use_cg_iter o = Some it.
  Hypothesis N1 : filter_length o <> 1.
  Hypothesis Hlx : 0 < lx.
  Let nf := n_fft lx ly.
  Let L := filter_length o.
  Let acf := sdr_acf o nf x.
  Let n := length acf.
  Let xc u := stats_xcorr nf L x u.
  Let cell u := sdr_cell (Some it) acf (xc u).

  Lemma e_len : n = Nat.min L nf.
  Proof. apply length_loaded. Qed.
  Lemma e_len_xc u : length (xc u) = n.
  Proof. unfold n, acf, sdr_acf. apply stats_len. Qed.
  Lemma e_nf : 0 < nf /\ ly <= nf.
  Proof. pose proof (n_fft_ge lx ly Hlx). unfold nf. lia. Qed.
  Definition entry_vec (u : list R) (g : R) : list R :=
    xcorr_bw nf ly x (tab n (fun l => g * nth l (toeplitz_cg_spec acf (xc u) it) 0
      + nth l (cg_rhs_bw acf (xc u) it (tab n (fun l => g * nth l (xc u) 0)%R)) 0)%R).
  Lemma entry_cg u w : entry_cg_bw o lx ly x u w =
    Ok (match neg_sdr_bw (clamp_db o) (cell u) w with Fin g => Some (entry_vec u g) | _ => None end).
  Proof.
    unfold entry_cg_bw. rewrite Hcg. destruct (Nat.eqb_spec (filter_length o) 1); [contradiction|]. cbv zeta.
    fold nf L. change (add_load (load_diag o) (stats_acf nf L x)) with acf. fold (xc u).
    rewrite toeplitz_cg_ok, e_len_xc. fold n. rewrite Nat.eqb_refl. cbn [bind].
    change (dot_nth n (xc u) (fun l => nth l (toeplitz_cg_spec acf (xc u) it) 0%R)) with (cell u).
    destruct (neg_sdr_bw _ _ _); auto. rewrite rhs_bw_ok. reflexivity.
  Qed.
  Lemma length_entry_vec u g : length (entry_vec u g) = ly.
  Proof. unfold entry_vec, xcorr_bw, rfft_bw. apply length_tab. Qed.
  Lemma e_xc u i : i < n -> nth i (xc u) 0%R = dot nf (cdelayed nf x i) (smp u).
  Proof. intros Hi. rewrite e_len in Hi. apply sdr_crhs; lia. Qed.
  Lemma xc_deriv u u' : (forall k, derivable_pt_lim (fun t => smp (u t) k) 0 (smp u' k)) -> vderiv n (fun t => xc (u t)) (xc u').
  Proof.
    intros Hu. split; [apply e_len_xc|]. split; [intros; apply e_len_xc|]. intros i Hi.
    rewrite e_xc by auto. rewrite dot_comm.
    eapply deriv_local; [exact Rlt_0_1| |exact (dot_deriv u u' Hu nf (cdelayed nf x i))].
    intros t _. cbv beta. rewrite e_xc by auto. apply dot_comm.
  Qed.

  Theorem cell_deriv u u' : length u' = ly -> (forall k, derivable_pt_lim (fun t => smp (u t) k) 0 (smp u' k)) ->
    (forall k, k < it -> cg_smooth acf (xc (u 0%R)) k) ->
    exists D, derivable_pt_lim (fun t => cell (u t)) 0 D /\
      forall g, Rsum ly (fun t => nth t (entry_vec (u 0%R) g) 0 * smp u' t)%R = (g * D)%R.
  Proof.
    intros Lu' Hu Hs. pose proof (xc_deriv u u' Hu) as Db. pose proof e_nf as [Pn Hn].
    destruct (solve_deriv_bw acf (fun t => xc (u t)) (xc u') it Db Hs) as (dx & Dx & Hx). fold n in Dx, Hx.
    pose proof (vderiv_dot n _ _ _ _ Db Dx) as D. cbv beta in D. eexists. split; [exact D|].
    intros g. unfold entry_vec. rewrite <- Lu'. unfold smp at 1.
    rewrite (xcorr_adjoint nf L) by (rewrite ?length_tab, ?e_len; lia).
    rewrite length_tab. fold (xc u'). cbv beta in Hx.
    rewrite (Rsum_ext _ _ (fun l => g * (nth l (toeplitz_cg_spec acf (xc (u 0%R)) it) 0 * nth l (xc u') 0)
      + nth l (cg_rhs_bw acf (xc (u 0%R)) it (tab n (fun l => g * nth l (xc (u 0%R)) 0)%R)) 0 * nth l (xc u') 0)%R)
      by (intros l Hl; rewrite nth_tab by auto; ring).
    rewrite Rsum_plus, Rsum_scal_l.
    pose proof (Hx (tab n (fun l => g * nth l (xc (u 0%R)) 0)%R) (length_tab _ _)) as E. unfold dotl in E at 2. rewrite <- E. clear E.
    rewrite Rmult_plus_distr_l. f_equal.
    - unfold dotl. f_equal. apply Rsum_ext. intros; ring.
    - unfold dotl. rewrite <- Rsum_scal_l. apply Rsum_ext. intros l Hl. rewrite nth_tab by auto. ring.
  Qed.

  Lemma entry_vec_zero u t : nth t (entry_vec u 0) 0%R = 0%R.
  Proof.
    destruct (Nat.lt_ge_cases t ly) as [Ht|Ht]; [|apply nth_overflow; rewrite length_entry_vec; auto].
    pose proof e_nf as [Pn Hn].
    apply (Rsum_sq_0 ly (fun t => nth t (entry_vec u 0) 0%R)); auto.
    set (v := entry_vec u 0) at 2. pose proof (length_entry_vec u 0) as Lv. fold v in Lv.
    unfold entry_vec. rewrite <- Lv.
    rewrite (xcorr_adjoint nf L) by (rewrite ?length_tab, ?Lv, ?e_len; lia).
    apply Rsum_zero. rewrite length_tab. intros l Hl. rewrite nth_tab by auto.
    rewrite (rhs_bw_zero acf (xc u) it (tab n (fun l => 0 * nth l (xc u) 0)%R) (length_tab _ _)); auto; [ring|].
    intros i Hi. unfold n in Hi. rewrite nth_tab by auto. ring.
  Qed.

  (** At the solution the entry is that of the direct solver. *)
  Theorem entry_reached k u w : nonsingular n (ent (toeplitz Torch acf)) -> k <= it -> cg_reached acf (xc u) k ->
    entry_cg_bw o lx ly x u w = entry_bw Torch (with_cg o None) lx ly x u w.
  Proof.
    intros HN Hk Hr. rewrite entry_cg. unfold entry_bw. cbn [with_cg filter_length clamp_db load_diag].
    destruct (Nat.eqb_spec (filter_length o) 1); [contradiction|]. cbv zeta. fold nf L.
    change (add_load (load_diag o) (stats_acf nf L x)) with acf. fold (xc u) n.
    destruct (solve_reached acf (fun t => tab n (fun i => nth i (xc u) 0 + t * nth i (xc u) 0)%R) (xc u) k it
      (line_vderiv acf (xc u) (xc u) (e_len_xc u) (e_len_xc u)) Hk) as (_ & HX & _).
    { pose proof (line_0 acf (xc u) (xc u) (e_len_xc u)) as E. fold n in E. rewrite E. exact Hr. }
    pose proof (line_0 acf (xc u) (xc u) (e_len_xc u)) as E0. fold n in E0. rewrite E0 in HX. clear E0. fold n in HX.
    set (X := toeplitz_cg_spec acf (xc u) it) in *.
    unfold solve_vec.
    destruct (Rsolve_some n (ent (toeplitz Torch acf)) (fun l => nth l (xc u) 0%R) HN) as (s & Es). rewrite Es. cbn [bind].
    assert (Hs : forall i, i < n -> s i = nth i X 0%R).
    { intros i Hi. symmetry. apply (Rsolve_uniq n _ _ s (smp X) Es); auto. }
    replace (dot_nth n (xc u) s) with (cell u).
    2:{ apply Rsum_ext. intros l Hl. rewrite Hs by auto. reflexivity. }
    destruct (neg_sdr_bw (clamp_db o) (cell u) w) as [g| | |]; auto.
    unfold coh_bw. cbv zeta. change (add_load (load_diag o) (stats_acf nf L x)) with acf. fold (xc u) n.
    unfold solve_vec.
    assert (HN' : nonsingular n (fun i j => ent (toeplitz Torch acf) j i)).
    { apply (nonsingular_ext n (ent (toeplitz Torch acf))); auto. intros i j Hi Hj. apply (toeplitz_sym Torch acf); auto. }
    destruct (Rsolve_some n (fun i j => ent (toeplitz Torch acf) j i) (fun l => g * nth l (xc u) 0)%R HN') as (s2 & Es2).
    rewrite Es2. cbn [bind].
    assert (Hs2 : forall i, i < n -> s2 i = (g * nth i X 0)%R).
    { intros i Hi. symmetry. apply (Rsolve_uniq n _ _ s2 (fun i => g * nth i X 0)%R Es2); auto.
      intros l Hl. rewrite <- HX by auto. unfold mulmv. change (gsum 0%R Rplus) with Rsum. rewrite <- Rsum_scal_l.
      apply Rsum_ext. intros j Hj. rewrite (toeplitz_sym Torch acf j l) by auto. unfold smp. ring. }
    unfold entry_vec. do 3 f_equal. apply tab_ext. intros l Hl.
    rewrite Hs, Hs2 by auto. f_equal. apply (rhs_bw_reached acf (xc u) k it g l (e_len_xc u) Hk Hr Hl).
  Qed.
End Entry.

(** ** Assembling the channels *)
Section Assemble.
  Variables (o : opts) (ref : arr) (len : nat) (w : nat -> R).

  Lemma est_grad_cg_fin y G : 0 < len -> length y = len ->
    (forall c, c < n_chan ref -> exists x, pchan (zero_mean o) ref c = Some x /\
       entry_cg_bw o (a_len ref) len x (unit_of (pre (zero_mean o) y)) (w c) = Ok (Some (G c))) ->
    est_grad_cg o ref len (map Fin y) w =
      Ok (map Fin (let g1 := normalize_bw (pre (zero_mean o) y) (tab len (fun t => Rsum (n_chan ref) (fun c => nth t (G c) 0%R))) in
                   if zero_mean o then remove_mean_bw g1 else g1)).
  Proof.
    intros H0 Hl HG. unfold est_grad_cg. rewrite fin_list_map, prep_fin by lia. cbv zeta.
    rewrite length_prep.
    rewrite (mapM_ok _ (fun c => Some (G c))).
    2:{ intros c Hc. apply in_seq in Hc. destruct (HG c ltac:(lia)) as (x & Px & E). unfold pchan in Px. rewrite Px. exact E. }
    cbn [bind].
    assert (Ex : existsb tainted (map (fun c => Some (G c)) (seq 0 (n_chan ref))) = false).
    { induction (seq 0 (n_chan ref)); auto. }
    rewrite Ex. f_equal. f_equal.
    assert (Ey : (if zero_mean o then map to_R (remove_mean (map Fin y)) else y) = pre (zero_mean o) y).
    { destruct (zero_mean o); [|reflexivity]. rewrite remove_mean_fin by lia. cbn [pre]. rewrite map_map.
      rewrite <- (map_id (centered y)) at 2. apply map_ext. reflexivity. }
    rewrite Ey.
    assert (Et : tab len (fun t => Rsum (n_chan ref) (fun c => nth t (opt0 (nth c (map (fun c => Some (G c)) (seq 0 (n_chan ref))) None)) 0%R))
      = tab len (fun t => Rsum (n_chan ref) (fun c => nth t (G c) 0%R))); 
      [|exact (f_equal (fun g => if zero_mean o then remove_mean_bw (normalize_bw (pre (zero_mean o) y) g) else normalize_bw (pre (zero_mean o) y) g) Et)].
    apply map_ext_in. intros t Ht. apply Rsum_ext. intros c Hc.
    assert (E : nth c (map (fun c => Some (G c)) (seq 0 (n_chan ref))) None = Some (G c)).
    { rewrite (nth_indep _ None (Some (G 0))) by (rewrite map_length, seq_length; auto).
      rewrite (map_nth (fun c => Some (G c))), seq_nth by auto. reflexivity. }
    rewrite E. reflexivity.
  Qed.

  Lemma est_grad_cg_nan y c0 : 0 < len -> length y = len -> c0 < n_chan ref ->
    (forall c, c < n_chan ref -> exists x r, pchan (zero_mean o) ref c = Some x /\
       entry_cg_bw o (a_len ref) len x (unit_of (pre (zero_mean o) y)) (w c) = Ok r /\ (c = c0 -> r = None)) ->
    est_grad_cg o ref len (map Fin y) w = Ok (repeat NaN len).
  Proof.
    intros H0 Hl Hc0 HG. unfold est_grad_cg. rewrite fin_list_map, prep_fin by lia. cbv zeta.
    rewrite length_prep.
    destruct (mapM (fun c => match nth c (prep_arr (zero_mean o) ref) None with
      | Some x => entry_cg_bw o (a_len ref) len x (unit_of (pre (zero_mean o) y)) (w c) | None => Ok None end)
      (seq 0 (n_chan ref))) as [gs|ex] eqn:E.
    - cbn [bind]. assert (Hn : nth c0 gs None = None).
      { pose proof (mapM_nth _ _ _ 0 None c0 E ltac:(rewrite seq_length; auto)) as En.
        rewrite seq_nth in En by auto. simpl in En.
        destruct (HG c0 Hc0) as (x & r & Px & Er & Hr). unfold pchan in Px. rewrite Px, Er in En.
        rewrite (Hr eq_refl) in En. injection En. auto. }
      pose proof (mapM_length _ _ _ E) as Lg. rewrite seq_length in Lg.
      assert (Ex : existsb tainted gs = true).
      { apply existsb_exists. exists (nth c0 gs None). split; [apply nth_In; lia|]. rewrite Hn. reflexivity. }
      rewrite Ex. reflexivity.
    - exfalso. clear Hc0. revert E.
      assert (Hs : forall l, (forall c, In c l -> c < n_chan ref) ->
        mapM (fun c => match nth c (prep_arr (zero_mean o) ref) None with
          | Some x => entry_cg_bw o (a_len ref) len x (unit_of (pre (zero_mean o) y)) (w c) | None => Ok None end) l <> Raise ex).
      { induction l as [|c l IH]; intros Hin; [discriminate|]. simpl.
        destruct (HG c (Hin c (or_introl eq_refl))) as (x & r & Px & Er & _). unfold pchan in Px. rewrite Px, Er. cbn [bind].
        specialize (IH (fun c' H' => Hin c' (or_intror H'))). revert IH.
        destruct (mapM _ l); cbn [bind]; congruence. }
      apply Hs. intros c Hc. apply in_seq in Hc. lia.
  Qed.
End Assemble.
