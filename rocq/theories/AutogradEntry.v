(** * The backward pass of one entry of the loss matrix *)
From Coq Require Import Reals Lra FunctionalExtensionality.
From Coquelicot Require Import Complex.
From Verif Require Import Prelude ExtReal Slice Sums Fft FftProofs Helpers Linalg LinalgProofs Cgd Metrics SpecSig StatsProofs PrepProofs
  LeastSq DbProofs MetricsProofs ProjTheorems Autograd AutogradFft.
Local Open Scope nat_scope.

(** ** The decibel mapping *)
Definition cl_eps (cd : option R) : R := match cd with Some d => db_clamp_eps d | None => 0%R end.

Lemma xleb_fin a b : xleb (Fin a) (Fin b) = true <-> (a <= b)%R.
Proof. unfold xleb. destruct (Rle_dec a b); split; intros; auto; try discriminate; contradiction. Qed.
Lemma neg_sdr_bw_in cd coh g : (0 < coh < 1)%R -> (cl_eps cd <= coh <= 1 - cl_eps cd)%R ->
  neg_sdr_bw cd coh g = Fin (- (10 * g) / (ln 10 * (coh * (1 - coh)))).
Proof.
  intros Hc He. pose proof ln10_pos. unfold neg_sdr_bw. fold (cl_eps cd). unfold clamp.
  rewrite xmax_fin, xmin_fin, Rmax_left, Rmin_left by lra.
  rewrite (proj2 (xleb_fin _ _) (proj1 He)), (proj2 (xleb_fin _ _) (proj2 He)). cbn [andb].
  rewrite xsub_fin, xdiv_fin by lra.
  cbn [xmul]. rewrite xdiv_fin.
  - rewrite xdiv_fin by lra. cbn [xneg]. rewrite xdiv_fin by lra. cbn [xmul xneg xadd]. f_equal. field.
    repeat split; lra.
  - apply Rmult_integral_contrapositive. split; [|lra].
    unfold Rdiv. apply Rmult_integral_contrapositive. split; [lra|apply Rinv_neq_0_compat; lra].
Qed.
Lemma neg_sdr_bw_out cd coh g : (coh < cl_eps cd \/ 1 - cl_eps cd < coh)%R -> neg_sdr_bw cd coh g = Fin 0.
Proof.
  intros He. unfold neg_sdr_bw. fold (cl_eps cd).
  destruct (xleb (Fin (cl_eps cd)) (Fin coh)) eqn:E1; cbn [andb]; auto.
  destruct (xleb (Fin coh) (Fin (1 - cl_eps cd))) eqn:E2; auto.
  apply xleb_fin in E1. apply xleb_fin in E2. lra.
Qed.
Lemma neg_sdr_bw_clamped D coh g : exists r, neg_sdr_bw (Some D) coh g = Fin r.
Proof.
  pose proof (eps_bounds D) as Be. cbn in *.
  destruct (Rlt_dec coh (db_clamp_eps D)); [exists 0%R; apply neg_sdr_bw_out; auto|].
  destruct (Rlt_dec (1 - db_clamp_eps D) coh); [exists 0%R; apply neg_sdr_bw_out; auto|].
  eexists. apply neg_sdr_bw_in; simpl; lra.
Qed.
Lemma xdiv_0 r : xdiv (Fin r) (Fin 0) = (if Rltb 0 r then PInf else if Rltb r 0 then NInf else NaN).
Proof.
  unfold xdiv, Rltb, Reqb. destruct (Req_EM_T 0 0); [|lra]. destruct (Req_EM_T r 0), (Rlt_dec 0 r), (Rlt_dec r 0); try lra; reflexivity.
Qed.
Lemma neg_sdr_bw_nan coh g : coh = 0%R \/ coh = 1%R -> neg_sdr_bw None coh g = NaN.
Proof.
  pose proof ln10_pos as L10.
  intros [-> | ->]; unfold neg_sdr_bw; cbn -[xmul xdiv xsub xadd xneg xmax xmin xleb]; rewrite xmax_fin, xmin_fin;
    rewrite ?Rminus_0_r.
  - rewrite Rmax_left, Rmin_left by lra. rewrite (proj2 (xleb_fin 0 0)), (proj2 (xleb_fin 0 1)) by lra. cbn [andb].
    rewrite xsub_fin, Rminus_0_r, xdiv_0. unfold Rltb. destruct (Rlt_dec 0 1); [|lra].
    assert (E : xmul PInf (Fin (ln 10)) = PInf).
    { unfold xmul, xsign_mul_inf, Rltb, Reqb. repeat (destruct (Rlt_dec _ _) || destruct (Req_EM_T _ _)); try lra; reflexivity. }
    rewrite E. assert (E2 : xdiv (Fin (10 * g)) PInf = Fin 0) by reflexivity.
    rewrite E2, xdiv_0. unfold Rltb. destruct (Rlt_dec 0 0); [lra|]. reflexivity.
  - rewrite Rmax_left, Rmin_left by lra. rewrite (proj2 (xleb_fin 0 1)), (proj2 (xleb_fin 1 1)) by lra. cbn [andb].
    rewrite xsub_fin. replace (1 - 1)%R with 0%R by ring. rewrite xdiv_fin by lra.
    replace (0 / 1)%R with 0%R by field. cbn [xmul]. rewrite Rmult_0_l, xdiv_0.
    rewrite xdiv_fin by lra. replace (0 / 1)%R with 0%R by field.
    unfold Rltb. destruct (Rlt_dec 0 (10 * g)); [|destruct (Rlt_dec (10 * g) 0)];
      unfold xdiv, xneg, xmul, xsign_mul_inf, Rltb, Reqb; repeat (destruct (Rlt_dec _ _) || destruct (Req_EM_T _ _)); try lra; reflexivity.
Qed.

(** ** The quadratic form behind a coherence *)
Definition bilin (Q : (nat -> R) -> (nat -> R) -> R) : Prop :=
  (forall u v, Q u v = Q v u) /\
  (forall u h t v, Q (fun k => u k + t * h k)%R v = Q u v + t * Q h v)%R /\
  (forall c u v, Q (fun k => c * u k)%R v = c * Q u v)%R.

Definition sol (K : nat) (A : nat -> nat -> R) (r : nat -> R) : nat -> R :=
  match Rsolve K A r with Some s => s | None => fun _ => 0%R end.
Lemma sol_ok K A r : nonsingular K A -> Rsolve K A r = Some (sol K A r) /\ forall i, i < K -> Rmv K A (sol K A r) i = r i.
Proof.
  intros H. unfold sol. destruct (Rsolve_some K A r H) as (s & E). rewrite E. split; auto.
  apply (Rsolve_ok K A r s E).
Qed.
Lemma bilin_gram K M a lam : nonsingular K (gram M a lam) ->
  bilin (fun u v => qval K M a u (sol K (gram M a lam) (fun i => dot M (a i) v))).
Proof.
  intros HN.
  assert (S : forall u v, qval K M a u (sol K (gram M a lam) (fun i => dot M (a i) v)) =
    (dot M (comb K a (sol K (gram M a lam) (fun i => dot M (a i) v))) (comb K a (sol K (gram M a lam) (fun i => dot M (a i) u)))
     + lam * Rsum K (fun i => sol K (gram M a lam) (fun i => dot M (a i) v) i * sol K (gram M a lam) (fun i => dot M (a i) u) i))%R).
  { intros u v. apply (qval_form K M a lam u). intros i Hi. apply (proj2 (sol_ok K _ (fun i => dot M (a i) u) HN) i Hi). }
  split; [|split].
  - intros u v. rewrite !S, dot_comm. f_equal. f_equal. apply Rsum_ext. intros; ring.
  - intros u h t v. unfold qval. rewrite <- Rsum_scal_l, <- Rsum_plus. apply Rsum_ext. intros k _.
    replace (dot M (a k) (fun k0 => u k0 + t * h k0)%R) with (dot M (a k) u + t * dot M (a k) h)%R; [ring|].
    unfold dot. rewrite <- Rsum_scal_l, <- Rsum_plus. apply Rsum_ext. intros; ring.
  - intros c u v. unfold qval. rewrite <- Rsum_scal_l. apply Rsum_ext. intros k _.
    rewrite dot_scal_r. ring.
Qed.
Lemma bilin_dot M a : bilin (fun u v => dot M a u * dot M a v)%R.
Proof.
  split; [intros; ring|]. split.
  - intros u h t v. replace (dot M a (fun k => u k + t * h k)%R) with (dot M a u + t * dot M a h)%R; [ring|].
    unfold dot. rewrite <- Rsum_scal_l, <- Rsum_plus. apply Rsum_ext. intros; ring.
  - intros c u v. rewrite dot_scal_r. ring.
Qed.

Lemma coh_form b o ref c x len est0 m0 : wf ref -> use_cg_iter o = None -> (filter_length o = 1 -> a_len ref = len) -> 0 < len ->
  has_chan ref c x -> a_len est0 = len -> sdr_coh b o ref est0 = Ok m0 ->
  exists Q, bilin Q /\
  (forall est m d v, wf est -> a_len est = len -> has_chan est d v -> sdr_coh b o ref est = Ok m ->
     mat_of m c d = Fin (Q (smp (unit_of (pre (zero_mean o) v))) (smp (unit_of (pre (zero_mean o) v))))) /\
  (forall u w, length u = len ->
     match neg_sdr_bw (clamp_db o) (Q (smp u) (smp u)) w with
     | Fin g => exists G, entry_bw b o (a_len ref) len (unit_of (pre (zero_mean o) x)) u w = Ok (Some G) /\ length G = len /\
                  forall h, length h = len -> Rsum len (fun t => nth t G 0 * smp h t)%R = (2 * g * Q (smp u) (smp h))%R
     | _ => entry_bw b o (a_len ref) len (unit_of (pre (zero_mean o) x)) u w = Ok None
     end).
Proof.
  intros Hwr Hcg HL1 H0 Hx Hl0 Hm0.
  destruct (has_chan_pchan (zero_mean o) ref c x Hwr Hx) as [Px Lx].
  set (ux := unit_of (pre (zero_mean o) x)) in *.
  assert (Lux : length ux = a_len ref) by (unfold ux; rewrite length_unit_of, length_pre; auto).
  destruct (Nat.eq_dec (filter_length o) 1) as [E1|N1].
  - specialize (HL1 E1). exists (fun u v => dot len (smp ux) u * dot len (smp ux) v)%R.
    split; [apply bilin_dot|]. split.
    + intros est m d v We Hle Hv Hm. destruct (has_chan_pchan (zero_mean o) est d v We Hv) as [Pv Lv].
      rewrite (sdr_entry1 b o ref est m c d ux _ Hwr We Hm E1 ltac:(congruence) Px Pv). f_equal. rewrite HL1. ring.
    + intros u w Hu. unfold entry_bw. rewrite E1. cbn [Nat.eqb]. unfold bc_len. rewrite HL1, Nat.eqb_refl. cbn [bind].
      rewrite ip_dot by congruence.
      replace (dot len (smp ux) (smp u) ^ 2)%R with (dot len (smp ux) (smp u) * dot len (smp ux) (smp u))%R by ring.
      destruct (neg_sdr_bw _ _ _) as [g| | |]; auto.
      exists (coh1_bw len ux u g). split; [reflexivity|]. unfold coh1_bw. rewrite ip_dot by congruence. rewrite Hu.
      destruct (Nat.eqb_spec len 1) as [El|Nl].
      * subst len. rewrite El. split; [reflexivity|]. intros h Hh. unfold dot. cbn. unfold bc_get, smp.
        destruct (Nat.eqb (length ux) 1); ring.
      * split; [apply length_tab|]. intros h Hh.
        rewrite (Rsum_ext _ _ (fun t => 2 * g * dot len (smp ux) (smp u) * (smp ux t * smp h t))%R).
        { rewrite Rsum_scal_l. unfold dot. ring. }
        intros t Ht. rewrite nth_tab by auto. unfold bc_get. rewrite Lux, HL1.
        destruct (Nat.eqb_spec len 1); [contradiction|]. unfold smp. ring.
  - set (nf := n_fft (a_len ref) len). set (L := filter_length o) in *. set (K := Nat.min L nf).
    set (a := cdelayed nf ux). set (lam := loadv (load_diag o)).
    pose proof (proj1 Hwr) as Hlr.
    assert (Hnf : 0 < nf) by (pose proof (n_fft_ge (a_len ref) len ltac:(apply Hwr)); unfold nf; lia).
    assert (Hlenf : len <= nf).
    { pose proof (n_fft_ge (a_len ref) len ltac:(apply Hwr)). unfold nf. lia. }
    assert (HN : nonsingular K (gram nf a lam)).
    { unfold sdr_coh in Hm0. fold L in Hm0. destruct (Nat.eqb_spec L 1); [contradiction|].
      cbv zeta in Hm0. rewrite Hcg, Hl0 in Hm0. fold nf in Hm0.
      assert (Hc' : c < length (prep_arr (zero_mean o) ref)) by (rewrite length_prep; apply Hx).
      pose proof (mapM_nth _ _ _ (None : chan) [] c Hm0 Hc') as E. unfold pchan in Px. rewrite Px in E.
      apply coh_row_inv in E. destruct E as (_ & E & _). apply row_nonsingular in E. exact E. }
    exists (fun u v => qval K nf a u (sol K (gram nf a lam) (fun i => dot nf (a i) v))).
    pose proof (bilin_gram K nf a lam HN) as HB. split; [exact HB|]. split.
    + intros est m d v We Hle Hv Hm. destruct (has_chan_pchan (zero_mean o) est d v We Hv) as [Pv Lv].
      destruct (sdr_entry b o ref est m c d _ _ Hm Hcg N1 (proj1 Hx) (proj1 Hv) Px Pv) as (q & (h & Hh & Hq) & E).
      rewrite E, Hq. f_equal. rewrite Hle in Hh |- *. fold nf L K a lam in Hh |- *.
      apply Rsum_ext. intros k Hk. f_equal.
      apply (Rsolve_uniq K (gram nf a lam) (fun i => dot nf (a i) (smp (unit_of (pre (zero_mean o) v)))) _ h
        (proj1 (sol_ok K _ _ HN))); auto.
    + intros u w Hu. unfold entry_bw. fold L. destruct (Nat.eqb_spec L 1); [contradiction|]. cbv zeta.
      rewrite !length_loaded. fold nf. fold K.
      assert (Hxc : forall v i, i < K -> nth i (stats_xcorr nf L ux v) 0%R = dot nf (a i) (smp v))
        by (intros v i Hi; apply sdr_crhs; unfold K in Hi; lia).
      assert (Hent : forall i j, i < K -> j < K ->
                ent (toeplitz b (add_load (load_diag o) (stats_acf nf L ux))) i j = gram nf a lam i j).
      { intros i j Hi Hj. rewrite (stats_acf_min nf L ux). fold K. apply toep_gram; auto. unfold K; lia. }
      assert (HS : forall A r, (forall i j, i < K -> j < K -> A i j = gram nf a lam i j) ->
                exists s, solve_vec K A r = Ok s /\ forall i, i < K -> s i = sol K (gram nf a lam) r i).
      { intros A r HA. unfold solve_vec.
        assert (HNA : nonsingular K A).
        { apply (nonsingular_ext K (gram nf a lam)); auto. intros; symmetry; auto. }
        destruct (Rsolve_some K A r HNA) as (s & Es). rewrite Es. exists s. split; auto.
        intros i Hi. apply (Rsolve_uniq K (gram nf a lam) r (sol K (gram nf a lam) r) s (proj1 (sol_ok K _ _ HN))); auto.
        intros k Hk. rewrite <- (Rsolve_ok K A r s Es k Hk). unfold mulmv. apply Rsum_ext. intros j Hj. rewrite HA; auto. }
      assert (Hsx : forall g r, (forall i, i < K -> r i = (g * dot nf (a i) (smp u))%R) ->
                forall i, i < K -> sol K (gram nf a lam) r i = (g * sol K (gram nf a lam) (fun i => dot nf (a i) (smp u)) i)%R).
      { intros g r Hr i Hi. symmetry.
        apply (Rsolve_uniq K (gram nf a lam) r _ (fun i => g * sol K (gram nf a lam) (fun i => dot nf (a i) (smp u)) i)%R
          (proj1 (sol_ok K _ _ HN))); auto.
        intros k Hk. rewrite Hr by auto. rewrite <- (proj2 (sol_ok K _ (fun i => dot nf (a i) (smp u)) HN) k Hk).
        unfold mulmv. change (gsum 0%R Rplus) with Rsum. rewrite <- Rsum_scal_l. apply Rsum_ext. intros; ring. }
      destruct (HS _ (fun l => nth l (stats_xcorr nf L ux u) 0%R) Hent) as (s & Es & Hs). rewrite Es. cbn [bind].
      assert (Hs' : forall i, i < K -> s i = sol K (gram nf a lam) (fun i => dot nf (a i) (smp u)) i).
      { intros i Hi. rewrite Hs, (Hsx 1%R) by (auto; intros; rewrite Hxc by auto; ring). ring. }
      assert (Eq : dot_nth K (stats_xcorr nf L ux u) s =
                   qval K nf a (smp u) (sol K (gram nf a lam) (fun i => dot nf (a i) (smp u)))).
      { apply Rsum_ext. intros l Hl. rewrite Hxc, Hs' by auto. reflexivity. }
      rewrite Eq. destruct (neg_sdr_bw _ _ _) as [g| | |]; auto.
      unfold coh_bw. cbv zeta. rewrite length_loaded. fold K.
      destruct (HS (fun i j => ent (toeplitz b (add_load (load_diag o) (stats_acf nf L ux))) j i)
        (fun l => g * nth l (stats_xcorr nf L ux u) 0)%R) as (s2 & Es2 & Hs2).
      { intros i j Hi Hj. rewrite Hent by auto. unfold gram. rewrite dot_comm, Nat.eqb_sym. reflexivity. }
      rewrite Es2. cbn [bind]. eexists. split; [reflexivity|].
      split; [unfold xcorr_bw, rfft_bw; apply length_tab|].
      intros h Hh. rewrite <- Hh. unfold smp at 1.
      rewrite (xcorr_adjoint nf L) by (rewrite ?length_tab; unfold K; lia).
      rewrite length_tab.
      rewrite (proj1 HB (smp u) (smp h)). unfold qval. rewrite <- Rsum_scal_l. apply Rsum_ext. intros l Hl.
      rewrite nth_tab, Hxc by auto. rewrite Hs', Hs2 by auto.
      rewrite (Hsx g (fun l => g * nth l (stats_xcorr nf L ux u) 0)%R) by (auto; intros i Hi; cbv beta; rewrite (Hxc u i Hi); reflexivity).
      ring.
Qed.
