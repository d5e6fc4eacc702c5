(** * The gradient with respect to a reference is the derivative of the losses *)
From Coq Require Import Reals Lra FunctionalExtensionality.
From Verif Require Import Prelude ExtReal Slice Sums Helpers Linalg LinalgProofs Cgd Metrics SpecSig StatsProofs PrepProofs
  LeastSq DbProofs MetricsProofs ProjTheorems MetricTheorems Invariance Gradient Autograd AutogradFft AutogradEntry AutogradProofs
  AutogradTheorems AutogradRef AutogradRefAdjoint AutogradRefDeriv.
Local Open Scope nat_scope.

(** An entry of a loss matrix; NaN when the call raises. *)
Definition entry (m : res (list (list xr))) (c d : nat) : xr :=
  match m with Ok m => mat_of m c d | Raise _ => NaN end.
(** E v is an array whose channel c is v and whose other channels do not depend on v. *)
Definition moves (E : list R -> arr) (c T : nat) : Prop :=
  family E c T /\
  forall v v', length v = T -> length v' = T -> n_chan (E v) = n_chan (E v') /\
    forall i, i <> c -> nth i (a_chans (E v)) [] = nth i (a_chans (E v')) [].

(** the coherence of two normalised signals, and its derivative when the first moves in direction k *)
Definition cval (o : opts) (lx ly : nat) (u y : list R) : R :=
  if Nat.eqb (filter_length o) 1 then (dot lx (smp u) (smp y) ^ 2)%R
  else cq (n_fft lx ly) (Nat.min (filter_length o) (n_fft lx ly)) (loadv (load_diag o)) u (smp y).
Definition dval (o : opts) (lx ly : nat) (u k y : list R) : R :=
  if Nat.eqb (filter_length o) 1 then (2 * dot lx (smp u) (smp y) * dot lx (smp k) (smp y))%R
  else dcoh (n_fft lx ly) (Nat.min (filter_length o) (n_fft lx ly)) (loadv (load_diag o)) u k (smp y).
Definition rowns (o : opts) (lx ly : nat) (u : list R) : Prop :=
  filter_length o <> 1 ->
  nonsingular (Nat.min (filter_length o) (n_fft lx ly)) (gram (n_fft lx ly) (cdelayed (n_fft lx ly) u) (loadv (load_diag o))).

Lemma row_ns b o ref est m c u : use_cg_iter o = None -> sdr_coh b o ref est = Ok m -> c < n_chan ref ->
  pchan (zero_mean o) ref c = Some u -> rowns o (a_len ref) (a_len est) u.
Proof.
  intros Hcg Hm Hc Px N1. unfold sdr_coh in Hm. destruct (Nat.eqb_spec (filter_length o) 1); [contradiction|].
  cbv zeta in Hm. rewrite Hcg in Hm.
  assert (Hc' : c < length (prep_arr (zero_mean o) ref)) by (rewrite length_prep; auto).
  pose proof (mapM_nth _ _ _ (None : chan) [] c Hm Hc') as E. unfold pchan in Px. rewrite Px in E.
  apply coh_row_inv in E. destruct E as (_ & E & _). apply row_nonsingular in E. exact E.
Qed.

Lemma entry_val b o ref est m c d x y : wf ref -> wf est -> use_cg_iter o = None ->
  (filter_length o = 1 -> a_len ref = a_len est) -> has_chan ref c x -> has_chan est d y -> sdr_coh b o ref est = Ok m ->
  mat_of m c d = Fin (cval o (a_len ref) (a_len est) (unit_of (pre (zero_mean o) x)) (unit_of (pre (zero_mean o) y))).
Proof.
  intros Hwr Hwe Hcg HL1 Hx Hy Hm.
  destruct (has_chan_pchan (zero_mean o) ref c x Hwr Hx) as [Px Lx].
  destruct (has_chan_pchan (zero_mean o) est d y Hwe Hy) as [Py Ly].
  unfold cval. destruct (Nat.eqb_spec (filter_length o) 1) as [E1|N1].
  - apply (sdr_entry1 b o ref est m c d _ _ Hwr Hwe Hm E1 (HL1 E1) Px Py).
  - pose proof (row_ns b o ref est m c _ Hcg Hm (proj1 Hx) Px N1) as HN.
    destruct (sdr_entry b o ref est m c d _ _ Hm Hcg N1 (proj1 Hx) (proj1 Hy) Px Py) as (q & (h & Hh & Hq) & E).
    rewrite E, Hq. f_equal. unfold qval, cq, rsol. apply Rsum_ext. intros k Hk. f_equal.
    apply (Rsolve_uniq _ _ _ _ h (proj1 (sol_ok _ _ _ HN))); auto.
Qed.

(** the call succeeds as soon as the moving row does *)
Lemma mapM_some {A B} (f : A -> res B) l : (forall a, In a l -> exists v, f a = Ok v) -> exists m, mapM f l = Ok m.
Proof.
  induction l as [|a l IH]; intros H; [exists []; reflexivity|].
  destruct (H a (or_introl eq_refl)) as (v & Ev). destruct IH as (m & Em); [intros; apply H; right; auto|].
  exists (v :: m). simpl. rewrite Ev, Em. reflexivity.
Qed.
Lemma moved_ok b o est E c T v v' m : moves E c T -> length v = T -> length v' = T -> use_cg_iter o = None ->
  (filter_length o = 1 -> T = a_len est) -> sdr_coh b o (E v) est = Ok m ->
  rowns o T (a_len est) (unit_of (pre (zero_mean o) v')) -> exists m', sdr_coh b o (E v') est = Ok m'.
Proof.
  intros [HE HM] Hv Hv' Hcg HL1 Hm HN.
  destruct (HE v Hv) as [W C]. destruct (HE v' Hv') as [W' C'].
  destruct (has_chan_pchan (zero_mean o) (E v) c v W C) as [_ L].
  destruct (has_chan_pchan (zero_mean o) (E v') c v' W' C') as [P' L'].
  unfold sdr_coh in *. destruct (Nat.eqb_spec (filter_length o) 1) as [E1|N1].
  - unfold bc_len. rewrite <- L', Hv', (HL1 E1), Nat.eqb_refl. cbn [bind]. eauto.
  - cbv zeta in *. rewrite Hcg in *. rewrite <- L, Hv in Hm. rewrite <- L', Hv'.
    apply mapM_some. intros a Ha. destruct (In_nth _ _ (None : chan) Ha) as (i & Hi & Ei). rewrite length_prep in Hi.
    destruct (Nat.eq_dec i c) as [->|Hne].
    + unfold pchan in P'. rewrite P' in Ei. subst a. apply coh_row_ok. apply row_nonsingular. apply HN; auto.
    + destruct (HM v' v Hv' Hv) as [Hn Hi2]. specialize (Hi2 i Hne).
      assert (Ep : nth i (prep_arr (zero_mean o) (E v')) None = nth i (prep_arr (zero_mean o) (E v)) None).
      { pose proof (pchan_nth (zero_mean o) (E v') i Hi) as A1. pose proof (pchan_nth (zero_mean o) (E v) i ltac:(lia)) as A2.
        unfold pchan in A1, A2. rewrite A1, A2, Hi2. reflexivity. }
      rewrite Ep in Ei. subst a.
      eexists. apply (mapM_nth _ _ _ (None : chan) [] i Hm). rewrite length_prep. lia.
Qed.

(** ** One row of the backward pass *)
Lemma fin_list_tab k f : (exists g, (forall d, d < k -> f d = Fin (g d)) /\ fin_list (tab k f) = Some (tab k g)) \/
  (exists d, d < k /\ (forall r, f d <> Fin r) /\ fin_list (tab k f) = None).
Proof.
  assert (H : (forall d, d < k -> exists r, f d = Fin r) \/ exists d, d < k /\ forall r, f d <> Fin r).
  { induction k as [|k IH]; [left; intros; lia|]. destruct IH as [IH|(d & Hd & IH)]; [|right; exists d; split; auto; lia].
    destruct (f k) as [r| | |] eqn:E; [left|right; exists k; split; [lia|congruence]..].
    intros d Hd. destruct (Nat.eq_dec d k) as [->|]; [eauto|apply IH; lia]. }
  destruct H as [H|(d & Hd & H)].
  - left. destruct (fin_choice 0%R k _ H) as (g & Hg). exists g. split; auto.
    assert (Et : tab k f = map Fin (tab k g)).
    { unfold tab. rewrite map_map. apply map_ext_in. intros d Hd. apply in_seq in Hd. apply Hg. lia. }
    rewrite Et. apply fin_list_map.
  - right. exists d. split; auto. split; auto. apply (fin_list_nonfin _ d). rewrite nth_tab by auto.
    destruct (f d) as [r| | |]; auto. exfalso. apply (H r eq_refl).
Qed.

Section Row.
  Variables (b : backend) (o : opts) (est : arr) (u : list R) (ys : nat -> list R) (w : nat -> R).
  Hypotheses (Hwe : wf est) (Hys : has_chans est ys) (Hcg : use_cg_iter o = None) (HL : 1 <= filter_length o).
  Hypothesis H0 : 0 < length u.
  Hypothesis HL1 : filter_length o = 1 -> length u = a_len est.
  Hypothesis HN : rowns o (length u) (a_len est) u.
  Let uy d := unit_of (pre (zero_mean o) (ys d)).
  Let kap d := cval o (length u) (a_len est) u (uy d).

  Lemma est_chan d : d < n_chan est -> nth d (prep_arr (zero_mean o) est) None = Some (uy d) /\ length (uy d) = a_len est.
  Proof.
    intros Hd. destruct (has_chan_pchan (zero_mean o) est d (ys d) Hwe (has_chans_at est ys d Hys Hd)) as [P L].
    split; [exact P|]. unfold uy. rewrite length_unit_of, length_pre. auto.
  Qed.
  Lemma est_clean : existsb tainted (prep_arr (zero_mean o) est) = false.
  Proof.
    destruct (existsb tainted _) eqn:E; auto. apply existsb_exists in E. destruct E as (a & Ha & Ht).
    destruct (In_nth _ _ (None : chan) Ha) as (d & Hd & Ed). rewrite length_prep in Hd.
    rewrite (proj1 (est_chan d Hd)) in Ed. subst a. discriminate.
  Qed.

  Lemma row_bw_cases :
    (exists g G, (forall d, d < n_chan est -> neg_sdr_bw (clamp_db o) (kap d) (w d) = Fin (g d)) /\
       row_bw b o (length u) (a_len est) u (prep_arr (zero_mean o) est) w = Ok (Some G) /\ length G = length u /\
       forall k, length k = length u ->
         Rsum (length u) (fun t => nth t G 0 * smp k t)%R = Rsum (n_chan est) (fun d => g d * dval o (length u) (a_len est) u k (uy d))%R)
    \/ (exists d, d < n_chan est /\ (forall r, neg_sdr_bw (clamp_db o) (kap d) (w d) <> Fin r) /\
       row_bw b o (length u) (a_len est) u (prep_arr (zero_mean o) est) w = Ok None).
  Proof.
    set (lx := length u) in *. set (ly := a_len est) in *.
    assert (Ey : forall d, d < n_chan est -> opt0 (nth d (prep_arr (zero_mean o) est) None) = uy d)
      by (intros d Hd; rewrite (proj1 (est_chan d Hd)); reflexivity).
    unfold row_bw. cbv zeta. rewrite length_prep, est_clean.
    destruct (Nat.eqb_spec (filter_length o) 1) as [E1|N1].
    - assert (Ek : forall d, d < n_chan est -> neg_sdr_bw (clamp_db o) (ip lx u (opt0 (nth d (prep_arr (zero_mean o) est) None)) ^ 2) (w d)
        = neg_sdr_bw (clamp_db o) (kap d) (w d)).
      { intros d Hd. f_equal. rewrite Ey by auto. unfold kap, cval. rewrite E1. cbn [Nat.eqb].
        rewrite ip_dot; auto. rewrite (proj2 (est_chan d Hd)). symmetry. apply HL1; auto. }
      unfold bc_len. rewrite (HL1 E1), Nat.eqb_refl. cbn [bind]. rewrite <- (HL1 E1).
      destruct (fin_list_tab (n_chan est) (fun d => neg_sdr_bw (clamp_db o) (ip lx u (opt0 (nth d (prep_arr (zero_mean o) est) None)) ^ 2) (w d)))
        as [(g & Hg & Ef)|(d & Hd & Hf & Ef)]; rewrite Ef.
      + left. exists g. eexists. split; [intros d Hd; rewrite <- Ek, Hg by auto; reflexivity|].
        split; [reflexivity|]. split; [apply length_tab|]. intros k Hk.
        rewrite (Rsum_ext lx _ (fun t => nth t (tab lx (fun t => Rsum (n_chan est) (fun d => nth t (coh1_bw lx (uy d) u (g d)) 0%R))) 0 * smp k t)%R).
        2:{ intros t Ht. rewrite !nth_tab by auto. f_equal. apply Rsum_ext. intros d Hd. rewrite nth_tab, Ey by auto. reflexivity. }
        rewrite (Rsum_swap_tab lx (n_chan est) (fun d => coh1_bw lx (uy d) u (g d))). apply Rsum_ext. intros d Hd.
        assert (Ld : length (uy d) = lx) by (rewrite (proj2 (est_chan d Hd)); symmetry; auto).
        unfold dval. rewrite E1. cbn [Nat.eqb]. unfold coh1_bw. rewrite ip_dot by auto. fold lx.
        destruct (Nat.eqb_spec lx 1) as [El|Nl].
        * rewrite El. unfold dot. cbn. unfold bc_get, smp. rewrite Ld, El. cbn. ring.
        * rewrite (Rsum_ext _ _ (fun t => 2 * g d * dot lx (smp (uy d)) (smp u) * (smp k t * smp (uy d) t))%R).
          { rewrite Rsum_scal_l. rewrite (dot_comm lx (smp u)). unfold dot. ring. }
          intros t Ht. rewrite nth_tab by auto. unfold bc_get. rewrite Ld.
          destruct (Nat.eqb_spec lx 1); [contradiction|]. unfold smp. ring.
      + right. exists d. split; auto. split; auto. intros r. rewrite <- Ek by auto. apply Hf.
    - set (nf := n_fft lx ly). set (L := filter_length o) in *. set (K := Nat.min L nf).
      pose proof (n_fft_ge lx ly H0) as Hge. fold nf in Hge.
      assert (Hnf : 0 < nf) by lia.
      specialize (HN N1). fold lx ly nf L K in HN. rewrite length_loaded. fold K.
      pose (vy := fun d => opt0 (nth d (prep_arr (zero_mean o) est) None)).
      destruct (row_sol b nf L (load_diag o) u (n_chan est) vy Hnf ltac:(lia) HN
        (fun l d => nth l (stats_xcorr nf L u (vy d)) 0%R) (fun _ _ _ => eq_refl)) as (X & EX & HX).
      fold K in EX, HX. unfold vy in EX. cbv beta in EX. rewrite EX. cbn [bind].
      assert (Ek : forall d, d < n_chan est -> neg_sdr_bw (clamp_db o) (dot_nth K (stats_xcorr nf L u (vy d)) (fun l => X l d)) (w d)
        = neg_sdr_bw (clamp_db o) (kap d) (w d)).
      { intros d Hd. f_equal. unfold kap, cval. fold L. destruct (Nat.eqb_spec L 1); [contradiction|]. fold nf K.
        unfold dot_nth, cq. apply Rsum_ext. intros l Hl. rewrite HX by auto.
        rewrite (xc_dot nf L u) by (auto; lia). unfold vy. rewrite Ey by auto. reflexivity. }
      destruct (fin_list_tab (n_chan est) (fun d => neg_sdr_bw (clamp_db o) (dot_nth K (stats_xcorr nf L u (vy d)) (fun l => X l d)) (w d)))
        as [(g & Hg & Ef)|(d & Hd & Hf & Ef)]; unfold vy in Ef; cbv beta in Ef; rewrite Ef.
      + left. destruct (row_adjoint b nf L (load_diag o) u (n_chan est) vy Hnf ltac:(lia) HN lx X
          (fun d => nth d (tab (n_chan est) g) 0%R) ltac:(lia) HX) as (G & EG & LG & HG).
        exists g, G. split; [intros d Hd; rewrite <- Ek, Hg by auto; reflexivity|].
        unfold vy in EG. rewrite EG. cbn [bind]. split; [reflexivity|]. split; auto.
        intros k Hk. rewrite (HG k Hk). apply Rsum_ext. intros d Hd. rewrite nth_tab by auto. f_equal.
        unfold dval. fold L. destruct (Nat.eqb_spec L 1); [contradiction|]. fold nf K. unfold vy. rewrite Ey by auto. reflexivity.
      + right. exists d. split; auto. split; auto. intros r. rewrite <- Ek by auto. apply Hf.
  Qed.
End Row.

(** ** The gradient *)
Section Grad.
  Variables (b : backend) (o : opts) (est : arr) (c : nat) (x : list R) (ys : nat -> list R) (w : nat -> R) (E : list R -> arr).
  Variable m0 : list (list xr).
  Hypotheses (Hwe : wf est) (Hys : has_chans est ys) (Hcg : use_cg_iter o = None) (HL : 1 <= filter_length o).
  Hypothesis HL1 : filter_length o = 1 -> length x = a_len est.
  Hypothesis HE : moves E c (length x).
  Hypothesis Hm0 : pairwise_sdr_loss b o est (E x) = Ok m0.
  Let zm := zero_mean o.
  Let ux := unit_of (pre zm x).
  Let kap d := cval o (length x) (a_len est) ux (unit_of (pre zm (ys d))).

  Lemma ref_len v : length v = length x -> wf (E v) /\ a_len (E v) = length x /\ has_chan (E v) c v.
  Proof.
    intros Hv. destruct (proj1 HE v Hv) as [W C]. destruct (has_chan_pchan zm (E v) c v W C) as [_ L].
    split; auto. split; auto. congruence.
  Qed.
  Lemma x_pos : 0 < length x.
  Proof. destruct (ref_len x eq_refl) as (W & L & _). rewrite <- L. apply W. Qed.
  Lemma length_ux : length ux = length x.
  Proof. unfold ux. rewrite length_unit_of, length_pre. auto. Qed.
  Lemma x_ns : rowns o (length x) (a_len est) ux.
  Proof.
    destruct (ref_len x eq_refl) as (W & L & C). destruct (loss_inv _ _ _ _ _ Hm0) as (m1 & E1 & _).
    rewrite <- L. apply (row_ns b o (E x) est m1 c); auto; [apply C|].
    apply (proj1 (has_chan_pchan zm (E x) c x W C)).
  Qed.
  Lemma entry_at v d : length v = length x -> d < n_chan est ->
    rowns o (length x) (a_len est) (unit_of (pre zm v)) ->
    entry (pairwise_sdr_loss b o est (E v)) c d =
      coherence_to_neg_sdr (clamp_db o) (Fin (cval o (length x) (a_len est) (unit_of (pre zm v)) (unit_of (pre zm (ys d))))).
  Proof.
    intros Hv Hd HN. destruct (ref_len v Hv) as (W & L & C). destruct (loss_inv _ _ _ _ _ Hm0) as (m1 & E1 & _).
    destruct (moved_ok b o est E c (length x) x v m1 HE eq_refl Hv Hcg HL1 E1 HN) as (m2 & E2).
    unfold pairwise_sdr_loss. rewrite E2. cbn [bind entry]. rewrite to_db_entry. f_equal.
    rewrite (entry_val b o (E v) est m2 c d v (ys d) W Hwe Hcg ltac:(rewrite L; auto) C (has_chans_at est ys d Hys Hd) E2).
    rewrite L. reflexivity.
  Qed.
  Lemma coh_at m1 d : sdr_coh b o (E x) est = Ok m1 -> d < n_chan est -> mat_of m1 c d = Fin (kap d).
  Proof.
    intros E1 Hd. destruct (ref_len x eq_refl) as (W & L & C).
    rewrite (entry_val b o (E x) est m1 c d x (ys d) W Hwe Hcg ltac:(rewrite L; auto) C (has_chans_at est ys d Hys Hd) E1).
    rewrite L. reflexivity.
  Qed.

  (** the shape of the gradient *)
  Lemma ref_grad_cases :
    (exists g G, (forall d, d < n_chan est -> neg_sdr_bw (clamp_db o) (kap d) (w d) = Fin (g d)) /\
       ref_grad b o est (length x) (map Fin x) w =
         Ok (map Fin (let g1 := normalize_bw (pre zm x) G in if zm then remove_mean_bw g1 else g1)) /\ length G = length x /\
       forall k, length k = length x ->
         Rsum (length x) (fun t => nth t G 0 * smp k t)%R =
         Rsum (n_chan est) (fun d => g d * dval o (length x) (a_len est) ux k (unit_of (pre zm (ys d))))%R)
    \/ (exists d, d < n_chan est /\ (forall r, neg_sdr_bw (clamp_db o) (kap d) (w d) <> Fin r) /\
       ref_grad b o est (length x) (map Fin x) w = Ok (repeat NaN (length x))).
  Proof.
    pose proof x_pos as P0. unfold ref_grad. rewrite fin_list_map, prep_fin by lia. fold zm. fold ux.
    assert (Ey : (if zm then map to_R (remove_mean (map Fin x)) else x) = pre zm x).
    { destruct zm; [|reflexivity]. rewrite remove_mean_fin by lia. cbn [pre]. rewrite map_map.
      rewrite <- (map_id (centered x)) at 2. apply map_ext. reflexivity. }
    pose proof (row_bw_cases b o est ux ys w Hwe Hys HL ltac:(rewrite length_ux; auto) ltac:(rewrite length_ux; auto)
      ltac:(rewrite length_ux; apply x_ns)) as HC. rewrite length_ux in HC. fold zm in HC.
    destruct HC as [(g & G & Hg & EG & LG & HG)|(d & Hd & Hn & EG)].
    - left. exists g, G. split; [exact Hg|]. rewrite EG. cbn [bind]. rewrite Ey. split; [reflexivity|]. split; auto.
    - right. exists d. split; auto. split; [exact Hn|]. rewrite EG. reflexivity.
  Qed.

  Lemma val_deriv h d : length h = length x -> norm2 (pre zm x) <> norm_eps ->
    (exists e, (0 < e)%R /\ forall t, (Rabs t < e)%R -> rowns o (length x) (a_len est) (unit_of (pre zm (ray x h t)))) /\
    derivable_pt_lim (fun t => cval o (length x) (a_len est) (unit_of (pre zm (ray x h t))) (unit_of (pre zm (ys d)))) 0
      (dval o (length x) (a_len est) ux (udir (pre zm x) (pre zm h)) (unit_of (pre zm (ys d)))).
  Proof.
    intros Hh HN. pose proof x_pos as P0.
    assert (Hl : length (pre zm h) = length (pre zm x)) by (rewrite !length_pre; auto).
    set (u := fun t => unit_of (pre zm (ray x h t))).
    assert (Eu : forall t, u t = unit_of (ray (pre zm x) (pre zm h) t)) by (intros t; unfold u; rewrite pre_ray; auto).
    assert (Hu : forall k, derivable_pt_lim (fun t => smp (u t) k) 0 (smp (udir (pre zm x) (pre zm h)) k)).
    { intros k. apply (deriv_local (fun t => smp (unit_of (ray (pre zm x) (pre zm h) t)) k) _ _ 1 Rlt_0_1).
      - intros t _. rewrite Eu. reflexivity.
      - apply unit_deriv; auto. }
    assert (Eu0 : u 0%R = ux) by (rewrite Eu, ray0 by auto; reflexivity).
    pose proof x_ns as HNS. unfold rowns, cval, dval in *.
    destruct (Nat.eqb_spec (filter_length o) 1) as [E1|N1].
    - split; [exists 1%R; split; [lra|intros; contradiction]|].
      pose proof (dot_deriv u _ Hu (length x) (smp (unit_of (pre zm (ys d))))) as D.
      apply (deriv_local (fun t => dot (length x) (smp (u t)) (smp (unit_of (pre zm (ys d))))
          * dot (length x) (smp (u t)) (smp (unit_of (pre zm (ys d)))))%R _ _ 1 Rlt_0_1); [intros; unfold u; ring|].
      eapply deriv_eq; [|apply (deriv_mult _ _ _ _ D D)]. rewrite Eu0. ring.
    - specialize (HNS N1). rewrite <- Eu0 in HNS.
      destruct (near_nonsingular u _ Hu _ _ _ HNS) as (e & Pe & Ne).
      split; [exists e; split; [auto|intros t Ht _; exact (Ne t Ht)]|].
      pose proof (coh_deriv u _ Hu _ _ _ HNS (smp (unit_of (pre zm (ys d))))) as D. rewrite Eu0 in D. exact D.
  Qed.

  Theorem ref_gradient_is_derivative m1 : norm2 (pre zm x) <> norm_eps ->
    pairwise_sdr_loss b (with_clamp o None) est (E x) = Ok m1 ->
    (forall d, d < n_chan est ->
      match clamp_db o with
      | None => exists r, mat_of m1 c d = Fin r
      | Some D => (0 <= D)%R /\ mat_of m1 c d <> Fin D /\ mat_of m1 c d <> Fin (- D)
      end) ->
    exists g, ref_grad b o est (length x) (map Fin x) w = Ok (map Fin g) /\ length g = length x /\
      forall h, length h = length x -> exists s,
        (forall d, d < n_chan est -> slope (fun v => entry (pairwise_sdr_loss b o est (E v)) c d) x h (s d)) /\
        Rsum (length x) (fun t => smp g t * smp h t)%R = Rsum (n_chan est) (fun d => w d * s d)%R.
  Proof.
    intros HN Hm1 HR. pose proof x_pos as P0.
    assert (Hcases : forall d, d < n_chan est ->
      ((cl_eps (clamp_db o) < kap d < 1 - cl_eps (clamp_db o) /\ 0 < kap d < 1)%R \/
       exists D, clamp_db o = Some D /\ (0 <= D)%R /\ (kap d < db_clamp_eps D \/ 1 - db_clamp_eps D < kap d)%R)).
    { intros d Hd. apply (regular_cases _ _ (mat_of m1 c d)); [|apply HR; auto].
      destruct (loss_inv _ _ _ _ _ Hm1) as (m2 & E2 & ->). rewrite to_db_entry. simpl clamp_db. f_equal.
      apply coh_at; auto. }
    destruct ref_grad_cases as [(g & G & Hg & EG & LG & HG)|(d & Hd & Hn & _)].
    2:{ exfalso. destruct (Hcases d Hd) as [[H H']|(D & ED & HD & H)].
        - apply (Hn (- (10 * w d) / (ln 10 * (kap d * (1 - kap d))))%R). apply neg_sdr_bw_in; auto. lra.
        - apply (Hn 0%R). apply neg_sdr_bw_out. rewrite ED. exact H. }
    rewrite EG. eexists. split; [reflexivity|]. split; [cbv zeta; rewrite length_back, length_pre; auto|].
    intros h Hh.
    assert (Hl : length (pre zm h) = length (pre zm x)) by (rewrite !length_pre; auto).
    assert (Hs : forall d, d < n_chan est -> exists s,
      slope (fun v => entry (pairwise_sdr_loss b o est (E v)) c d) x h s /\
      (g d * dval o (length x) (a_len est) ux (udir (pre zm x) (pre zm h)) (unit_of (pre zm (ys d))) = w d * s)%R).
    { intros d Hd. destruct (val_deriv h d Hh HN) as ((e & Pe & Ne) & D).
      assert (E0 : unit_of (pre zm (ray x h 0)) = ux) by (rewrite ray0 by auto; reflexivity).
      destruct (loss_deriv (clamp_db o) _ _ (w d) (g d) D) as (s & f & (e' & Pe' & Ne') & Df & Es).
      - cbv beta. rewrite E0. apply Hcases; auto.
      - specialize (HR d Hd). destruct (clamp_db o); tauto.
      - cbv beta. rewrite E0. apply Hg; auto.
      - exists s. split; [|exact Es]. exists f. split; auto. exists (Rmin e e'). split; [apply Rmin_pos; auto|].
        intros t Ht. apply Rmin_Rgt_l in Ht. destruct Ht as [Ht Ht'].
        rewrite entry_at; [apply Ne'; auto|apply ray_length|auto|apply Ne; auto]. }
    destruct (fin_choice 0%R _ _ Hs) as (s & Hs'). exists s. split; [intros d Hd; apply Hs'; auto|].
    rewrite (Rsum_ext (n_chan est) (fun d => w d * s d)%R
      (fun d => g d * dval o (length x) (a_len est) ux (udir (pre zm x) (pre zm h)) (unit_of (pre zm (ys d))))%R)
      by (intros d Hd; symmetry; apply Hs'; auto).
    rewrite <- (HG (udir (pre zm x) (pre zm h))) by (rewrite length_udir, length_pre; auto).
    unfold smp at 1. rewrite back_adjoint by auto.
    pose proof (unit_dir_sum (pre zm x) (pre zm h) Hl (fun k => nth k G 0%R)) as U. rewrite length_pre in U. rewrite U. reflexivity.
  Qed.

  (** ** Without regularity *)
  Lemma ref_grad_shape :
    (exists g, ref_grad b o est (length x) (map Fin x) w = Ok (map Fin g) /\ length g = length x /\
       ((norm_eps <= norm2 (pre zm x))%R -> Rsum (length x) (fun t => smp g t * smp x t)%R = 0%R) /\
       (zm = true -> Rsum (length x) (smp g) = 0%R)) \/
    (ref_grad b o est (length x) (map Fin x) w = Ok (repeat NaN (length x)) /\ clamp_db o = None).
  Proof.
    pose proof x_pos as P0.
    destruct ref_grad_cases as [(g & G & Hg & EG & LG & HG)|(d & Hd & Hn & EG)].
    - left. rewrite EG. eexists. split; [reflexivity|]. split; [cbv zeta; rewrite length_back, length_pre; auto|].
      split.
      + intros HNn. unfold smp at 1. rewrite back_adjoint by auto.
        destruct (Rlt_dec (norm2 (pre zm x)) norm_eps); [lra|].
        rewrite (Rsum_ext (length x) (fun t => smp (pre zm x) t * smp (pre zm x) t)%R (fun t => smp (pre zm x) t ^ 2)%R) by (intros; ring).
        pose proof (norm2_sq (pre zm x)) as En. rewrite length_pre in En. rewrite <- En.
        pose proof eps_pos. unfold gain. rewrite Rmax_left by lra. field. lra.
      + intros Hz. rewrite Hz. unfold remove_mean_bw.
        set (g1 := normalize_bw _ _). assert (L1 : length g1 = length x) by (unfold g1; rewrite length_normalize_bw, length_pre; auto).
        rewrite L1. rewrite (Rsum_ext _ _ (fun t => nth t g1 0 + - Rsum (length x) (fun s => nth s g1 0) / INR (length x))%R).
        * rewrite Rsum_plus, Rsum_const. field. apply not_0_INR. lia.
        * intros t Ht. unfold smp. rewrite nth_tab by auto. reflexivity.
    - right. split; auto. destruct (clamp_db o) as [D|]; auto. exfalso.
      destruct (neg_sdr_bw_clamped D (kap d) (w d)) as (r & Hr). apply (Hn r Hr).
  Qed.
  Theorem ref_clamped_finite D : clamp_db o = Some D ->
    exists g, ref_grad b o est (length x) (map Fin x) w = Ok (map Fin g) /\ length g = length x /\
       ((norm_eps <= norm2 (pre zm x))%R -> Rsum (length x) (fun t => smp g t * smp x t)%R = 0%R) /\
       (zm = true -> Rsum (length x) (smp g) = 0%R).
  Proof. intros HD. destruct ref_grad_shape as [H|[_ H]]; [exact H|congruence]. Qed.

  Theorem ref_infinite_nan d : (0 <= loadv (load_diag o))%R -> clamp_db o = None -> d < n_chan est ->
    mat_of m0 c d = PInf \/ mat_of m0 c d = NInf ->
    ref_grad b o est (length x) (map Fin x) w = Ok (repeat NaN (length x)).
  Proof.
    intros Hld Hcl Hd HI. destruct (loss_inv _ _ _ _ _ Hm0) as (m1 & E1 & Em1).
    destruct (ref_len x eq_refl) as (W & L & C).
    assert (Ek : kap d = 0%R \/ kap d = 1%R).
    { destruct (sdr_coh_unit_range b o (E x) est m1 c d x (ys d) W Hwe Hcg Hld ltac:(rewrite L; auto) C
        (has_chans_at est ys d Hys Hd) E1) as (q & Eq & Rq).
      pose proof (to_db_entry o m1 c d) as ED. rewrite <- Em1, Eq, Hcl in ED.
      rewrite (coh_at m1 d E1 Hd) in Eq. injection Eq as ->.
      destruct (Req_EM_T q 0) as [|N0]; [auto|]. destruct (Req_EM_T q 1) as [|N1]; [auto|].
      exfalso. rewrite neg_sdr_fin in ED by lra. destruct HI; congruence. }
    destruct ref_grad_cases as [(g & G & Hg & _)|(d' & _ & _ & EG)]; [|exact EG].
    specialize (Hg d Hd). rewrite Hcl, (neg_sdr_bw_nan _ _ Ek) in Hg. discriminate.
  Qed.

  Lemma ref_zero_cotangents : (forall d, d < n_chan est -> neg_sdr_bw (clamp_db o) (kap d) (w d) = Fin 0) ->
    ref_grad b o est (length x) (map Fin x) w = Ok (repeat (Fin 0) (length x)).
  Proof.
    intros HZ. pose proof x_pos as P0.
    destruct ref_grad_cases as [(g & G & Hg & EG & LG & HG)|(d & Hd & Hn & EG)]; [|exfalso; apply (Hn 0%R (HZ d Hd))].
    assert (G0 : forall k, length k = length x -> Rsum (length x) (fun t => nth t G 0 * smp k t)%R = 0%R).
    { intros k Hk. rewrite HG by auto. apply Rsum_zero. intros d Hd. specialize (Hg d Hd). rewrite HZ in Hg by auto.
      injection Hg as <-. ring. }
    rewrite EG. cbv zeta. set (g' := if zm then _ else _).
    assert (Lg : length g' = length x) by (unfold g'; rewrite length_back, length_pre; auto).
    assert (Hgh : forall h, length h = length x -> Rsum (length x) (fun t => nth t g' 0 * smp h t)%R = 0%R).
    { intros h Hh. unfold g'. rewrite back_adjoint by auto. rewrite !G0 by (rewrite length_pre; auto).
      destruct (Rlt_dec _ _); ring. }
    f_equal. apply (nth_ext _ _ (Fin 0) (Fin 0)); [rewrite map_length, repeat_length; auto|].
    intros t Ht. rewrite map_length in Ht. rewrite (map_nth Fin), nth_repeat. f_equal.
    apply (Rsum_sq_0 (length x) (fun t => nth t g' 0%R)); [apply (Hgh g' Lg)|lia].
  Qed.

  Theorem ref_saturated_zero m1 D : clamp_db o = Some D -> (0 <= D)%R ->
    pairwise_sdr_loss b (with_clamp o None) est (E x) = Ok m1 ->
    (forall d, d < n_chan est ->
       mat_of m1 c d = PInf \/ mat_of m1 c d = NInf \/ exists r, mat_of m1 c d = Fin r /\ (D < Rabs r)%R) ->
    ref_grad b o est (length x) (map Fin x) w = Ok (repeat (Fin 0) (length x)).
  Proof.
    intros HD HD0 Hm1 HS. apply ref_zero_cotangents. intros d Hd.
    destruct (loss_inv _ _ _ _ _ Hm1) as (m2 & E2 & ->). specialize (HS d Hd).
    rewrite to_db_entry, (coh_at m2 d E2 Hd) in HS. simpl clamp_db in HS.
    set (k := kap d) in *. rewrite HD. apply neg_sdr_bw_out. simpl.
    pose proof (eps_bounds D) as Be. pose proof (eps_half D HD0) as Hh.
    destruct (Rle_dec k 0); [left; lra|]. destruct (Rle_dec 1 k); [right; lra|].
    rewrite neg_sdr_fin in HS by lra. destruct HS as [HS|[HS|(r & Er & HS)]]; try discriminate. injection Er as <-.
    destruct (Rlt_dec k (db_clamp_eps D)) as [|N1]; [auto|]. destruct (Rlt_dec (1 - db_clamp_eps D) k) as [|N2]; [auto|].
    exfalso. assert (gdb k <= D)%R by (rewrite <- (gdb_eps D); apply gdb_le; lra).
    assert (- D <= gdb k)%R by (rewrite <- (gdb_1eps D); apply gdb_le; lra).
    unfold Rabs in HS. destruct (Rcase_abs (gdb k)); lra.
  Qed.

  (** a silent reference; the system is then the identity times load_diag *)
  Theorem ref_silent : silent (pre zm x) -> 0 < n_chan est ->
    ref_grad b o est (length x) (map Fin x) w =
      Ok (repeat (match clamp_db o with None => NaN | Some _ => Fin 0 end) (length x)).
  Proof.
    intros Hs Hn.
    assert (Su : forall k, smp ux k = 0%R) by (intros k; unfold ux; rewrite smp_unit_of, Hs; ring).
    assert (HZ : forall d, kap d = 0%R).
    { intros d. unfold kap, cval. destruct (Nat.eqb (filter_length o) 1).
      - unfold dot. rewrite Rsum_zero; [ring|]. intros. rewrite Su. ring.
      - unfold cq. apply Rsum_zero. intros i Hi. unfold dot. rewrite Rsum_zero; [ring|].
        intros t Ht. unfold cdelayed. rewrite (Su _ : nth _ ux 0%R = 0%R). ring. }
    destruct (clamp_db o) as [D|] eqn:HD.
    - apply ref_zero_cotangents. intros d Hd. rewrite HZ, HD. apply neg_sdr_bw_out. simpl. pose proof (eps_bounds D). lra.
    - destruct ref_grad_cases as [(g & G & Hg & _)|(d' & _ & _ & EG)]; [|exact EG].
      specialize (Hg 0 Hn). rewrite HD, HZ, neg_sdr_bw_nan in Hg by auto. discriminate.
  Qed.
End Grad.

(** ** Scaling the reference *)
Theorem ref_gradient_scale b o est (x : list R) w g k : 0 < length x ->
  (0 < k)%R -> (norm_eps <= norm2 (pre (zero_mean o) x))%R -> (norm_eps <= k * norm2 (pre (zero_mean o) x))%R ->
  ref_grad b o est (length x) (map Fin x) w = Ok (map Fin g) ->
  ref_grad b o est (length x) (map Fin (rscale k x)) w = Ok (map Fin (rscale (/ k) g)).
Proof.
  intros H0 Hk H1 H2. unfold ref_grad. rewrite !fin_list_map, !prep_fin by (rewrite ?length_rscale; auto). cbv zeta.
  rewrite pre_rscale by auto. rewrite unit_rscale; [|lra|right; rewrite (Rabs_right k) by lra; auto].
  assert (Es : forall u, rscale (sgn k) u = u).
  { intros u. unfold sgn. destruct (Rlt_dec k 0); [lra|]. unfold rscale. rewrite <- (map_id u) at 2. apply map_ext. intros; ring. }
  rewrite Es. destruct (row_bw _ _ _ _ _ _ _) as [[gt|]|ex]; cbn [bind]; [| |discriminate].
  2:{ intros H. exfalso. injection H as H. destruct x as [|a x]; [simpl in H0; lia|]. destruct g; discriminate. }
  assert (Ey : forall v, 0 < length v -> (if zero_mean o then map to_R (remove_mean (map Fin v)) else v) = pre (zero_mean o) v).
  { intros v Hv. destruct (zero_mean o); [|reflexivity]. rewrite remove_mean_fin by lia. cbn [pre]. rewrite map_map.
    rewrite <- (map_id (centered v)) at 2. apply map_ext. reflexivity. }
  rewrite !Ey by (rewrite ?length_rscale; auto). rewrite pre_rscale by auto.
  intros H. injection H as H.
  assert (Hg : (if zero_mean o then remove_mean_bw (normalize_bw (pre (zero_mean o) x) gt) else normalize_bw (pre (zero_mean o) x) gt) = g).
  { revert H. generalize g. induction (if zero_mean o then _ else _) as [|a l IH]; intros [|a' g'] H; try discriminate; auto.
    simpl in H. injection H as -> H. f_equal. auto. }
  rewrite <- Hg. rewrite normalize_bw_scale by auto. f_equal. f_equal.
  destruct (zero_mean o); [apply remove_mean_bw_scale|reflexivity].
Qed.

(** ** One tap: the loss is symmetric, and so are the gradients *)
Lemma ip_comm n x y : ip n x y = ip n y x.
Proof. unfold ip. apply Rsum_ext. intros; ring. Qed.
Lemma existsb_map {A B} (p : B -> bool) (f : A -> B) l : existsb p (map f l) = existsb (fun a => p (f a)) l.
Proof. induction l; simpl; congruence. Qed.
Theorem one_tap_swap b o A (y : list xr) w : filter_length o = 1 -> length y = a_len A ->
  est_grad b o A (length y) y w = ref_grad b o A (length y) y w.
Proof.
  intros E1 Hl. unfold est_grad, ref_grad. cbv zeta.
  destruct (fin_list y) as [raw|]; [|reflexivity]. destruct (prep (zero_mean o) y) as [v|]; [|reflexivity].
  unfold row_bw. cbv zeta. rewrite E1. cbn [Nat.eqb]. unfold bc_len. rewrite Hl, Nat.eqb_refl. cbn [bind].
  set (P := prep_arr (zero_mean o) A). set (n := a_len A).
  set (F := fun c => match nth c P None with
     | None => None
     | Some x => match neg_sdr_bw (clamp_db o) (ip n x v ^ 2) (w c) with Fin g => Some (coh1_bw n x v g) | _ => None end
     end : chan).
  rewrite (mapM_ok _ F).
  2:{ intros c _. unfold F. destruct (nth c P None) as [x|]; [|reflexivity].
      unfold entry_bw. rewrite E1. cbn [Nat.eqb]. unfold bc_len. fold n. rewrite Nat.eqb_refl. reflexivity. }
  cbn [bind].
  assert (NF : forall c, c < length P -> nth c (map F (seq 0 (length P))) None = F c).
  { intros c Hc. rewrite (nth_indep _ None (F 0)) by (rewrite map_length, seq_length; auto).
    rewrite (map_nth F), seq_nth by auto. reflexivity. }
  destruct (existsb tainted P) eqn:ET.
  { apply existsb_exists in ET. destruct ET as (a & Ha & Ht). destruct (In_nth _ _ (None : chan) Ha) as (c & Hc & Ec).
    assert (EX : existsb tainted (map F (seq 0 (length P))) = true).
    { apply existsb_exists. exists (F c). split; [apply in_map; apply in_seq; lia|].
      assert (EF : nth c P None = None) by (rewrite Ec; destruct a; [discriminate|reflexivity]).
      unfold F. rewrite EF. reflexivity. }
    rewrite EX. reflexivity. }
  assert (HP : forall c, c < length P -> exists x, nth c P None = Some x).
  { intros c Hc. destruct (nth c P None) as [x|] eqn:E; [eauto|]. exfalso.
    assert (HX : existsb tainted P = true); [|congruence].
    apply existsb_exists. exists (nth c P None). split; [apply nth_In; auto|]. rewrite E. reflexivity. }
  destruct (fin_list_tab (length P) (fun d => neg_sdr_bw (clamp_db o) (ip n v (opt0 (nth d P None)) ^ 2) (w d)))
    as [(g & Hg & Ef)|(d & Hd & Hf & Ef)]; rewrite Ef.
  - assert (HF : forall c, c < length P -> F c = Some (coh1_bw n (opt0 (nth c P None)) v (g c))).
    { intros c Hc. unfold F. destruct (HP c Hc) as (x & Ex). rewrite Ex. specialize (Hg c Hc). cbv beta in Hg. rewrite Ex in Hg.
      cbn [opt0] in Hg |- *. rewrite ip_comm, Hg. reflexivity. }
    assert (EX : existsb tainted (map F (seq 0 (length P))) = false).
    { destruct (existsb tainted (map F _)) eqn:E; auto. apply existsb_exists in E. destruct E as (a & Ha & Ht).
      apply in_map_iff in Ha. destruct Ha as (c & <- & Hc). apply in_seq in Hc. rewrite HF in Ht by lia. discriminate. }
    rewrite EX. f_equal.
    assert (Et : tab n (fun t => Rsum (length P) (fun c => nth t (opt0 (nth c (map F (seq 0 (length P))) None)) 0%R)) =
      tab n (fun t => Rsum (length P) (fun d => nth t (coh1_bw n (opt0 (nth d P None)) v (nth d (tab (length P) g) 0%R)) 0%R))).
    { apply map_ext. intros t. apply Rsum_ext. intros c Hc. rewrite NF, HF, nth_tab by auto. reflexivity. }
    exact (f_equal (fun q => map Fin (if zero_mean o then remove_mean_bw (normalize_bw (if zero_mean o then map to_R (remove_mean y) else raw) q)
       else normalize_bw (if zero_mean o then map to_R (remove_mean y) else raw) q)) Et).
  - assert (EX : existsb tainted (map F (seq 0 (length P))) = true).
    { apply existsb_exists. exists (F d). split; [apply in_map; apply in_seq; lia|].
      unfold F. destruct (HP d Hd) as (x & Ex). rewrite Ex. cbv beta in Hf. rewrite Ex in Hf. cbn [opt0] in Hf.
      rewrite ip_comm. destruct (neg_sdr_bw _ _ _) as [r| | |]; auto. exfalso. apply (Hf r eq_refl). }
    rewrite EX. reflexivity.
Qed.
