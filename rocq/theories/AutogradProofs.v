(** * The gradient returned by the backward pass is the derivative of the loss *)
From Coq Require Import Reals Lra FunctionalExtensionality.
From Verif Require Import Prelude ExtReal Sums Helpers Linalg LinalgProofs Metrics SpecSig PrepProofs
  LeastSq DbProofs MetricsProofs ProjTheorems MetricTheorems Invariance Gradient Autograd AutogradFft AutogradEntry.
Local Open Scope nat_scope.

Section Along.
  Variables (Q : (nat -> R) -> (nat -> R) -> R) (y h : list R).
  Hypothesis HB : bilin Q.
  Hypothesis Hl : length h = length y.

  Let q0 := Q (smp y) (smp y).
  Let q1 := Q (smp y) (smp h).
  Let q2 := Q (smp h) (smp h).
  Let hy := Rsum (length y) (fun t => smp y t * smp h t)%R.

  Lemma Q_unit v w : Q (smp (unit_of v)) w = (gain v * Q (smp v) w)%R.
  Proof.
    destruct HB as (_ & _ & S). rewrite <- S. f_equal. apply functional_extensionality. intros k. apply smp_unit_of.
  Qed.
  Lemma Q_unit2 v : Q (smp (unit_of v)) (smp (unit_of v)) = (gain v ^ 2 * Q (smp v) (smp v))%R.
  Proof. rewrite Q_unit, (proj1 HB), Q_unit. ring. Qed.
  Lemma Q_ray t : Q (smp (ray y h t)) (smp (ray y h t)) = (q0 + 2 * t * q1 + t * t * q2)%R.
  Proof.
    assert (E : smp (ray y h t) = (fun k => smp y k + t * smp h k)%R)
      by (apply functional_extensionality; intros k; apply smp_ray; auto).
    rewrite E. destruct HB as (C & A & _).
    rewrite A, (C (smp y)), (C (smp h)), !A. rewrite (C (smp h) (smp y)). unfold q0, q1, q2. ring.
  Qed.
  Lemma norm2_ray t : (norm2 (ray y h t) ^ 2 = norm2 y ^ 2 + 2 * t * hy + t * t * norm2 h ^ 2)%R.
  Proof.
    rewrite !norm2_sq, ray_length, Hl. unfold hy. rewrite <- !Rsum_scal_l, <- !Rsum_plus. apply Rsum_ext. intros k _.
    rewrite smp_ray by auto. ring.
  Qed.
  Let d1 := if Rlt_dec (norm2 y) norm_eps then 0%R else hy.
  (** the denominator of the coherence along the ray *)
  Lemma gain_ray : norm2 y <> norm_eps -> exists d2 e, (0 < e)%R /\ forall t, (Rabs t < e)%R ->
    (0 < / gain y ^ 2 + 2 * t * d1 + t * t * d2)%R /\
    (gain (ray y h t) ^ 2 = / (/ gain y ^ 2 + 2 * t * d1 + t * t * d2))%R.
  Proof.
    intros HN. pose proof eps_pos as He.
    assert (P : forall v, (0 <= norm2 v)%R) by (intros; apply sqrt_pos).
    unfold d1. destruct (Rlt_dec (norm2 y) norm_eps) as [Hs|Hs].
    - exists 0%R. destruct (quad_near (- (norm2 y ^ 2)) (- hy) (- (norm2 h ^ 2)) (- (norm_eps ^ 2))) as (e & Pe & N).
      { pose proof (P y). nra. }
      exists e. split; auto. intros t Ht. specialize (N t Ht).
      assert (Hlt : (norm2 (ray y h t) < norm_eps)%R).
      { pose proof (norm2_ray t). pose proof (P (ray y h t)). nra. }
      assert (G : forall v, (norm2 v < norm_eps)%R -> gain v = (/ norm_eps)%R)
        by (intros v Hv; unfold gain; rewrite Rmax_right; lra).
      rewrite !G by auto. split.
      + replace (/ (/ norm_eps) ^ 2 + 2 * t * 0 + t * t * 0)%R with (norm_eps ^ 2)%R by (field; lra). nra.
      + field. lra.
    - assert (Hgt : (norm_eps < norm2 y)%R) by lra.
      exists (norm2 h ^ 2)%R. destruct (quad_near (norm2 y ^ 2) hy (norm2 h ^ 2) (norm_eps ^ 2)) as (e & Pe & N).
      { nra. }
      exists e. split; auto. intros t Ht. specialize (N t Ht).
      assert (Hlt : (norm_eps < norm2 (ray y h t))%R).
      { pose proof (norm2_ray t). pose proof (P (ray y h t)). nra. }
      assert (G : forall v, (norm_eps < norm2 v)%R -> (/ gain v ^ 2 = norm2 v ^ 2)%R).
      { intros v Hv. unfold gain. rewrite Rmax_left by lra. field. lra. }
      rewrite G by auto. rewrite <- norm2_ray. split; [nra|].
      rewrite <- G by auto. rewrite Rinv_inv. reflexivity.
  Qed.

  Let kap := Q (smp (unit_of y)) (smp (unit_of y)).
  (** the loss as a function of the position on the ray *)
  Let F cd t := coherence_to_neg_sdr cd (Fin (Q (smp (unit_of (ray y h t))) (smp (unit_of (ray y h t))))).

  Lemma entry_inside cd w g : norm2 y <> norm_eps -> (cl_eps cd < kap < 1 - cl_eps cd)%R -> (0 < kap < 1)%R ->
    (match cd with Some D => 0 <= D | None => True end)%R ->
    neg_sdr_bw cd kap w = Fin g ->
    exists s, (exists f, (exists e, (0 < e)%R /\ forall t, (Rabs t < e)%R -> F cd t = Fin (f t)) /\ derivable_pt_lim f 0 s) /\
      (gain y * (2 * g * Q (smp (unit_of y)) (smp h))
       - (if Rlt_dec (norm2 y) norm_eps then 0 else gain y ^ 3 * (2 * g * Q (smp (unit_of y)) (smp y)) * hy) = w * s)%R.
  Proof.
    intros HN Hk Hk01 HD Hg. pose proof ln10_pos as L10. pose proof (gain_pos y) as Pg.
    rewrite neg_sdr_bw_in in Hg by lra. injection Hg as Hg.
    destruct (gain_ray HN) as (d2 & e & Pe & N).
    set (d0 := (/ gain y ^ 2)%R) in *.
    assert (Pd : (0 < d0)%R) by (unfold d0; apply Rinv_0_lt_compat; nra).
    assert (Ek : kap = (q0 / d0)%R).
    { unfold kap. rewrite Q_unit2. unfold q0, d0. field. lra. }
    assert (Eq : q0 = (kap * d0)%R) by (rewrite Ek; field; lra).
    destruct (quad_near (q0 - cl_eps cd * d0) (q1 - cl_eps cd * d1) (q2 - cl_eps cd * d2) 0) as (e1 & P1 & N1).
    { rewrite Eq. nra. }
    destruct (quad_near ((1 - cl_eps cd) * d0 - q0) ((1 - cl_eps cd) * d1 - q1) ((1 - cl_eps cd) * d2 - q2) 0) as (e2 & P2 & N2).
    { rewrite Eq. nra. }
    destruct (quad_near q0 q1 q2 0) as (e3 & P3 & N3); [rewrite Eq; nra|].
    destruct (quad_near (d0 - q0) (d1 - q1) (d2 - q2) 0) as (e4 & P4 & N4); [rewrite Eq; nra|].
    exists (20 / ln 10 * ((d1 - q1) / (d0 - q0) - q1 / q0))%R. split.
    - exists (fun t => 10 * log10 (((d0 - q0) + 2 * t * (d1 - q1) + t * t * (d2 - q2)) / (q0 + 2 * t * q1 + t * t * q2)))%R.
      split; [|apply log_quot_deriv; rewrite Eq; nra].
      exists (Rmin (Rmin e e1) (Rmin e2 (Rmin e3 e4))). split; [repeat apply Rmin_pos; auto|].
      intros t Ht. apply Rmin_Rgt_l in Ht. destruct Ht as [Ht Ht']. apply Rmin_Rgt_l in Ht. destruct Ht as [Ht Ht1].
      apply Rmin_Rgt_l in Ht'. destruct Ht' as [Ht2 Ht']. apply Rmin_Rgt_l in Ht'. destruct Ht' as [Ht3 Ht4].
      specialize (N t Ht). specialize (N1 t Ht1). specialize (N2 t Ht2). specialize (N3 t Ht3). specialize (N4 t Ht4).
      destruct N as [Np Ng]. unfold F. rewrite Q_unit2, Q_ray, Ng.
      set (DD := (d0 + 2 * t * d1 + t * t * d2)%R) in *.
      set (NN := (q0 + 2 * t * q1 + t * t * q2)%R) in *.
      assert (HC : (cl_eps cd < / DD * NN < 1 - cl_eps cd)%R).
      { split; apply (Rmult_lt_reg_l DD); auto; rewrite <- ?Rmult_assoc, ?Rinv_r, ?Rmult_1_l by lra; unfold DD, NN in *; lra. }
      assert (HC1 : (0 < / DD * NN < 1)%R).
      { split; apply (Rmult_lt_reg_l DD); auto; rewrite <- ?Rmult_assoc, ?Rinv_r, ?Rmult_1_l by lra; unfold DD, NN in *; lra. }
      assert (EG : gdb (/ DD * NN) = (10 * log10 ((d0 - q0 + 2 * t * (d1 - q1) + t * t * (d2 - q2)) / NN))%R).
      { unfold gdb. f_equal. f_equal.
        replace (d0 - q0 + 2 * t * (d1 - q1) + t * t * (d2 - q2))%R with (DD - NN)%R by (unfold DD, NN; ring).
        field. lra. }
      rewrite <- EG. destruct cd as [D|].
      + destruct (neg_sdr_clamped D (Fin (/ DD * NN)) ltac:(congruence) HD) as [_ E]. rewrite E. simpl in HC |- *.
        rewrite Rmax_left, Rmin_left by lra. reflexivity.
      + apply neg_sdr_fin. auto.
    - rewrite <- Hg. rewrite !Q_unit. fold q0 q1. rewrite Ek. fold d1.
      assert (Pq : (0 < q0 < d0)%R) by (rewrite Eq; nra).
      assert (Hgd : (gain y ^ 2 = / d0)%R) by (unfold d0; rewrite Rinv_inv; auto).
      replace (if Rlt_dec (norm2 y) norm_eps then 0%R else (gain y ^ 3 * (2 * (- (10 * w) / (ln 10 * (q0 / d0 * (1 - q0 / d0)))) * (gain y * q0)) * hy)%R)
        with (gain y ^ 2 * gain y ^ 2 * (2 * (- (10 * w) / (ln 10 * (q0 / d0 * (1 - q0 / d0)))) * q0) * d1)%R
        by (unfold d1; destruct (Rlt_dec (norm2 y) norm_eps); ring).
      replace (gain y * (2 * (- (10 * w) / (ln 10 * (q0 / d0 * (1 - q0 / d0)))) * (gain y * q1)))%R
        with (gain y ^ 2 * (2 * (- (10 * w) / (ln 10 * (q0 / d0 * (1 - q0 / d0)))) * q1))%R by ring.
      rewrite Hgd. field. repeat split; try lra.
  Qed.

  Lemma entry_outside D : norm2 y <> norm_eps -> (0 <= D)%R -> (kap < db_clamp_eps D \/ 1 - db_clamp_eps D < kap)%R ->
    exists f, (exists e, (0 < e)%R /\ forall t, (Rabs t < e)%R -> F (Some D) t = Fin (f t)) /\ derivable_pt_lim f 0 0%R.
  Proof.
    intros HN HD Hk. pose proof (gain_pos y) as Pg. pose proof (eps_half D HD) as Hh.
    destruct (gain_ray HN) as (d2 & e & Pe & N).
    set (d0 := (/ gain y ^ 2)%R) in *.
    assert (Pd : (0 < d0)%R) by (unfold d0; apply Rinv_0_lt_compat; nra).
    assert (Ek : kap = (q0 / d0)%R).
    { unfold kap. rewrite Q_unit2. unfold q0, d0. field. lra. }
    assert (Eq : q0 = (kap * d0)%R) by (rewrite Ek; field; lra).
    assert (HF : forall t, (Rabs t < e)%R -> F (Some D) t = Fin (gdb (Rmin (Rmax
       (/ (d0 + 2 * t * d1 + t * t * d2) * (q0 + 2 * t * q1 + t * t * q2)) (db_clamp_eps D)) (1 - db_clamp_eps D)))).
    { intros t Ht. destruct (N t Ht) as [_ Ng]. unfold F. rewrite Q_unit2, Q_ray, Ng.
      destruct (neg_sdr_clamped D (Fin (/ (d0 + 2 * t * d1 + t * t * d2) * (q0 + 2 * t * q1 + t * t * q2))) ltac:(congruence) HD)
        as [_ E]. exact E. }
    destruct Hk as [Hk|Hk].
    - destruct (quad_near (db_clamp_eps D * d0 - q0) (db_clamp_eps D * d1 - q1) (db_clamp_eps D * d2 - q2) 0) as (e1 & P1 & N1).
      { rewrite Eq. nra. }
      exists (fun _ => gdb (db_clamp_eps D)). split; [|apply derivable_pt_lim_const].
      exists (Rmin e e1). split; [apply Rmin_pos; auto|]. intros t Ht. apply Rmin_Rgt_l in Ht. destruct Ht as [Ht Ht1].
      rewrite HF by auto. destruct (N t Ht) as [Np _]. specialize (N1 t Ht1).
      rewrite Rmax_right; [rewrite Rmin_left; [reflexivity|lra]|].
      apply (Rmult_le_reg_l (d0 + 2 * t * d1 + t * t * d2)); auto. rewrite <- Rmult_assoc, Rinv_r, Rmult_1_l by lra. lra.
    - destruct (quad_near (q0 - (1 - db_clamp_eps D) * d0) (q1 - (1 - db_clamp_eps D) * d1) (q2 - (1 - db_clamp_eps D) * d2) 0)
        as (e1 & P1 & N1).
      { rewrite Eq. nra. }
      exists (fun _ => gdb (1 - db_clamp_eps D)). split; [|apply derivable_pt_lim_const].
      exists (Rmin e e1). split; [apply Rmin_pos; auto|]. intros t Ht. apply Rmin_Rgt_l in Ht. destruct Ht as [Ht Ht1].
      rewrite HF by auto. destruct (N t Ht) as [Np _]. specialize (N1 t Ht1).
      rewrite Rmin_right; [reflexivity|]. eapply Rle_trans; [|apply Rmax_l].
      apply (Rmult_le_reg_l (d0 + 2 * t * d1 + t * t * d2)); auto. rewrite <- Rmult_assoc, Rinv_r, Rmult_1_l by lra. lra.
  Qed.
End Along.

(** ** Assembling the channels *)
Section Assemble.
  Variables (b : backend) (o : opts) (ref : arr) (len : nat) (w : nat -> R).

  Lemma est_grad_fin y G : 0 < len -> length y = len ->
    (forall c, c < n_chan ref -> exists x, pchan (zero_mean o) ref c = Some x /\
       entry_bw b o (a_len ref) len x (unit_of (pre (zero_mean o) y)) (w c) = Ok (Some (G c))) ->
    est_grad b o ref len (map Fin y) w =
      Ok (map Fin (let g1 := normalize_bw (pre (zero_mean o) y) (tab len (fun t => Rsum (n_chan ref) (fun c => nth t (G c) 0%R))) in
                   if zero_mean o then remove_mean_bw g1 else g1)).
  Proof.
    intros H0 Hl HG. unfold est_grad. rewrite fin_list_map, prep_fin by lia. cbv zeta.
    rewrite length_prep.
    rewrite (mapM_ok _ (fun c => Some (G c))).
    2:{ intros c Hc. apply in_seq in Hc. destruct (HG c ltac:(lia)) as (x & Px & E). unfold pchan in Px. rewrite Px. exact E. }
    cbn [bind].
    assert (Ex : existsb tainted (map (fun c => Some (G c)) (seq 0 (n_chan ref))) = false).
    { induction (seq 0 (n_chan ref)); auto. }
    rewrite Ex. f_equal. f_equal.
    assert (Ey : (if zero_mean o then map to_R (remove_mean (map Fin y)) else y) = pre (zero_mean o) y).
    { destruct (zero_mean o); [|reflexivity]. rewrite remove_mean_fin by lia. cbn [pre]. rewrite map_map.
      rewrite <- (map_id (centered y)) at 2. apply map_ext. reflexivity. }
    rewrite Ey.
    assert (Et : tab len (fun t => Rsum (n_chan ref) (fun c => nth t (opt0 (nth c (map (fun c => Some (G c)) (seq 0 (n_chan ref))) None)) 0%R))
      = tab len (fun t => Rsum (n_chan ref) (fun c => nth t (G c) 0%R))); 
      [|exact (f_equal (fun g => if zero_mean o then remove_mean_bw (normalize_bw (pre (zero_mean o) y) g) else normalize_bw (pre (zero_mean o) y) g) Et)].
    apply map_ext_in. intros t Ht. apply Rsum_ext. intros c Hc.
    assert (E : nth c (map (fun c => Some (G c)) (seq 0 (n_chan ref))) None = Some (G c)).
    { rewrite (nth_indep _ None (Some (G 0))) by (rewrite map_length, seq_length; auto).
      rewrite (map_nth (fun c => Some (G c))), seq_nth by auto. reflexivity. }
    rewrite E. reflexivity.
  Qed.

  Lemma est_grad_nan y c0 : 0 < len -> length y = len -> c0 < n_chan ref ->
    (forall c, c < n_chan ref -> exists x r, pchan (zero_mean o) ref c = Some x /\
       entry_bw b o (a_len ref) len x (unit_of (pre (zero_mean o) y)) (w c) = Ok r /\ (c = c0 -> r = None)) ->
    est_grad b o ref len (map Fin y) w = Ok (repeat NaN len).
  Proof.
    intros H0 Hl Hc0 HG. unfold est_grad. rewrite fin_list_map, prep_fin by lia. cbv zeta.
    rewrite length_prep.
    destruct (mapM (fun c => match nth c (prep_arr (zero_mean o) ref) None with
      | Some x => entry_bw b o (a_len ref) len x (unit_of (pre (zero_mean o) y)) (w c) | None => Ok None end)
      (seq 0 (n_chan ref))) as [gs|ex] eqn:E.
    - cbn [bind]. assert (Hn : nth c0 gs None = None).
      { pose proof (mapM_nth _ _ _ 0 None c0 E ltac:(rewrite seq_length; auto)) as En.
        rewrite seq_nth in En by auto. simpl in En.
        destruct (HG c0 Hc0) as (x & r & Px & Er & Hr). unfold pchan in Px. rewrite Px, Er in En.
        rewrite (Hr eq_refl) in En. injection En. auto. }
      pose proof (mapM_length _ _ _ E) as Lg. rewrite seq_length in Lg.
      assert (Ex : existsb tainted gs = true).
      { apply existsb_exists. exists (nth c0 gs None). split; [apply nth_In; lia|]. rewrite Hn. reflexivity. }
      rewrite Ex. reflexivity.
    - exfalso. clear Hc0. revert E.
      assert (Hs : forall l, (forall c, In c l -> c < n_chan ref) ->
        mapM (fun c => match nth c (prep_arr (zero_mean o) ref) None with
          | Some x => entry_bw b o (a_len ref) len x (unit_of (pre (zero_mean o) y)) (w c) | None => Ok None end) l <> Raise ex).
      { induction l as [|c l IH]; intros Hin; [discriminate|]. simpl.
        destruct (HG c (Hin c (or_introl eq_refl))) as (x & r & Px & Er & _). unfold pchan in Px. rewrite Px, Er. cbn [bind].
        specialize (IH (fun c' H' => Hin c' (or_intror H'))). revert IH.
        destruct (mapM _ l); cbn [bind]; congruence. }
      apply Hs. intros c Hc. apply in_seq in Hc. lia.
  Qed.
End Assemble.

Lemma length_normalize_bw y g : length (normalize_bw y g) = length y.
Proof. apply length_tab. Qed.
Lemma length_back (zm : bool) y g : length (if zm then remove_mean_bw (normalize_bw y g) else normalize_bw y g) = length y.
Proof. destruct zm; [unfold remove_mean_bw; rewrite length_tab|]; apply length_normalize_bw. Qed.

(** the backward pass through centering and normalisation *)
Lemma back_adjoint zm y g h : length h = length y -> 0 < length y ->
  let g1 := normalize_bw (pre zm y) g in
  Rsum (length y) (fun t => nth t (if zm then remove_mean_bw g1 else g1) 0 * smp h t)%R =
  (gain (pre zm y) * Rsum (length y) (fun t => nth t g 0 * smp (pre zm h) t)
   - if Rlt_dec (norm2 (pre zm y)) norm_eps then 0
     else gain (pre zm y) ^ 3 * Rsum (length y) (fun t => nth t g 0 * smp (pre zm y) t)
          * Rsum (length y) (fun t => smp (pre zm y) t * smp (pre zm h) t))%R.
Proof.
  intros Hl H0 g1. pose proof (normalize_adjoint (pre zm y) g (pre zm h) ltac:(rewrite !length_pre; auto)) as E.
  rewrite length_pre in E. rewrite <- E. destruct zm; [|reflexivity].
  rewrite <- Hl. rewrite remove_mean_adjoint; [reflexivity| |lia].
  unfold g1. rewrite length_normalize_bw, length_pre. auto.
Qed.
Lemma Rsum_swap_tab n k (G : nat -> list R) (f : nat -> R) :
  Rsum n (fun t => nth t (tab n (fun t => Rsum k (fun c => nth t (G c) 0%R))) 0 * f t)%R =
  Rsum k (fun c => Rsum n (fun t => nth t (G c) 0 * f t)%R).
Proof.
  rewrite Rsum_swap. apply Rsum_ext. intros t Ht. rewrite nth_tab by auto. rewrite <- Rsum_scal_r. reflexivity.
Qed.
