(** * Derivative of the SDR loss with respect to the estimate

    The loss is used for training (torch backend).  This file computes its
    directional derivatives and says where they all vanish. *)
From Coq Require Import Reals Lra.
From Verif Require Import Prelude ExtReal Sums SpecSig Helpers Metrics LeastSq StatsProofs PrepProofs MetricsProofs
  ProjTheorems DbProofs.
Local Open Scope nat_scope.

(** y + t h *)
Definition ray (y h : list R) (t : R) : list R :=
  map (fun k => smp y k + t * smp h k)%R (seq 0 (length y)).

Lemma ray_length y h t : length (ray y h t) = length y.
Proof. unfold ray. rewrite map_length, seq_length. reflexivity. Qed.
Lemma smp_ray y h t k : length h = length y -> smp (ray y h t) k = (smp y k + t * smp h k)%R.
Proof.
  intros Hl. destruct (Nat.lt_ge_cases k (length y)) as [H|H].
  - unfold ray. unfold smp at 1.
    rewrite (nth_indep _ 0%R (smp y 0 + t * smp h 0)%R) by (rewrite map_length, seq_length; auto).
    rewrite (map_nth (fun k => (smp y k + t * smp h k)%R)), seq_nth by auto. reflexivity.
  - unfold smp. rewrite !nth_overflow by (rewrite ?ray_length; lia). ring.
Qed.
Lemma smp_ext (x y : list R) : length x = length y -> (forall k, smp x k = smp y k) -> x = y.
Proof. intros Hl H. apply (nth_ext x y 0%R 0%R); auto. intros k _. apply H. Qed.

Lemma mean_ray y h t : length h = length y -> 0 < length y ->
  mean (ray y h t) = (mean y + t * mean h)%R.
Proof.
  intros Hl H0. unfold mean. rewrite ray_length, Hl.
  rewrite (Rsum_ext _ (smp (ray y h t)) (fun k => smp y k + t * smp h k)%R)
    by (intros; apply smp_ray; auto).
  rewrite Rsum_plus, Rsum_scal_l. field.
  apply not_0_INR. lia.
Qed.
Lemma centered_length v : length (centered v) = length v.
Proof. apply map_length. Qed.
Lemma pre_length zm v : length (pre zm v) = length v.
Proof. destruct zm; [apply centered_length|reflexivity]. Qed.
Lemma smp_centered v k : k < length v -> smp (centered v) k = (smp v k - mean v)%R.
Proof. intros H. unfold smp, centered. rewrite nth_map_R by auto. reflexivity. Qed.
Lemma pre_ray zm y h t : length h = length y -> 0 < length y ->
  pre zm (ray y h t) = ray (pre zm y) (pre zm h) t.
Proof.
  intros Hl H0. destruct zm; [|reflexivity]. simpl.
  apply smp_ext; [rewrite centered_length, !ray_length, centered_length; auto|].
  intros k. rewrite smp_ray by (rewrite !centered_length; auto).
  destruct (Nat.lt_ge_cases k (length y)) as [H|H].
  - rewrite !smp_centered by (rewrite ?ray_length; lia).
    rewrite smp_ray, mean_ray by auto. ring.
  - unfold smp. rewrite !nth_overflow by (rewrite ?centered_length, ?ray_length; lia). ring.
Qed.

(** ** Projections *)
Lemma dot_plus_r M u v w : dot M u (fun t => v t + w t)%R = (dot M u v + dot M u w)%R.
Proof. unfold dot. rewrite <- Rsum_plus. apply Rsum_ext. intros. ring. Qed.

Lemma span_mono K M a p : in_span K M a p -> in_span (S K) M a p.
Proof.
  intros (g & H). exists (fun k => if Nat.eqb k K then 0%R else g k). intros t Ht.
  rewrite (H t Ht). simpl.
  rewrite Nat.eqb_refl. rewrite Rmult_0_l, Rplus_0_r. apply Rsum_ext. intros k Hk.
  destruct (Nat.eqb_spec k K); [lia|auto].
Qed.
Lemma span_axpy K M a p q c : in_span K M a p -> in_span K M a q ->
  in_span K M a (fun t => p t + c * q t)%R.
Proof.
  intros (g & Hg) (f & Hf). exists (fun k => g k + c * f k)%R. intros t Ht.
  rewrite (Hg t Ht), (Hf t Ht), <- Rsum_scal_l, <- Rsum_plus. apply Rsum_ext. intros. ring.
Qed.
Lemma dot_span_0 K M a p w : in_span K M a p -> (forall k, k < K -> dot M (a k) w = 0%R) -> dot M p w = 0%R.
Proof.
  intros (g & Hg) Hw.
  rewrite (dot_ext M p (comb K a g) w w) by (auto; intros; unfold comb; auto).
  rewrite dot_comb_l. apply Rsum_zero. intros k Hk. rewrite Hw by auto. ring.
Qed.

Lemma projection_exists M a : forall K y, exists p, is_projection K M a y p.
Proof.
  induction K as [|K IH]; intros y.
  - exists (fun _ => 0%R). split; [exists (fun _ => 0%R); intros; reflexivity|intros; lia].
  - destruct (IH y) as (p & Sp & Op). destruct (IH (a K)) as (s & Ss & Os).
    set (r := fun t => (a K t - s t)%R).
    destruct (Req_EM_T (energy M r) 0) as [E|E].
    + exists p. split; [apply span_mono; auto|]. intros k Hk.
      destruct (Nat.eq_dec k K) as [->|Hne]; [|apply Op; lia].
      rewrite (dot_ext M (a K) s _ (fun t => y t - p t)%R); auto.
      * apply (dot_span_0 K M a); auto.
      * intros t Ht. pose proof (energy_zero M r E t Ht) as Hz. unfold r in Hz. lra.
    + set (c := (dot M r y / energy M r)%R).
      assert (Sr : in_span (S K) M a r).
      { destruct Ss as (g & Hg). exists (fun k => if Nat.eqb k K then 1%R else (- g k)%R). intros t Ht.
        simpl. rewrite Nat.eqb_refl. unfold r.
        rewrite (Rsum_ext K _ (fun k => - (g k * a k t))%R).
        - rewrite Rsum_opp, (Hg t Ht). ring.
        - intros k Hk. destruct (Nat.eqb_spec k K); [lia|ring]. }
      assert (Hrk : forall k, k < K -> dot M (a k) r = 0%R) by exact Os.
      exists (fun t => p t + c * r t)%R. split; [apply span_axpy; auto; apply span_mono; auto|].
      assert (Hlow : forall k, k < K -> dot M (a k) (fun t => y t - (p t + c * r t))%R = 0%R).
      { intros k Hk. rewrite (dot_ext M (a k) (a k) _ (fun t => (y t - p t) - c * r t)%R) by (intros; ring || auto).
        rewrite dot_sub_r, Op, dot_scal_r, Hrk by auto. ring. }
      intros k Hk. destruct (Nat.eq_dec k K) as [->|Hne]; [|apply Hlow; lia].
      (* a K = s + r *)
      rewrite (dot_ext M (a K) (fun t => r t - (- 1) * s t)%R _ (fun t => y t - (p t + c * r t))%R)
        by (intros; unfold r; ring || auto).
      rewrite dot_sub_l, dot_scal_l.
      rewrite (dot_span_0 K M a s _ Ss Hlow).
      rewrite (dot_ext M r r _ (fun t => (y t - p t) - c * r t)%R) by (intros; ring || auto).
      rewrite !dot_sub_r, dot_scal_r. rewrite (dot_comm M r p).
      rewrite (dot_span_0 K M a p r Sp Hrk). unfold c. fold (energy M r). field. auto.
Qed.

Lemma projection_ray K M a y h p q t : is_projection K M a y p -> is_projection K M a h q ->
  is_projection K M a (fun s => y s + t * h s)%R (fun s => p s + t * q s)%R.
Proof.
  intros [Sp Op] [Sq Oq]. split; [apply span_axpy; auto|]. intros k Hk.
  rewrite (dot_ext M (a k) (a k) _ (fun s => (y s - p s) - (- t) * (h s - q s))%R) by (intros; ring || auto).
  rewrite dot_sub_r, dot_scal_r, Op, Oq by auto. ring.
Qed.

(** |p + t q|^2 *)
Lemma energy_axpy M p q t : energy M (fun s => p s + t * q s)%R =
  (energy M p + 2 * t * dot M p q + t * t * energy M q)%R.
Proof.
  rewrite (energy_ext M _ (fun s => p s - (- t) * q s)%R) by (intros; ring).
  rewrite energy_sub, energy_scal, dot_scal_r. ring.
Qed.

(** ** Calculus *)
Lemma quad_deriv a b c : derivable_pt_lim (fun t => a + 2 * t * b + t * t * c)%R 0 (2 * b)%R.
Proof.
  replace (2 * b)%R with ((0 + (2 * 1) * b) + ((1 * 0 + 0 * 1) * c))%R by ring.
  apply derivable_pt_lim_plus; [apply derivable_pt_lim_plus|].
  - apply derivable_pt_lim_const.
  - apply (derivable_pt_lim_ext (fun t => (2 * t) * b)%R).
    + reflexivity.
    + replace (2 * 1 * b)%R with (2 * 1 * b + 2 * 0 * 0)%R by ring.
      apply derivable_pt_lim_mult with (f1 := fun t => (2 * t)%R) (f2 := fun _ => b) (l1 := (2 * 1)%R) (l2 := 0%R).
      * apply derivable_pt_lim_scal. apply derivable_pt_lim_id.
      * apply derivable_pt_lim_const.
  - replace ((1 * 0 + 0 * 1) * c)%R with ((1 * 0 + 0 * 1) * c + (0 * 0) * 0)%R by ring.
    apply derivable_pt_lim_mult with (f1 := fun t => (t * t)%R) (f2 := fun _ => c).
    + apply derivable_pt_lim_mult with (f1 := fun t : R => t) (f2 := fun t : R => t); apply derivable_pt_lim_id.
    + apply derivable_pt_lim_const.
Qed.

Lemma quad_near a b c k : (k < a)%R -> exists e, (0 < e)%R /\
  forall t, (Rabs t < e)%R -> (k < a + 2 * t * b + t * t * c)%R.
Proof.
  intros H. set (D := (2 * Rabs b + Rabs c + 1)%R).
  pose proof (Rabs_pos b). pose proof (Rabs_pos c).
  assert (HD : (0 < D)%R) by (unfold D; lra).
  exists (Rmin 1 ((a - k) / D))%R. split.
  - apply Rmin_pos; [lra|]. apply Rdiv_lt_0_compat; lra.
  - intros t Ht.
    pose proof (Rmin_l 1 ((a - k) / D)). pose proof (Rmin_r 1 ((a - k) / D)).
    pose proof (Rabs_pos t) as Hp.
    assert (Hd : (Rabs t * D < a - k)%R).
    { replace (a - k)%R with ((a - k) / D * D)%R by (field; lra). apply Rmult_lt_compat_r; lra. }
    assert (Hb1 : (- (Rabs t * (2 * Rabs b)) <= 2 * t * b)%R).
    { pose proof (Rle_abs (- (2 * t * b))) as Q. rewrite Rabs_Ropp, !Rabs_mult, (Rabs_right 2) in Q by lra. lra. }
    assert (Hb2 : (- (Rabs t * Rabs c) <= t * t * c)%R).
    { pose proof (Rle_abs (- (t * t * c))) as Q. rewrite Rabs_Ropp, !Rabs_mult in Q.
      assert (Rabs t * Rabs t * Rabs c <= 1 * Rabs t * Rabs c)%R; [|lra].
      apply Rmult_le_compat_r; [lra|]. apply Rmult_le_compat_r; lra. }
    unfold D in Hd. lra.
Qed.

Lemma log_quot_deriv a0 b0 c0 a1 b1 c1 : (0 < a0)%R -> (0 < a1)%R ->
  derivable_pt_lim (fun t => 10 * log10 ((a0 + 2 * t * b0 + t * t * c0) / (a1 + 2 * t * b1 + t * t * c1)))%R 0
    (20 / ln 10 * (b0 / a0 - b1 / a1))%R.
Proof.
  intros H0 H1. pose proof ln10_pos as L10.
  destruct (quad_near a0 b0 c0 0 H0) as (e0 & P0 & N0).
  destruct (quad_near a1 b1 c1 0 H1) as (e1 & P1 & N1).
  set (e := Rmin e0 e1). assert (0 < e)%R by (apply Rmin_pos; auto).
  pose proof (Rmin_l e0 e1). pose proof (Rmin_r e0 e1).
  apply (derivable_pt_lim_locally_ext
    (fun t => 10 / ln 10 * (ln (a0 + 2 * t * b0 + t * t * c0) - ln (a1 + 2 * t * b1 + t * t * c1)))%R
    _ 0 (- e) e); [lra| |].
  - intros z Hz. assert (Rabs z < e)%R by (apply Rabs_def1; lra). fold e in H2, H3.
    unfold log10, Rdiv. rewrite ln_mult, ln_Rinv; try apply Rinv_0_lt_compat; try (apply N0; lra); try (apply N1; lra).
    field. lra.
  - replace (20 / ln 10 * (b0 / a0 - b1 / a1))%R
      with (10 / ln 10 * (/ (a0 + 2 * 0 * b0 + 0 * 0 * c0) * (2 * b0) - / (a1 + 2 * 0 * b1 + 0 * 0 * c1) * (2 * b1)))%R
      by (replace (a0 + 2 * 0 * b0 + 0 * 0 * c0)%R with a0 by ring;
          replace (a1 + 2 * 0 * b1 + 0 * 0 * c1)%R with a1 by ring; field; lra).
    apply derivable_pt_lim_scal with
      (f := (fun t => ln (a0 + 2 * t * b0 + t * t * c0) - ln (a1 + 2 * t * b1 + t * t * c1))%R).
    apply derivable_pt_lim_minus with (f1 := (fun t => ln (a0 + 2 * t * b0 + t * t * c0))%R)
      (f2 := (fun t => ln (a1 + 2 * t * b1 + t * t * c1))%R).
    + apply (derivable_pt_lim_comp (fun t => a0 + 2 * t * b0 + t * t * c0)%R ln); [apply quad_deriv|].
      apply derivable_pt_lim_ln. lra.
    + apply (derivable_pt_lim_comp (fun t => a1 + 2 * t * b1 + t * t * c1)%R ln); [apply quad_deriv|].
      apply derivable_pt_lim_ln. lra.
Qed.

Lemma dB_pos a b : (0 < a)%R -> (0 < b)%R -> dB a b = Fin (10 * log10 (a / b)).
Proof. intros Ha Hb. unfold dB. destruct (Req_EM_T b 0); [lra|]. destruct (Req_EM_T a 0); [lra|]. reflexivity. Qed.

Lemma is_projection_ext_y K M a y y' p : (forall t, t < M -> y t = y' t) -> is_projection K M a y p ->
  is_projection K M a y' p.
Proof.
  intros H [S O]. split; auto. intros k Hk. rewrite <- (O k Hk). apply dot_ext; auto.
  intros t Ht. rewrite H; auto.
Qed.
Lemma sq_lt_norm v M : length v <= M -> (norm_eps ^ 2 < energy M (smp v))%R -> (norm_eps <= norm2 v)%R.
Proof.
  intros Hl H. rewrite energy_smp in H by auto.
  destruct (Rle_or_lt norm_eps (norm2 v)) as [|Hlt]; auto. exfalso.
  assert (0 <= norm2 v)%R by apply sqrt_pos. nra.
Qed.

(** ** The derivative *)
Section Along.
  Variables (b : backend) (o : opts) (ref : arr) (c d : nat) (x y : list R) (M : nat) (p : nat -> R).
  Hypotheses (Wr : wf ref) (Hcg : use_cg_iter o = None) (Hld : load_diag o = None) (Hcl : clamp_db o = None).
  Hypothesis HL : 1 <= filter_length o <= Nat.max (a_len ref) (length y).
  Hypothesis HL1 : filter_length o = 1 -> a_len ref = length y /\ (norm_eps <= norm2 (pre (zero_mean o) x))%R.
  Hypotheses (Hx : has_chan ref c x) (HM : a_len ref + filter_length o - 1 <= M) (HM' : length y <= M).
  Hypothesis Hp : is_projection (filter_length o) M (delays (pre (zero_mean o) x)) (smp (pre (zero_mean o) y)) p.

  Lemma sdr_gradient h est m : length h = length y ->
    (forall t, wf (est t)) -> (forall t, has_chan (est t) d (ray y h t)) ->
    (forall t, pairwise_sdr_loss b o (est t) ref = Ok (m t)) ->
    (norm_eps < norm2 (pre (zero_mean o) y))%R ->
    let r := (fun t => smp (pre (zero_mean o) y) t - p t)%R in
    (0 < energy M r)%R -> (0 < energy M p)%R ->
    exists f, (exists e, (0 < e)%R /\ forall t, (Rabs t < e)%R -> mat_of (m t) c d = Fin (f t)) /\
      derivable_pt_lim f 0
        (20 / ln 10 * (dot M r (smp (pre (zero_mean o) h)) / energy M r
                       - dot M p (smp (pre (zero_mean o) h)) / energy M p))%R.
  Proof.
    intros Hh We He Hm Hn r Hr Hpp.
    set (zm := zero_mean o) in *. set (L := filter_length o) in *.
    assert (H0 : 0 < length y).
    { destruct (has_chan_pchan zm _ _ _ (We 0%R) (He 0%R)) as [_ E]. rewrite ray_length in E.
      rewrite E. apply (We 0%R). }
    assert (Hlen : forall t, a_len (est t) = length y).
    { intros t. destruct (has_chan_pchan zm _ _ _ (We t) (He t)) as [_ E]. rewrite ray_length in E. auto. }
    destruct (projection_exists M (delays (pre zm x)) L (smp (pre zm h))) as (q & Hq).
    set (hh := smp (pre zm h)) in *.
    set (s := fun t => (hh t - q t)%R).
    assert (Hpq : dot M p s = 0%R) by (apply (dot_span_0 L M (delays (pre zm x))); [apply Hp|apply Hq]).
    assert (Hqr : dot M q r = 0%R) by (apply (dot_span_0 L M (delays (pre zm x))); [apply Hq|apply Hp]).
    assert (E1 : dot M r s = dot M r hh) by (unfold s; rewrite dot_sub_r, (dot_comm M r q), Hqr; ring).
    assert (E2 : dot M p q = dot M p hh) by (unfold s in Hpq; rewrite dot_sub_r in Hpq; lra).
    exists (fun t => 10 * log10 ((energy M r + 2 * t * dot M r s + t * t * energy M s)
                           / (energy M p + 2 * t * dot M p q + t * t * energy M q)))%R.
    split; [|rewrite <- E1, <- E2; apply log_quot_deriv; auto].
    destruct (quad_near (energy M r) (dot M r s) (energy M s) 0 Hr) as (e1 & P1 & N1).
    destruct (quad_near (energy M p) (dot M p q) (energy M q) 0 Hpp) as (e2 & P2 & N2).
    assert (Hn' : (norm_eps ^ 2 < energy M (smp (pre zm y)))%R).
    { rewrite energy_smp by (rewrite pre_length; auto). pose proof eps_pos. nra. }
    destruct (quad_near _ (dot M (smp (pre zm y)) hh) (energy M hh) _ Hn') as (e3 & P3 & N3).
    exists (Rmin e1 (Rmin e2 e3)). split; [repeat apply Rmin_pos; auto|]. intros t Ht.
    pose proof (Rmin_l e1 (Rmin e2 e3)). pose proof (Rmin_r e1 (Rmin e2 e3)).
    pose proof (Rmin_l e2 e3). pose proof (Rmin_r e2 e3).
    specialize (N1 t ltac:(lra)). specialize (N2 t ltac:(lra)). specialize (N3 t ltac:(lra)).
    assert (Hry : forall k, smp (pre zm (ray y h t)) k = (smp (pre zm y) k + t * hh k)%R).
    { intros k. rewrite pre_ray by auto. apply smp_ray. rewrite !pre_length. auto. }
    rewrite (sdr_projection b o ref (est t) (m t) c d x (ray y h t) M (fun k => p k + t * q k)%R Wr (We t) Hcg Hld Hcl
      ltac:(rewrite Hlen; exact HL) ltac:(rewrite Hlen; exact HL1) Hx (He t)).
    - fold zm. rewrite (energy_ext M _ (fun k => r k + t * s k)%R)
        by (intros k _; rewrite Hry; unfold r, s; ring).
      rewrite !energy_axpy. apply dB_pos; auto.
    - apply (sq_lt_norm _ M); [rewrite pre_length, ray_length; auto|].
      fold zm. rewrite (energy_ext M _ (fun k => smp (pre zm y) k + t * hh k)%R) by (intros; apply Hry).
      rewrite energy_axpy. auto.
    - auto.
    - rewrite Hlen. auto.
    - fold zm. fold L. apply (is_projection_ext_y _ _ _ (fun k => smp (pre zm y) k + t * hh k)%R);
        [intros; symmetry; apply Hry|apply projection_ray; auto].
    - apply Hm.
  Qed.
End Along.

(** ** Lines of estimates *)
(** [E v] is an array whose channel d is v: the estimate as a function of one of its channels. *)
Definition family (E : list R -> arr) (d T : nat) : Prop :=
  forall v, length v = T -> wf (E v) /\ has_chan (E v) d v.
(** F has slope l at y in direction h. *)
Definition slope (F : list R -> xr) (y h : list R) (l : R) : Prop :=
  exists f, (exists e, (0 < e)%R /\ forall t, (Rabs t < e)%R -> F (ray y h t) = Fin (f t)) /\ derivable_pt_lim f 0 l.
(** all slopes vanish *)
Definition flat (F : list R -> xr) (y : list R) : Prop := forall h, length h = length y -> slope F y h 0.

Lemma slope_unique F y h l l' : slope F y h l -> slope F y h l' -> l = l'.
Proof.
  intros (f & (e & P & N) & D) (f' & (e' & P' & N') & D').
  apply (uniqueness_limite f' 0); auto.
  pose proof (Rmin_pos e e' P P'). pose proof (Rmin_l e e'). pose proof (Rmin_r e e').
  apply (derivable_pt_lim_locally_ext f f' 0 (- Rmin e e') (Rmin e e')); auto; [lra|].
  intros z Hz. assert (Rabs z < Rmin e e')%R by (apply Rabs_def1; lra).
  specialize (N z ltac:(lra)). specialize (N' z ltac:(lra)). rewrite N in N'. injection N'. auto.
Qed.

Section Family.
  Variables (b : backend) (o : opts) (ref : arr) (c d : nat) (x y : list R) (M : nat) (p : nat -> R).
  Variables (E : list R -> arr) (m : list R -> list (list xr)).
  Hypotheses (Wr : wf ref) (Hcg : use_cg_iter o = None) (Hld : load_diag o = None) (Hcl : clamp_db o = None).
  Hypothesis HL : 1 <= filter_length o <= Nat.max (a_len ref) (length y).
  Hypothesis HL1 : filter_length o = 1 -> a_len ref = length y /\ (norm_eps <= norm2 (pre (zero_mean o) x))%R.
  Hypotheses (Hx : has_chan ref c x) (HM : a_len ref + filter_length o - 1 <= M) (HM' : length y <= M).
  Hypothesis Hp : is_projection (filter_length o) M (delays (pre (zero_mean o) x)) (smp (pre (zero_mean o) y)) p.
  Hypothesis HE : family E d (length y).
  Hypothesis Hm : forall v, length v = length y -> pairwise_sdr_loss b o (E v) ref = Ok (m v).

  Let zm := zero_mean o.
  Let r := (fun t => smp (pre zm y) t - p t)%R.
  Let F := fun v => mat_of (m v) c d.

  Lemma x_length : length x = a_len ref.
  Proof. apply (has_chan_pchan zm _ _ _ Wr Hx). Qed.
  Lemma delay0 t : delays (pre zm x) 0 t = smp (pre zm x) t.
  Proof. unfold delays, delayed. simpl. rewrite Nat.sub_0_r. reflexivity. Qed.
  Lemma r_x : dot M r (smp (pre zm x)) = 0%R.
  Proof.
    rewrite dot_comm. destruct Hp as [_ O]. specialize (O 0 ltac:(lia)). fold r in O. rewrite <- O.
    apply dot_ext; auto. intros; symmetry; apply delay0.
  Qed.
  Lemma p_x : dot M p (smp (pre zm x)) = dot M (smp (pre zm y)) (smp (pre zm x)).
  Proof. pose proof r_x as H. unfold r in H. rewrite dot_sub_l in H. lra. Qed.
  Lemma r_p : dot M r p = 0%R.
  Proof. rewrite dot_comm. apply (dot_span_0 (filter_length o) M (delays (pre zm x))); apply Hp. Qed.
  Lemma energy_y : energy M (smp (pre zm y)) = (energy M r + energy M p)%R.
  Proof.
    rewrite (energy_ext M _ (fun t => r t - (- 1) * p t)%R) by (intros; unfold r; ring).
    rewrite energy_sub, dot_scal_r, energy_scal, r_p. ring.
  Qed.

  Lemma gradient h : length h = length y -> (norm_eps < norm2 (pre zm y))%R ->
    (0 < energy M r)%R -> (0 < energy M p)%R ->
    slope F y h (20 / ln 10 * (dot M r (smp (pre zm h)) / energy M r - dot M p (smp (pre zm h)) / energy M p)).
  Proof.
    intros Hh Hn Hr Hpp.
    apply (sdr_gradient b o ref c d x y M p Wr Hcg Hld Hcl HL HL1 Hx HM HM' Hp h
      (fun t => E (ray y h t)) (fun t => m (ray y h t)) Hh); auto.
    - intros t. apply HE, ray_length.
    - intros t. apply HE, ray_length.
    - intros t. apply Hm, ray_length.
  Qed.

  Lemma slope_reference : length x = length y -> (norm_eps < norm2 (pre zm y))%R ->
    (0 < energy M r)%R -> (0 < energy M p)%R ->
    slope F y x (- (20 / ln 10) * (dot M (smp (pre zm y)) (smp (pre zm x)) / energy M p)).
  Proof.
    intros Hl Hn Hr Hpp. pose proof (gradient x Hl Hn Hr Hpp) as G.
    rewrite r_x, p_x in G.
    replace (- (20 / ln 10) * (dot M (smp (pre zm y)) (smp (pre zm x)) / energy M p))%R with
      (20 / ln 10 * (0 / energy M r - dot M (smp (pre zm y)) (smp (pre zm x)) / energy M p))%R; auto.
    pose proof ln10_pos. field. lra.
  Qed.

  Lemma not_flat_scale_invariant : filter_length o = 1 -> (norm_eps < norm2 (pre zm y))%R ->
    (0 < energy M r)%R -> (0 < energy M p)%R -> ~ flat F y.
  Proof.
    intros L1 Hn Hr Hpp Hf.
    assert (Hl : length x = length y) by (rewrite x_length; apply HL1; auto).
    pose proof (slope_unique _ _ _ _ _ (Hf x Hl) (slope_reference Hl Hn Hr Hpp)) as U.
    pose proof ln10_pos as L10.
    assert (Z : dot M (smp (pre zm y)) (smp (pre zm x)) = 0%R).
    { set (w := dot M (smp (pre zm y)) (smp (pre zm x))) in *.
      assert (w = (- (20 / ln 10) * (w / energy M p)) * (- (energy M p * ln 10 / 20)))%R as -> by (field; lra).
      rewrite <- U. ring. }
    destruct Hp as [(g & Hg) _]. rewrite L1 in Hg. simpl in Hg.
    assert (Ep : energy M p = 0%R); [|lra].
    unfold energy. rewrite (dot_ext M p p p (fun t => g 0%nat * smp (pre zm x) t)%R); auto.
    - rewrite dot_scal_r, p_x, Z. ring.
    - intros t Ht. rewrite (Hg t Ht). change (zero_mean o) with zm. rewrite delay0. ring.
  Qed.

  (** With zero_mean off: the point is flat iff the projection, restricted to the samples of
      the estimate, is a multiple of the estimate. *)
  Lemma flat_iff : zero_mean o = false -> (norm_eps < norm2 y)%R -> (0 < energy M r)%R -> (0 < energy M p)%R ->
    flat F y <-> (forall t, t < length y -> (energy M (smp y) * p t = energy M p * smp y t)%R).
  Proof.
    intros Hz Hn Hr Hpp. pose proof ln10_pos as L10.
    assert (Hpre : forall v, pre zm v = v) by (intros; unfold zm; rewrite Hz; reflexivity).
    pose proof energy_y as Ey. rewrite Hpre in Ey.
    assert (G : forall h, length h = length y ->
      slope F y h (20 / ln 10 * (dot M r (smp h) / energy M r - dot M p (smp h) / energy M p))).
    { intros h Hh. pose proof (gradient h Hh) as G. rewrite !Hpre in G. auto. }
    assert (K : forall h, (20 / ln 10 * (dot M r (smp h) / energy M r - dot M p (smp h) / energy M p))%R =
      (20 / ln 10 / (energy M r * energy M p) *
        dot M (fun t => energy M p * smp y t - energy M (smp y) * p t)%R (smp h))%R).
    { intros h. rewrite dot_sub_l, !dot_scal_l, Ey. unfold r at 1. rewrite Hpre, dot_sub_l. field. lra. }
    assert (C : (0 < 20 / ln 10 / (energy M r * energy M p))%R).
    { repeat apply Rdiv_lt_0_compat; try lra. apply Rmult_lt_0_compat; auto. }
    split.
    - intros Hf. set (w := fun t => (energy M p * smp y t - energy M (smp y) * p t)%R).
      set (h := map w (seq 0 (length y))).
      assert (Hh : length h = length y) by (unfold h; rewrite map_length, seq_length; auto).
      pose proof (slope_unique _ _ _ _ _ (Hf h Hh) (G h Hh)) as U. rewrite K in U.
      assert (Z : dot M w (smp h) = 0%R).
      { apply (Rmult_eq_reg_l (20 / ln 10 / (energy M r * energy M p))); [|lra]. fold w in U. lra. }
      assert (Hs : forall t, t < length y -> smp h t = w t).
      { intros t Ht. unfold h, smp. rewrite (nth_indep _ 0%R (w 0)) by (rewrite map_length, seq_length; auto).
        rewrite map_nth, seq_nth by auto. reflexivity. }
      assert (Z' : energy (length y) w = 0%R).
      { rewrite <- Z. unfold energy, dot. rewrite (Rsum_trunc M (length y)); auto.
        - apply Rsum_ext. intros t Ht. rewrite Hs; auto.
        - intros t Ht _. unfold smp at 1. rewrite nth_overflow by lia. ring. }
      intros t Ht. pose proof (energy_zero _ _ Z' t Ht) as Q. unfold w in Q. lra.
    - intros Hq h Hh.
      replace 0%R with (20 / ln 10 * (dot M r (smp h) / energy M r - dot M p (smp h) / energy M p))%R; auto.
      rewrite K. replace (dot M _ (smp h)) with 0%R; [ring|].
      symmetry. apply Rsum_zero. intros t Ht. destruct (Nat.lt_ge_cases t (length y)) as [H|H].
      + rewrite <- (Hq t H). ring.
      + unfold smp at 3. rewrite nth_overflow by lia. ring.
  Qed.

  (** Adding some of the reference, with the sign of the correlation, strictly improves the loss. *)
  Lemma toward_reference t : length x = length y -> (norm_eps <= norm2 (pre zm y))%R ->
    (0 < energy M r)%R -> (0 < energy M p)%R -> (0 < norm2 (pre zm x))%R ->
    t <> 0%R -> (0 <= t * dot M (smp (pre zm y)) (smp (pre zm x)))%R ->
    exists u v, F y = Fin u /\ F (ray y x t) = Fin v /\ (v < u)%R.
  Proof.
    intros Hl Hn Hr Hpp Hxn Ht0 Hs. pose proof ln10_pos as L10.
    assert (H0 : 0 < length y).
    { rewrite <- Hl, x_length. apply Wr. }
    set (xx := smp (pre zm x)) in *.
    assert (Hlen : forall v, length v = length y -> a_len (E v) = length y).
    { intros v Hv. destruct (HE v Hv) as [W C]. destruct (has_chan_pchan zm _ _ _ W C) as [_ Q]. lia. }
    assert (Hq : is_projection (filter_length o) M (delays (pre zm x)) xx xx).
    { split.
      - exists (fun k => if Nat.eqb k 0 then 1%R else 0%R). intros k Hk.
        rewrite (Rsum_single _ 0); [simpl; unfold xx; rewrite delay0; ring|lia|].
        intros i Hi Hne. destruct (Nat.eqb_spec i 0); [lia|ring].
      - intros k Hk. apply Rsum_zero. intros. ring. }
    assert (Hry : forall k, smp (pre zm (ray y x t)) k = (smp (pre zm y) k + t * xx k)%R).
    { intros k. rewrite pre_ray by auto. apply smp_ray. rewrite !pre_length. auto. }
    assert (Ex : (0 < energy M xx)%R).
    { unfold xx. rewrite energy_smp by (rewrite pre_length; lia). nra. }
    set (B := (energy M p + 2 * t * dot M p xx + t * t * energy M xx)%R).
    assert (HB : (energy M p < B)%R).
    { pose proof p_x as Px. fold xx in Px. unfold B. rewrite Px. assert (0 < t * t)%R by nra. assert (0 < t * t * energy M xx)%R by (apply Rmult_lt_0_compat; auto).
      nra. }
    exists (10 * log10 (energy M r / energy M p))%R, (10 * log10 (energy M r / B))%R.
    assert (F0 : F y = Fin (10 * log10 (energy M r / energy M p))).
    { destruct (HE y eq_refl) as [W C]. unfold F.
      rewrite (sdr_projection b o ref (E y) (m y) c d x y M p Wr W Hcg Hld Hcl
        ltac:(rewrite Hlen; auto) ltac:(rewrite Hlen; auto) Hx C Hn HM ltac:(rewrite Hlen; auto) Hp (Hm y eq_refl)).
      apply dB_pos; auto. }
    assert (F1 : F (ray y x t) = Fin (10 * log10 (energy M r / B))).
    { assert (Hlr := ray_length y x t). destruct (HE _ Hlr) as [W C]. unfold F.
      rewrite (sdr_projection b o ref (E (ray y x t)) (m (ray y x t)) c d x (ray y x t) M (fun k => p k + t * xx k)%R Wr W Hcg Hld Hcl
        ltac:(rewrite Hlen; auto) ltac:(rewrite Hlen; auto) Hx C).
      - change (zero_mean o) with zm. rewrite (energy_ext M _ r) by (intros k _; rewrite Hry; unfold r; ring).
        rewrite energy_axpy. apply dB_pos; auto. fold B. lra.
      - change (zero_mean o) with zm. apply Rsqr_incr_0_var; [|apply sqrt_pos].
        assert (Q : forall v, length v = length y -> Rsqr (norm2 (pre zm v)) = energy M (smp (pre zm v))).
        { intros v Hv. rewrite energy_smp by (rewrite pre_length; lia). unfold Rsqr. ring. }
        rewrite Q by auto. rewrite (energy_ext M _ (fun k => smp (pre zm y) k + t * xx k)%R) by (intros; apply Hry).
        rewrite energy_axpy. rewrite <- (Q y eq_refl).
        assert (Rsqr norm_eps <= Rsqr (norm2 (pre zm y)))%R.
        { apply Rsqr_incr_1; auto; [|apply sqrt_pos]. left. apply eps_pos. }
        assert (0 <= t * t)%R by nra. assert (0 <= t * t * energy M xx)%R by (apply Rmult_le_pos; lra). lra.
      - auto.
      - rewrite Hlen; auto.
      - change (zero_mean o) with zm. apply (is_projection_ext_y _ _ _ (fun k => smp (pre zm y) k + t * xx k)%R);
          [intros; symmetry; apply Hry|apply projection_ray; auto].
      - apply Hm; auto. }
    split; auto. split; auto.
    unfold log10. apply Rmult_lt_compat_l; [lra|]. unfold Rdiv at 1 3. apply Rmult_lt_compat_r; [apply Rinv_0_lt_compat; auto|].
    apply ln_increasing; [apply Rdiv_lt_0_compat; lra|].
    apply Rmult_lt_compat_l; auto. apply Rinv_lt_contravar; auto. apply Rmult_lt_0_compat; lra.
  Qed.
End Family.

(** ** The statements used as properties *)
Lemma one_tap_never_flat b o ref c d x y M p E m : wf ref ->
  use_cg_iter o = None -> load_diag o = None -> clamp_db o = None ->
  filter_length o = 1 ->
  a_len ref = length y -> (norm_eps <= norm2 (pre (zero_mean o) x))%R ->
  has_chan ref c x -> length y <= M ->
  is_projection 1 M (delays (pre (zero_mean o) x)) (smp (pre (zero_mean o) y)) p ->
  family E d (length y) ->
  (forall v, length v = length y -> pairwise_sdr_loss b o (E v) ref = Ok (m v)) ->
  (norm_eps < norm2 (pre (zero_mean o) y))%R ->
  (0 < energy M (fun t => smp (pre (zero_mean o) y) t - p t))%R -> (0 < energy M p)%R ->
  ~ flat (fun v => mat_of (m v) c d) y.
Proof.
  intros Wr Hcg Hld Hcl L1 Hl Hnx Hx HM Hp HE Hm Hn Hr Hpp.
  pose proof (proj1 Wr) as W0.
  apply (not_flat_scale_invariant b o ref c d x y M p E m); auto; try lia; rewrite ?L1; auto; lia.
Qed.
Lemma flat_iff_plain b o ref c d x y M p E m : wf ref ->
  use_cg_iter o = None -> load_diag o = None -> clamp_db o = None -> zero_mean o = false ->
  1 <= filter_length o <= Nat.max (a_len ref) (length y) ->
  (filter_length o = 1 -> a_len ref = length y /\ (norm_eps <= norm2 x)%R) ->
  has_chan ref c x -> a_len ref + filter_length o - 1 <= M -> length y <= M ->
  is_projection (filter_length o) M (delays x) (smp y) p ->
  family E d (length y) ->
  (forall v, length v = length y -> pairwise_sdr_loss b o (E v) ref = Ok (m v)) ->
  (norm_eps < norm2 y)%R ->
  (0 < energy M (fun t => smp y t - p t))%R -> (0 < energy M p)%R ->
  flat (fun v => mat_of (m v) c d) y <->
  (forall t, t < length y -> (energy M (smp y) * p t = energy M p * smp y t)%R).
Proof.
  intros Wr Hcg Hld Hcl Hz HL HL1 Hx HM HM' Hp HE Hm Hn Hr Hpp.
  apply (flat_iff b o ref c d x y M p E m); auto; rewrite Hz; auto.
Qed.
Lemma no_local_minimum b o ref c d x y M p E m t : wf ref ->
  use_cg_iter o = None -> load_diag o = None -> clamp_db o = None ->
  1 <= filter_length o <= length y -> length x = length y ->
  (filter_length o = 1 -> (norm_eps <= norm2 (pre (zero_mean o) x))%R) ->
  has_chan ref c x -> length y + filter_length o - 1 <= M ->
  is_projection (filter_length o) M (delays (pre (zero_mean o) x)) (smp (pre (zero_mean o) y)) p ->
  family E d (length y) ->
  (forall v, length v = length y -> pairwise_sdr_loss b o (E v) ref = Ok (m v)) ->
  (norm_eps <= norm2 (pre (zero_mean o) y))%R -> (0 < norm2 (pre (zero_mean o) x))%R ->
  (0 < energy M (fun t => smp (pre (zero_mean o) y) t - p t))%R -> (0 < energy M p)%R ->
  t <> 0%R -> (0 <= t * dot M (smp (pre (zero_mean o) y)) (smp (pre (zero_mean o) x)))%R ->
  exists u v, mat_of (m y) c d = Fin u /\ mat_of (m (ray y x t)) c d = Fin v /\ (v < u)%R.
Proof.
  intros Wr Hcg Hld Hcl HL Hl HL1 Hx HM Hp HE Hm Hn Hnx Hr Hpp Ht Hs.
  pose proof (has_chan_pchan (zero_mean o) _ _ _ Wr Hx) as [_ Hla].
  apply (toward_reference b o ref c d x y M p E m); auto; try lia.
  intros H1. split; [lia|auto].
Qed.
