(** * The gradient of one channel of bss_eval_sources *)
From Coq Require Import Reals Lra FunctionalExtensionality.
From Verif Require Import Prelude ExtReal Sums Helpers Linalg LinalgProofs Metrics SpecSig PrepProofs StatsProofs
  LeastSq DbProofs MetricsProofs ProjTheorems MetricTheorems SarProofs Invariance Gradient Autograd AutogradFft AutogradEntry AutogradProofs AutogradTheorems
  AutogradPit AutogradPitProofs AutogradBss AutogradBssForms.
Local Open Scope nat_scope.

Lemma deriv_near f g l e : (0 < e)%R -> (forall t, (Rabs t < e)%R -> f t = g t) ->
  derivable_pt_lim g 0 l -> derivable_pt_lim f 0 l.
Proof.
  intros He H HD eps Heps. destruct (HD eps Heps) as ([d Hd] & HE). simpl in HE.
  assert (Hm : (0 < Rmin e d)%R) by (apply Rmin_pos; auto). exists (mkposreal _ Hm). simpl. intros h Hh Hlt.
  pose proof (Rmin_l e d). pose proof (Rmin_r e d).
  rewrite (H (0 + h)%R), (H 0%R); [apply HE; auto; lra|rewrite Rabs_R0; auto|rewrite Rplus_0_l; lra].
Qed.

(** ** A coherence along a ray *)
Definition slope_Q (Q : (nat -> R) -> (nat -> R) -> R) (y h : list R) : R :=
  (gain y * (2 * Q (smp (unit_of y)) (smp h))
   - if Rlt_dec (norm2 y) norm_eps then 0
     else gain y ^ 3 * (2 * Q (smp (unit_of y)) (smp y)) * Rsum (length y) (fun t => smp y t * smp h t))%R.
Lemma coh_deriv Q y h : bilin Q -> length h = length y -> norm2 y <> norm_eps ->
  derivable_pt_lim (fun t => Q (smp (unit_of (ray y h t))) (smp (unit_of (ray y h t)))) 0 (slope_Q Q y h).
Proof.
  intros HB Hl HN. pose proof (gain_pos y) as Pg.
  destruct (gain_ray y h Hl HN) as (d2 & e & Pe & N).
  set (d1 := if Rlt_dec (norm2 y) norm_eps then 0%R else Rsum (length y) (fun t => smp y t * smp h t)%R) in *.
  set (d0 := (/ gain y ^ 2)%R) in *.
  assert (Pd : (0 < d0)%R) by (unfold d0; apply Rinv_0_lt_compat; nra).
  set (q0 := Q (smp y) (smp y)). set (q1 := Q (smp y) (smp h)). set (q2 := Q (smp h) (smp h)).
  apply (deriv_near _ (fun t => (q0 + 2 * t * q1 + t * t * q2) / (d0 + 2 * t * d1 + t * t * d2))%R _ e Pe).
  { intros t Ht. destruct (N t Ht) as [Np Ng]. rewrite (Q_unit2 Q HB), (Q_ray Q y h HB Hl), Ng. fold q0 q1 q2. field. lra. }
  assert (Hgd : (gain y ^ 2 = / d0)%R) by (unfold d0; rewrite Rinv_inv; auto).
  replace (slope_Q Q y h) with (((2 * q1) * d0 - (2 * d1) * q0) / Rsqr d0)%R.
  2:{ unfold slope_Q. rewrite !(Q_unit Q HB). fold q0 q1.
      replace (if Rlt_dec (norm2 y) norm_eps then 0%R else (gain y ^ 3 * (2 * (gain y * q0)) * Rsum (length y) (fun t => smp y t * smp h t))%R)
        with (gain y ^ 2 * gain y ^ 2 * 2 * q0 * d1)%R by (unfold d1; destruct (Rlt_dec (norm2 y) norm_eps); ring).
      replace (gain y * (2 * (gain y * q1)))%R with (gain y ^ 2 * 2 * q1)%R by ring. rewrite Hgd. unfold Rsqr. field. lra. }
  assert (DQ : forall a b c, derivable_pt_lim (fun t => a + 2 * t * b + t * t * c)%R 0 (2 * b)%R).
  { intros a b c.
    replace (2 * b)%R with (0 + (0 + 2 * b * 1) + (1 * 0 + 0 * 1) * c)%R by ring.
    apply (derivable_pt_lim_plus (fun t => a + 2 * t * b)%R (fun t => t * t * c)%R).
    - apply (derivable_pt_lim_plus (fun _ => a) (fun t => 2 * t * b)%R); [apply derivable_pt_lim_const|].
      apply (deriv_near _ (fun t => (2 * b) * t)%R _ 1 Rlt_0_1); [intros; ring|].
      replace (0 + 2 * b * 1)%R with (2 * b * 1)%R by ring.
      apply (derivable_pt_lim_scal id (2 * b) 0 1). apply derivable_pt_lim_id.
    - apply (deriv_near _ (fun t => c * (t * t))%R _ 1 Rlt_0_1); [intros; ring|]. rewrite Rmult_comm.
      apply (derivable_pt_lim_scal (fun t => t * t)%R c 0 _). apply (derivable_pt_lim_mult id id); apply derivable_pt_lim_id. }
  pose proof (derivable_pt_lim_div (fun t => q0 + 2 * t * q1 + t * t * q2)%R (fun t => d0 + 2 * t * d1 + t * t * d2)%R 0 _ _
    (DQ q0 q1 q2) (DQ d0 d1 d2) ltac:(simpl; lra)) as HD.
  replace (((2 * q1) * d0 - (2 * d1) * q0) / Rsqr d0)%R with
   ((2 * q1 * (d0 + 2 * 0 * d1 + 0 * 0 * d2) - 2 * d1 * (q0 + 2 * 0 * q1 + 0 * 0 * q2)) / Rsqr (d0 + 2 * 0 * d1 + 0 * 0 * d2))%R; [exact HD|].
  f_equal; [ring|]. f_equal. f_equal. ring.
Qed.

(** ** Decibels along a curve *)
Definition regular (cd : option R) (k : R) : Prop :=
  ((cl_eps cd < k < 1 - cl_eps cd /\ 0 < k < 1)%R \/
   exists D, cd = Some D /\ (0 <= D)%R /\ (k < db_clamp_eps D \/ 1 - db_clamp_eps D < k)%R).
Lemma db_chain cd (kap : R -> R) D' : derivable_pt_lim kap 0 D' ->
  (match cd with Some D => 0 <= D | None => True end)%R -> regular cd (kap 0%R) ->
  exists rho, (forall w, neg_sdr_bw cd (kap 0%R) w = Fin (rho * w)) /\
    exists f, (exists e, (0 < e)%R /\ forall t, (Rabs t < e)%R -> coherence_to_neg_sdr cd (Fin (kap t)) = Fin (f t)) /\
      derivable_pt_lim f 0 (rho * D')%R.
Proof.
  intros HD Hcd HR. pose proof ln10_pos as L10.
  assert (near : forall a b, (a < kap 0 < b)%R -> exists e, (0 < e)%R /\ forall t, (Rabs t < e)%R -> (a < kap t < b)%R).
  { intros a b Hab. assert (HC : continuity_pt kap 0) by (apply derivable_continuous_pt; exists D'; exact HD).
    set (m := Rmin (kap 0%R - a) (b - kap 0%R)). assert (Hm : (0 < m)%R) by (apply Rmin_pos; lra).
    destruct (HC m Hm) as (e & He & HE). exists e. split; auto. intros t Ht.
    destruct (Req_dec t 0) as [->|N]; auto.
    assert (HH : (Rabs (kap t - kap 0) < m)%R).
    { apply (HE t). split; [split; [exact I|auto]|]. simpl. unfold R_dist. rewrite Rminus_0_r. auto. }
    pose proof (Rmin_l (kap 0 - a) (b - kap 0))%R. pose proof (Rmin_r (kap 0 - a) (b - kap 0))%R.
    apply Rabs_def2 in HH. unfold m in HH. lra. }
  destruct HR as [[H H']|(D & -> & HD0 & H)].
  - exists (- 10 / (ln 10 * (kap 0 * (1 - kap 0))))%R. split.
    { intros w. rewrite neg_sdr_bw_in by lra. f_equal. field. lra. }
    exists (fun t => gdb (kap t)). split.
    + destruct (near (Rmax 0%R (cl_eps cd)) (Rmin 1%R (1 - cl_eps cd)%R)) as (e & He & HE).
      { split; [apply Rmax_lub_lt; lra|apply Rmin_glb_lt; lra]. }
      exists e. split; auto. intros t Ht. destruct (HE t Ht) as [E1 E2].
      pose proof (Rmax_l 0 (cl_eps cd))%R. pose proof (Rmax_r 0 (cl_eps cd))%R. pose proof (Rmin_l 1 (1 - cl_eps cd))%R. pose proof (Rmin_r 1 (1 - cl_eps cd))%R.
      destruct cd as [D|].
      * destruct (neg_sdr_clamped D (Fin (kap t)) ltac:(congruence) Hcd) as [_ E]. rewrite E. simpl in * |- *.
        rewrite Rmax_left, Rmin_left by lra. reflexivity.
      * apply neg_sdr_fin. lra.
    + apply (derivable_pt_lim_comp kap gdb); auto.
      assert (Hg : derivable_pt_lim (fun c => 10 * (/ ln 10 * (ln (1 - c) - ln c)))%R (kap 0%R)
        (10 * (/ ln 10 * (/ (1 - kap 0) * (0 - 1) - / kap 0)))%R).
      { apply (derivable_pt_lim_scal (fun c => / ln 10 * (ln (1 - c) - ln c))%R).
        apply (derivable_pt_lim_scal (fun c => ln (1 - c) - ln c)%R).
        apply (derivable_pt_lim_minus (fun c => ln (1 - c))%R ln).
        - apply (derivable_pt_lim_comp (fun c => 1 - c)%R ln).
          + apply (derivable_pt_lim_minus (fun _ => 1%R) id); [apply derivable_pt_lim_const|apply derivable_pt_lim_id].
          + apply derivable_pt_lim_ln. lra.
        - apply derivable_pt_lim_ln. lra. }
      replace (- 10 / (ln 10 * (kap 0 * (1 - kap 0))))%R with (10 * (/ ln 10 * (/ (1 - kap 0) * (0 - 1) - / kap 0)))%R by (field; lra).
      intros eps Heps. destruct (Hg eps Heps) as ([dl Hdl] & HE).
      set (mm := Rmin (kap 0%R) (1 - kap 0)%R). assert (Pm : (0 < mm)%R) by (apply Rmin_pos; lra).
      assert (Pm2 : (0 < Rmin dl mm)%R) by (apply Rmin_pos; auto).
      exists (mkposreal _ Pm2). simpl in *. intros h Hh Hlt.
      pose proof (Rmin_l dl mm)%R. pose proof (Rmin_r dl mm)%R. pose proof (Rmin_l (kap 0) (1 - kap 0))%R. pose proof (Rmin_r (kap 0) (1 - kap 0))%R.
      assert (Hb : (0 < kap 0 + h < 1)%R) by (apply Rabs_def2 in Hlt; unfold mm in *; lra).
      assert (Eg : forall c, (0 < c < 1)%R -> gdb c = (10 * (/ ln 10 * (ln (1 - c) - ln c)))%R).
      { intros c Hc. unfold gdb, log10, Rdiv. rewrite ln_mult, ln_Rinv by (try apply Rinv_0_lt_compat; lra). field. lra. }
      rewrite !Eg by lra. apply HE; auto. lra.
  - exists 0%R. split.
    { intros w. rewrite neg_sdr_bw_out by exact H. f_equal. ring. }
    assert (Hc : forall t, coherence_to_neg_sdr (Some D) (Fin (kap t)) = Fin (gdb (Rmin (Rmax (kap t) (db_clamp_eps D)) (1 - db_clamp_eps D)))).
    { intros t. destruct (neg_sdr_clamped D (Fin (kap t)) ltac:(congruence) HD0) as [_ E]. exact E. }
    pose proof (eps_half D HD0) as Hh. rewrite Rmult_0_l. destruct H as [H|H].
    + exists (fun _ => gdb (db_clamp_eps D)). split; [|apply derivable_pt_lim_const].
      destruct (near (kap 0%R - 1)%R (db_clamp_eps D)) as (e & He & HE); [lra|]. exists e. split; auto. intros t Ht.
      rewrite Hc. specialize (HE t Ht). rewrite Rmax_right, Rmin_left by lra. reflexivity.
    + exists (fun _ => gdb (1 - db_clamp_eps D)). split; [|apply derivable_pt_lim_const].
      destruct (near (1 - db_clamp_eps D)%R (kap 0 + 1)%R) as (e & He & HE); [lra|]. exists e. split; auto. intros t Ht.
      rewrite Hc. specialize (HE t Ht). rewrite Rmin_right; [reflexivity|]. eapply Rle_trans; [|apply Rmax_l]. lra.
Qed.

Lemma bss_cots_some cd k cmp s a ws wi wa gs ga : bss_cots cd k cmp s a ws wi wa = Some (gs, ga) ->
  gs = (fun c => if cmp c then to_R (fst (base_bw cd (s c) a (cot ws c) (cot wi c) (cot wa c))) else 0%R) /\
  ga = Rsum k (fun c => if cmp c then to_R (snd (base_bw cd (s c) a (cot ws c) (cot wi c) (cot wa c))) else 0%R).
Proof.
  unfold bss_cots. cbv zeta. destruct (forallb _ _); [|discriminate]. intros H.
  split; [apply (f_equal (fun p => match p with Some q => fst q | None => gs end)) in H|apply (f_equal (fun p => match p with Some q => snd q | None => ga end)) in H];
    symmetry; exact H.
Qed.

Lemma bss_cots_none cd k cmp s a ws wi wa : bss_cots cd k cmp s a ws wi wa = None <->
  exists c, c < k /\ cmp c = true /\ let g := base_bw cd (s c) a (cot ws c) (cot wi c) (cot wa c) in
    is_fin (fst g) = false \/ is_fin (snd g) = false.
Proof.
  unfold bss_cots. cbv zeta. set (F := fun c => is_fin _ && is_fin _). split.
  - destruct (forallb F (filter cmp (seq 0 k))) eqn:E; [discriminate|]. intros _.
    assert (H : exists c, In c (filter cmp (seq 0 k)) /\ F c = false).
    { clear - E. induction (filter cmp (seq 0 k)) as [|c l IH]; [discriminate|]. simpl in E.
      destruct (F c) eqn:Ec; [|exists c; split; [left; auto|auto]]. destruct IH as (c' & H & H'); auto. exists c'. split; [right; auto|auto]. }
    destruct H as (c & Hc & HF). apply filter_In in Hc. destruct Hc as [Hc Em]. apply in_seq in Hc. exists c. split; [lia|]. split; auto.
    apply Bool.andb_false_iff in HF. exact HF.
  - intros (c & Hc & Em & HF). destruct (forallb F (filter cmp (seq 0 k))) eqn:E; auto. exfalso.
    rewrite forallb_forall in E. specialize (E c). assert (HI : In c (filter cmp (seq 0 k))) by (apply filter_In; split; auto; apply in_seq; lia).
    apply E in HI. unfold F in HI. apply Bool.andb_true_iff in HI. destruct HI, HF; congruence.
Qed.

(** ** The three metrics of one pair along a curve *)
Definition cot0 (w : option R) : R := match w with Some r => r | None => 0%R end.
Definition bss_weight (s : R * R * R) (ws wi wa : option R) : R :=
  (cot0 ws * fst (fst s) + cot0 wi * snd (fst s) + cot0 wa * snd s)%R.

Lemma db_chain_opt (need : bool) cd (kap : R -> R) D' : (need = true -> derivable_pt_lim kap 0 D') ->
  (match cd with Some D => 0 <= D | None => True end)%R -> (need = true -> regular cd (kap 0%R)) ->
  exists rho f, need = true -> (forall w, neg_sdr_bw cd (kap 0%R) w = Fin (rho * w)) /\
    (exists e, (0 < e)%R /\ forall t, (Rabs t < e)%R -> coherence_to_neg_sdr cd (Fin (kap t)) = Fin (f t)) /\
    derivable_pt_lim f 0 (rho * D')%R.
Proof.
  intros HD Hcd HR. destruct need; [|exists 0%R, (fun _ => 0%R); discriminate].
  destruct (db_chain cd kap D' (HD eq_refl) Hcd (HR eq_refl)) as (rho & B & f & E & DF). exists rho, f. auto.
Qed.

Lemma triple_chain o (ks ka : R -> R) Ds Da (ns ni na : bool) : derivable_pt_lim ks 0 Ds -> derivable_pt_lim ka 0 Da ->
  (match clamp_db o with Some D => 0 <= D | None => True end)%R ->
  (ns = true -> regular (clamp_db o) (ks 0%R)) ->
  (ni = true -> ka 0%R <> 0%R /\ regular (clamp_db o) (ks 0 / ka 0)%R) ->
  (na = true -> regular (clamp_db o) (ka 0%R)) ->
  exists f : (R -> R) * (R -> R) * (R -> R), exists s : R * R * R,
    (exists e, (0 < e)%R /\ forall t, (Rabs t < e)%R ->
      (ns = true -> fst (fst (base_metrics o (Fin (ks t)) (Fin (ka t)))) = Fin (fst (fst f) t)) /\
      (ni = true -> snd (fst (base_metrics o (Fin (ks t)) (Fin (ka t)))) = Fin (snd (fst f) t)) /\
      (na = true -> snd (base_metrics o (Fin (ks t)) (Fin (ka t))) = Fin (snd f t))) /\
    ((ns = true -> derivable_pt_lim (fst (fst f)) 0 (fst (fst s))) /\ (ni = true -> derivable_pt_lim (snd (fst f)) 0 (snd (fst s))) /\
     (na = true -> derivable_pt_lim (snd f) 0 (snd s))) /\
    forall ws wi wa, (ws <> None -> ns = true) -> (wi <> None -> ni = true) -> (wa <> None -> na = true) ->
      exists gs ga, base_bw (clamp_db o) (ks 0%R) (ka 0%R) ws wi wa = (Fin gs, Fin ga) /\
        (gs * Ds + ga * Da = bss_weight s ws wi wa)%R.
Proof.
  intros HDs HDa Hcd Rs Ri Ra.
  destruct (db_chain_opt ns _ ks Ds (fun _ => HDs) Hcd Rs) as (rs & fs & Bs).
  destruct (db_chain_opt na _ ka Da (fun _ => HDa) Hcd Ra) as (ra & fa & Ba).
  destruct (db_chain_opt ni _ (ks / ka)%F _ (fun E => derivable_pt_lim_div ks ka 0 Ds Da HDs HDa (proj1 (Ri E))) Hcd (fun E => proj2 (Ri E))) as (ri & fi & Bi).
  assert (near : ni = true -> exists e, (0 < e)%R /\ forall t, (Rabs t < e)%R -> ka t <> 0%R).
  { intros E. destruct (Ri E) as [Ha _]. assert (HC : continuity_pt ka 0) by (apply derivable_continuous_pt; exists Da; exact HDa).
    destruct (HC (Rabs (ka 0%R)) (Rabs_pos_lt _ Ha)) as (e & He & HE). exists e. split; auto. intros t Ht Hz.
    destruct (Req_dec t 0) as [->|N]; [contradiction|].
    assert (HH : (Rabs (ka t - ka 0) < Rabs (ka 0))%R).
    { apply (HE t). split; [split; [exact I|auto]|]. simpl. unfold R_dist. rewrite Rminus_0_r. auto. }
    rewrite Hz in HH. replace (0 - ka 0)%R with (- ka 0)%R in HH by ring. rewrite Rabs_Ropp in HH. lra. }
  exists (fs, fi, fa), ((rs * Ds)%R, (ri * ((Ds * ka 0%R - Da * ks 0%R) / Rsqr (ka 0%R)))%R, (ra * Da)%R). cbn [fst snd base_metrics].
  split; [|split; [split; [intros E; apply Bs; auto|split; [intros E; apply Bi; auto|intros E; apply Ba; auto]]|]].
  - assert (Es : exists e, (0 < e)%R /\ forall t, (Rabs t < e)%R -> ns = true -> coherence_to_neg_sdr (clamp_db o) (Fin (ks t)) = Fin (fs t)).
    { destruct ns; [|exists 1%R; split; [lra|discriminate]]. destruct (Bs eq_refl) as (_ & (e & He & H) & _). exists e. auto. }
    assert (Ea : exists e, (0 < e)%R /\ forall t, (Rabs t < e)%R -> na = true -> coherence_to_neg_sdr (clamp_db o) (Fin (ka t)) = Fin (fa t)).
    { destruct na; [|exists 1%R; split; [lra|discriminate]]. destruct (Ba eq_refl) as (_ & (e & He & H) & _). exists e. auto. }
    assert (Ei : exists e, (0 < e)%R /\ forall t, (Rabs t < e)%R -> ni = true -> coherence_to_neg_sdr (clamp_db o) (xdiv (Fin (ks t)) (Fin (ka t))) = Fin (fi t)).
    { destruct ni; [|exists 1%R; split; [lra|discriminate]]. destruct (Bi eq_refl) as (_ & (e & He & H) & _).
      destruct (near eq_refl) as (e' & He' & H'). exists (Rmin e e'). split; [apply Rmin_pos; auto|]. intros t Ht _.
      apply Rmin_Rgt_l in Ht. destruct Ht. rewrite xdiv_fin by auto. apply (H t). auto. }
    destruct Es as (es & Pes & Es), Ea as (ea & Pea & Ea), Ei as (ei & Pei & Ei).
    exists (Rmin (Rmin es ea) ei). split; [repeat apply Rmin_pos; auto|]. intros t Ht.
    apply Rmin_Rgt_l in Ht. destruct Ht as [H1 H2]. apply Rmin_Rgt_l in H1. destruct H1 as [H1 H1'].
    auto.
  - intros ws wi wa Us Ui Ua.
    assert (Hs : exists g, option_map (neg_sdr_bw (clamp_db o) (ks 0%R)) ws = option_map Fin g /\ cot0 g = (rs * cot0 ws)%R).
    { destruct ws as [w|]; [|exists None; split; simpl; auto; ring]. exists (Some (rs * w)%R). split; auto. simpl. rewrite (proj1 (Bs (Us ltac:(discriminate)))). reflexivity. }
    assert (Ha : exists g, option_map (neg_sdr_bw (clamp_db o) (ka 0%R)) wa = option_map Fin g /\ cot0 g = (ra * cot0 wa)%R).
    { destruct wa as [w|]; [|exists None; split; simpl; auto; ring]. exists (Some (ra * w)%R). split; auto. simpl. rewrite (proj1 (Ba (Ua ltac:(discriminate)))). reflexivity. }
    destruct Hs as (g1 & E1 & C1), Ha as (g2 & E2 & C2). unfold base_bw. rewrite E1, E2. clear E1 E2.
    assert (HA : forall x y : option R, acc (option_map Fin x) (option_map Fin y) = Fin (cot0 x + cot0 y)%R).
    { intros [x|] [y|]; simpl; f_equal; ring. }
    destruct wi as [w|]; unfold bss_weight; cbn [option_map].
    + specialize (Ui ltac:(discriminate)). destruct (Ri Ui) as [Hn _]. rewrite xdiv_fin by auto. destruct (Bi Ui) as (B & _).
      unfold div_fct in B. rewrite B, !xdiv_fin by auto. cbn [xneg xmul option_map].
      pose proof (HA g1 (Some (ri * w / ka 0%R)%R)) as A1. pose proof (HA g2 (Some (- (ri * w) * (ks 0%R / ka 0%R / ka 0%R))%R)) as A2. cbn [option_map] in A1, A2.
      rewrite A1, A2. eexists. eexists. split; [reflexivity|]. rewrite C1, C2. cbn [cot0 fst snd]. unfold Rsqr. field. auto.
    + pose proof (HA g1 None) as A1. pose proof (HA g2 None) as A2. cbn [option_map] in A1, A2. rewrite A1, A2.
      eexists. eexists. split; [reflexivity|]. rewrite C1, C2. cbn [cot0 fst snd]. ring.
Qed.

Section Chan.
  Context (o : opts) (ref : arr) (T : nat) (y : list R) (cmp : nat -> bool).
  Context (Qs : nat -> (nat -> R) -> (nat -> R) -> R) (Qa : (nat -> R) -> (nat -> R) -> R) (HF : bss_forms o ref T Qs Qa).
  Context (HT : 0 < T) (Ly : length y = T) (Hcl : clean (zero_mean o) ref).
  Let k := n_chan ref.
  Let ks c v := Qs c (nrm o v) (nrm o v).
  Let ka v := Qa (nrm o v) (nrm o v).

  Lemma chan_grad_unfold ws wi wa : bss_chan_grad o ref T (map Fin y) cmp ws wi wa =
    match bss_bw o ref T (unit_of (pre (zero_mean o) y)) cmp ws wi wa with
    | Raise e => Raise e
    | Ok None => Ok (repeat NaN T)
    | Ok (Some g) => Ok (map Fin (let g1 := normalize_bw (pre (zero_mean o) y) g in if zero_mean o then remove_mean_bw g1 else g1))
    end.
  Proof.
    unfold bss_chan_grad. rewrite (proj1 (clean_tainted _ _) Hcl). rewrite fin_list_map, prep_fin by lia. cbv zeta. rewrite length_prep.
    change (fun c => opt0 (nth c (prep_arr (zero_mean o) ref) None)) with (pc (zero_mean o) ref).
    assert (Ey : (if zero_mean o then map to_R (remove_mean (map Fin y)) else y) = pre (zero_mean o) y).
    { destruct (zero_mean o); [|reflexivity]. rewrite remove_mean_fin by lia. cbn [pre]. rewrite map_map.
      rewrite <- (map_id (centered y)) at 2. apply map_ext. reflexivity. }
    rewrite Ey. unfold bss_bw. cbv zeta.
    destruct (if Nat.eqb (filter_length o) 1 then _ else _) as [[g|]|e]; reflexivity.
  Qed.

  (** either way, the scale of the estimate has no influence *)
  Lemma chan_grad_cases ws wi wa : match bss_cots (clamp_db o) k cmp (fun c => ks c y) (ka y) ws wi wa with
    | None => bss_chan_grad o ref T (map Fin y) cmp ws wi wa = Ok (repeat NaN T)
    | Some (gs, ga) => exists g, bss_chan_grad o ref T (map Fin y) cmp ws wi wa = Ok (map Fin g) /\ length g = T /\
        forall h, length h = T -> Rsum T (fun t => smp g t * smp h t)%R =
          (Rsum k (fun c => gs c * slope_Q (Qs c) (pre (zero_mean o) y) (pre (zero_mean o) h)) +
           ga * slope_Q Qa (pre (zero_mean o) y) (pre (zero_mean o) h))%R
    end.
  Proof.
    destruct HF as (_ & _ & _ & HW).
    assert (Lu : length (unit_of (pre (zero_mean o) y)) = T) by (rewrite length_unit_of, length_pre; auto).
    specialize (HW _ cmp ws wi wa Lu). fold k in HW.
    change (fun c => Qs c (smp (unit_of (pre (zero_mean o) y))) (smp (unit_of (pre (zero_mean o) y)))) with (fun c => ks c y) in HW.
    change (Qa (smp (unit_of (pre (zero_mean o) y))) (smp (unit_of (pre (zero_mean o) y)))) with (ka y) in HW.
    rewrite chan_grad_unfold.
    destruct (bss_cots (clamp_db o) k cmp (fun c => ks c y) (ka y) ws wi wa) as [[gs ga]|].
    2:{ rewrite HW. reflexivity. }
    destruct HW as (G & -> & LG & HG). eexists. split; [reflexivity|].
    split; [cbv zeta; rewrite length_back, length_pre; auto|]. intros h Hh.
    set (zm := zero_mean o) in *. unfold smp at 1. rewrite <- Ly. rewrite back_adjoint by lia. rewrite Ly.
    assert (Lp : forall v, length v = T -> length (pre zm v) = T) by (intros v Hv; rewrite length_pre; auto).
    rewrite !HG by auto. unfold slope_Q. rewrite (Lp y Ly).
    set (uu := smp (unit_of (pre zm y))). set (hy := Rsum T (fun t => smp (pre zm y) t * smp (pre zm h) t)%R). set (gn := gain (pre zm y)).
    destruct (Rlt_dec (norm2 (pre zm y)) norm_eps).
    - rewrite Rmult_plus_distr_l, Rminus_0_r, <- Rsum_scal_l. f_equal; [apply Rsum_ext; intros; ring|ring].
    - rewrite (Rsum_ext k (fun c => gs c * (gn * (2 * Qs c uu (smp (pre zm h))) - gn ^ 3 * (2 * Qs c uu (smp (pre zm y))) * hy))%R
        (fun c => gn * (2 * gs c * Qs c uu (smp (pre zm h))) - gn ^ 3 * (2 * gs c * Qs c uu (smp (pre zm y))) * hy)%R) by (intros; ring).
      rewrite Rsum_minus, Rsum_scal_l, Rsum_scal_r, Rsum_scal_l. ring.
  Qed.

  Context (HN : norm2 (pre (zero_mean o) y) <> norm_eps).
  Context (Hcd : (match clamp_db o with Some D => 0 <= D | None => True end)%R) (ns ni na : bool).
  Context (HRs : forall c, c < k -> cmp c = true -> ns = true -> regular (clamp_db o) (ks c y)).
  Context (HRi : forall c, c < k -> cmp c = true -> ni = true -> ka y <> 0%R /\ regular (clamp_db o) (ks c y / ka y)%R).
  Context (HRa : forall c, c < k -> cmp c = true -> na = true -> regular (clamp_db o) (ka y)).

  Lemma bss_chan_gradient h : length h = T ->
    exists (f : nat -> (R -> R) * (R -> R) * (R -> R)) (s : nat -> R * R * R) e, (0 < e)%R /\
      (forall c, c < k -> cmp c = true -> forall t, (Rabs t < e)%R ->
        let b := base_metrics o (Fin (ks c (ray y h t))) (Fin (ka (ray y h t))) in
        (ns = true -> fst (fst b) = Fin (fst (fst (f c)) t)) /\ (ni = true -> snd (fst b) = Fin (snd (fst (f c)) t)) /\
        (na = true -> snd b = Fin (snd (f c) t))) /\
      (forall c, c < k -> cmp c = true -> (ns = true -> derivable_pt_lim (fst (fst (f c))) 0 (fst (fst (s c)))) /\
        (ni = true -> derivable_pt_lim (snd (fst (f c))) 0 (snd (fst (s c)))) /\ (na = true -> derivable_pt_lim (snd (f c)) 0 (snd (s c)))) /\
      forall ws wi wa, (ws <> None -> ns = true) -> (wi <> None -> ni = true) -> (wa <> None -> na = true) ->
        exists g, bss_chan_grad o ref T (map Fin y) cmp ws wi wa = Ok (map Fin g) /\ length g = T /\
        Rsum T (fun t => smp g t * smp h t)%R = Rsum k (fun c => if cmp c then bss_weight (s c) (cot ws c) (cot wi c) (cot wa c) else 0%R).
  Proof.
    intros Hh. set (zm := zero_mean o) in *. destruct HF as (HBs & HBa & _ & _).
    set (yy := pre zm y) in *. set (hh := pre zm h).
    assert (Lhh : length hh = length yy) by (unfold hh, yy; rewrite !length_pre; lia).
    assert (Hray : forall t, nrm o (ray y h t) = smp (unit_of (ray yy hh t))).
    { intros t. unfold nrm, yy, hh. fold zm. rewrite pre_ray by lia. reflexivity. }
    assert (Hr0 : ray yy hh 0 = yy).
    { apply smp_ext; [apply ray_length|]. intros i. rewrite smp_ray by auto. ring. }
    assert (H0 : forall Q : (nat -> R) -> (nat -> R) -> R, Q (smp (unit_of (ray yy hh 0))) (smp (unit_of (ray yy hh 0))) = Q (nrm o y) (nrm o y)).
    { intros Q. rewrite Hr0. reflexivity. }
    assert (HC : forall c, c < k -> exists p : ((R -> R) * (R -> R) * (R -> R)) * (R * R * R), cmp c = true ->
      (exists e, (0 < e)%R /\ forall t, (Rabs t < e)%R ->
        let b := base_metrics o (Fin (ks c (ray y h t))) (Fin (ka (ray y h t))) in
        (ns = true -> fst (fst b) = Fin (fst (fst (fst p)) t)) /\ (ni = true -> snd (fst b) = Fin (snd (fst (fst p)) t)) /\
        (na = true -> snd b = Fin (snd (fst p) t))) /\
      ((ns = true -> derivable_pt_lim (fst (fst (fst p))) 0 (fst (fst (snd p)))) /\
       (ni = true -> derivable_pt_lim (snd (fst (fst p))) 0 (snd (fst (snd p)))) /\
       (na = true -> derivable_pt_lim (snd (fst p)) 0 (snd (snd p)))) /\
      forall ws wi wa, (ws <> None -> ns = true) -> (wi <> None -> ni = true) -> (wa <> None -> na = true) ->
        exists gs ga, base_bw (clamp_db o) (ks c y) (ka y) ws wi wa = (Fin gs, Fin ga) /\
        (gs * slope_Q (Qs c) yy hh + ga * slope_Q Qa yy hh = bss_weight (snd p) ws wi wa)%R).
    { intros c Hc. destruct (cmp c) eqn:Em.
      2:{ exists (((fun _ => 0%R), (fun _ => 0%R), (fun _ => 0%R)), (0%R, 0%R, 0%R)). discriminate. }
      pose proof (coh_deriv (Qs c) yy hh (HBs c Hc) Lhh HN) as D1. pose proof (coh_deriv Qa yy hh HBa Lhh HN) as D2.
      destruct (triple_chain o _ _ _ _ ns ni na D1 D2 Hcd) as (f & s & (e & He & HE) & A1 & A4).
      - rewrite (H0 (Qs c)). apply HRs; auto.
      - rewrite (H0 (Qs c)), (H0 Qa). apply HRi; auto.
      - rewrite (H0 Qa). apply (HRa c); auto.
      - exists (f, s). intros _. cbn [fst snd]. split; [|split; [auto|]].
        + exists e. split; auto. intros t Ht. unfold ks, ka. rewrite Hray. apply HE; auto.
        + intros ws wi wa U1 U2 U3. destruct (A4 ws wi wa U1 U2 U3) as (gs & ga & E & S). rewrite (H0 (Qs c)), (H0 Qa) in E. eauto. }
    apply (fin_choice (((fun _ => 0%R), (fun _ => 0%R), (fun _ => 0%R)), (0%R, 0%R, 0%R))) in HC. destruct HC as (p & HC).
    assert (HE : exists e, (0 < e)%R /\ forall c, c < k -> cmp c = true -> forall t, (Rabs t < e)%R ->
        let b := base_metrics o (Fin (ks c (ray y h t))) (Fin (ka (ray y h t))) in
        (ns = true -> fst (fst b) = Fin (fst (fst (fst (p c))) t)) /\ (ni = true -> snd (fst b) = Fin (snd (fst (fst (p c))) t)) /\
        (na = true -> snd b = Fin (snd (fst (p c)) t))).
    { apply common_bound.
      - intros c e e' Hee HP Em t Ht. apply HP; auto. lra.
      - intros c Hc. destruct (cmp c) eqn:Em; [|exists 1%R; split; [lra|discriminate]].
        destruct (HC c Hc Em) as [(e' & He' & HE') _]. exists e'. split; auto. }
    destruct HE as (e & He & HE).
    exists (fun c => fst (p c)), (fun c => snd (p c)), e. split; [exact He|]. split; [exact HE|].
    split; [intros c Hc Em; apply (HC c Hc Em)|].
    intros ws wi wa U1 U2 U3. pose proof (chan_grad_cases ws wi wa) as CC.
    assert (V : forall (w : option (nat -> R)) (n : bool) c, (w <> None -> n = true) -> cot w c <> None -> n = true).
    { intros [w|] n c H1 H2; [apply H1; discriminate|contradiction H2; reflexivity]. }
    destruct (bss_cots (clamp_db o) k cmp (fun c => ks c y) (ka y) ws wi wa) as [[gs ga]|] eqn:EC.
    - destruct CC as (g & Eg & Lg & Hg). exists g. split; auto. split; auto. rewrite (Hg h Hh). fold zm. fold yy hh.
      destruct (bss_cots_some _ _ _ _ _ _ _ _ _ _ EC) as [-> ->].
      rewrite <- Rsum_scal_r, <- Rsum_plus. apply Rsum_ext. intros c Hc. cbv beta. destruct (cmp c) eqn:Em; [|ring].
      destruct (HC c Hc Em) as (_ & _ & B).
      destruct (B (cot ws c) (cot wi c) (cot wa c) (V ws ns c U1) (V wi ni c U2) (V wa na c U3)) as (x1 & x2 & E & S). rewrite E. exact S.
    - exfalso. apply bss_cots_none in EC. destruct EC as (c & Hc & Em & EC). destruct (HC c Hc Em) as (_ & _ & B).
      destruct (B (cot ws c) (cot wi c) (cot wa c) (V ws ns c U1) (V wi ni c U2) (V wa na c U3)) as (x1 & x2 & E & S). rewrite E in EC.
      destruct EC as [EC|EC]; discriminate.
  Qed.
End Chan.
