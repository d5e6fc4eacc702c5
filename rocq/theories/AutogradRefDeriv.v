(** * Derivatives of the coherences with respect to the reference *)
From Coq Require Import Reals Lra FunctionalExtensionality.
From Verif Require Import Prelude ExtReal Slice Sums Helpers Linalg LinalgProofs Cgd Metrics SpecSig StatsProofs PrepProofs
  LeastSq DbProofs MetricsProofs ProjTheorems MetricTheorems Gradient Autograd AutogradFft AutogradEntry AutogradProofs AutogradTheorems
  AutogradRef AutogradRefAdjoint Perturb.
Local Open Scope nat_scope.

Lemma deriv_local f g l e : (0 < e)%R -> (forall t, (Rabs t < e)%R -> f t = g t) ->
  derivable_pt_lim f 0 l -> derivable_pt_lim g 0 l.
Proof.
  intros Pe H. rewrite !deriv_lim0. apply (lim0_local _ _ _ e); auto. intros t _ Ht.
  rewrite (H t Ht), (H 0%R) by (rewrite Rabs_R0; auto). reflexivity.
Qed.
Lemma deriv_eq f l l' : l' = l -> derivable_pt_lim f 0 l' -> derivable_pt_lim f 0 l.
Proof. intros ->; auto. Qed.
Lemma deriv_mult f g l m : derivable_pt_lim f 0 l -> derivable_pt_lim g 0 m ->
  derivable_pt_lim (fun t => f t * g t)%R 0 (l * g 0 + f 0 * m)%R.
Proof. apply derivable_pt_lim_mult. Qed.

(** ** The normalised reference along a ray *)
Section Along.
  Variables (y h : list R).
  Hypothesis Hl : length h = length y.
  Hypothesis HN : norm2 y <> norm_eps.
  Let hy := Rsum (length y) (fun t => smp y t * smp h t)%R.
  Let d1 := if Rlt_dec (norm2 y) norm_eps then 0%R else hy.

  Lemma ray0 : ray y h 0 = y.
  Proof. apply smp_ext; [apply ray_length|]. intros k. rewrite smp_ray by auto. ring. Qed.
  Lemma gain_deriv : derivable_pt_lim (fun t => gain (ray y h t)) 0 (- gain y ^ 3 * d1)%R.
  Proof.
    destruct (gain_ray y h Hl HN) as (d2 & e & Pe & N). pose proof (gain_pos y) as Pg.
    set (a := (/ gain y ^ 2)%R) in *. fold hy in N. fold d1 in N.
    assert (Pa : (0 < a)%R) by (unfold a; apply Rinv_0_lt_compat; nra).
    assert (Es : sqrt a = (/ gain y)%R).
    { unfold a. rewrite sqrt_inv. f_equal. simpl. rewrite Rmult_1_r. apply sqrt_square. lra. }
    apply (deriv_local (fun t => 1 / sqrt (a + 2 * t * d1 + t * t * d2))%R _ _ e Pe).
    - intros t Ht. destruct (N t Ht) as [Np Ng].
      rewrite <- (sqrt_pow2 (gain (ray y h t))) by (left; apply gain_pos). rewrite Ng, sqrt_inv. unfold Rdiv. ring.
    - assert (D : derivable_pt_lim (fun t => sqrt (a + 2 * t * d1 + t * t * d2))%R 0 (/ (2 * sqrt a) * (2 * d1))%R).
      { apply (derivable_pt_lim_comp (fun t => a + 2 * t * d1 + t * t * d2)%R sqrt 0 (2 * d1)%R (/ (2 * sqrt a))%R).
        - apply quad_deriv.
        - replace (a + 2 * 0 * d1 + 0 * 0 * d2)%R with a by ring. apply derivable_pt_lim_sqrt. auto. }
      pose proof (derivable_pt_lim_div (fun _ => 1%R) _ 0 0 _ (derivable_pt_lim_const 1 0) D) as E.
      cbv beta in E. unfold div_fct in E. eapply deriv_eq; [|apply E].
      + replace (a + 2 * 0 * d1 + 0 * 0 * d2)%R with a by ring. rewrite Es. unfold Rsqr. field. lra.
      + replace (a + 2 * 0 * d1 + 0 * 0 * d2)%R with a by ring. rewrite Es. apply Rinv_neq_0_compat. lra.
  Qed.
  (** the derivative of the normalised signal *)
  Definition udir : list R := tab (length y) (fun k => gain y * smp h k - gain y ^ 3 * d1 * smp y k)%R.
  Lemma length_udir : length udir = length y.
  Proof. apply length_tab. Qed.
  Lemma smp_udir k : smp udir k = (gain y * smp h k - gain y ^ 3 * d1 * smp y k)%R.
  Proof.
    unfold udir. destruct (Nat.lt_ge_cases k (length y)).
    - unfold smp at 1. rewrite nth_tab by auto. reflexivity.
    - unfold smp. rewrite !nth_overflow by (rewrite ?length_tab; lia). ring.
  Qed.
  Lemma unit_deriv k : derivable_pt_lim (fun t => smp (unit_of (ray y h t)) k) 0 (smp udir k).
  Proof.
    apply (deriv_local (fun t => gain (ray y h t) * (smp y k + t * smp h k))%R _ _ 1 Rlt_0_1).
    - intros t _. rewrite smp_unit_of, smp_ray by auto. reflexivity.
    - eapply deriv_eq; [|apply (deriv_mult _ (fun t => smp y k + t * smp h k)%R _ (smp h k) gain_deriv)].
      + rewrite ray0, smp_udir. ring.
      + eapply deriv_eq; [|apply (derivable_pt_lim_plus (fun _ => smp y k) (fun t => t * smp h k)%R 0 0 (1 * smp h k + 0 * 0)%R)].
        * ring.
        * apply derivable_pt_lim_const.
        * apply (deriv_mult (fun t => t) (fun _ => smp h k) 1 0); [apply derivable_pt_lim_id|apply derivable_pt_lim_const].
  Qed.
  Lemma unit_dir_sum g : Rsum (length y) (fun k => g k * smp udir k)%R =
    (gain y * Rsum (length y) (fun k => g k * smp h k) - (if Rlt_dec (norm2 y) norm_eps then 0
       else gain y ^ 3 * Rsum (length y) (fun k => g k * smp y k) * hy))%R.
  Proof.
    rewrite (Rsum_ext _ _ (fun k => gain y * (g k * smp h k) - gain y ^ 3 * d1 * (g k * smp y k))%R)
      by (intros; rewrite smp_udir; ring).
    rewrite Rsum_minus, !Rsum_scal_l. unfold d1. destruct (Rlt_dec (norm2 y) norm_eps); ring.
  Qed.
End Along.

(** ** The coherence along a differentiable family *)
Definition cq (nf K : nat) (lam : R) (x : list R) (y : nat -> R) : R :=
  Rsum K (fun i => dot nf (cdelayed nf x i) y * rsol nf K lam x y i)%R.

Section Coh.
  Variables (u : R -> list R) (u' : list R).
  Hypothesis Hu : forall k, derivable_pt_lim (fun t => smp (u t) k) 0 (smp u' k).

  Lemma dot_deriv nf (y : nat -> R) : derivable_pt_lim (fun t => dot nf (smp (u t)) y) 0 (dot nf (smp u') y).
  Proof.
    apply (deriv_sum nf (fun k t => smp (u t) k * y k)%R). intros k _.
    eapply deriv_eq; [|apply (deriv_mult _ (fun _ => y k) _ 0 (Hu k) (derivable_pt_lim_const _ _))]. ring.
  Qed.
  Lemma rhs_deriv nf y i : derivable_pt_lim (fun t => dot nf (cdelayed nf (u t) i) y) 0 (dot nf (cdelayed nf u' i) y).
  Proof.
    apply (deriv_sum nf (fun k t => cdelayed nf (u t) i k * y k)%R). intros k _.
    eapply deriv_eq; [|apply (deriv_mult _ (fun _ => y k) _ 0 (Hu ((k + (nf - i)) mod nf)) (derivable_pt_lim_const _ _))].
    unfold cdelayed, smp. ring.
  Qed.
  Lemma gram_deriv nf lam i j : derivable_pt_lim (fun t => gram nf (cdelayed nf (u t)) lam i j) 0 (dgram nf (u 0%R) u' i j).
  Proof.
    unfold gram. eapply deriv_eq; [|apply (derivable_pt_lim_plus (fun t => dot nf (cdelayed nf (u t) i) (cdelayed nf (u t) j))
       (fun _ => if Nat.eqb i j then lam else 0%R) 0 (dgram nf (u 0%R) u' i j) 0)]; [ring| |apply derivable_pt_lim_const].
    unfold dgram. rewrite Rplus_comm. unfold dot. rewrite <- Rsum_plus.
    apply (deriv_sum nf (fun k t => cdelayed nf (u t) i k * cdelayed nf (u t) j k)%R). intros k _.
    apply (deriv_mult _ _ _ _ (Hu ((k + (nf - i)) mod nf)) (Hu ((k + (nf - j)) mod nf))).
  Qed.

  Variables (nf K : nat) (lam : R).
  Hypothesis HNS : nonsingular K (gram nf (cdelayed nf (u 0%R)) lam).

  Lemma near_nonsingular : exists e, (0 < e)%R /\
    forall t, (Rabs t < e)%R -> nonsingular K (gram nf (cdelayed nf (u t)) lam).
  Proof.
    destruct (nonsingular_near K (fun t => gram nf (cdelayed nf (u t)) lam) (dgram nf (u 0%R) u')
      (fun i j _ _ => gram_deriv nf lam i j) HNS) as (e & C & Pe & _ & _ & _ & N). eauto.
  Qed.
  Lemma coh_deriv y : derivable_pt_lim (fun t => cq nf K lam (u t) y) 0 (dcoh nf K lam (u 0%R) u' y).
  Proof.
    destruct near_nonsingular as (e & Pe & N).
    apply (solve_deriv K (fun t => gram nf (cdelayed nf (u t)) lam) (dgram nf (u 0%R) u')
      (fun i j _ _ => gram_deriv nf lam i j) HNS (fun t i => dot nf (cdelayed nf (u t) i) y)
      (fun i => dot nf (cdelayed nf u' i) y) (fun t => rsol nf K lam (u t) y) e).
    - intros i _. apply rhs_deriv.
    - exact Pe.
    - intros t Ht i Hi. apply (proj2 (sol_ok K _ (fun i => dot nf (cdelayed nf (u t) i) y) (N t Ht)) i Hi).
    - intros i j _ _. unfold gram. rewrite dot_comm, Nat.eqb_sym. reflexivity.
  Qed.
End Coh.

(** ** From the coherence to the loss *)
Lemma gdb_deriv q : (0 < q < 1)%R -> derivable_pt_lim gdb q (- 10 / (ln 10 * (q * (1 - q))))%R.
Proof.
  intros Hq. pose proof ln10_pos as L10.
  assert (D1 : derivable_pt_lim (fun c => (1 - c) / c)%R q (- / (q * q))%R).
  { pose proof (derivable_pt_lim_div (fun c => 1 - c)%R (fun c => c) q (0 - 1) 1) as D.
    replace (- / (q * q))%R with (((0 - 1) * q - 1 * (1 - q)) / Rsqr q)%R by (unfold Rsqr; field; lra).
    apply D; [|apply derivable_pt_lim_id|lra].
    apply (derivable_pt_lim_minus (fun _ => 1%R) (fun c => c)); [apply derivable_pt_lim_const|apply derivable_pt_lim_id]. }
  pose proof (derivable_pt_lim_comp (fun c => (1 - c) / c)%R ln q _ _ D1
    (derivable_pt_lim_ln ((1 - q) / q) ltac:(apply Rdiv_lt_0_compat; lra))) as D2.
  pose proof (derivable_pt_lim_scal _ (10 / ln 10) q _ D2) as D3. unfold mult_real_fct, comp in D3.
  replace (- 10 / (ln 10 * (q * (1 - q))))%R with (10 / ln 10 * (/ ((1 - q) / q) * - / (q * q)))%R by (field; lra).
  assert (E : gdb = (fun y => 10 / ln 10 * ln ((1 - y) / y))%R); [|rewrite E; exact D3].
  apply functional_extensionality. intros c. unfold gdb, log10. unfold Rdiv. ring.
Qed.

Lemma near_lt f l k : derivable_pt_lim f 0 l -> (k < f 0)%R -> exists e, (0 < e)%R /\ forall t, (Rabs t < e)%R -> (k < f t)%R.
Proof.
  intros H Hk. apply deriv_cont in H. rewrite lim0_iff in H. destruct (H (f 0 - k)%R ltac:(lra)) as (e & Pe & N).
  exists e. split; auto. intros t Ht. destruct (Req_EM_T t 0) as [->|Hn]; auto.
  specialize (N t Hn Ht). rewrite Rminus_0_r in N. apply Rabs_def2 in N. lra.
Qed.
Lemma near_gt f l k : derivable_pt_lim f 0 l -> (f 0 < k)%R -> exists e, (0 < e)%R /\ forall t, (Rabs t < e)%R -> (f t < k)%R.
Proof.
  intros H Hk. destruct (near_lt (fun t => - f t)%R (- l) (- k)) as (e & Pe & N); [|lra|].
  - apply (derivable_pt_lim_opp f 0 l H).
  - exists e. split; auto. intros t Ht. specialize (N t Ht). lra.
Qed.

Lemma loss_deriv cd q D w g : derivable_pt_lim q 0 D ->
  ((cl_eps cd < q 0 < 1 - cl_eps cd /\ 0 < q 0 < 1)%R \/
   exists d, cd = Some d /\ (0 <= d)%R /\ (q 0 < db_clamp_eps d \/ 1 - db_clamp_eps d < q 0)%R) ->
  (match cd with Some d => 0 <= d | None => True end)%R ->
  neg_sdr_bw cd (q 0%R) w = Fin g ->
  exists s f, (exists e, (0 < e)%R /\ forall t, (Rabs t < e)%R -> coherence_to_neg_sdr cd (Fin (q t)) = Fin (f t)) /\
    derivable_pt_lim f 0 s /\ (g * D = w * s)%R.
Proof.
  intros HD Hc Hd Hg. pose proof ln10_pos as L10. destruct Hc as [[H1 H2]|(d & -> & Hd0 & H)].
  - rewrite neg_sdr_bw_in in Hg by lra. injection Hg as Hg.
    exists (- 10 / (ln 10 * (q 0 * (1 - q 0))) * D)%R, (fun t => gdb (q t)).
    destruct (near_lt q D _ HD (proj1 H1)) as (e1 & P1 & N1). destruct (near_gt q D _ HD (proj2 H1)) as (e2 & P2 & N2).
    destruct (near_lt q D _ HD (proj1 H2)) as (e3 & P3 & N3). destruct (near_gt q D _ HD (proj2 H2)) as (e4 & P4 & N4).
    split; [|split].
    + exists (Rmin (Rmin e1 e2) (Rmin e3 e4)). split; [repeat apply Rmin_pos; auto|]. intros t Ht.
      apply Rmin_Rgt_l in Ht. destruct Ht as [Ht Ht']. apply Rmin_Rgt_l in Ht. apply Rmin_Rgt_l in Ht'.
      destruct Ht as [T1 T2], Ht' as [T3 T4].
      specialize (N1 t T1). specialize (N2 t T2). specialize (N3 t T3). specialize (N4 t T4).
      destruct cd as [d|]; [|apply neg_sdr_fin; auto].
      destruct (neg_sdr_clamped d (Fin (q t)) ltac:(congruence) Hd) as [_ E]. rewrite E. simpl in N1, N2 |- *.
      rewrite Rmax_left, Rmin_left by lra. reflexivity.
    + apply (derivable_pt_lim_comp q gdb 0 D _ HD (gdb_deriv (q 0%R) H2)).
    + rewrite <- Hg. field. lra.
  - assert (Z : g = 0%R) by (rewrite neg_sdr_bw_out in Hg by exact H; injection Hg; auto).
    pose proof (eps_half d Hd) as Hh. exists 0%R.
    destruct H as [H|H].
    + destruct (near_gt q D _ HD H) as (e & Pe & N). exists (fun _ => gdb (db_clamp_eps d)). split; [|split].
      * exists e. split; auto. intros t Ht. specialize (N t Ht).
        destruct (neg_sdr_clamped d (Fin (q t)) ltac:(congruence) Hd) as [_ E]. rewrite E. simpl.
        rewrite Rmax_right, Rmin_left by lra. reflexivity.
      * apply derivable_pt_lim_const.
      * rewrite Z. ring.
    + destruct (near_lt q D _ HD H) as (e & Pe & N). exists (fun _ => gdb (1 - db_clamp_eps d)). split; [|split].
      * exists e. split; auto. intros t Ht. specialize (N t Ht).
        destruct (neg_sdr_clamped d (Fin (q t)) ltac:(congruence) Hd) as [_ E]. rewrite E. simpl.
        rewrite Rmin_right; [reflexivity|]. eapply Rle_trans; [|apply Rmax_l]. lra.
      * apply derivable_pt_lim_const.
      * rewrite Z. ring.
Qed.
