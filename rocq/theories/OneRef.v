(** * bss_eval_sources with one reference *)
From Coq Require Import Reals Lra.
From Verif Require Import Prelude ExtReal Sums Spec SpecSig Helpers HelpersProofs HungarianTop PermProofs DbProofs Linalg LinalgProofs Metrics StatsProofs
  LeastSq PrepProofs MetricsProofs SarProofs ProjTheorems MetricTheorems Diag Outputs Edge.
Local Open Scope nat_scope.

Lemma lsq_form K M a lam y q : (0 <= lam)%R -> lsq K M a lam y q ->
  (0 <= q)%R /\ (q = 0%R -> forall i, i < K -> dot M (a i) y = 0%R).
Proof.
  intros Hl (h & N & ->). pose proof (q_energy K M a lam y h N) as E.
  pose proof (energy_nonneg M (comb K a h)) as P1. pose proof (Rmult_le_pos lam (sq K h) Hl (sq_nonneg K h)) as P2.
  split; [rewrite E; lra|]. intros Z i Hi. rewrite E in Z. rewrite <- (N i Hi), gram_mv by auto.
  assert (E0 : energy M (comb K a h) = 0%R) by lra. assert (L0 : (lam * sq K h = 0)%R) by lra.
  replace (lam * h i)%R with 0%R.
  - rewrite Rplus_0_r. unfold dot. apply Rsum_zero. intros t Ht. rewrite (energy_zero _ _ E0) by auto. ring.
  - destruct (Rmult_integral _ _ L0) as [->|S0]; [ring|]. rewrite (sq_zero _ _ S0) by auto. ring.
Qed.

(** the coherences of the only reference with the normalised estimate y *)
Lemma one_ref_pair b o ref est m sar d x y : wf ref -> wf est -> n_chan ref = 1 -> has_chan ref 0 x ->
  pchan (zero_mean o) est d = Some y -> d < n_chan est ->
  use_cg_iter o = None -> (0 <= loadv (load_diag o))%R -> 0 < filter_length o ->
  (filter_length o = 1 -> a_len ref = a_len est /\ (norm_eps <= norm2 (pre (zero_mean o) x))%R) ->
  sq_cos b o ref est = Ok (m, sar) ->
  exists s, mat_of m 0 d = Fin s /\ (0 <= s)%R /\
    nth d sar NaN = Fin (if Nat.eqb (filter_length o) 1 then s / (1 + loadv (load_diag o)) else s)%R /\
    (s = 0%R -> forall l, l < filter_length o ->
       if Nat.eqb (filter_length o) 1 then dot (a_len ref) (smp (unit_of (pre (zero_mean o) x))) (smp y) = 0%R
       else dot (n_fft (a_len ref) (a_len est)) (cdelayed (n_fft (a_len ref) (a_len est)) (unit_of (pre (zero_mean o) x)) l) (smp y) = 0%R).
Proof.
  intros Hwr Hwe H1 Hx Py Hd Hcg Hld HL HL1 H.
  destruct (has_chan_pchan (zero_mean o) ref 0 x Hwr Hx) as [Px Lx].
  assert (Hcl : clean (zero_mean o) ref).
  { intros c Hc. rewrite H1 in Hc. assert (c = 0) by lia. subst c. congruence. }
  assert (E0 : pc (zero_mean o) ref 0 = unit_of (pre (zero_mean o) x)) by (unfold pc; rewrite Px; reflexivity).
  pose proof (sq_cos_sdr' b o ref est m sar HL H) as Hm.
  destruct (Nat.eqb_spec (filter_length o) 1) as [E1|N1].
  - destruct (HL1 E1) as [Hlen Hn].
    pose proof (sdr_entry1 b o ref est m 0 d _ y Hwr Hwe Hm E1 Hlen Px Py) as Es.
    destruct (sar_entry1 b o ref est m sar d y Hwr Hwe H E1 Hlen Hcl Hd Py) as (q & (h & N & Eq) & Ea).
    set (g := dot (a_len ref) (smp (unit_of (pre (zero_mean o) x))) (smp y)) in *.
    exists (g ^ 2)%R. split; auto. split; [apply pow2_ge_0|]. split.
    + rewrite Ea. f_equal. rewrite Eq. rewrite H1 in *. specialize (N 0 ltac:(lia)).
      unfold Rmv, gram, qval in *. cbn [gsum Nat.eqb] in *. rewrite E0 in *. fold g in N |- *.
      pose proof (energy_unit_1 (a_len ref) (pre (zero_mean o) x) ltac:(rewrite length_pre; lia) Hn) as EE. unfold energy in EE.
      rewrite EE in N. assert (N' : ((1 + loadv (load_diag o)) * h 0%nat = g)%R) by lra. rewrite <- N' at 2. rewrite <- N'. field. lra.
    + intros Z l _. assert (Z' : (g * g = 0)%R) by (rewrite <- Z; ring).
      destruct (Rmult_integral _ _ Z'); auto.
  - set (nf := n_fft (a_len ref) (a_len est)).
    destruct (sdr_entry b o ref est m 0 d _ y Hm Hcg N1 (proj1 Hx) Hd Px Py) as (q & Hq & Es). fold nf in Hq.
    destruct (sar_entry b o ref est m sar d y H Hcg ltac:(lia) Hcl Hd Py) as (HLn & q' & Hq' & Ea). fold nf in HLn, Hq'.
    rewrite Nat.min_l in Hq by auto. rewrite H1, Nat.mul_1_r in Hq'.
    assert (EQ : q' = q).
    { apply (lsq_unique (filter_length o) nf (cdelayed nf (unit_of (pre (zero_mean o) x))) (loadv (load_diag o)) (smp y)); auto.
      assert (EC : forall i t, all_cdelays nf 1 (pc (zero_mean o) ref) i t = cdelayed nf (unit_of (pre (zero_mean o) x)) i t).
      { intros i t. unfold all_cdelays. rewrite Nat.mod_1_r, Nat.div_1_r, E0. reflexivity. }
      eapply lsq_ext; [| |exact Hq']; intros; apply dot_ext; auto. }
    destruct (lsq_form _ _ _ _ _ _ Hld Hq) as [P0 PO].
    exists q. split; auto. split; auto. split; [rewrite Ea, EQ; reflexivity|]. intros Z l Hl. apply PO; auto.
Qed.

Definition best_loss (o : opts) : xr := match clamp_db o with None => NInf | Some D => Fin (- D) end.
Lemma best_loss_coh o r : (forall D, clamp_db o = Some D -> 0 <= D)%R -> (1 <= r)%R -> coherence_to_neg_sdr (clamp_db o) (Fin r) = best_loss o.
Proof.
  intros HD Hr. unfold best_loss.
  assert (E : coherence_to_neg_sdr None (Fin r) = NInf) by (apply neg_sdr_neg_inf; right; eexists; split; eauto).
  destruct (clamp_db o) as [D|]; auto. specialize (HD D eq_refl). rewrite clamp_saturates by (auto; discriminate). rewrite E.
  replace (xmax (Fin (- D)) NInf) with (Fin (- D)) by reflexivity. rewrite xmin_fin. f_equal. apply Rmin_right. lra.
Qed.
Lemma xdiv_00 : xdiv (Fin 0) (Fin 0) = NaN.
Proof. simpl. replace (Reqb 0 0) with true by (symmetry; apply Reqb_true; auto). reflexivity. Qed.

(** the metrics of one pair *)
Lemma one_ref_base o s : (forall D, clamp_db o = Some D -> 0 <= D)%R -> (0 <= loadv (load_diag o))%R -> (0 <= s)%R ->
  let r := base_metrics o (Fin s) (Fin (if Nat.eqb (filter_length o) 1 then s / (1 + loadv (load_diag o)) else s)%R) in
  (s = 0%R -> snd (fst r) = NaN) /\ (s <> 0%R -> snd (fst r) = best_loss o) /\
  (filter_length o <> 1 \/ load_diag o = None -> snd r = fst (fst r)).
Proof.
  intros HD Hl Hs r. unfold r, base_metrics. cbn [fst snd]. set (a := (if Nat.eqb (filter_length o) 1 then s / (1 + loadv (load_diag o)) else s)%R).
  assert (Ha : s = 0%R -> a = 0%R).
  { intros ->. unfold a. destruct (Nat.eqb _ _); auto. unfold Rdiv. ring. }
  split; [|split].
  - intros Z. rewrite Ha, Z, xdiv_00 by auto. apply neg_sdr_nan.
  - intros Z. assert (Pa : (0 < a <= s)%R).
    { unfold a. destruct (Nat.eqb _ _); [|lra]. split; [apply Rdiv_lt_0_compat; lra|].
      apply Rmult_le_reg_r with (1 + loadv (load_diag o))%R; [lra|]. unfold Rdiv. rewrite Rmult_assoc, Rinv_l by lra.
      assert (0 <= s * loadv (load_diag o))%R by (apply Rmult_le_pos; auto). lra. }
    rewrite xdiv_fin by lra. apply best_loss_coh; auto.
    apply Rmult_le_reg_r with a; [lra|]. unfold Rdiv. rewrite Rmult_assoc, Rinv_l by lra. lra.
  - intros H. f_equal. f_equal. unfold a. destruct (Nat.eqb_spec (filter_length o) 1) as [E|N]; auto.
    destruct H as [H|H]; [contradiction|]. rewrite H. simpl. field.
Qed.

(** coherence 0 = orthogonal *)
Lemma one_ref_orth b o ref est m sar d x y : wf ref -> wf est -> n_chan ref = 1 -> has_chan ref 0 x -> has_chan est d y ->
  use_cg_iter o = None -> (0 <= loadv (load_diag o))%R -> 1 <= filter_length o <= Nat.max (a_len ref) (a_len est) ->
  (filter_length o = 1 -> a_len ref = a_len est /\ (norm_eps <= norm2 (pre (zero_mean o) x))%R) ->
  sq_cos b o ref est = Ok (m, sar) ->
  exists s, mat_of m 0 d = Fin s /\ (0 <= s)%R /\
    nth d sar NaN = Fin (if Nat.eqb (filter_length o) 1 then s / (1 + loadv (load_diag o)) else s)%R /\
    (s = 0%R <-> orthogonal_to (filter_length o) (pre (zero_mean o) x) (pre (zero_mean o) y)).
Proof.
  intros Hwr Hwe H1 Hx Hy Hcg Hld HL HL1 H.
  destruct (has_chan_pchan (zero_mean o) est d y Hwe Hy) as [Py Ly]. destruct (has_chan_pchan (zero_mean o) ref 0 x Hwr Hx) as [Px Lx].
  destruct (one_ref_pair b o ref est m sar d x _ Hwr Hwe H1 Hx Py (proj1 Hy) Hcg Hld ltac:(lia) HL1 H) as (s & E1 & P & E2 & HO).
  exists s. split; auto. split; auto. split; auto. split.
  - intros Z l Hl. specialize (HO Z l Hl).
    assert (HU : xcorr (unit_of (pre (zero_mean o) x)) (unit_of (pre (zero_mean o) y)) l = 0%R).
    { destruct (Nat.eqb_spec (filter_length o) 1) as [E|N].
      - assert (l = 0) by lia. subst l. unfold xcorr. rewrite length_unit_of, length_pre, Lx.
        etransitivity; [|exact HO]. apply Rsum_ext. intros t _. rewrite Nat.add_0_r. reflexivity.
      - pose proof (n_fft_ge (a_len ref) (a_len est) (proj1 Hwr)) as Hnf. pose proof (proj1 Hwr : 0 < a_len ref) as Hp.
        rewrite <- (stats_xcorr_plain (n_fft (a_len ref) (a_len est)) (filter_length o)) by (rewrite ?length_unit_of, ?length_pre; lia).
        rewrite sdr_crhs by lia. exact HO. }
    rewrite xcorr_unit in HU. pose proof (gain_pos (pre (zero_mean o) x)). pose proof (gain_pos (pre (zero_mean o) y)).
    destruct (Rmult_integral _ _ HU) as [HZ|HZ]; auto. exfalso. destruct (Rmult_integral _ _ HZ); lra.
  - intros Ho. assert (HL0 : 0 < filter_length o) by lia.
    pose proof (orth_coh b o ref est m 0 d x y Hwr Hwe HL (fun E => proj1 (HL1 E)) Hx Hy Ho (sq_cos_sdr' b o ref est m sar HL0 H)) as E. congruence.
Qed.

(** ** compute_permutation = False *)
Definition best_value (o : opts) : xr := match clamp_db o with None => PInf | Some D => Fin D end.
Lemma neg_best o : xneg (best_loss o) = best_value o.
Proof. unfold best_loss, best_value. destruct (clamp_db o); simpl; auto. rewrite Ropp_involutive. reflexivity. Qed.

Theorem one_ref_noperm b o ref est x y sdrs sirs sars : wf ref -> wf est -> n_chan ref = 1 -> has_chan ref 0 x -> has_chan est 0 y ->
  use_cg_iter o = None -> (0 <= loadv (load_diag o))%R -> (forall D, clamp_db o = Some D -> 0 <= D)%R ->
  1 <= filter_length o <= Nat.max (a_len ref) (a_len est) ->
  (filter_length o = 1 -> a_len ref = a_len est /\ (norm_eps <= norm2 (pre (zero_mean o) x))%R) ->
  bss_eval_sources_noperm b o ref est = Ok (sdrs, sirs, sars) ->
  (filter_length o <> 1 \/ load_diag o = None -> sars = sdrs) /\
  (orthogonal_to (filter_length o) (pre (zero_mean o) x) (pre (zero_mean o) y) -> sirs = [NaN]) /\
  (~ orthogonal_to (filter_length o) (pre (zero_mean o) x) (pre (zero_mean o) y) -> sirs = [best_value o]).
Proof.
  intros Hwr Hwe H1 Hx Hy Hcg Hld HD HL HL1 H.
  assert (H2 : n_chan ref = n_chan est).
  { unfold bss_eval_sources_noperm in H. destruct (Nat.eqb_spec (n_chan ref) (n_chan est)); [auto|discriminate]. }
  rewrite noperm_diag in H by (auto; lia).
  destruct (sq_cos b o ref est) as [[m sar]|] eqn:E; [|discriminate]. cbn [bind] in H. unfold bss_mats in H. rewrite H1 in H.
  destruct (one_ref_orth b o ref est m sar 0 x y Hwr Hwe H1 Hx Hy Hcg Hld HL HL1 E) as (s & E1 & P & E2 & HO).
  destruct (one_ref_base o s HD Hld P) as (B1 & B2 & B3). rewrite <- E1, <- E2 in B1, B2, B3.
  injection H as <- <- <-. unfold base_metrics in B1, B2, B3. cbn [fst snd] in B1, B2, B3.
  unfold diag_out, tab. cbn [seq map]. split; [|split].
  - intros Q. rewrite (B3 Q). reflexivity.
  - intros Q. rewrite B1 by (apply HO; auto). reflexivity.
  - intros Q. rewrite B2 by (intros Z; apply Q, HO; auto). rewrite neg_best. reflexivity.
Qed.

(** ** compute_permutation = True without clamp_db: an exception *)
Theorem one_ref_raises b sp o ref est x : wf ref -> wf est -> n_chan ref = 1 -> has_chan ref 0 x -> 0 < n_chan est ->
  use_cg_iter o = None -> (0 <= loadv (load_diag o))%R -> clamp_db o = None -> 0 < filter_length o ->
  (filter_length o = 1 -> a_len ref = a_len est /\ (norm_eps <= norm2 (pre (zero_mean o) x))%R) ->
  raises (bss_eval_sources b sp o ref est).
Proof.
  intros Hwr Hwe H1 Hx Hn Hcg Hld HD HL HL1. unfold bss_eval_sources.
  destruct (sq_cos b o ref est) as [[m sar]|e] eqn:E; [|eexists; reflexivity]. cbn [bind].
  assert (HV : forall d, d < n_chan est -> snd (fst (bss_mats o (m, sar))) 0 d = NaN \/ snd (fst (bss_mats o (m, sar))) 0 d = NInf).
  { intros d Hd. simpl. destruct (pchan (zero_mean o) est d) as [y|] eqn:Py.
    - destruct (one_ref_pair b o ref est m sar d x y Hwr Hwe H1 Hx Py Hd Hcg Hld HL HL1 E) as (s & E1 & P & E2 & _).
      destruct (one_ref_base o s ltac:(intros D Q; congruence) Hld P) as (B1 & B2 & _). rewrite <- E1, <- E2 in B1, B2. unfold base_metrics in B1, B2. cbn [fst snd] in B1, B2.
      destruct (Req_EM_T s 0) as [Z|Z]; [left; auto|right]. rewrite B2 by auto. unfold best_loss. rewrite HD. reflexivity.
    - left. apply neg_sdr_no_nan. rewrite (proj2 (sdr_coh_nan b o ref est m 0 d (sq_cos_sdr' b o ref est m sar HL E) ltac:(lia) Hd)) by auto.
      reflexivity. }
  destruct (bss_mats o (m, sar)) as [[nsdr nsir] nsar]. cbn [fst snd] in HV. rewrite H1.
  destruct (find_entry 1 (n_chan est) nsir is_nan) as [(i & j & Hi & Hj & Ev)|HN].
  - assert (i = 0) by lia. subst i. rewrite (solve_perm_nan sp b 1 (n_chan est) nsir _ 0 j Hi Hj); [eexists; reflexivity|].
    destruct (nsir 0 j); auto; discriminate.
  - destruct (solve_perm_allinf sp b 1 (n_chan est) nsir [nsdr; nsar] ltac:(lia) Hn) as (e & Ee).
    + intros i j Hi Hj. assert (i = 0) by lia. subst i. specialize (HN 0 j Hi Hj).
      destruct (HV j Hj) as [Q|Q]; rewrite Q in *; [discriminate|reflexivity].
    + rewrite Ee. eexists. reflexivity.
Qed.

(** ** compute_permutation = True with clamp_db: the selection is arbitrary *)
(** a correct solver that takes column d of a one-row matrix whenever it is a minimum *)
Definition pick (d : nat) : scipy_lsa := fun n m c =>
  if Nat.eqb n 1 && (d <? m) && forallb (fun j => if Rle_dec (c 0 d) (c 0 j) then true else false) (seq 0 m)
  then [(0, d)] else reference_lsa n m c.
Lemma pick_contract d : lsa_contract (pick d).
Proof.
  intros n m c. unfold pick. destruct (Nat.eqb n 1 && (d <? m) && _) eqn:E; [|apply reference_lsa_contract].
  apply andb_prop in E. destruct E as [E HF]. apply andb_prop in E. destruct E as [En Ed].
  apply Nat.eqb_eq in En. apply Nat.ltb_lt in Ed. subst n. rewrite forallb_forall in HF. split; [split|].
  - split; [cbn [length]; rewrite Nat.min_l by lia; reflexivity|]. split; [|split; repeat constructor; simpl; tauto].
    intros i j [Q|[]]. injection Q as <- <-. lia.
  - intros l (Ll & Lb & _). rewrite Nat.min_l in Ll by lia. destruct l as [|[i j] [|? ?]]; try discriminate.
    destruct (Lb i j (or_introl eq_refl)) as [Hi Hj]. assert (i = 0) by lia. subst i.
    specialize (HF j ltac:(apply in_seq; lia)). destruct (Rle_dec _ _) as [Hle|]; [|discriminate].
    unfold total_cost. simpl. lra.
  - unfold rows_increasing. simpl. repeat constructor.
Qed.

Theorem one_ref_clamped b sp o ref est x D m sar : lsa_contract sp -> wf ref -> wf est -> n_chan ref = 1 -> has_chan ref 0 x -> 0 < n_chan est ->
  use_cg_iter o = None -> (0 <= loadv (load_diag o))%R -> clamp_db o = Some D -> (0 <= D)%R ->
  1 <= filter_length o <= Nat.max (a_len ref) (a_len est) ->
  (filter_length o = 1 -> a_len ref = a_len est /\ (norm_eps <= norm2 (pre (zero_mean o) x))%R) ->
  (forall d, d < n_chan est -> exists y, has_chan est d y /\
     ~ orthogonal_to (filter_length o) (pre (zero_mean o) x) (pre (zero_mean o) y)) ->
  sq_cos b o ref est = Ok (m, sar) ->
  (exists sdr1 sar1 d, bss_eval_sources b sp o ref est = Ok ([sdr1], [Fin D], [sar1], [d]) /\ d < n_chan est /\
     (filter_length o <> 1 \/ load_diag o = None -> sar1 = sdr1)) /\
  (b = NumPy -> forall d, d < n_chan est -> exists sp', lsa_contract sp' /\ exists sdr1 sar1,
     bss_eval_sources b sp' o ref est = Ok ([sdr1], [Fin D], [sar1], [d])).
Proof.
  intros Hsp Hwr Hwe H1 Hx Hn Hcg Hld HD HD0 HL HL1 HO E.
  assert (HD' : forall D', clamp_db o = Some D' -> (0 <= D')%R) by (intros D' Q; rewrite HD in Q; injection Q as <-; auto).
  assert (HV : forall d, d < n_chan est -> snd (fst (bss_mats o (m, sar))) 0 d = Fin (- D) /\
    (filter_length o <> 1 \/ load_diag o = None -> snd (bss_mats o (m, sar)) 0 d = fst (fst (bss_mats o (m, sar))) 0 d)).
  { intros d Hd. simpl. destruct (HO d Hd) as (y & Hy & HNO).
    destruct (one_ref_orth b o ref est m sar d x y Hwr Hwe H1 Hx Hy Hcg Hld HL HL1 E) as (s & E1 & P & E2 & HZ).
    destruct (one_ref_base o s HD' Hld P) as (B1 & B2 & B3). rewrite <- E1, <- E2 in B1, B2, B3. unfold base_metrics in B1, B2, B3. cbn [fst snd] in B1, B2, B3.
    split; auto. rewrite B2 by (intros Z; apply HNO, HZ; auto). unfold best_loss. rewrite HD. reflexivity. }
  assert (HB : forall sp' l, bss_eval_sources b sp' o ref est =
    (do r <- solve_permutation b sp' 1 (n_chan est) (snd (fst (bss_mats o (m, sar)))) [fst (fst (bss_mats o (m, sar))); snd (bss_mats o (m, sar))];
     let '(sir, args, perm) := r in Ok (map xneg (nth 0 args []), map xneg sir, map xneg (nth 1 args []), perm)) /\
    (lsa_with_inf b sp' 1 (n_chan est) (snd (fst (bss_mats o (m, sar)))) = Ok l ->
     forall d, l = [(0, d)] -> d < n_chan est ->
     exists sdr1 sar1, bss_eval_sources b sp' o ref est = Ok ([sdr1], [Fin D], [sar1], [d]) /\
       (filter_length o <> 1 \/ load_diag o = None -> sar1 = sdr1))).
  { intros sp' l. assert (EB : bss_eval_sources b sp' o ref est =
      (do r <- solve_permutation b sp' 1 (n_chan est) (snd (fst (bss_mats o (m, sar)))) [fst (fst (bss_mats o (m, sar))); snd (bss_mats o (m, sar))];
       let '(sir, args, perm) := r in Ok (map xneg (nth 0 args []), map xneg sir, map xneg (nth 1 args []), perm))).
    { unfold bss_eval_sources. rewrite E, H1. cbn [bind]. destruct (bss_mats o (m, sar)) as [[? ?] ?]. reflexivity. }
    split; auto. intros El d -> Hd. rewrite EB. destruct (HV d Hd) as [V1 V2].
    destruct (bss_mats o (m, sar)) as [[nsdr nsir] nsar]. cbn [fst snd] in *. unfold solve_permutation.
    replace (n_chan est <? 1) with false by (symmetry; apply Nat.ltb_ge; lia). cbv zeta iota. rewrite El. cbn [bind map fst snd nth].
    rewrite V1. cbn [xneg]. rewrite Ropp_involutive. eexists; eexists; split; [reflexivity|]. intros Q. rewrite V2 by auto. reflexivity. }
  assert (HF : forall i j, i < 1 -> j < n_chan est -> is_fin (snd (fst (bss_mats o (m, sar))) i j) = true).
  { intros i j Hi Hj. assert (i = 0) by lia. subst i. destruct (HV j Hj) as [-> _]. reflexivity. }
  split.
  - destruct (lsa_inf_finite sp Hsp b 1 (n_chan est) _ HF) as (l & El & ((Ll & Lb & _) & _) & _).
    rewrite Nat.min_l in Ll by lia. destruct l as [|[i d] [|? ?]]; try discriminate.
    destruct (Lb i d (or_introl eq_refl)) as [Hi Hd]. assert (i = 0) by lia. subst i.
    destruct (HB sp [(0, d)]) as [_ Q]. destruct (Q El d eq_refl Hd) as (sdr1 & sar1 & Q1 & Q2). exists sdr1, sar1, d. auto.
  - intros -> d Hd. exists (pick d). split; [apply pick_contract|].
    destruct (HB (pick d) [(0, d)]) as [_ Q]. destruct Q with (d := d) as (sdr1 & sar1 & Q1 & _); auto; [|eauto].
    unfold lsa_with_inf.
    replace (existsb2 1 (n_chan est) (fun i j => is_neginf (snd (fst (bss_mats o (m, sar))) i j))) with false.
    2:{ symmetry. apply existsb2_false. intros i j Hi Hj. specialize (HF i j Hi Hj). destruct (snd (fst (bss_mats o (m, sar))) i j); auto; discriminate. }
    replace (existsb2 1 (n_chan est) (fun i j => is_posinf (snd (fst (bss_mats o (m, sar))) i j))) with false.
    2:{ symmetry. apply existsb2_false. intros i j Hi Hj. specialize (HF i j Hi Hj). destruct (snd (fst (bss_mats o (m, sar))) i j); auto; discriminate. }
    cbn [andb orb]. unfold lsa.
    replace (existsb2 1 (n_chan est) (fun i j => negb (is_fin (snd (fst (bss_mats o (m, sar))) i j)))) with false.
    2:{ symmetry. apply existsb2_false. intros i j Hi Hj. rewrite HF by auto. reflexivity. }
    unfold pick. rewrite (proj2 (Nat.ltb_lt _ _) Hd). cbn [Nat.eqb andb].
    replace (forallb _ _) with true; [reflexivity|]. symmetry. apply forallb_forall. intros j Hj. apply in_seq in Hj.
    destruct (HV d Hd) as [-> _]. destruct (HV j ltac:(lia)) as [-> _]. destruct (Rle_dec _ _) as [|N]; auto. exfalso. apply N. lra.
Qed.
