(** * Preprocessing of the signals: mean removal, normalisation, non-finite samples *)
From Coq Require Import Reals Lra.
From Verif Require Import Prelude ExtReal Sums Helpers Metrics SpecSig StatsProofs LeastSq.
Local Open Scope nat_scope.

Lemma fin_list_map l : fin_list (map Fin l) = Some l.
Proof. induction l; simpl; auto. rewrite IHl. auto. Qed.
Lemma fin_list_nonfin l i : is_fin (nth i l (Fin 0)) = false -> fin_list l = None.
Proof.
  revert i; induction l as [|a l IH]; intros i H.
  - destruct i; discriminate.
  - destruct i as [|i]; simpl in *.
    + destruct a; auto. discriminate.
    + rewrite (IH i H). destruct a; auto.
Qed.
Lemma all_fin_map x : (forall i, is_fin (nth i x (Fin 0)) = true) -> exists v, x = map Fin v.
Proof.
  induction x as [|a x IH]; intros H; [exists []; auto|].
  destruct IH as [v Hv]. { intros i. apply (H (S i)). }
  pose proof (H 0) as H0. simpl in H0. destruct a as [r| | |]; try discriminate.
  exists (r :: v). simpl. rewrite Hv. auto.
Qed.
Lemma nonfin_dec x : (forall i, is_fin (nth i x (Fin 0)) = true) \/
  exists i, i < length x /\ is_fin (nth i x (Fin 0)) = false.
Proof.
  induction x as [|a x IH].
  - left. intros [|i]; auto.
  - destruct (is_fin a) eqn:E.
    + destruct IH as [H|(i & Hi & H)].
      * left. intros [|i]; simpl; auto.
      * right. exists (S i). split; [simpl; lia|auto].
    + right. exists 0. split; [simpl; lia|auto].
Qed.

Lemma fold_Rsum l : fold_right Rplus 0%R l = Rsum (length l) (fun t => nth t l 0%R).
Proof.
  induction l as [|a l IH]; auto.
  cbn [length]. rewrite Rsum_S_l. simpl. rewrite IH. reflexivity.
Qed.
Lemma nth_map_R (f : R -> R) l t : t < length l -> nth t (map f l) 0%R = f (nth t l 0%R).
Proof. intros H. rewrite (nth_indep _ 0%R (f 0%R)) by (rewrite map_length; auto). apply map_nth. Qed.

Lemma norm_fin v : norm (map Fin v) = Fin (norm2 v).
Proof.
  unfold norm. rewrite map_map. rewrite (map_ext _ (fun u => Fin (u * u))) by reflexivity.
  rewrite <- (map_map (fun u => u * u)%R Fin). rewrite xsum_fin, fold_Rsum, map_length.
  rewrite (Rsum_ext _ _ (fun t => smp v t ^ 2)%R).
  2:{ intros t Ht. rewrite nth_map_R by auto. unfold smp. ring. }
  simpl. replace (Rltb _ 0) with false; auto.
  symmetry. apply Rltb_false. apply Rsum_nonneg. intros t _. apply pow2_ge_0.
Qed.

(** the factor applied by _normalize *)
Definition gain (v : list R) : R := (/ Rmax (norm2 v) norm_eps)%R.
Definition unit_of (v : list R) : list R := map (fun u => gain v * u)%R v.

Lemma eps_pos : (0 < norm_eps)%R.
Proof. unfold norm_eps. apply Rinv_0_lt_compat, pow_lt. lra. Qed.
Lemma gain_den v : (0 < Rmax (norm2 v) norm_eps)%R.
Proof. pose proof eps_pos. pose proof (Rmax_r (norm2 v) norm_eps). lra. Qed.
Lemma gain_pos v : (0 < gain v)%R.
Proof. apply Rinv_0_lt_compat, gain_den. Qed.

Lemma normalize_fin v : normalize (map Fin v) = map Fin (unit_of v).
Proof.
  unfold normalize. rewrite norm_fin. unfold clamp. cbv iota zeta. rewrite xmax_fin.
  rewrite map_map. unfold unit_of. rewrite map_map. apply map_ext. intros u.
  rewrite xdiv_fin by (pose proof (gain_den v); lra). f_equal. unfold gain. field.
  pose proof (gain_den v); lra.
Qed.
Lemma remove_mean_fin v : 0 < length v -> remove_mean (map Fin v) = map Fin (centered v).
Proof.
  intros H. unfold remove_mean. rewrite xsum_fin, fold_Rsum, map_length. cbv zeta.
  rewrite xdiv_fin by (apply not_0_INR; lia). rewrite !map_map. unfold centered. rewrite map_map.
  reflexivity.
Qed.
Theorem prep_fin zm v : 0 < length v -> prep zm (map Fin v) = Some (unit_of (pre zm v)).
Proof.
  intros H. unfold prep, pre. destruct zm.
  - rewrite remove_mean_fin, normalize_fin by auto. apply fin_list_map.
  - rewrite normalize_fin. apply fin_list_map.
Qed.

(** ** Non-finite samples *)
Lemma xadd_nonfin_l a b : is_fin a = false -> is_fin (xadd a b) = false.
Proof. destruct a, b; simpl; congruence. Qed.
Lemma xadd_nonfin_r a b : is_fin b = false -> is_fin (xadd a b) = false.
Proof. destruct a, b; simpl; congruence. Qed.
Lemma xsum_nonfin l i : is_fin (nth i l (Fin 0)) = false -> is_fin (xsum l) = false.
Proof.
  revert i; induction l as [|a l IH]; intros i H.
  - destruct i; discriminate.
  - destruct i as [|i]; simpl in *.
    + apply xadd_nonfin_l; auto.
    + apply xadd_nonfin_r. apply (IH i H).
Qed.
Definition not_neginf (a : xr) : Prop := a <> NInf.
Lemma xsum_not_neginf l : (forall a, In a l -> a <> NInf) -> xsum l <> NInf.
Proof.
  induction l as [|a l IH]; simpl; intros H; [discriminate|].
  assert (H1 : a <> NInf) by auto. assert (H2 : xsum l <> NInf) by auto.
  unfold xsum in *. simpl. destruct a, (fold_right xadd (Fin 0) l); simpl; congruence.
Qed.
Lemma xmul_self a : xmul a a <> NInf.
Proof. destruct a; simpl; congruence. Qed.
Lemma xmul_self_nonfin a : is_fin a = false -> is_fin (xmul a a) = false.
Proof. destruct a; simpl; congruence. Qed.

Lemma normalize_nonfin x i : i < length x -> is_fin (nth i x (Fin 0)) = false ->
  is_fin (nth i (normalize x) (Fin 0)) = false.
Proof.
  intros Hi H. unfold normalize.
  assert (Hd : norm x = PInf \/ norm x = NaN).
  { unfold norm. set (s := xsum _).
    assert (Hs : is_fin s = false).
    { apply (xsum_nonfin _ i). rewrite (nth_indep _ (Fin 0) (xmul (Fin 0) (Fin 0)))
        by (rewrite map_length; auto).
      rewrite (map_nth (fun v => xmul v v)). apply xmul_self_nonfin. auto. }
    assert (Hn : s <> NInf).
    { apply xsum_not_neginf. intros a Ha. apply in_map_iff in Ha. destruct Ha as (u & <- & _).
      apply xmul_self. }
    destruct s; simpl in *; try congruence; auto. }
  set (d := clamp (norm x) (Some norm_eps) None).
  assert (Hd' : d = PInf \/ d = NaN).
  { unfold d. destruct Hd as [-> | ->]; simpl; auto. }
  rewrite (nth_indep _ (Fin 0) (xdiv (Fin 0) d)) by (rewrite map_length; auto).
  rewrite (map_nth (fun v => xdiv v d)).
  destruct Hd' as [-> | ->]; destruct (nth i x (Fin 0)); simpl in *; congruence.
Qed.
Lemma remove_mean_nonfin x i : i < length x -> is_fin (nth i x (Fin 0)) = false ->
  is_fin (nth i (remove_mean x) (Fin 0)) = false.
Proof.
  intros Hi H. unfold remove_mean.
  set (mu := xdiv (xsum x) (Fin (INR (length x)))).
  rewrite (nth_indep _ (Fin 0) (xsub (Fin 0) mu)) by (rewrite map_length; auto).
  rewrite (map_nth (fun v => xsub v mu)). unfold xsub. apply xadd_nonfin_l; auto.
Qed.
Theorem prep_nonfin zm x i : i < length x -> is_fin (nth i x (Fin 0)) = false -> prep zm x = None.
Proof.
  intros Hi H. unfold prep. destruct zm.
  - apply (fin_list_nonfin _ i). apply normalize_nonfin.
    + unfold remove_mean. rewrite map_length. auto.
    + apply remove_mean_nonfin; auto.
  - apply (fin_list_nonfin _ i). apply normalize_nonfin; auto.
Qed.
Theorem prep_none_iff zm x : 0 < length x ->
  (prep zm x = None <-> exists i, i < length x /\ is_fin (nth i x (Fin 0)) = false).
Proof.
  intros Hl. split.
  - intros H. destruct (nonfin_dec x) as [Hf|Hn]; auto.
    apply all_fin_map in Hf. destruct Hf as [v ->]. rewrite map_length in Hl.
    rewrite prep_fin in H by auto. discriminate.
  - intros (i & Hi & H). apply (prep_nonfin zm x i); auto.
Qed.
Theorem prep_some_inv zm x u : 0 < length x -> prep zm x = Some u ->
  exists v, x = map Fin v /\ u = unit_of (pre zm v).
Proof.
  intros Hl H. destruct (nonfin_dec x) as [Hf|(i & Hi & Hn)].
  - apply all_fin_map in Hf. destruct Hf as [v ->]. exists v. split; auto.
    rewrite map_length in Hl. rewrite prep_fin in H by auto. congruence.
  - rewrite (prep_nonfin zm x i) in H by auto. discriminate.
Qed.

(** ** The normalised signals *)
Lemma length_unit_of v : length (unit_of v) = length v.
Proof. apply map_length. Qed.
Lemma length_pre zm v : length (pre zm v) = length v.
Proof. destruct zm; simpl; auto. apply map_length. Qed.
Lemma smp_unit_of v t : smp (unit_of v) t = (gain v * smp v t)%R.
Proof.
  unfold smp, unit_of. destruct (Nat.lt_ge_cases t (length v)) as [H|H].
  - rewrite nth_map_R; auto.
  - rewrite !nth_overflow by (rewrite ?map_length; auto). ring.
Qed.
Lemma norm2_nonneg v : (0 <= norm2 v)%R.
Proof. apply sqrt_pos. Qed.
Lemma norm2_sq v : (norm2 v ^ 2 = Rsum (length v) (fun t => smp v t ^ 2))%R.
Proof.
  unfold norm2. rewrite pow2_sqrt; auto. apply Rsum_nonneg. intros t _. apply pow2_ge_0.
Qed.
Lemma energy_smp M v : length v <= M -> energy M (smp v) = (norm2 v ^ 2)%R.
Proof.
  intros H. rewrite norm2_sq. unfold energy, dot. rewrite (Rsum_trunc M (length v)); auto.
  - apply Rsum_ext. intros; ring.
  - intros t Ht _. unfold smp. rewrite nth_overflow by auto. ring.
Qed.
Lemma norm2_silent v : norm2 v = 0%R <-> silent v.
Proof.
  split.
  - intros H t. destruct (Nat.lt_ge_cases t (length v)) as [Ht|Ht].
    + pose proof (energy_smp (length v) v (Nat.le_refl _)) as E. rewrite H in E.
      apply (energy_zero (length v) (smp v)); auto. rewrite E. ring.
    + unfold smp. apply nth_overflow; auto.
  - intros H. unfold norm2. rewrite Rsum_zero.
    + apply sqrt_0.
    + intros t _. rewrite H. ring.
Qed.
Lemma not_silent_ex v : ~ silent v -> exists t, t < length v /\ smp v t <> 0%R.
Proof.
  intros H.
  assert (D : forall n, (exists t, t < n /\ smp v t <> 0%R) \/ forall t, t < n -> smp v t = 0%R).
  { induction n as [|n [(t & Ht & Hv)|IH]].
    - right. intros; lia.
    - left. exists t. split; auto.
    - destruct (Req_EM_T (smp v n) 0) as [E|E].
      + right. intros t Ht. destruct (Nat.eq_dec t n) as [->|]; auto. apply IH. lia.
      + left. exists n. split; auto. }
  destruct (D (length v)) as [HH|HH]; auto.
  exfalso. apply H. intros t. destruct (Nat.lt_ge_cases t (length v)) as [Ht|Ht]; auto.
  unfold smp. apply nth_overflow; auto.
Qed.
Lemma silent_unit v : silent (unit_of v) <-> silent v.
Proof.
  split; intros H t.
  - specialize (H t). rewrite smp_unit_of in H. apply Rmult_integral in H.
    pose proof (gain_pos v). destruct H; auto. lra.
  - rewrite smp_unit_of, H. ring.
Qed.
Lemma gain_norm v : (norm_eps <= norm2 v)%R -> gain v = (/ norm2 v)%R.
Proof. intros H. unfold gain. rewrite Rmax_left by auto. reflexivity. Qed.
(** energy of a normalised signal: at most 1, and 1 exactly from norm 1e-6 on *)
Lemma energy_unit M v : length v <= M -> energy M (smp (unit_of v)) = ((gain v * norm2 v) ^ 2)%R.
Proof.
  intros H. rewrite (energy_ext M _ (fun t => gain v * smp v t)%R) by (intros; apply smp_unit_of).
  rewrite energy_scal, energy_smp by auto. ring.
Qed.
Lemma energy_unit_le1 M v : length v <= M -> (energy M (smp (unit_of v)) <= 1)%R.
Proof.
  intros H. rewrite energy_unit by auto.
  assert (0 <= gain v * norm2 v <= 1)%R.
  { pose proof (norm2_nonneg v). pose proof (gain_pos v). split; [apply Rmult_le_pos; lra|].
    unfold gain. pose proof (Rmax_l (norm2 v) norm_eps). pose proof (gain_den v).
    apply (Rmult_le_reg_l (Rmax (norm2 v) norm_eps)); auto.
    rewrite <- Rmult_assoc, Rinv_r by lra. lra. }
  rewrite <- (pow1 2). apply pow_incr. lra.
Qed.
Lemma energy_unit_1 M v : length v <= M -> (norm_eps <= norm2 v)%R ->
  energy M (smp (unit_of v)) = 1%R.
Proof.
  intros H Hn. rewrite energy_unit, gain_norm by auto. pose proof eps_pos.
  replace (/ norm2 v * norm2 v)%R with 1%R by (field; lra). ring.
Qed.
