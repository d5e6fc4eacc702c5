(** * Least squares: normal equations, projections, ridge regularisation *)
From Coq Require Import Reals Lra.
From Verif Require Import Prelude Sums LinalgProofs SpecSig StatsProofs.
Local Open Scope nat_scope.

Definition comb (K : nat) (a : nat -> nat -> R) (g : nat -> R) (t : nat) : R :=
  Rsum K (fun k => g k * a k t)%R.
Definition gram (M : nat) (a : nat -> nat -> R) (lam : R) (i j : nat) : R :=
  (dot M (a i) (a j) + if Nat.eqb i j then lam else 0)%R.
Definition sq (K : nat) (g : nat -> R) : R := Rsum K (fun k => g k * g k)%R.
(** h solves the normal equations of y with loading lam *)
Definition normal_eq (K M : nat) (a : nat -> nat -> R) (lam : R) (y h : nat -> R) : Prop :=
  forall i, i < K -> Rmv K (gram M a lam) h i = dot M (a i) y.
Definition qval (K M : nat) (a : nat -> nat -> R) (y h : nat -> R) : R :=
  Rsum K (fun k => dot M (a k) y * h k)%R.

Lemma dot_ext M u u' v v' : (forall t, t < M -> u t = u' t) -> (forall t, t < M -> v t = v' t) ->
  dot M u v = dot M u' v'.
Proof. intros H H'. apply Rsum_ext. intros t Ht. rewrite H, H'; auto. Qed.
Lemma dot_sub_r M u v w : dot M u (fun t => v t - w t)%R = (dot M u v - dot M u w)%R.
Proof. unfold dot. rewrite <- Rsum_minus. apply Rsum_ext. intros; ring. Qed.
Lemma dot_sub_l M u v w : dot M (fun t => v t - w t)%R u = (dot M v u - dot M w u)%R.
Proof. unfold dot. rewrite <- Rsum_minus. apply Rsum_ext. intros; ring. Qed.
Lemma dot_scal_r M u v c : dot M u (fun t => c * v t)%R = (c * dot M u v)%R.
Proof. unfold dot. rewrite <- Rsum_scal_l. apply Rsum_ext. intros; ring. Qed.
Lemma dot_scal_l M u v c : dot M (fun t => c * u t)%R v = (c * dot M u v)%R.
Proof. unfold dot. rewrite <- Rsum_scal_l. apply Rsum_ext. intros; ring. Qed.
Lemma energy_nonneg M u : (0 <= energy M u)%R.
Proof. apply Rsum_nonneg. intros t _. apply Rle_0_sqr. Qed.
Lemma energy_zero M u : energy M u = 0%R -> forall t, t < M -> u t = 0%R.
Proof.
  intros H t Ht. pose proof (Rsum_nonneg_eq0 M (fun t => u t * u t)%R) as E.
  apply Rsqr_0_uniq. apply E; auto. intros i _. apply Rle_0_sqr.
Qed.
Lemma energy_sub M u v : energy M (fun t => u t - v t)%R = (energy M u - 2 * dot M u v + energy M v)%R.
Proof.
  unfold energy. rewrite dot_sub_r, !dot_sub_l. rewrite (dot_comm M v u). ring.
Qed.
Lemma energy_ext M u v : (forall t, t < M -> u t = v t) -> energy M u = energy M v.
Proof. intros H. apply dot_ext; auto. Qed.
Lemma energy_scal M u c : energy M (fun t => c * u t)%R = (c ^ 2 * energy M u)%R.
Proof. unfold energy. rewrite dot_scal_l, dot_scal_r. ring. Qed.
Lemma sq_nonneg K g : (0 <= sq K g)%R.
Proof. apply Rsum_nonneg. intros t _. apply Rle_0_sqr. Qed.
Lemma sq_zero K g : sq K g = 0%R -> forall k, k < K -> g k = 0%R.
Proof. apply (energy_zero K g). Qed.

Lemma dot_comb_r K M a u g : dot M u (comb K a g) = Rsum K (fun k => g k * dot M u (a k))%R.
Proof.
  unfold dot, comb.
  rewrite (Rsum_ext M _ (fun t => Rsum K (fun k => u t * (g k * a k t))%R)).
  2:{ intros t _. rewrite Rsum_scal_l. reflexivity. }
  rewrite Rsum_swap. apply Rsum_ext. intros k _. rewrite <- Rsum_scal_l. apply Rsum_ext.
  intros; ring.
Qed.
Lemma dot_comb_l K M a u g : dot M (comb K a g) u = Rsum K (fun k => g k * dot M (a k) u)%R.
Proof. rewrite dot_comm, dot_comb_r. apply Rsum_ext. intros. rewrite dot_comm. auto. Qed.

Lemma gram_mv K M a lam g i : i < K ->
  Rmv K (gram M a lam) g i = (dot M (a i) (comb K a g) + lam * g i)%R.
Proof.
  intros Hi. rewrite dot_comb_r. unfold mulmv, gram.
  rewrite (Rsum_ext K _ (fun j => g j * dot M (a i) (a j) + (if Nat.eqb j i then lam * g j else 0))%R).
  - rewrite Rsum_plus. rewrite (Rsum_delta K i (fun j => lam * g j)%R) by auto. reflexivity.
  - intros j _. rewrite (Nat.eqb_sym i j). destruct (j =? i); ring.
Qed.
Lemma gram_form K M a lam u v :
  Rsum K (fun i => u i * Rmv K (gram M a lam) v i)%R =
  (dot M (comb K a u) (comb K a v) + lam * Rsum K (fun i => u i * v i))%R.
Proof.
  rewrite dot_comb_l, <- Rsum_scal_l, <- Rsum_plus. apply Rsum_ext. intros i Hi.
  rewrite gram_mv by auto. ring.
Qed.
Lemma qval_form K M a lam y h g : normal_eq K M a lam y h ->
  qval K M a y g = (dot M (comb K a g) (comb K a h) + lam * Rsum K (fun i => g i * h i))%R.
Proof.
  intros H. rewrite <- (gram_form K M a lam g h). apply Rsum_ext. intros i Hi. rewrite H by auto. ring.
Qed.
Lemma qval_dot K M a y g : qval K M a y g = dot M y (comb K a g).
Proof. rewrite dot_comb_r. apply Rsum_ext. intros. rewrite (dot_comm M y). ring. Qed.

Theorem q_energy K M a lam y h : normal_eq K M a lam y h ->
  qval K M a y h = (energy M (comb K a h) + lam * sq K h)%R.
Proof. intros H. apply (qval_form K M a lam y h h H). Qed.

Theorem q_residual K M a lam y h : normal_eq K M a lam y h ->
  (energy M y - qval K M a y h = energy M (fun t => y t - comb K a h t) + lam * sq K h)%R.
Proof.
  intros H. rewrite energy_sub, <- qval_dot. pose proof (q_energy K M a lam y h H). lra.
Qed.

Theorem q_bounds K M a lam y h : (0 <= lam)%R -> normal_eq K M a lam y h ->
  (0 <= qval K M a y h <= energy M y)%R.
Proof.
  intros Hl H. pose proof (q_energy K M a lam y h H) as E1. pose proof (q_residual K M a lam y h H) as E2.
  pose proof (energy_nonneg M (comb K a h)). pose proof (energy_nonneg M (fun t => y t - comb K a h t)%R).
  pose proof (Rmult_le_pos lam (sq K h) Hl (sq_nonneg K h)). lra.
Qed.

(** the value is the maximum of g -> 2 <y, comb g> - |comb g|^2 - lam |g|^2 *)
Theorem q_max K M a lam y h g : (0 <= lam)%R -> normal_eq K M a lam y h ->
  (2 * qval K M a y g - energy M (comb K a g) - lam * sq K g <= qval K M a y h)%R.
Proof.
  intros Hl H. pose proof (qval_form K M a lam y h g H) as E. pose proof (q_energy K M a lam y h H) as E2.
  pose proof (energy_nonneg M (fun t => comb K a g t - comb K a h t)%R) as P1.
  pose proof (energy_nonneg K (fun k => g k - h k)%R) as P2.
  rewrite energy_sub in P1, P2.
  change (energy K g) with (sq K g) in P2. change (energy K h) with (sq K h) in P2.
  unfold dot at 1 in P2.
  pose proof (Rmult_le_pos lam _ Hl P2). lra.
Qed.

(** a subfamily (through an injection) and more loading cannot increase the value *)
Theorem q_mono K1 K2 M a1 a2 lam1 lam2 y h1 h2 (sg : nat -> nat) :
  (0 <= lam2 <= lam1)%R ->
  (forall k, k < K1 -> sg k < K2) ->
  (forall k k', k < K1 -> k' < K1 -> sg k = sg k' -> k = k') ->
  (forall k t, k < K1 -> t < M -> a1 k t = a2 (sg k) t) ->
  normal_eq K1 M a1 lam1 y h1 -> normal_eq K2 M a2 lam2 y h2 ->
  (qval K1 M a1 y h1 <= qval K2 M a2 y h2)%R.
Proof.
  intros [Hl2 Hl] Hsg Hinj Ha N1 N2.
  set (g := fun j => Rsum K1 (fun k => if Nat.eqb j (sg k) then h1 k else 0%R)).
  assert (Hpush : forall c : nat -> R,
    Rsum K2 (fun j => g j * c j)%R = Rsum K1 (fun k => h1 k * c (sg k))%R).
  { intros c. unfold g.
    rewrite (Rsum_ext K2 _ (fun j => Rsum K1 (fun k => if Nat.eqb j (sg k) then h1 k * c j else 0)%R)).
    - rewrite Rsum_swap. apply Rsum_ext. intros k Hk.
      rewrite (Rsum_delta K2 (sg k) (fun j => h1 k * c j)%R) by auto. reflexivity.
    - intros j _. rewrite <- Rsum_scal_r. apply Rsum_ext. intros k _. destruct (j =? sg k); ring. }
  assert (Hg : forall k, k < K1 -> g (sg k) = h1 k).
  { intros k Hk. unfold g. rewrite (Rsum_single K1 k); auto.
    - rewrite Nat.eqb_refl. auto.
    - intros i Hi Hne. destruct (Nat.eqb_spec (sg k) (sg i)); auto.
      exfalso. apply Hne. symmetry. auto. }
  assert (Hcomb : forall t, t < M -> comb K2 a2 g t = comb K1 a1 h1 t).
  { intros t Ht. unfold comb. rewrite (Hpush (fun j => a2 j t)). apply Rsum_ext.
    intros k Hk. rewrite Ha by auto. reflexivity. }
  assert (Hsq : sq K2 g = sq K1 h1).
  { unfold sq. rewrite (Hpush g). apply Rsum_ext. intros k Hk. rewrite Hg; auto. }
  assert (Hq : qval K2 M a2 y g = qval K1 M a1 y h1).
  { rewrite !qval_dot. apply dot_ext; auto. }
  pose proof (q_max K2 M a2 lam2 y h2 g Hl2 N2) as E.
  rewrite Hq, Hsq, (energy_ext M _ _ Hcomb) in E.
  pose proof (q_energy K1 M a1 lam1 y h1 N1) as E1.
  pose proof (Rmult_le_compat_r (sq K1 h1) lam2 lam1 (sq_nonneg K1 h1) Hl). lra.
Qed.

(** ** Projections *)
Theorem normal_projection K M a y h : normal_eq K M a 0 y h -> is_projection K M a y (comb K a h).
Proof.
  intros H. split; [exists h; auto|]. intros k Hk. rewrite dot_sub_r.
  pose proof (H k Hk) as E. rewrite gram_mv in E by auto. lra.
Qed.
Lemma proj_orth K M a y p : is_projection K M a y p -> forall g,
  dot M (comb K a g) (fun t => y t - p t)%R = 0%R.
Proof.
  intros [_ H] g. rewrite dot_comb_l. apply Rsum_zero. intros k Hk. rewrite H by auto. ring.
Qed.
Lemma span_comb K M a p : in_span K M a p -> exists g, forall t, t < M -> p t = comb K a g t.
Proof. intros [g Hg]. exists g. exact Hg. Qed.
Lemma proj_self K M a y p : is_projection K M a y p -> dot M p (fun t => y t - p t)%R = 0%R.
Proof.
  intros H. destruct (span_comb K M a p (proj1 H)) as [g Hg].
  rewrite (dot_ext M p (comb K a g) _ (fun t => y t - p t)%R) by auto. apply (proj_orth K M a y p H).
Qed.
Theorem projection_unique K M a y p p' :
  is_projection K M a y p -> is_projection K M a y p' -> forall t, t < M -> p t = p' t.
Proof.
  intros H H'. destruct (span_comb K M a p (proj1 H)) as [g Hg].
  destruct (span_comb K M a p' (proj1 H')) as [g' Hg'].
  assert (E : energy M (fun t => p t - p' t)%R = 0%R).
  { unfold energy. rewrite dot_sub_l.
    assert (E1 : forall u gu, (forall t, t < M -> u t = comb K a gu t) ->
                  dot M u (fun t => p t - p' t)%R = 0%R).
    { intros u gu Hu. rewrite (dot_ext M u (comb K a gu) _ (fun t => p t - p' t)%R) by auto.
      pose proof (proj_orth K M a y p H gu) as A. pose proof (proj_orth K M a y p' H' gu) as A'.
      rewrite dot_sub_r in A, A' |- *. lra. }
    rewrite (E1 p g Hg), (E1 p' g' Hg'). ring. }
  intros t Ht. pose proof (energy_zero M _ E t Ht) as Z. cbv beta in Z. lra.
Qed.
Theorem proj_pythagoras K M a y p : is_projection K M a y p ->
  energy M y = (energy M p + energy M (fun t => y t - p t))%R.
Proof.
  intros H. pose proof (proj_self K M a y p H) as E. rewrite dot_sub_r in E.
  rewrite energy_sub. rewrite (dot_comm M y p). unfold energy in *. lra.
Qed.
Theorem proj_value K M a y h p : normal_eq K M a 0 y h -> is_projection K M a y p ->
  qval K M a y h = energy M p.
Proof.
  intros N P. pose proof (projection_unique K M a y _ p (normal_projection K M a y h N) P) as E.
  rewrite (q_energy K M a 0 y h N). rewrite (energy_ext M _ _ E). ring.
Qed.
Lemma projection_scale K M a y p c s : (forall k, k < K -> c k <> 0%R) ->
  is_projection K M a y p ->
  is_projection K M (fun k t => c k * a k t)%R (fun t => s * y t)%R (fun t => s * p t)%R.
Proof.
  intros Hc [[g Hg] H]. split.
  - exists (fun k => s * g k / c k)%R. intros t Ht. rewrite Hg by auto. rewrite <- Rsum_scal_l.
    apply Rsum_ext. intros k Hk. field. auto.
  - intros k Hk. rewrite (dot_ext M _ (fun t => c k * a k t)%R _ (fun t => s * (y t - p t))%R)
      by (auto; intros; ring).
    rewrite dot_scal_l, dot_scal_r, H by auto. ring.
Qed.
Lemma projection_ext K M a a' y y' p p' :
  (forall k t, k < K -> t < M -> a k t = a' k t) -> (forall t, t < M -> y t = y' t) ->
  (forall t, t < M -> p t = p' t) -> is_projection K M a y p -> is_projection K M a' y' p'.
Proof.
  intros Ha Hy Hp [[g Hg] H]. split.
  - exists g. intros t Ht. rewrite <- Hp, Hg by auto. apply Rsum_ext. intros k Hk. rewrite Ha; auto.
  - intros k Hk. rewrite <- (H k Hk). apply dot_ext; [|]; intros t Ht.
    + symmetry; auto.
    + rewrite <- Hy, <- Hp; auto.
Qed.

(** ** Solvability *)
Definition independent (K M : nat) (a : nat -> nat -> R) : Prop :=
  forall g, (forall t, t < M -> comb K a g t = 0%R) -> forall k, k < K -> g k = 0%R.

Lemma gram_kernel K M a lam v : (0 <= lam)%R ->
  (forall i, i < K -> Rmv K (gram M a lam) v i = 0%R) ->
  (forall t, t < M -> comb K a v t = 0%R) /\ (lam * sq K v = 0)%R.
Proof.
  intros Hl H. pose proof (gram_form K M a lam v v) as E.
  rewrite Rsum_zero in E by (intros i Hi; rewrite H by auto; ring).
  pose proof (energy_nonneg M (comb K a v)) as P1. unfold energy in P1.
  pose proof (Rmult_le_pos lam (sq K v) Hl (sq_nonneg K v)) as P2. unfold sq in *.
  split; [|lra]. apply energy_zero. unfold energy. lra.
Qed.
Theorem gram_nonsingular K M a lam : (0 <= lam)%R -> independent K M a ->
  nonsingular K (gram M a lam).
Proof.
  intros Hl Hi v Hv. apply Hi. apply (gram_kernel K M a lam v Hl Hv).
Qed.
Theorem gram_nonsingular_loaded K M a lam : (0 < lam)%R -> nonsingular K (gram M a lam).
Proof.
  intros Hl v Hv. apply sq_zero. destruct (gram_kernel K M a lam v (Rlt_le _ _ Hl) Hv) as [_ E].
  apply Rmult_integral in E. destruct E; auto. lra.
Qed.
Theorem gram_singular_dependent K M a : ~ independent K M a -> ~ nonsingular K (gram M a 0).
Proof.
  intros Hd Hn. apply Hd. intros g Hg. apply Hn. intros i Hi.
  rewrite gram_mv by auto. rewrite (dot_ext M _ (a i) _ (fun _ => 0%R)) by auto.
  unfold dot. rewrite Rsum_zero by (intros; ring). ring.
Qed.

(** The delays of a signal that is not silent are independent. *)
Theorem delays_independent x L M t0 : smp x t0 <> 0%R -> t0 + L <= M -> independent L M (delays x).
Proof.
  intros Hx HM.
  (* the first non-zero sample *)
  assert (Hfirst : exists s, s <= t0 /\ smp x s <> 0%R /\ forall u, u < s -> smp x u = 0%R).
  { clear HM. revert Hx. induction t0 as [t0 IH] using (well_founded_induction lt_wf). intros Hx.
    destruct (List.find (fun u => if Req_EM_T (smp x u) 0 then false else true) (seq 0 t0)) as [u|] eqn:E.
    - apply find_some in E. destruct E as [E1 E2]. apply in_seq in E1.
      destruct (Req_EM_T (smp x u) 0) as [Ez|Ez]; [discriminate|].
      destruct (IH u ltac:(lia) Ez) as (s & H1 & H2 & H3). exists s. split; [lia|auto].
    - exists t0. split; auto. split; auto. intros u Hu.
      pose proof (find_none _ _ E u) as H. cbv beta in H.
      destruct (Req_EM_T (smp x u) 0); auto.
      assert (true = false) by (apply H, in_seq; lia). discriminate. }
  clear Hx. destruct Hfirst as (s & Hs & Hx & H0).
  intros g Hg. intros k. induction k as [k IH] using (well_founded_induction lt_wf). intros Hk.
  pose proof (Hg (s + k) ltac:(lia)) as E. unfold comb in E.
  rewrite (Rsum_single L k) in E; auto.
  - unfold delays, delayed in E. destruct (Nat.ltb_spec (s + k) k); [lia|].
    replace (s + k - k) with s in E by lia. apply Rmult_integral in E. tauto.
  - intros i Hi Hne. destruct (Nat.lt_ge_cases i k) as [H|H].
    + rewrite IH by lia. ring.
    + unfold delays, delayed. destruct (Nat.ltb_spec (s + k) i); [ring|].
      rewrite H0 by lia. ring.
Qed.
Lemma silent_dependent x L M : silent x -> 0 < L -> ~ independent L M (delays x).
Proof.
  intros Hx HL Hi. assert (E : (fun _ : nat => 1%R) 0 = 0%R); [|cbv beta in E; lra].
  apply (Hi (fun _ => 1%R)) with (k := 0); auto. intros t _. unfold comb. apply Rsum_zero. intros k _.
  unfold delays, delayed. destruct (t <? k); [ring|]. rewrite Hx. ring.
Qed.
