(** * Rate of convergence of the conjugate gradient iteration (C63) *)
From Coq Require Import Reals Lra.
From Verif Require Import Prelude ExtReal Sums SpecSig Linalg LinalgProofs LeastSq Cgd CgProofs.
Local Open Scope nat_scope.

Definition comb2 (a : R) (x : nat -> R) (b : R) (y : nat -> R) : nat -> R := fun i => (a * x i + b * y i)%R.

(** ** One step of the accelerated gradient method, in any pair of quadratic forms

    The method itself is not part of the code; it is only compared with. *)
Section Accel.
  Variables (N a : (nat -> R) -> (nat -> R) -> R) (S : (nat -> R) -> nat -> R) (mu Lam : R).
  Hypotheses (Nlin : forall c x e y w, N (comb2 c x e y) w = (c * N x w + e * N y w)%R)
             (alin : forall c x e y w, a (comb2 c x e y) w = (c * a x w + e * a y w)%R)
             (Nsym : forall x y, N x y = N y x) (asym : forall x y, a x y = a y x)
             (Sa : forall x y, N (S x) y = a x y)
             (Npos : forall x, (0 <= N x x)%R)
             (Hmu : (0 < mu)%R) (HLam : (0 < Lam)%R)
             (lo : forall x, (mu * N x x <= a x x)%R) (hi : forall x, (a x x <= Lam * N x x)%R).
  Variable q : R.
  Hypotheses (Hq : (q * q * Lam = mu)%R) (Hq0 : (0 < q)%R) (Hq1 : (q <= 1)%R).

  Lemma Nlin_r c x e y w : N w (comb2 c x e y) = (c * N w x + e * N w y)%R.
  Proof. rewrite Nsym, Nlin, (Nsym x), (Nsym y). reflexivity. Qed.
  Lemma alin_r c x e y w : a w (comb2 c x e y) = (c * a w x + e * a w y)%R.
  Proof. rewrite asym, alin, (asym x), (asym y). reflexivity. Qed.

  Definition acc_y (x v : nat -> R) := comb2 (/ (1 + q)) x (q / (1 + q)) v.
  Definition acc_x (x v : nat -> R) := comb2 1 (acc_y x v) (- / Lam) (S (acc_y x v)).
  Definition acc_v (x v : nat -> R) :=
    comb2 1 (comb2 (1 - q) v q (acc_y x v)) (- (q / mu)) (S (acc_y x v)).

  Lemma acc_step x v :
    (a (acc_x x v) (acc_x x v) + mu * N (acc_v x v) (acc_v x v) <= (1 - q) * (a x x + mu * N v v))%R.
  Proof.
    assert (Ay : forall w, ((1 + q) * a (acc_y x v) w = a x w + q * a v w)%R).
    { intros w. unfold acc_y. rewrite alin. field. lra. }
    set (y := acc_y x v) in *. set (g := S y).
    assert (E1 : a (acc_x x v) (acc_x x v) = (a y y - 2 * / Lam * N g g + / Lam * / Lam * a g g)%R).
    { unfold acc_x. fold y. fold g. rewrite alin, !alin_r, (asym g y), <- (Sa y g). fold g. ring. }
    assert (E2 : N (acc_v x v) (acc_v x v) =
      ((1 - q) * (1 - q) * N v v + 2 * q * (1 - q) * N v y + q * q * N y y
       - 2 * (q / mu) * ((1 - q) * a y v + q * a y y) + (q / mu) * (q / mu) * N g g)%R).
    { unfold acc_v. fold y. fold g. repeat first [rewrite Nlin|rewrite Nlin_r].
      rewrite (Nsym v g), (Nsym y g), (Nsym y v). unfold g. rewrite !Sa. fold g. ring. }
    rewrite E1, E2. clear E1 E2.
    pose proof (hi g) as Hg. pose proof (lo y) as Hy.
    pose proof (Ay y) as A1. rewrite (asym x y), (asym v y) in A1.
    (* a (x - y) >= 0 *)
    assert (P1 : (0 <= a x x - 2 * a y x + a y y)%R).
    { pose proof (lo (comb2 1 x (-1) y)) as H. pose proof (Npos (comb2 1 x (-1) y)) as H0.
      rewrite alin, !alin_r, (asym x y) in H.
      assert (0 <= mu * N (comb2 1 x (-1) y) (comb2 1 x (-1) y))%R by (apply Rmult_le_pos; lra). lra. }
    assert (P2 : (0 <= N v v - 2 * N v y + N y y)%R).
    { pose proof (Npos (comb2 1 v (-1) y)) as H. rewrite Nlin, !Nlin_r, (Nsym y v) in H. lra. }
    assert (G1 : (/ Lam * / Lam * a g g <= / Lam * N g g)%R).
    { replace (/ Lam * N g g)%R with (/ Lam * / Lam * (Lam * N g g))%R by (field; lra).
      apply Rmult_le_compat_l; auto. apply Rmult_le_pos; left; apply Rinv_0_lt_compat; auto. }
    assert (G2 : (mu * ((q / mu) * (q / mu) * N g g) = / Lam * N g g)%R) by (rewrite <- Hq; field; lra).
    assert (G3 : (mu * (2 * (q / mu) * ((1 - q) * a y v + q * a y y)) =
                  2 * (1 - q) * (q * a y v) + 2 * q * q * a y y)%R) by (field; lra).
    assert (G4 : (q * a y v = (1 + q) * a y y - a y x)%R) by lra.
    rewrite G4 in G3.
    assert (P3 : (0 <= (1 - q) * (a x x - 2 * a y x + a y y))%R) by (apply Rmult_le_pos; lra).
    assert (P4 : (0 <= mu * (q * (1 - q)) * (N v v - 2 * N v y + N y y))%R).
    { apply Rmult_le_pos; auto. apply Rmult_le_pos; [lra|]. apply Rmult_le_pos; lra. }
    assert (P5 : (0 <= q * (a y y - mu * N y y))%R) by (apply Rmult_le_pos; lra).
    assert (Big : ((1 - q) * (a x x + mu * N v v) -
       (a y y - 2 * / Lam * N g g + / Lam * / Lam * a g g +
        mu * ((1 - q) * (1 - q) * N v v + 2 * q * (1 - q) * N v y + q * q * N y y
       - 2 * (q / mu) * ((1 - q) * a y v + q * a y y) + (q / mu) * (q / mu) * N g g)) =
       (1 - q) * (a x x - 2 * a y x + a y y) + mu * (q * (1 - q)) * (N v v - 2 * N v y + N y y)
       + q * (a y y - mu * N y y) + (/ Lam * N g g - / Lam * / Lam * a g g))%R).
    { transitivity ((1 - q) * (a x x + mu * N v v) -
       (a y y - 2 * / Lam * N g g + / Lam * / Lam * a g g +
        mu * ((1 - q) * (1 - q) * N v v + 2 * q * (1 - q) * N v y + q * q * N y y)
       - mu * (2 * (q / mu) * ((1 - q) * a y v + q * a y y)) + mu * ((q / mu) * (q / mu) * N g g)))%R; [ring|].
      rewrite G2, G3. ring. }
    lra.
  Qed.
End Accel.

(** ** The iterates of the code are at least as good as any method in the same subspaces *)
Definition form (n : nat) (B : nat -> nat -> R) (u w : nat -> R) : R := Rsum n (fun i => u i * Rmv n B w i)%R.

Lemma Rmv_comb2 n B c x e y i : Rmv n B (comb2 c x e y) i = (c * Rmv n B x i + e * Rmv n B y i)%R.
Proof.
  unfold Rmv, comb2. rewrite <- !Rsum_scal_l, <- Rsum_plus. apply Rsum_ext. intros. ring.
Qed.
Lemma Rmv_ext n B u w i : (forall j, j < n -> u j = w j) -> Rmv n B u i = Rmv n B w i.
Proof. intros H. apply Rsum_ext. intros j Hj. rewrite H; auto. Qed.
Lemma form_ext n B u u' w w' : (forall j, j < n -> u j = u' j) -> (forall j, j < n -> w j = w' j) ->
  form n B u w = form n B u' w'.
Proof. intros H H'. apply Rsum_ext. intros i Hi. rewrite H by auto. f_equal. apply Rmv_ext. auto. Qed.
Lemma form_lin n B c x e y w : form n B (comb2 c x e y) w = (c * form n B x w + e * form n B y w)%R.
Proof. unfold form, comb2. rewrite <- !Rsum_scal_l, <- Rsum_plus. apply Rsum_ext. intros. ring. Qed.
Lemma sym_form n B u w : symmetric_mat n B -> form n B u w = form n B w u.
Proof.
  intros Hs. unfold form, Rmv.
  rewrite (Rsum_ext n (fun i => u i * Rsum n (fun j => B i j * w j))%R
             (fun i => Rsum n (fun j => u i * (B i j * w j)))%R) by (intros; rewrite Rsum_scal_l; reflexivity).
  rewrite Rsum_swap. apply Rsum_ext. intros j Hj. rewrite <- Rsum_scal_l. apply Rsum_ext. intros i Hi.
  rewrite (Hs i j) by auto. ring.
Qed.
Lemma form_lin_r n B c x e y w : symmetric_mat n B ->
  form n B w (comb2 c x e y) = (c * form n B w x + e * form n B w y)%R.
Proof. intros Hs. rewrite sym_form, form_lin, (sym_form n B x), (sym_form n B y) by auto. reflexivity. Qed.

Lemma form_cs n B u w : symmetric_mat n B -> psd_mat n B ->
  (form n B u w * form n B u w <= form n B u u * form n B w w)%R.
Proof.
  intros Hs Hp. set (c := form n B u w). set (a := form n B u u). set (d := form n B w w).
  assert (Hd : (0 <= d)%R) by apply Hp. assert (Ha : (0 <= a)%R) by apply Hp.
  assert (Q : forall s t, (0 <= s * s * a + 2 * (s * t) * c + t * t * d)%R).
  { intros s t. pose proof (Hp (comb2 s u t w)) as H. fold (form n B (comb2 s u t w) (comb2 s u t w)) in H.
    rewrite form_lin, !form_lin_r, (sym_form n B w u) in H by auto. fold a c d in H. lra. }
  destruct (Req_EM_T d 0) as [E|E].
  - destruct (Req_EM_T c 0) as [->|Nc]; [rewrite E; lra|]. exfalso.
    pose proof (Q 1%R (- (a + 1) / (2 * c))%R) as H. rewrite E in H.
    replace (1 * 1 * a + 2 * (1 * (- (a + 1) / (2 * c))) * c + - (a + 1) / (2 * c) * (- (a + 1) / (2 * c)) * 0)%R
      with (-1)%R in H by (field; auto). lra.
  - pose proof (Q d (- c)%R) as H. assert (0 < d)%R by lra.
    replace (d * d * a + 2 * (d * - c) * c + - c * - c * d)%R with (d * (a * d - c * c))%R in H by ring.
    assert (0 <= a * d - c * c)%R; [|lra].
    apply (Rmult_le_reg_l d); auto. lra.
Qed.
Lemma sp_mono K M a p K' : K <= K' -> in_span K M a p -> in_span K' M a p.
Proof.
  intros Hle (g & H). exists (fun k => if Nat.ltb k K then g k else 0%R). intros t Ht.
  rewrite (H t Ht). rewrite (Rsum_trunc K' K); auto.
  - apply Rsum_ext. intros k Hk. destruct (Nat.ltb_spec k K); [auto|lia].
  - intros k Hk _. destruct (Nat.ltb_spec k K); [lia|ring].
Qed.
Lemma sp_comb2 K M a p q c e : in_span K M a p -> in_span K M a q -> in_span K M a (comb2 c p e q).
Proof.
  intros (g & Hg) (f & Hf). exists (fun k => c * g k + e * f k)%R. intros t Ht. unfold comb2.
  rewrite (Hg t Ht), (Hf t Ht), <- !Rsum_scal_l, <- Rsum_plus. apply Rsum_ext. intros. ring.
Qed.
Lemma sp_ext K M a p q : (forall t, t < M -> p t = q t) -> in_span K M a p -> in_span K M a q.
Proof. intros H (g & Hg). exists g. intros t Ht. rewrite <- H by auto. auto. Qed.
Lemma sp_zero K M a : in_span K M a (fun _ => 0%R).
Proof. exists (fun _ => 0%R). intros. symmetry. apply Rsum_zero. intros. ring. Qed.
Lemma sp_one K M a k : k < K -> in_span K M a (a k).
Proof.
  intros Hk. exists (fun j => if Nat.eqb j k then 1%R else 0%R). intros t Ht.
  rewrite (Rsum_single K k); auto; [rewrite Nat.eqb_refl; ring|].
  intros i Hi Hne. destruct (Nat.eqb_spec i k); [lia|ring].
Qed.
Lemma sp_sum K M a J (c : nat -> R) (w : nat -> nat -> R) : (forall j, j < J -> in_span K M a (w j)) ->
  in_span K M a (fun t => Rsum J (fun j => c j * w j t)%R).
Proof.
  induction J as [|J IH]; intros H; [apply sp_zero|]. simpl.
  apply (sp_ext _ _ _ (comb2 1 (fun t => Rsum J (fun j => c j * w j t)%R) (c J) (w J))).
  - intros t Ht. unfold comb2. ring.
  - apply sp_comb2; auto.
Qed.

Section Rate.
Variables (n : nat) (A P : list R -> list R) (M Q : nat -> nat -> R) (b x0 : list R) (xs u0 : nat -> R).
Hypotheses (HA : acts_as n A M) (HP : acts_as n P Q) (Hx0 : length x0 = n)
  (HPl : forall v, length v = n -> length (P v) = n)
  (HM : symmetric_mat n M) (HQ : symmetric_mat n Q) (HMp : psd_mat n M) (HQp : psd_mat n Q)
  (Hxs : forall i, i < n -> Rmv n M xs i = nth i b 0%R)
  (Hu0 : forall i, i < n -> Rmv n Q u0 i = (smp x0 i - xs i)%R).
Variables mu Lam : R.
Hypotheses (Hmu : (0 < mu)%R) (HLam : (mu <= Lam)%R)
  (lo : forall u, (mu * form n Q u u <= form n M (Rmv n Q u) (Rmv n Q u))%R)
  (hi : forall u, (form n M (Rmv n Q u) (Rmv n Q u) <= Lam * form n Q u u)%R).

Let run k := cg_run n A P b x0 k.
Let X k := cg_x (run k).
Let r k := cg_r (run k).
Let p k := cg_p (run k).
Let z k := P (r k).
Let pf k i := nth i (p k) 0%R.
Let alpha k := cg_alpha n A P b x0 k.
Let beta k := cg_beta n A P b x0 k.

Lemma HP0 : forall v, length v = n -> zero_vec n v -> zero_vec n (P v).
Proof.
  intros v Hv Hz i Hi. rewrite HP by auto. apply Rsum_zero. intros j Hj. unfold smp. rewrite Hz by auto. ring.
Qed.
Lemma HPsym : forall u v, length u = n -> length v = n -> dotl n (P u) v = dotl n u (P v).
Proof.
  intros u v Hu Hv. rewrite dotl_comm.
  transitivity (form n Q (smp v) (smp u)); [apply Rsum_ext; intros; rewrite HP by auto; reflexivity|].
  rewrite sym_form by auto. apply Rsum_ext; intros; rewrite HP by auto; reflexivity.
Qed.

Let q := sqrt (mu / Lam).
Lemma q_sq : (q * q * Lam = mu)%R.
Proof.
  unfold q. rewrite sqrt_sqrt; [field; lra|]. apply Rmult_le_pos; [lra|]. left. apply Rinv_0_lt_compat. lra.
Qed.
Lemma q_pos : (0 < q)%R.
Proof. apply sqrt_lt_R0. apply Rdiv_lt_0_compat; lra. Qed.
Lemma q_le1 : (q <= 1)%R.
Proof.
  unfold q. rewrite <- sqrt_1. apply sqrt_le_1_alt. apply (Rmult_le_reg_r Lam); [lra|].
  unfold Rdiv. rewrite Rmult_assoc, Rinv_l by lra. lra.
Qed.

Let Nf := form n Q.
Let af u w := form n M (Rmv n Q u) (Rmv n Q w).
Let Sf u := Rmv n M (Rmv n Q u).

Lemma af_lin c x e y w : af (comb2 c x e y) w = (c * af x w + e * af y w)%R.
Proof.
  unfold af. rewrite <- form_lin. apply form_ext; auto. intros j Hj. rewrite Rmv_comb2. reflexivity.
Qed.
Lemma Sf_af x y : Nf (Sf x) y = af x y.
Proof.
  unfold Nf, Sf, af. rewrite (sym_form n M) by auto. unfold form. apply Rsum_ext. intros. ring.
Qed.
Lemma accel x v : (af (acc_x Sf Lam q x v) (acc_x Sf Lam q x v) + mu * Nf (acc_v Sf mu q x v) (acc_v Sf mu q x v)
   <= (1 - q) * (af x x + mu * Nf v v))%R.
Proof.
  apply (acc_step Nf af Sf mu Lam); auto.
  - intros. apply form_lin.
  - apply af_lin.
  - intros. apply sym_form; auto.
  - intros. apply sym_form; auto.
  - apply Sf_af.
  - lra.
  - apply q_sq.
  - apply q_pos.
  - apply q_le1.
Qed.

Lemma pS k : p (S k) = axpy n (z (S k)) (beta k) (p k).
Proof. exact (p_S n A P b x0 k). Qed.
Lemma rS k : r (S k) = axpy n (r k) (- alpha k) (A (p k)).
Proof. exact (r_S n A P b x0 k). Qed.
Lemma xS k : X (S k) = axpy n (X k) (alpha k) (p k).
Proof. exact (x_S n A P b x0 k). Qed.
Lemma lr k : length (r k) = n.
Proof. exact (len_r n A P b x0 Hx0 HPl k). Qed.
Lemma lp k : length (p k) = n.
Proof. exact (len_p n A P b x0 Hx0 HPl k). Qed.
Lemma res k i : i < n -> nth i (r k) 0%R = (nth i b 0 - Rmv n M (smp (X k)) i)%R.
Proof. exact (cg_residual n A P M b x0 HA Hx0 HPl k i). Qed.

(** directions of the first k steps *)
Let sp k := in_span k n pf.
Lemma z_span j : sp (S j) (fun i => nth i (z j) 0%R).
Proof.
  destruct j as [|j].
  - apply (sp_ext _ _ _ (pf 0)); [|apply sp_one; lia]. intros t Ht. reflexivity.
  - apply (sp_ext _ _ _ (comb2 1 (pf (S j)) (- beta j) (pf j))).
    + intros t Ht. unfold comb2, pf. rewrite pS, nth_axpy by auto. ring.
    + apply sp_comb2; apply sp_one; lia.
Qed.
Let inact k := inactive n A P b x0 k.
Lemma alpha_pos k : inact k -> (0 < alpha k)%R.
Proof.
  intros H. unfold alpha. rewrite alpha_in by exact H. destruct H as (Ha & Hb).
  pose proof eps_pos. apply Rdiv_lt_0_compat; lra.
Qed.
(** P A p_j stays within the next directions *)
Lemma PAp_span j : inact j -> sp (S (S j)) (Rmv n Q (Rmv n M (pf j))).
Proof.
  intros Hj. pose proof (alpha_pos j Hj) as Ha.
  apply (sp_ext _ _ _ (comb2 (/ alpha j) (fun i => nth i (z j) 0%R) (- / alpha j) (fun i => nth i (z (S j)) 0%R))).
  - intros t Ht. unfold comb2, z. rewrite !HP by (auto; apply lr).
    rewrite (Rmv_ext n Q (smp (r (S j))) (comb2 1 (smp (r j)) (- alpha j) (Rmv n M (pf j))) t).
    + rewrite Rmv_comb2. field. lra.
    + intros i Hi. unfold smp at 1. rewrite rS, nth_axpy by auto. rewrite HA by (auto; apply lp).
      unfold comb2, smp. change (fun i0 => nth i0 (p j) 0%R) with (pf j). ring.
  - apply sp_comb2; [apply (sp_mono (S j)); [lia|]|]; apply z_span.
Qed.

(** u stands for a vector x with x - xs = P u, within x0 + directions *)
Definition within (k : nat) (u : nat -> R) : Prop := sp k (fun i => (Rmv n Q u i - (smp x0 i - xs i))%R).
Lemma within_mono k k' u : k <= k' -> within k u -> within k' u.
Proof. intros. apply (sp_mono k); auto. Qed.
Lemma within_comb2 k u w c e : (c + e = 1)%R -> within k u -> within k w -> within k (comb2 c u e w).
Proof.
  intros Hce Hu Hw.
  apply (sp_ext _ _ _ (comb2 c (fun i => Rmv n Q u i - (smp x0 i - xs i))%R e (fun i => Rmv n Q w i - (smp x0 i - xs i))%R)).
  - intros t Ht. rewrite Rmv_comb2. unfold comb2. replace e with (1 - c)%R by lra. ring.
  - apply sp_comb2; auto.
Qed.
Lemma within_grad k w y e : (forall j, j < k -> inact j) -> within (S k) w -> within k y ->
  within (S k) (comb2 1 w e (Sf y)).
Proof.
  intros Hin Hw Hy.
  assert (HS : sp (S k) (Rmv n Q (Sf y))).
  { destruct Hy as (g & Hg).
    (* M (P y) = - r_0 + sum of g_j A p_j *)
    assert (E : forall i, i < n -> Sf y i = (- nth i (r 0) 0 + Rsum k (fun j => g j * Rmv n M (pf j) i))%R).
    { intros i Hi. unfold Sf. rewrite res by auto. change (X 0) with x0. rewrite <- (Hxs i Hi).
      unfold Rmv at 1.
      rewrite (Rsum_ext n _ (fun j => (M i j * smp x0 j - M i j * xs j) + Rsum k (fun l => g l * (M i j * pf l j)))%R).
      - rewrite Rsum_plus, Rsum_minus, Rsum_swap.
        fold (Rmv n M (smp x0) i) (Rmv n M xs i).
        rewrite (Rsum_ext k (fun l => Rsum n (fun j => g l * (M i j * pf l j)))%R
          (fun l => g l * Rmv n M (pf l) i)%R) by (intros; apply Rsum_scal_l). ring.
      - intros j Hj. specialize (Hg j Hj). cbv beta in Hg.
        assert (Rmv n Q y j = smp x0 j - xs j + Rsum k (fun l => g l * pf l j))%R as -> by lra.
        rewrite Rmult_plus_distr_l, <- Rsum_scal_l. f_equal; [ring|]. apply Rsum_ext. intros. ring. }
    apply (sp_ext _ _ _ (comb2 (-1) (fun i => nth i (z 0) 0%R) 1
      (fun t => Rsum k (fun j => g j * Rmv n Q (Rmv n M (pf j)) t)%R))).
    - intros t Ht. unfold comb2, z. rewrite HP by (auto; apply lr).
      rewrite (Rmv_ext n Q (Sf y) (comb2 (-1) (smp (r 0)) 1 (fun i => Rsum k (fun j => g j * Rmv n M (pf j) i)%R)) t).
      + rewrite Rmv_comb2. f_equal. f_equal. unfold Rmv at 3.
        rewrite (Rsum_ext n _ (fun i => Rsum k (fun j => g j * (Q t i * Rmv n M (pf j) i)))%R).
        * rewrite Rsum_swap. apply Rsum_ext. intros j Hj. rewrite Rsum_scal_l. reflexivity.
        * intros i Hi. rewrite <- Rsum_scal_l. apply Rsum_ext. intros. ring.
      + intros i Hi. rewrite E by auto. unfold comb2, smp. ring.
    - apply sp_comb2.
      + apply (sp_mono 1); [lia|]. apply z_span.
      + apply sp_sum. intros j Hj. apply (sp_mono (S (S j))); [lia|]. apply PAp_span. apply Hin. auto. }
  apply (sp_ext _ _ _ (comb2 1 (fun i => Rmv n Q w i - (smp x0 i - xs i))%R e (Rmv n Q (Sf y)))).
  - intros t Ht. rewrite Rmv_comb2. unfold comb2. ring.
  - apply sp_comb2; auto.
Qed.

Lemma accel_run k : (forall j, j < k -> inact j) -> exists x v, within k x /\ within k v /\
  (af x x + mu * Nf v v <= (1 - q) ^ k * (af u0 u0 + mu * Nf u0 u0))%R.
Proof.
  induction k as [|k IH]; intros Hin.
  - exists u0, u0.
    assert (W : within 0 u0).
    { apply (sp_ext _ _ _ (fun _ => 0%R)); [|apply sp_zero]. intros t Ht. rewrite Hu0 by auto. ring. }
    split; auto. split; auto. simpl. lra.
  - destruct IH as (x & v & Wx & Wv & H); [auto|].
    assert (Wy : within k (acc_y q x v)).
    { apply within_comb2; auto. pose proof q_pos. field. lra. }
    exists (acc_x Sf Lam q x v), (acc_v Sf mu q x v). split; [|split].
    + apply within_grad; auto. apply (within_mono k); auto.
    + apply within_grad; auto. apply (within_mono k); auto. apply within_comb2; auto. ring.
    + eapply Rle_trans; [apply accel|]. simpl. rewrite Rmult_assoc. apply Rmult_le_compat_l; auto.
      pose proof q_le1. lra.
Qed.

(** squared error in the norm of the matrix *)
Definition sq_err (x : nat -> R) : R := form n M (fun i => x i - xs i)%R (fun i => x i - xs i)%R.

Lemma X_span k : sp k (fun i => smp (X k) i - smp x0 i)%R.
Proof.
  induction k as [|k IH].
  - apply (sp_ext _ _ _ (fun _ => 0%R)); [|apply sp_zero]. intros t Ht. change (X 0) with x0. ring.
  - apply (sp_ext _ _ _ (comb2 1 (fun i => smp (X k) i - smp x0 i)%R (alpha k) (pf k))).
    + intros t Ht. unfold comb2. unfold smp at 3. rewrite xS, nth_axpy by auto. unfold smp, pf. ring.
    + apply sp_comb2; [apply (sp_mono k); [lia|auto]|apply sp_one; lia].
Qed.
Lemma best k w : (forall j, j < k -> inact j) -> sp k (fun i => w i - smp x0 i)%R ->
  (sq_err (smp (X k)) <= sq_err w)%R.
Proof.
  intros Hin Hw.
  destruct (conjugacy n A P M b x0 HA Hx0 HPl HM HPsym k Hin) as (_ & I2 & _).
  set (D := fun i => (w i - smp (X k) i)%R).
  assert (HD : sp k D).
  { apply (sp_ext _ _ _ (comb2 1 (fun i => w i - smp x0 i)%R (-1) (fun i => smp (X k) i - smp x0 i)%R)).
    - intros t Ht. unfold comb2, D. ring.
    - apply sp_comb2; auto. apply X_span. }
  assert (HDr : Rsum n (fun i => D i * nth i (r k) 0)%R = 0%R).
  { destruct HD as (g & Hg).
    rewrite (Rsum_ext n _ (fun i => Rsum k (fun j => g j * (pf j i * nth i (r k) 0)))%R).
    - rewrite Rsum_swap. apply Rsum_zero. intros j Hj. rewrite Rsum_scal_l.
      change (Rsum n (fun i => pf j i * nth i (r k) 0)%R) with (dotl n (p j) (r k)).
      unfold p, r, run. rewrite I2 by lia. ring.
    - intros i Hi. rewrite (Hg i Hi), <- Rsum_scal_r. apply Rsum_ext. intros. ring. }
  set (E := fun i => (smp (X k) i - xs i)%R).
  assert (HME : form n M D E = 0%R).
  { transitivity (- Rsum n (fun i => D i * nth i (r k) 0))%R; [|rewrite HDr; ring].
    unfold form. rewrite <- Rsum_opp. apply Rsum_ext. intros i Hi.
    rewrite res, <- Hxs by auto. unfold E.
    assert (Rmv n M (fun i0 => smp (X k) i0 - xs i0) i = Rmv n M (smp (X k)) i - Rmv n M xs i)%R as ->.
    { unfold Rmv. rewrite <- Rsum_minus. apply Rsum_ext. intros. ring. }
    ring. }
  unfold sq_err. fold E.
  assert (X1 : form n M (fun i => w i - xs i)%R (fun i => w i - xs i)%R =
          (form n M E E + 2 * form n M D E + form n M D D)%R).
  { rewrite (form_ext n M _ (comb2 1 E 1 D) _ (comb2 1 E 1 D)) by (intros; unfold comb2, E, D; ring).
    rewrite form_lin, !form_lin_r, (sym_form n M E D) by auto. ring. }
  pose proof (HMp D) as HD0. fold (form n M D D) in HD0. lra.
Qed.

Lemma af_err u : (forall i, i < n -> True) -> af u u = sq_err (fun i => xs i + Rmv n Q u i)%R.
Proof. intros _. unfold af, sq_err. apply form_ext; intros; ring. Qed.

Theorem rate_inactive k : (forall j, j < k -> inact j) ->
  (sq_err (smp (X k)) <= 2 * (1 - q) ^ k * sq_err (smp x0))%R.
Proof.
  intros Hin. destruct (accel_run k Hin) as (x & v & Wx & Wv & H).
  assert (B : (sq_err (smp (X k)) <= af x x)%R).
  { rewrite af_err by auto. apply best; auto.
    apply (sp_ext _ _ _ (fun i => Rmv n Q x i - (smp x0 i - xs i))%R); [intros; ring|exact Wx]. }
  assert (E0 : af u0 u0 = sq_err (smp x0)).
  { unfold af, sq_err. apply form_ext; intros; apply Hu0; auto. }
  pose proof (lo u0) as H0. fold (af u0 u0) in H0.
  assert (0 <= mu * Nf v v)%R by (apply Rmult_le_pos; [lra|apply HQp]).
  assert (0 <= (1 - q) ^ k)%R by (apply pow_le; pose proof q_le1; lra).
  assert ((1 - q) ^ k * (af u0 u0 + mu * Nf u0 u0) <= (1 - q) ^ k * (2 * af u0 u0))%R.
  { apply Rmult_le_compat_l; auto. unfold Nf. lra. }
  rewrite <- E0. lra.
Qed.

Lemma sq_err_nonneg x : (0 <= sq_err x)%R.
Proof. apply HMp. Qed.
Theorem rate k : (forall j, j < k -> ~ zero_vec n (r j) -> inact j) ->
  (sq_err (smp (X k)) <= 2 * (1 - q) ^ k * sq_err (smp x0))%R.
Proof.
  intros Hin. destruct (first_zero n A P b x0 Hx0 k) as [(j & Hj & Hz)|Hn].
  - assert (Hz' : zero_vec n (r k)).
    { replace k with (j + (k - j)) by lia.
      apply (converged_stays n A P b x0 Hx0 HPl HP0); auto. }
    assert (E0 : sq_err (smp (X k)) = 0%R).
    { apply Rsum_zero. intros i Hi.
      assert (Rmv n M (fun i0 => smp (X k) i0 - xs i0) i = 0)%R as ->; [|ring].
      specialize (Hz' i Hi). rewrite res, <- Hxs in Hz' by auto.
      assert (Rmv n M (fun i0 => smp (X k) i0 - xs i0) i = Rmv n M (smp (X k)) i - Rmv n M xs i)%R as ->; [|lra].
      unfold Rmv. rewrite <- Rsum_minus. apply Rsum_ext. intros. ring. }
    rewrite E0. apply Rmult_le_pos; [|apply sq_err_nonneg].
    apply Rmult_le_pos; [lra|]. apply pow_le. pose proof q_le1. lra.
  - apply rate_inactive. intros j Hj. apply Hin; auto. apply Hn. lia.
Qed.

(** *** With the safeguards: the error is already small when one of them acts *)
Lemma p_range k : exists u, forall i, i < n -> Rmv n Q u i = pf k i.
Proof.
  induction k as [|k (u & Hu)].
  - exists (smp (r 0)). intros i Hi. unfold pf, p. rewrite <- HP by (auto; apply lr). reflexivity.
  - exists (comb2 1 (smp (r (S k))) (beta k) u). intros i Hi. rewrite Rmv_comb2, Hu by auto.
    unfold pf. rewrite pS, nth_axpy by auto. unfold z. rewrite HP by (auto; apply lr). ring.
Qed.
Lemma x_range k : exists u, forall i, i < n -> Rmv n Q u i = (smp (X k) i - xs i)%R.
Proof.
  induction k as [|k (u & Hu)].
  - exists u0. exact Hu0.
  - destruct (p_range k) as (w & Hw). exists (comb2 1 u (alpha k) w). intros i Hi.
    rewrite Rmv_comb2, Hu, Hw by auto. unfold smp at 2. rewrite xS, nth_axpy by auto. unfold smp, pf. ring.
Qed.
Lemma res_err k i : i < n -> nth i (r k) 0%R = (- Rmv n M (fun j => smp (X k) j - xs j) i)%R.
Proof.
  intros Hi. rewrite res, <- Hxs by auto.
  assert (Rmv n M (fun j => smp (X k) j - xs j) i = Rmv n M (smp (X k)) i - Rmv n M xs i)%R as ->; [|ring].
  unfold Rmv. rewrite <- Rsum_minus. apply Rsum_ext. intros. ring.
Qed.
Let rs k := cg_rs (run k).
(** <r, P r> controls the error *)
Lemma rs_err k : (mu * sq_err (smp (X k)) <= rs k)%R.
Proof.
  destruct (x_range k) as (u & Hu).
  assert (Ee : sq_err (smp (X k)) = af u u) by (unfold sq_err, af; symmetry; apply form_ext; auto).
  assert (Er : rs k = Nf (Sf u) (Sf u)).
  { unfold rs, run. rewrite rs_eq. fold (run k). fold (r k). unfold dotl.
    assert (Hr : forall i, i < n -> smp (r k) i = comb2 (-1) (Sf u) 0 (Sf u) i).
    { intros i Hi. unfold smp. rewrite res_err by auto. unfold comb2, Sf.
      rewrite (Rmv_ext n M (Rmv n Q u) (fun j => smp (X k) j - xs j)%R) by auto. ring. }
    transitivity (Nf (comb2 (-1) (Sf u) 0 (Sf u)) (comb2 (-1) (Sf u) 0 (Sf u))).
    - apply Rsum_ext. intros i Hi. rewrite HP by (auto; apply lr). rewrite <- (Hr i Hi). f_equal.
      apply Rmv_ext. auto.
    - unfold Nf. rewrite form_lin, form_lin_r by auto. ring. }
  rewrite Ee, Er.
  pose proof (form_cs n Q (Sf u) u HQ HQp) as C. fold (Nf (Sf u) u) (Nf (Sf u) (Sf u)) (Nf u u) in C.
  rewrite Sf_af in C.
  pose proof (lo u) as H. fold (af u u) (Nf u u) in H.
  assert (P1 : (0 <= Nf (Sf u) (Sf u))%R) by apply HQp.
  assert (P2 : (0 <= af u u)%R) by apply HMp.
  destruct (Req_EM_T (af u u) 0) as [Z|NZ]; [rewrite Z; lra|].
  apply (Rmult_le_reg_r (af u u)); [lra|].
  assert (mu * (af u u * af u u) <= mu * (Nf (Sf u) (Sf u) * Nf u u))%R by (apply Rmult_le_compat_l; lra).
  assert (Nf (Sf u) (Sf u) * (mu * Nf u u) <= Nf (Sf u) (Sf u) * af u u)%R by (apply Rmult_le_compat_l; auto).
  lra.
Qed.
Lemma P_pos v : length v = n -> (0 <= dotl n v (P v))%R.
Proof.
  intros Hv. assert (E : dotl n v (P v) = form n Q (smp v) (smp v)).
  { apply Rsum_ext. intros i Hi. rewrite HP by auto. reflexivity. }
  rewrite E. apply HQp.
Qed.
Lemma pAp_rs k : (rs k * rs k <= sq_err (smp (X k)) * cg_pAp n A P b x0 k)%R.
Proof.
  assert (H : (0 <= rs k <= dotl n (p k) (r k))%R).
  { split.
    - exact (rs_nonneg n A P b x0 Hx0 HPl P_pos k).
    - exact (pr_ge n A P M b x0 HA Hx0 HPl HMp P_pos k). }
  assert (E1 : dotl n (p k) (r k) = (- form n M (pf k) (fun i => smp (X k) i - xs i))%R).
  { unfold dotl, form. rewrite <- Rsum_opp. apply Rsum_ext. intros i Hi. rewrite res_err by auto.
    unfold pf. ring. }
  assert (E2 : cg_pAp n A P b x0 k = form n M (pf k) (pf k)).
  { unfold cg_pAp. fold (run k). fold (p k). apply Rsum_ext. intros i Hi. rewrite HA by (auto; apply lp). reflexivity. }
  pose proof (form_cs n M (pf k) (fun i => smp (X k) i - xs i)%R HM HMp) as C.
  rewrite E2. fold (sq_err (smp (X k))) in C. rewrite E1 in H. nra.
Qed.
Lemma guarded_small k : ~ inact k -> (sq_err (smp (X k)) <= cg_eps / (mu * Rmin 1 mu))%R.
Proof.
  intros Hg. set (e := sq_err (smp (X k))). pose proof (rs_err k) as H1. pose proof (pAp_rs k) as H2. fold e in H1, H2.
  assert (P0 : (0 <= e)%R) by apply HMp.
  assert (Pm : (0 < Rmin 1 mu)%R) by (apply Rmin_pos; lra).
  assert (Pd : (0 < mu * Rmin 1 mu)%R) by (apply Rmult_lt_0_compat; auto).
  pose proof (Rmin_l 1 mu) as M1. pose proof (Rmin_r 1 mu) as M2. pose proof eps_pos as Pe.
  apply (Rmult_le_reg_r (mu * Rmin 1 mu)); auto. unfold Rdiv. rewrite Rmult_assoc, Rinv_l, Rmult_1_r by lra.
  destruct (Rle_dec cg_eps (rs k)) as [G1|G1].
  - destruct (Rle_dec cg_eps (cg_pAp n A P b x0 k)) as [G2|G2]; [exfalso; apply Hg; split; auto|].
    (* mu^2 e^2 <= rs^2 <= e pAp <= e eps *)
    destruct (Req_EM_T e 0) as [Z|NZ]; [rewrite Z; lra|].
    apply (Rmult_le_reg_l e); [lra|].
    assert (A1 : (mu * e * (mu * e) <= rs k * rs k)%R).
    { apply Rmult_le_compat; auto; apply Rmult_le_pos; lra. }
    assert (A2 : (e * cg_pAp n A P b x0 k <= e * cg_eps)%R) by (apply Rmult_le_compat_l; lra).
    assert (A3 : (e * (e * (mu * Rmin 1 mu)) <= mu * e * (mu * e))%R).
    { replace (mu * e * (mu * e))%R with (e * (e * (mu * mu)))%R by ring.
      do 2 (apply Rmult_le_compat_l; [lra|]). apply Rmult_le_compat_l; lra. }
    lra.
  - assert (e * (mu * Rmin 1 mu) <= e * (mu * 1))%R; [|lra].
    apply Rmult_le_compat_l; auto. apply Rmult_le_compat_l; lra.
Qed.
Lemma sq_err_mono k j : (sq_err (smp (X (k + j))) <= sq_err (smp (X k)))%R.
Proof.
  pose proof (cg_monotone n A P M b x0 HA Hx0 HPl HM HMp P_pos k j) as H.
  pose proof (err_is_error n M b HM (X (k + j)) xs Hxs) as E1.
  pose proof (err_is_error n M b HM (X k) xs Hxs) as E2.
  unfold sq_err, form. rewrite E1, E2. unfold X, run. lra.
Qed.
Lemma first_guard k : (forall j, j < k -> inact j) \/ exists j, j < k /\ ~ inact j.
Proof.
  induction k as [|k [IH|(j & Hj & H)]].
  - left. intros; lia.
  - assert (D : inact k \/ ~ inact k).
    { unfold inact, inactive. destruct (Rle_dec cg_eps (cg_pAp n A P b x0 k)); [|right; tauto].
      destruct (Rle_dec cg_eps (cg_rs (cg_run n A P b x0 k))); [left; auto|right; tauto]. }
    destruct D as [D|D]; [left|right; exists k; auto].
    intros j Hj. destruct (Nat.eq_dec j k) as [->|]; auto. apply IH. lia.
  - right. exists j. auto.
Qed.
Theorem rate_total k : (sq_err (smp (X k)) <=
  Rmax (2 * (1 - q) ^ k * sq_err (smp x0)) (cg_eps / (mu * Rmin 1 mu)))%R.
Proof.
  destruct (first_guard k) as [H|(j & Hj & H)].
  - eapply Rle_trans; [apply rate_inactive; auto|apply Rmax_l].
  - eapply Rle_trans; [|apply Rmax_r]. replace k with (j + (k - j)) by lia.
    eapply Rle_trans; [apply sq_err_mono|]. apply guarded_small; auto.
Qed.
End Rate.
