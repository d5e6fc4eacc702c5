(** * Correlation and convolution theorems for the exact FFT *)
From Coq Require Import Reals Lra.
From Coquelicot Require Import Complex.
From Verif Require Import Prelude Sums Fft.
Local Open Scope nat_scope.

Lemma cis_add a b : cis (a + b) = Cmult (cis a) (cis b).
Proof. unfold cis, Cmult; simpl. rewrite cos_plus, sin_plus. f_equal; ring. Qed.
Lemma cis_0 : cis 0 = RtoC 1.
Proof. unfold cis. rewrite cos_0, sin_0. reflexivity. Qed.
Lemma cis_neg a : cis (- a) = Cconj (cis a).
Proof. unfold cis, Cconj; simpl. rewrite cos_neg, sin_neg. reflexivity. Qed.
Lemma cis_2PI k : cis (2 * PI * INR k) = RtoC 1.
Proof.
  unfold cis, RtoC. replace (2 * PI * INR k)%R with (0 + 2 * INR k * PI)%R by ring.
  rewrite cos_period, sin_period, cos_0, sin_0. reflexivity.
Qed.
Lemma cis_ne_1 a : (0 < a < 2 * PI)%R -> cis a <> RtoC 1.
Proof.
  intros Ha E. inversion E as [[E1 E2]].
  assert (H : (0 < sin (a / 2))%R) by (apply sin_gt_0; lra).
  replace a with (2 * (a / 2))%R in E1 by field. rewrite cos_2a_sin in E1. nra.
Qed.

Definition E (n k : nat) : C := cis (ang n k).
Lemma E_add n a b : E n (a + b) = Cmult (E n a) (E n b).
Proof.
  unfold E. rewrite <- cis_add. f_equal. unfold ang. rewrite plus_INR. unfold Rdiv. ring.
Qed.
Lemma E_0 n : E n 0 = RtoC 1.
Proof.
  unfold E, ang. simpl. replace (2 * PI * 0 / INR n)%R with 0%R by (unfold Rdiv; ring). apply cis_0.
Qed.
Lemma E_mult n k : 0 < n -> E n (k * n) = RtoC 1.
Proof.
  intros Hn. unfold E, ang. rewrite mult_INR.
  replace (2 * PI * (INR k * INR n) / INR n)%R with (2 * PI * INR k)%R.
  - apply cis_2PI.
  - field. apply not_0_INR. lia.
Qed.
Lemma E_period n a b k : 0 < n -> a = b + k * n -> E n a = E n b.
Proof. intros Hn ->. rewrite E_add, E_mult by auto. ring. Qed.
Lemma E_mod n a : 0 < n -> E n (a mod n) = E n a.
Proof.
  intros Hn. symmetry. apply (E_period n a (a mod n) (a / n)); auto.
  rewrite (Nat.div_mod a n) at 1 by lia. lia.
Qed.
Lemma Cmod1 a : Cmult (cis a) (Cconj (cis a)) = RtoC 1.
Proof. rewrite <- cis_neg, <- cis_add. rewrite Rplus_opp_r. apply cis_0. Qed.
Lemma E_conj_eq n a b k : 0 < n -> a + b = k * n -> Cconj (E n a) = E n b.
Proof.
  intros Hn Hab.
  assert (H : Cmult (E n a) (E n b) = RtoC 1) by (rewrite <- E_add, Hab; apply E_mult; auto).
  assert (H2 := Cmod1 (ang n a)). fold (E n a) in H2.
  transitivity (Cmult (Cconj (E n a)) (Cmult (E n a) (E n b))); [rewrite H; ring|].
  transitivity (Cmult (Cmult (E n a) (Cconj (E n a))) (E n b)); [ring|rewrite H2; ring].
Qed.
Fixpoint Cpow (z : C) (k : nat) : C :=
  match k with O => RtoC 1 | S k => Cmult z (Cpow z k) end.
Lemma E_pow n k m : E n (k * m) = Cpow (E n m) k.
Proof. induction k; simpl; [apply E_0|]. rewrite E_add, IHk. reflexivity. Qed.

Lemma geom r n : Cmult (Cminus r (RtoC 1)) (Csum n (fun k => Cpow r k)) = Cminus (Cpow r n) (RtoC 1).
Proof. induction n; simpl gsum; [simpl; ring|]. rewrite Cmult_plus_distr_l, IHn. simpl. ring. Qed.

(** Orthogonality of the characters. *)
Lemma E_orth n m : 0 < n ->
  Csum n (fun k => E n (k * m)) = if Nat.eqb (m mod n) 0 then RtoC (INR n) else RtoC 0.
Proof.
  intros Hn. destruct (Nat.eqb_spec (m mod n) 0) as [H|H].
  - assert (E1 : E n m = RtoC 1).
    { rewrite <- E_mod, H by auto. apply E_0. }
    rewrite (Csum_ext n _ (fun _ => RtoC 1)).
    + rewrite Csum_RtoC. rewrite Rsum_const. f_equal. ring.
    + intros k _. rewrite E_pow, E1. clear. induction k; simpl; auto. rewrite IHk. ring.
  - rewrite (Csum_ext n _ (fun k => Cpow (E n m) k)) by (intros; apply E_pow).
    assert (Hne : E n m <> RtoC 1).
    { rewrite <- E_mod by auto. unfold E, ang. apply cis_ne_1.
      assert (0 < m mod n < n) by (pose proof (Nat.mod_upper_bound m n); lia).
      assert (Hm : (0 < INR (m mod n) < INR n)%R) by (split; [apply lt_0_INR|apply lt_INR]; lia).
      pose proof PI_RGT_0. split.
      - apply Rmult_lt_0_compat; [|apply Rinv_0_lt_compat; lra]. nra.
      - apply Rmult_lt_reg_r with (INR n); [lra|]. unfold Rdiv. rewrite Rmult_assoc, Rinv_l by lra. nra. }
    pose proof (geom (E n m) n) as G. rewrite <- E_pow in G.
    rewrite Nat.mul_comm, E_mult in G by auto.
    assert (Z : Cminus (RtoC 1) (RtoC 1) = RtoC 0) by ring. rewrite Z in G.
    assert (Hd : Cminus (E n m) (RtoC 1) <> RtoC 0).
    { intros D. apply Hne. replace (E n m) with (Cplus (Cminus (E n m) (RtoC 1)) (RtoC 1)) by ring.
      rewrite D. ring. }
    replace (Csum n (fun k => Cpow (E n m) k)) with
      (Cmult (Cmult (Cinv (Cminus (E n m) (RtoC 1))) (Cminus (E n m) (RtoC 1))) (Csum n (fun k => Cpow (E n m) k))).
    + rewrite <- Cmult_assoc, G. ring.
    + rewrite Cinv_l by auto. ring.
Qed.

(** ** Half spectrum = full spectrum *)
Lemma sym_sum n g : 0 < n -> (forall k, 0 < k -> k < n -> g (n - k) = g k) ->
  Rsum n g = (g 0%nat + Rsum (n / 2) (fun k' => let k := S k' in
     if Nat.eqb (2 * k) n then g k else 2 * g k))%R.
Proof.
  intros Hn Hs. destruct n as [|n]; [lia|]. rewrite Rsum_S_l. f_equal.
  destruct (Nat.Even_or_Odd (S n)) as [[h Hh]|[h Hh]].
  - (* S n = 2h *)
    replace (S n / 2) with h by (rewrite Hh, Nat.mul_comm, Nat.div_mul; lia).
    replace n with ((h - 1) + (1 + (h - 1))) at 1 by lia.
    rewrite !Rsum_add. simpl (Rsum 1 _).
    rewrite (Rsum_rev (h - 1) (fun i => g (S (h - 1 + (1 + i))))).
    rewrite (Rsum_ext (h - 1) (fun i => g (S (h - 1 + (1 + (h - 1 - 1 - i))))) (fun i => g (S i))).
    2:{ intros i Hi. rewrite <- (Hs (S i)) by lia. f_equal. lia. }
    replace h with ((h - 1) + 1) at 4 by lia. rewrite Rsum_add. simpl (Rsum 1 _).
    rewrite (Rsum_ext (h - 1) (fun k' => let k := S k' in if Nat.eqb (2 * k) (S n) then g k else (2 * g k)%R)
       (fun i => (2 * g (S i))%R)).
    2:{ intros i Hi. cbv zeta. replace (2 * S i =? S n) with false; auto. symmetry. apply Nat.eqb_neq. lia. }
    rewrite Rsum_scal_l.
    replace (S (h - 1 + 0)) with h by lia.
    replace (h - 1 + 0 + S (h - 1 + 0 + 0) =? n) with true by (symmetry; apply Nat.eqb_eq; lia). ring.
  - (* S n = 2h+1 *)
    replace (S n / 2) with h.
    2:{ rewrite Hh. rewrite Nat.add_comm, Nat.mul_comm, Nat.div_add by lia. reflexivity. }
    replace n with (h + h) at 1 by lia. rewrite Rsum_add.
    rewrite (Rsum_rev h (fun i => g (S (h + i)))).
    rewrite (Rsum_ext h (fun i => g (S (h + (h - 1 - i)))) (fun i => g (S i))).
    2:{ intros i Hi. rewrite <- (Hs (S i)) by lia. f_equal. lia. }
    rewrite (Rsum_ext h (fun k' => let k := S k' in if Nat.eqb (2 * k) (S n) then g k else (2 * g k)%R)
       (fun i => (2 * g (S i))%R)).
    2:{ intros i Hi. cbv zeta. replace (2 * S i =? S n) with false; auto. symmetry. apply Nat.eqb_neq. lia. }
    rewrite Rsum_scal_l. ring.
Qed.

Lemma Re_conj z : Re (Cconj z) = Re z. Proof. reflexivity. Qed.
Lemma Cconj_mult a b : Cconj (Cmult a b) = Cmult (Cconj a) (Cconj b).
Proof. unfold Cconj, Cmult; simpl. f_equal; ring. Qed.
Lemma Cconj_RtoC r : Cconj (RtoC r) = RtoC r.
Proof. unfold Cconj, RtoC; simpl. f_equal. ring. Qed.
Lemma Cconj_conj z : Cconj (Cconj z) = z.
Proof. unfold Cconj; simpl. destruct z; simpl. f_equal. ring. Qed.

Lemma sin_PI_INR t : sin (PI * INR t) = 0%R.
Proof.
  induction t; [simpl; rewrite Rmult_0_r; apply sin_0|].
  rewrite S_INR. replace (PI * (INR t + 1))%R with (PI * INR t + PI)%R by ring.
  rewrite neg_sin, IHt. ring.
Qed.

Lemma irfft_full n (G : nat -> C) Z t : 0 < n -> t < n ->
  (forall k, k <= n / 2 -> nth k Z (RtoC 0) = G k) ->
  (forall k, 0 < k -> k < n -> G (n - k) = Cconj (G k)) ->
  nth t (irfft n Z) 0%R = (/ INR n * Re (Csum n (fun k => Cmult (G k) (E n (k * t)))))%R.
Proof.
  intros Hn Ht HZ Hsym. unfold irfft. rewrite nth_tab by auto. f_equal.
  rewrite Re_Csum. rewrite (sym_sum n) by
    (auto; intros k Hk Hkn; rewrite Hsym by auto;
     rewrite <- (E_conj_eq n (k * t) ((n - k) * t) t) by (auto; nia);
     rewrite <- Cconj_mult; apply Re_conj).
  rewrite HZ by lia. f_equal.
  - change (0 * t) with 0. rewrite E_0. f_equal. ring.
  - apply Rsum_ext. intros k' Hk'. cbv zeta. rewrite HZ by lia.
    destruct (Nat.eqb_spec (2 * S k') n) as [H|H]; auto.
    assert (EE : E n (S k' * t) = cis (PI * INR t)).
    { unfold E, ang. f_equal. rewrite mult_INR. rewrite <- H at 1. rewrite mult_INR. simpl (INR 2).
      field. apply not_0_INR. lia. }
    rewrite EE. unfold cis, Cmult, Re; simpl. rewrite sin_PI_INR. ring.
Qed.

(** Full DFT of a sequence. *)
Definition dft (n : nat) (x : nat -> R) (k : nat) : C :=
  Csum n (fun t => Cmult (RtoC (x t)) (Cconj (E n (k * t)))).
Lemma rfft_dft n x k : k <= n / 2 -> nth k (rfft n x) (RtoC 0) = dft n (fun t => nth t x 0%R) k.
Proof.
  intros Hk. unfold rfft. rewrite nth_tab by lia. apply Csum_ext. intros t _.
  rewrite cis_neg. reflexivity.
Qed.
Lemma dft_sym n x k : 0 < k -> k < n -> dft n x (n - k) = Cconj (dft n x k).
Proof.
  intros Hk Hkn. unfold dft. rewrite Cconj_Csum. apply Csum_ext. intros t _.
  rewrite Cconj_mult, Cconj_RtoC. f_equal.
  rewrite (E_conj_eq n (k * t) ((n - k) * t) t) by (try lia; nia). reflexivity.
Qed.

(** ** Correlation theorem *)
Lemma dft_corr n x y l : 0 < n ->
  Csum n (fun k => Cmult (Cmult (Cconj (dft n x k)) (dft n y k)) (E n (k * l))) =
  RtoC (INR n * Rsum n (fun t => x t * y ((t + l) mod n)%nat))%R.
Proof.
  intros Hn.
  transitivity (Csum n (fun t => Csum n (fun s => Cmult (RtoC (x t * y s)%R)
      (Csum n (fun k => E n (k * (t + l + (n - s)))))))).
  - rewrite (Csum_ext n (fun k => Cmult (Cmult (Cconj (dft n x k)) (dft n y k)) (E n (k * l)))
      (fun k => Csum n (fun t => Csum n (fun s => Cmult (RtoC (x t * y s)%R) (E n (k * (t + l + (n - s)))))))).
    + rewrite Csum_swap. apply Csum_ext. intros t Ht. rewrite Csum_swap. apply Csum_ext. intros s Hs.
      rewrite Csum_scal_l. reflexivity.
    + intros k Hk. unfold dft at 1. rewrite Cconj_Csum. unfold dft. rewrite Csum_mul, <- Csum_scal_r.
      apply Csum_ext. intros t Ht. rewrite <- Csum_scal_r. apply Csum_ext. intros s Hs.
      rewrite Cconj_mult, Cconj_RtoC, Cconj_conj.
      rewrite (E_conj_eq n (k * s) (k * (n - s)) k) by (auto; nia).
      rewrite RtoC_mult. rewrite !Nat.mul_add_distr_l, !E_add. ring.
  - rewrite <- Rsum_scal_l, <- Csum_RtoC. apply Csum_ext. intros t Ht.
    rewrite (Csum_ext n _ (fun s => if Nat.eqb s ((t + l) mod n) then RtoC (x t * y s * INR n)%R else RtoC 0)).
    + rewrite Csum_delta by (apply Nat.mod_upper_bound; lia). f_equal. ring.
    + intros s Hs. rewrite E_orth by auto.
      assert (Hiff : (t + l + (n - s)) mod n = 0 <-> s = (t + l) mod n).
      { rewrite <- (Nat.add_mod_idemp_l (t + l) (n - s) n) by lia.
        pose proof (Nat.mod_upper_bound (t + l) n ltac:(lia)) as Hu.
        set (r := (t + l) mod n) in *. split.
        - intros H0. apply Nat.mod_divide in H0; [|lia]. destruct H0 as [q Hq].
          assert (q = 1) by nia. subst. lia.
        - intros <-. replace (s + (n - s)) with (0 + 1 * n) by lia. rewrite Nat.mod_add by lia.
          apply Nat.mod_small; lia. }
      destruct (Nat.eqb_spec s ((t + l) mod n)) as [H|H];
        destruct (Nat.eqb_spec ((t + l + (n - s)) mod n) 0) as [H'|H']; try tauto.
      * rewrite <- RtoC_mult. f_equal.
      * ring.
Qed.

Theorem irfft_corr n x y Z l : 0 < n -> l < n ->
  (forall k, k <= n / 2 -> nth k Z (RtoC 0) =
     Cmult (Cconj (nth k (rfft n x) (RtoC 0))) (nth k (rfft n y) (RtoC 0))) ->
  nth l (irfft n Z) 0%R = Rsum n (fun t => nth t x 0 * nth ((t + l) mod n)%nat y 0)%R.
Proof.
  intros Hn Hl HZ. set (xf := fun t => nth t x 0%R). set (yf := fun t => nth t y 0%R).
  rewrite (irfft_full n (fun k => Cmult (Cconj (dft n xf k)) (dft n yf k))); auto.
  - rewrite (dft_corr n xf yf l Hn). simpl. rewrite <- Rmult_assoc, Rinv_l by (apply not_0_INR; lia).
    rewrite Rmult_1_l. reflexivity.
  - intros k Hk. rewrite HZ by auto. rewrite !rfft_dft by auto. reflexivity.
  - intros k Hk Hkn. rewrite !dft_sym by auto. rewrite Cconj_mult. reflexivity.
Qed.

(** ** Convolution theorem *)
Lemma dft_conv n x y l : 0 < n -> l < n ->
  Csum n (fun k => Cmult (Cmult (dft n x k) (dft n y k)) (E n (k * l))) =
  RtoC (INR n * Rsum n (fun s => x ((l + n - s) mod n)%nat * y s))%R.
Proof.
  intros Hn Hl.
  transitivity (Csum n (fun s => Csum n (fun t => Cmult (RtoC (x t * y s)%R)
      (Csum n (fun k => E n (k * (l + (n - t) + (n - s)))))))).
  - rewrite (Csum_ext n (fun k => Cmult (Cmult (dft n x k) (dft n y k)) (E n (k * l)))
      (fun k => Csum n (fun s => Csum n (fun t => Cmult (RtoC (x t * y s)%R) (E n (k * (l + (n - t) + (n - s)))))))).
    + rewrite Csum_swap. apply Csum_ext. intros t Ht. rewrite Csum_swap. apply Csum_ext. intros s Hs.
      rewrite Csum_scal_l. reflexivity.
    + intros k Hk. unfold dft. rewrite (Cmult_comm (Csum n _) (Csum n _)), Csum_mul, <- Csum_scal_r.
      apply Csum_ext. intros s Hs. rewrite <- Csum_scal_r. apply Csum_ext. intros t Ht.
      rewrite (E_conj_eq n (k * s) (k * (n - s)) k) by (auto; nia).
      rewrite (E_conj_eq n (k * t) (k * (n - t)) k) by (auto; nia).
      rewrite RtoC_mult. rewrite !Nat.mul_add_distr_l, !E_add. ring.
  - rewrite <- Rsum_scal_l, <- Csum_RtoC. apply Csum_ext. intros s Hs.
    rewrite (Csum_ext n _ (fun t => if Nat.eqb t ((l + n - s) mod n) then RtoC (x t * y s * INR n)%R else RtoC 0)).
    + rewrite Csum_delta by (apply Nat.mod_upper_bound; lia). f_equal. ring.
    + intros t Ht. rewrite E_orth by auto.
      assert (Hiff : (l + (n - t) + (n - s)) mod n = 0 <-> t = (l + n - s) mod n).
      { replace (l + (n - t) + (n - s)) with ((l + n - s) + (n - t)) by lia.
        rewrite <- (Nat.add_mod_idemp_l (l + n - s) (n - t) n) by lia.
        pose proof (Nat.mod_upper_bound (l + n - s) n ltac:(lia)) as Hu.
        set (r := (l + n - s) mod n) in *. split.
        - intros H0. apply Nat.mod_divide in H0; [|lia]. destruct H0 as [q Hq].
          assert (q = 1) by nia. subst. lia.
        - intros <-. replace (t + (n - t)) with (0 + 1 * n) by lia. rewrite Nat.mod_add by lia.
          apply Nat.mod_small; lia. }
      destruct (Nat.eqb_spec t ((l + n - s) mod n)) as [H|H];
        destruct (Nat.eqb_spec ((l + (n - t) + (n - s)) mod n) 0) as [H'|H']; try tauto.
      * rewrite <- RtoC_mult. f_equal.
      * ring.
Qed.

Theorem irfft_conv n x y Z l : 0 < n -> l < n ->
  (forall k, k <= n / 2 -> nth k Z (RtoC 0) =
     Cmult (nth k (rfft n x) (RtoC 0)) (nth k (rfft n y) (RtoC 0))) ->
  nth l (irfft n Z) 0%R = Rsum n (fun s => nth ((l + n - s) mod n)%nat x 0 * nth s y 0)%R.
Proof.
  intros Hn Hl HZ. set (xf := fun t => nth t x 0%R). set (yf := fun t => nth t y 0%R).
  rewrite (irfft_full n (fun k => Cmult (dft n xf k) (dft n yf k))); auto.
  - rewrite (dft_conv n xf yf l Hn Hl). simpl. rewrite <- Rmult_assoc, Rinv_l by (apply not_0_INR; lia).
    rewrite Rmult_1_l. reflexivity.
  - intros k Hk. rewrite HZ by auto. rewrite !rfft_dft by auto. reflexivity.
  - intros k Hk Hkn. rewrite !dft_sym by auto. rewrite Cconj_mult. reflexivity.
Qed.

Lemma length_rfft n x : length (rfft n x) = n / 2 + 1.
Proof. apply length_tab. Qed.
Lemma length_irfft n Z : length (irfft n Z) = n.
Proof. apply length_tab. Qed.
