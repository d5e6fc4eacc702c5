(** * Running the Hungarian model on integer matrices

    The model over R and the (executable) model over Z agree on integer matrices.
    Only used to compute concrete examples. *)
From Coq Require Import Reals FunctionalExtensionality.
From Verif Require Import Prelude Hungarian HungarianTop.
Local Open Scope nat_scope.

Definition inj (st : @hungary Z) : @hungary R :=
  mkHungary (fun i j => IZR (hC st i j)) (row_uncovered st) (col_uncovered st)
    (Z0_r st) (Z0_c st) (hpath st) (marked st).

Lemma fext2 {A} (f g : nat -> nat -> A) : (forall i j, f i j = g i j) -> f = g.
Proof. intros. apply functional_extensionality; intros. apply functional_extensionality; auto. Qed.

Lemma Rleb_IZR a b : n_leb R_ops (IZR a) (IZR b) = n_leb Z_ops a b.
Proof.
  simpl. unfold Rleb. destruct (Rle_dec (IZR a) (IZR b)) as [H|H].
  - apply le_IZR in H. symmetry. apply Z.leb_le. auto.
  - symmetry. apply Z.leb_gt. apply Znot_ge_lt. intros G. apply H. apply IZR_le. lia.
Qed.
Lemma Ris0_IZR a : n_is0 R_ops (IZR a) = n_is0 Z_ops a.
Proof.
  simpl. unfold Ris0. destruct (Req_EM_T (IZR a) 0) as [H|H].
  - apply eq_IZR in H. subst. reflexivity.
  - destruct a; auto.
Qed.
Lemma nmin_IZR a b : nmin R_ops (IZR a) (IZR b) = IZR (nmin Z_ops a b).
Proof. unfold nmin. rewrite Rleb_IZR. destruct (n_leb Z_ops a b); auto. Qed.
Lemma minimum_IZR d l : minimum R_ops (IZR d) (map IZR l) = IZR (minimum Z_ops d l).
Proof.
  destruct l as [|x l]; simpl; auto. revert x. induction l as [|y l IH]; intros x; simpl; auto.
  rewrite nmin_IZR. apply IH.
Qed.

Lemma nonzero2_ext n m p q : (forall i j, p i j = q i j) -> nonzero2 n m p = nonzero2 n m q.
Proof. intros H. rewrite (fext2 p q H). auto. Qed.

Lemma step1_star_inj ij st : step1_star (inj st) ij = inj (step1_star st ij).
Proof. destruct ij as [i j]. simpl. destruct (col_uncovered st j && row_uncovered st i); auto. Qed.
Lemma step1_inj n m st : step1 R_ops n m (inj st) = inj (step1 Z_ops n m st).
Proof.
  unfold step1.
  set (sR := set_C (inj st) _). set (sZ := set_C st _).
  assert (E : sR = inj sZ).
  { unfold sR, sZ, inj, set_C; simpl. f_equal. apply fext2. intros i j.
    rewrite minus_IZR. f_equal. rewrite <- minimum_IZR. rewrite map_map. reflexivity. }
  rewrite E.
  rewrite (nonzero2_ext n m (fun i j => n_is0 R_ops (hC (inj sZ) i j)) (fun i j => n_is0 Z_ops (hC sZ i j)))
    by (intros; simpl hC; apply Ris0_IZR).
  generalize (nonzero2 n m (fun i j => n_is0 Z_ops (hC sZ i j))). clear E. generalize sZ. clear.
  intros st l. revert st. induction l as [|ij l IH]; intros st; simpl; auto.
  rewrite step1_star_inj. apply IH.
Qed.
Lemma step3_inj n m st : step3 n m (inj st) = (inj (fst (step3 n m st)), snd (step3 n m st)).
Proof.
  unfold step3. change (is_star (inj st)) with (is_star st).
  destruct (length (nonzero2 n m (is_star st)) <? n); reflexivity.
Qed.
Lemma step4_loop_inj n m Cz : forall fuel cov st,
  step4_loop n m fuel Cz cov (inj st) = rmap (fun p => (inj (fst p), snd p)) (step4_loop n m fuel Cz cov st).
Proof.
  induction fuel as [|fuel IH]; intros cov st; simpl; auto.
  destruct (nonzero2 n m cov) as [|[row col] l]; simpl; auto.
  change (is_star (set_marked (inj st) (upd2 (marked st) row col 2))) with
    (is_star (set_marked st (upd2 (marked st) row col 2))).
  destruct (nonzero1 m _) as [|col' l']; simpl; auto.
  rewrite <- IH. reflexivity.
Qed.
Lemma step4_inj n m st : step4 R_ops n m (inj st) = rmap (fun p => (inj (fst p), snd p)) (step4 Z_ops n m st).
Proof.
  unfold step4. rewrite <- step4_loop_inj.
  assert (E : forall i j, n_is0 R_ops (hC (inj st) i j) = n_is0 Z_ops (hC st i j))
    by (intros; simpl hC; apply Ris0_IZR).
  rewrite (fext2 (fun i j => n_is0 R_ops (hC (inj st) i j)) _ E).
  f_equal. apply fext2. intros i j. rewrite E. reflexivity.
Qed.
Lemma step5_inj n m st : step5 n m (inj st) = rmap inj (step5 n m st).
Proof. unfold step5. simpl. destruct (step5_path n m (n + m) (marked st) _ 0) as [[p c]|e]; reflexivity. Qed.
Lemma step6_inj n m st : step6 R_ops n m (inj st) = inj (step6 Z_ops n m st).
Proof.
  unfold step6. simpl row_uncovered. simpl col_uncovered.
  destruct (existsb (row_uncovered st) (seq 0 n) && existsb (col_uncovered st) (seq 0 m)); auto.
  set (mR := minimum R_ops _ (map _ (nonzero1 m _))).
  set (mZ := minimum Z_ops _ (map _ (nonzero1 m _))).
  assert (E : mR = IZR mZ).
  { unfold mR, mZ. rewrite <- minimum_IZR, map_map. simpl n_zero. f_equal. apply map_ext. intros j.
    rewrite <- minimum_IZR, map_map. reflexivity. }
  unfold inj, set_C; simpl. f_equal. apply fext2. intros i j. rewrite E.
  destruct (row_uncovered st i), (col_uncovered st j); rewrite ?minus_IZR, ?plus_IZR; reflexivity.
Qed.
Lemma do_step_inj n m s st :
  do_step R_ops n m s (inj st) = rmap (fun p => (inj (fst p), snd p)) (do_step Z_ops n m s st).
Proof.
  destruct s; unfold do_step.
  - rewrite step1_inj. reflexivity.
  - rewrite step3_inj. reflexivity.
  - rewrite step4_inj. destruct (step4 Z_ops n m st) as [[st' s']|e]; reflexivity.
  - rewrite step5_inj. destruct (step5 n m st) as [st'|e]; reflexivity.
  - rewrite step6_inj. reflexivity.
Qed.
Lemma run_inj n m : forall fuel s st, run R_ops n m fuel s (inj st) = rmap inj (run Z_ops n m fuel s st).
Proof.
  induction fuel as [|fuel IH]; intros [s|] st; cbn [run]; auto.
  rewrite do_step_inj. destruct (do_step Z_ops n m s st) as [[st' s']|e]; cbn [rmap bind fst snd]; auto.
Qed.
Theorem lsa_Z fuel n m c :
  linear_sum_assignment R_ops fuel n m (fun i j => IZR (c i j)) = linear_sum_assignment Z_ops fuel n m c.
Proof.
  unfold linear_sum_assignment.
  replace (hungary_init (if m <? n then fun i j => IZR (c j i) else fun i j => IZR (c i j)))
    with (inj (hungary_init (if m <? n then fun i j => c j i else c))) by (destruct (m <? n); reflexivity).
  rewrite run_inj. destruct (run Z_ops _ _ fuel _ _) as [st|e]; simpl; auto.
Qed.
