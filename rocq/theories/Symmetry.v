(** * Reordering and sign changes of channels, both solvers (C23, C31) *)
From Coq Require Import Reals Lra FinFun.
From Coquelicot Require Import Complex.
From Verif Require Import Prelude ExtReal Slice Sums SpecSig Fft FftProofs Helpers Linalg LinalgProofs
  Cgd Metrics StatsProofs LeastSq PrepProofs MetricsProofs SarProofs ProjTheorems MetricTheorems Invariance
  CgdOps CgdPrecond CgProofs CgCirc Cells.
Local Open Scope nat_scope.

(** ** Permutations of 0 .. n-1 *)
Definition perm_of (n : nat) (sg : nat -> nat) : Prop :=
  (forall i, i < n -> sg i < n) /\ (forall i j, i < n -> j < n -> sg i = sg j -> i = j).
Definition inverse_of (n : nat) (sg ti : nat -> nat) : Prop :=
  (forall i, i < n -> ti i < n) /\ (forall i, i < n -> ti (sg i) = i) /\ (forall i, i < n -> sg (ti i) = i).
Lemma perm_inverse n sg : perm_of n sg -> exists ti, inverse_of n sg ti.
Proof.
  intros [Hf Hi]. assert (bSurjective n sg) as Hs.
  { apply bInjective_bSurjective; [exact Hf|]. intros x y Hx Hy. apply Hi; auto. }
  destruct (bSurjective_bBijective Hf Hs) as (g & Hg & H). exists g.
  split; [exact Hg|]. split; intros i Hi'; apply H; auto.
Qed.
Lemma inverse_perm n sg ti : perm_of n sg -> inverse_of n sg ti -> perm_of n ti.
Proof.
  intros [Hf Hi] (H1 & H2 & H3). split; auto. intros i j Hi' Hj E.
  rewrite <- (H3 i), <- (H3 j) by auto. congruence.
Qed.
Lemma perm_id n : perm_of n (fun i => i).
Proof. split; auto. Qed.

Lemma Rsum_perm n sg f : perm_of n sg -> Rsum n (fun i => f (sg i)) = Rsum n f.
Proof.
  intros Hp. destruct (perm_inverse n sg Hp) as (ti & H1 & H2 & H3).
  rewrite (Rsum_ext n (fun i => f (sg i)) (fun i => Rsum n (fun j => if j =? sg i then f j else 0%R))).
  2:{ intros i Hi. rewrite Rsum_delta; auto. apply Hp; auto. }
  rewrite Rsum_swap. apply Rsum_ext. intros j Hj.
  rewrite (Rsum_single n (ti j)); auto.
  - rewrite H3, Nat.eqb_refl by auto. reflexivity.
  - intros i Hi N. destruct (Nat.eqb_spec j (sg i)) as [->|]; auto. rewrite H2 in N by auto. contradiction.
Qed.
Lemma Csum_perm n sg f : perm_of n sg -> Csum n (fun i => f (sg i)) = Csum n f.
Proof.
  intros Hp. apply injective_projections.
  - change (Re (Csum n (fun i => f (sg i))) = Re (Csum n f)). rewrite !Re_Csum.
    apply (Rsum_perm n sg (fun i => Re (f i)) Hp).
  - change (Im (Csum n (fun i => f (sg i))) = Im (Csum n f)). rewrite !Im_Csum.
    apply (Rsum_perm n sg (fun i => Im (f i)) Hp).
Qed.

(** ** Signed permutations of vectors *)
Definition spm (n : nat) (d : nat -> R) (pi : nat -> nat) (v : list R) : list R :=
  tab n (fun i => d i * nth (pi i) v 0)%R.
Lemma length_spm n d pi v : length (spm n d pi v) = n. Proof. apply length_tab. Qed.
Lemma nth_spm n d pi v i : i < n -> nth i (spm n d pi v) 0%R = (d i * nth (pi i) v 0)%R.
Proof. intros H. unfold spm. rewrite nth_tab; auto. Qed.
Lemma dotl_spm n d pi u v : signs n d -> perm_of n pi ->
  dotl n (spm n d pi u) (spm n d pi v) = dotl n u v.
Proof.
  intros Hd Hp. unfold dotl. rewrite <- (Rsum_perm n pi (fun i => nth i u 0 * nth i v 0)%R Hp).
  apply Rsum_ext. intros i Hi. rewrite !nth_spm by auto. specialize (Hd i Hi). unfold is_sign in Hd.
  transitivity (d i * d i * (nth (pi i) u 0 * nth (pi i) v 0))%R; [ring|]. rewrite Hd. ring.
Qed.
Lemma axpy_spm n d pi x a p : perm_of n pi ->
  axpy n (spm n d pi x) a (spm n d pi p) = spm n d pi (axpy n x a p).
Proof.
  intros Hp. unfold axpy at 1, spm at 3. apply tab_ext. intros i Hi. rewrite !nth_spm by auto.
  rewrite nth_axpy by (apply Hp; auto). ring.
Qed.

(** ** The iterative solver commutes with signed permutations *)
Section CgSym.
Variables (n : nat) (d : nat -> R) (pi : nat -> nat).
Variables (A A' P P' : list R -> list R) (b x0 : list R).
Hypothesis Hd : signs n d.
Hypothesis Hp : perm_of n pi.
Hypothesis Hx0 : length x0 = n.
Hypothesis HPl : forall v, length v = n -> length (P v) = n.
Notation T := (spm n d pi).
Hypothesis HA : forall v, length v = n -> A' (T v) = T (A v).
Hypothesis HP : forall v, length v = n -> P' (T v) = T (P v).
Definition spm_state (s : cg_state) : cg_state := CG (T (cg_x s)) (T (cg_r s)) (T (cg_p s)) (cg_rs s).
Lemma cg_init_sym : cg_init n A' P' (T b) (T x0) = spm_state (cg_init n A P b x0).
Proof.
  unfold cg_init, spm_state. cbn [cg_x cg_r cg_p cg_rs]. rewrite HA by auto. rewrite axpy_spm by auto.
  rewrite HP by apply length_axpy. rewrite dotl_spm by auto. reflexivity.
Qed.
Lemma cg_step_sym e s : cg_len n s ->
  cg_step n A' P' (T b) e (spm_state s) = spm_state (cg_step n A P b e s).
Proof.
  intros (H1 & H2 & H3). unfold cg_step. rewrite never_recompute. unfold spm_state.
  cbn [cg_x cg_r cg_p cg_rs]. rewrite HA by auto. rewrite dotl_spm by auto. rewrite !axpy_spm by auto.
  rewrite HP by apply length_axpy. rewrite !dotl_spm by auto. rewrite axpy_spm by auto. reflexivity.
Qed.
Lemma cg_run_sym k : cg_run n A' P' (T b) (T x0) k = spm_state (cg_run n A P b x0 k).
Proof.
  induction k as [|k IH].
  - apply cg_init_sym.
  - rewrite !cg_run_S, IH. apply cg_step_sym. apply cg_run_len; auto.
Qed.
Lemma cg_sym k : conjugate_gradient n A' P' (T b) (T x0) k = T (conjugate_gradient n A P b x0 k).
Proof. unfold conjugate_gradient. rewrite cg_run_sym. reflexivity. Qed.
End CgSym.

(** ** Linear systems *)
Lemma Rmv_spm n d pi A A' v i : signs n d -> perm_of n pi ->
  (forall i j, i < n -> j < n -> A' i j = (d i * d j * A (pi i) (pi j))%R) -> i < n ->
  Rmv n A' (fun j => d j * v (pi j))%R i = (d i * Rmv n A v (pi i))%R.
Proof.
  intros Hd Hp HA Hi. unfold mulmv.
  rewrite <- (Rsum_perm n pi (fun j => A (pi i) j * v j)%R Hp), <- Rsum_scal_l.
  apply Rsum_ext. intros j Hj. rewrite HA by auto. pose proof (Hd j Hj) as E. unfold is_sign in E.
  transitivity (d j * d j * (d i * (A (pi i) (pi j) * v (pi j))))%R; [ring|]. rewrite E. ring.
Qed.
Lemma rel_back n d pi ti (A A' : nat -> nat -> R) : signs n d -> perm_of n pi -> inverse_of n pi ti ->
  (forall i j, i < n -> j < n -> A' i j = (d i * d j * A (pi i) (pi j))%R) ->
  forall i j, i < n -> j < n -> A i j = (d (ti i) * d (ti j) * A' (ti i) (ti j))%R.
Proof.
  intros Hd Hp (H1 & H2 & H3) HA i j Hi Hj. rewrite HA by auto. rewrite !H3 by auto.
  pose proof (Hd (ti i) (H1 i Hi)) as E1. pose proof (Hd (ti j) (H1 j Hj)) as E2. unfold is_sign in *.
  transitivity (d (ti i) * d (ti i) * (d (ti j) * d (ti j)) * A i j)%R; [rewrite E1, E2; ring|ring].
Qed.
Lemma nonsingular_spm1 n d pi A A' : signs n d -> perm_of n pi ->
  (forall i j, i < n -> j < n -> A' i j = (d i * d j * A (pi i) (pi j))%R) ->
  nonsingular n A' -> nonsingular n A.
Proof.
  intros Hd Hp HA Hn v Hv j Hj. destruct (perm_inverse n pi Hp) as (ti & H1 & H2 & H3).
  assert (E : (d (ti j) * v (pi (ti j)) = 0)%R).
  { apply (Hn (fun j => d j * v (pi j))%R); [|auto]. intros i Hi.
    rewrite (Rmv_spm n d pi A A') by auto. rewrite Hv by (apply Hp; auto). ring. }
  rewrite H3 in E by auto. pose proof (Hd (ti j) (H1 j Hj)) as S. unfold is_sign in S.
  destruct (Rmult_integral _ _ E) as [E'|]; auto. rewrite E' in S. lra.
Qed.
Lemma signs_comp n d ti : signs n d -> (forall i, i < n -> ti i < n) -> signs n (fun i => d (ti i)).
Proof. intros Hd Ht i Hi. apply Hd; auto. Qed.
Lemma nonsingular_spm n d pi A A' : signs n d -> perm_of n pi ->
  (forall i j, i < n -> j < n -> A' i j = (d i * d j * A (pi i) (pi j))%R) ->
  nonsingular n A' <-> nonsingular n A.
Proof.
  intros Hd Hp HA. split; [apply (nonsingular_spm1 n d pi); auto|].
  destruct (perm_inverse n pi Hp) as (ti & Hti). pose proof Hti as (H1 & H2 & H3).
  apply (nonsingular_spm1 n (fun i => d (ti i)) ti).
  - apply signs_comp; auto.
  - apply (inverse_perm n pi); auto.
  - apply (rel_back n d pi ti); auto.
Qed.
Lemma Rsolve_none_iff n A b : Rsolve n A b = None <-> ~ nonsingular n A.
Proof.
  split.
  - intros H Hn. destruct (Rsolve_none n A b H) as (v & (j & Hj & Hv) & Hk). apply Hv. apply (Hn v Hk j Hj).
  - intros H. destruct (Rsolve n A b) as [x|] eqn:E; auto. exfalso. apply H.
    intros v Hv. apply (Rsolve_inj n A b x v E Hv).
Qed.
Lemma Rsolve_some_ns n A b : nonsingular n A -> exists x, Rsolve n A b = Some x.
Proof. intros H. apply Rsolve_some. exact H. Qed.
Lemma Rsolve_opt_spm n d pi A A' b b' : signs n d -> perm_of n pi ->
  (forall i j, i < n -> j < n -> A' i j = (d i * d j * A (pi i) (pi j))%R) ->
  (Rsolve n A' b' = None <-> Rsolve n A b = None).
Proof. intros Hd Hp HA. rewrite !Rsolve_none_iff, (nonsingular_spm n d pi A A'); auto. reflexivity. Qed.
Lemma solution_spm n d pi A A' b b' l : signs n d -> perm_of n pi ->
  (forall i j, i < n -> j < n -> A' i j = (d i * d j * A (pi i) (pi j))%R) ->
  (forall i, i < n -> nth i b' 0%R = (d i * nth (pi i) b 0)%R) -> l < n ->
  solution n A' b' l = (d l * solution n A b (pi l))%R.
Proof.
  intros Hd Hp HA Hb Hl. unfold solution.
  pose proof (Rsolve_opt_spm n d pi A A' (fun i => nth i b 0%R) (fun i => nth i b' 0%R) Hd Hp HA) as Ho.
  destruct (Rsolve n A (fun i => nth i b 0%R)) as [x|] eqn:E; destruct (Rsolve n A' (fun i => nth i b' 0%R)) as [x'|] eqn:E'.
  - symmetry. apply (Rsolve_uniq n A' (fun i => nth i b' 0%R) x' (fun l => d l * x (pi l))%R E'); auto.
    intros i Hi. rewrite (Rmv_spm n d pi A A') by auto. rewrite (Rsolve_ok n A _ x E) by (apply Hp; auto).
    rewrite Hb by auto. reflexivity.
  - destruct Ho as [Ho _]. specialize (Ho eq_refl). discriminate.
  - destruct Ho as [_ Ho]. specialize (Ho eq_refl). discriminate.
  - ring.
Qed.

(** ** Complex inverses *)
Lemma sign_C (s : R) : is_sign s -> Cmult (RtoC s) (RtoC s) = RtoC 1.
Proof. intros H. rewrite <- RtoC_mult. unfold is_sign in H. rewrite H. reflexivity. Qed.
Lemma Cmv_spm n d pi A A' v i : signs n d -> perm_of n pi ->
  (forall i j, i < n -> j < n -> A' i j = Cmult (RtoC (d i * d j)) (A (pi i) (pi j))) -> i < n ->
  Cmv n A' (fun j => Cmult (RtoC (d j)) (v (pi j))) i = Cmult (RtoC (d i)) (Cmv n A v (pi i)).
Proof.
  intros Hd Hp HA Hi. unfold mulmv.
  rewrite <- (Csum_perm n pi (fun j => Cmult (A (pi i) j) (v j)) Hp), <- Csum_scal_l.
  apply Csum_ext. intros j Hj. rewrite HA, RtoC_mult by auto. pose proof (sign_C (d j) (Hd j Hj)) as E.
  transitivity (Cmult (Cmult (RtoC (d j)) (RtoC (d j))) (Cmult (RtoC (d i)) (Cmult (A (pi i) (pi j)) (v (pi j))))); [ring|].
  rewrite E. ring.
Qed.
Lemma Csolve_none1 n d pi A A' b b' : signs n d -> perm_of n pi ->
  (forall i j, i < n -> j < n -> A' i j = Cmult (RtoC (d i * d j)) (A (pi i) (pi j))) ->
  Csolve n A b = None -> Csolve n A' b' = None.
Proof.
  intros Hd Hp HA H. destruct (Csolve n A' b') as [x|] eqn:E; auto. exfalso.
  destruct (Csolve_none n A b H) as (v & (j & Hj & Hv) & Hk).
  destruct (perm_inverse n pi Hp) as (ti & H1 & H2 & H3).
  apply Hv.
  assert (Ez : Cmult (RtoC (d (ti j))) (v (pi (ti j))) = RtoC 0).
  { apply (Csolve_inj n A' b' x (fun j => Cmult (RtoC (d j)) (v (pi j))) E); auto. intros i Hi.
    rewrite (Cmv_spm n d pi A A') by auto. rewrite Hk by (apply Hp; auto). apply Cmult_0_r. }
  rewrite H3 in Ez by auto.
  transitivity (Cmult (RtoC (d (ti j))) (Cmult (RtoC (d (ti j))) (v j))).
  - rewrite Cmult_assoc, sign_C by (apply Hd; auto). ring.
  - rewrite Ez. apply Cmult_0_r.
Qed.
Lemma Csolve_none_spm n d pi A A' b b' : signs n d -> perm_of n pi ->
  (forall i j, i < n -> j < n -> A' i j = Cmult (RtoC (d i * d j)) (A (pi i) (pi j))) ->
  (Csolve n A b = None <-> Csolve n A' b' = None).
Proof.
  intros Hd Hp HA. split; [apply (Csolve_none1 n d pi); auto|].
  destruct (perm_inverse n pi Hp) as (ti & Hti). pose proof Hti as (H1 & H2 & H3).
  apply (Csolve_none1 n (fun i => d (ti i)) ti).
  - apply signs_comp; auto.
  - apply (inverse_perm n pi); auto.
  - intros i j Hi Hj. rewrite HA by auto. rewrite !H3 by auto. rewrite Cmult_assoc, <- RtoC_mult.
    pose proof (Hd (ti i) (H1 i Hi)) as E1. pose proof (Hd (ti j) (H1 j Hj)) as E2. unfold is_sign in *.
    replace (d (ti i) * d (ti j) * (d (ti i) * d (ti j)))%R with (d (ti i) * d (ti i) * (d (ti j) * d (ti j)))%R by ring.
    rewrite E1, E2, Rmult_1_r. ring.
Qed.
Lemma cinv_spm n d pi A A' : signs n d -> perm_of n pi ->
  (forall i j, i < n -> j < n -> A' i j = Cmult (RtoC (d i * d j)) (A (pi i) (pi j))) ->
  match cinv n A, cinv n A' with
  | Ok M, Ok M' => forall i j, i < n -> j < n -> M' i j = Cmult (RtoC (d i * d j)) (M (pi i) (pi j))
  | Raise e, Raise e' => e = LinAlgError /\ e' = LinAlgError
  | _, _ => False
  end.
Proof.
  intros Hd Hp HA. unfold cinv.
  pose proof (Csolve_none_spm n d pi A A' (fun _ => RtoC 0) (fun _ => RtoC 0) Hd Hp HA) as Ho.
  destruct (Csolve n A (fun _ => RtoC 0)) as [y|] eqn:E; destruct (Csolve n A' (fun _ => RtoC 0)) as [y'|] eqn:E'.
  - intros i j Hi Hj.
    destruct (Csolve_dom n A (fun _ => RtoC 0) (fun i => if i =? pi j then RtoC 1 else RtoC 0) y E) as [x Ex].
    destruct (Csolve_dom n A' (fun _ => RtoC 0) (fun i => if i =? j then RtoC 1 else RtoC 0) y' E') as [x' Ex'].
    rewrite Ex, Ex'. symmetry.
    apply (Csolve_uniq n A' _ x' (fun i => Cmult (RtoC (d i * d j)) (x (pi i))) Ex'); auto.
    intros l Hl.
    transitivity (Cmult (RtoC (d j)) (Cmv n A' (fun i => Cmult (RtoC (d i)) (x (pi i))) l)).
    { unfold mulmv. rewrite <- Csum_scal_l. apply Csum_ext. intros q Hq. rewrite RtoC_mult. ring. }
    rewrite (Cmv_spm n d pi A A') by auto. rewrite (Csolve_ok n A _ x Ex) by (apply Hp; auto).
    destruct (Nat.eqb_spec l j) as [->|N].
    + rewrite Nat.eqb_refl. rewrite Cmult_1_r. apply sign_C. apply Hd; auto.
    + destruct (Nat.eqb_spec (pi l) (pi j)) as [E1|]; [|ring].
      exfalso. apply N. apply Hp; auto.
  - destruct Ho as [_ Ho]. specialize (Ho eq_refl). discriminate.
  - destruct Ho as [Ho _]. specialize (Ho eq_refl). discriminate.
  - auto.
Qed.

(** ** SDR cells *)
Lemma spm_const n t v : length v = n -> spm n (fun _ => t) (fun i => i) v = rscale t v.
Proof.
  intros H. symmetry. apply (list_eq_tab _ n _ 0%R).
  - unfold rscale. rewrite map_length. auto.
  - intros i Hi. apply smp_rscale.
Qed.
Lemma signs_const n t : is_sign t -> signs n (fun _ => t).
Proof. intros H i _. exact H. Qed.
Lemma dense_toeplitz_scale acf t v : length v = length acf ->
  dense_toeplitz acf (rscale t v) = rscale t (dense_toeplitz acf v).
Proof.
  intros Hv. symmetry. apply (list_eq_tab _ (length acf) _ 0%R).
  - unfold rscale, dense_toeplitz. rewrite map_length. apply length_tab.
  - intros i Hi. change (smp (rscale t (dense_toeplitz acf v)) i = Rsum (length acf) (fun j => nth (adist i j) acf 0 * smp (rscale t v) j)%R).
    rewrite smp_rscale. unfold smp at 1, dense_toeplitz. rewrite nth_tab by auto. rewrite <- Rsum_scal_l.
    apply Rsum_ext. intros j Hj. rewrite smp_rscale. unfold smp. ring.
Qed.
Lemma dft_scale n t v k : dft n (smp (rscale t v)) k = Cmult (RtoC t) (dft n (smp v) k).
Proof.
  unfold dft. rewrite <- Csum_scal_l. apply Csum_ext. intros i Hi. rewrite smp_rscale, RtoC_mult. ring.
Qed.
Lemma circ_prec_scale acf t v : length v = length acf ->
  circ_prec acf (rscale t v) = rscale t (circ_prec acf v).
Proof.
  intros Hv. apply (list_eq_nth _ _ 0%R).
  - unfold rscale. rewrite map_length, !length_circ_prec. reflexivity.
  - intros i Hi. rewrite length_circ_prec in Hi.
    change (nth i (rscale t (circ_prec acf v)) 0%R) with (smp (rscale t (circ_prec acf v)) i).
    rewrite smp_rscale. unfold smp at 1. rewrite !circ_prec_full by auto.
    rewrite <- Rmult_assoc, (Rmult_comm t), Rmult_assoc. f_equal. rewrite <- Rsum_scal_l. apply Rsum_ext.
    intros k Hk. rewrite dft_scale. destruct (dft (length acf) (smp v) k) as [a c], (E (length acf) (k * i)) as [e f].
    unfold Re, Cmult, RtoC. simpl. ring.
Qed.
Lemma rscale_zeros t n : rscale t (repeat 0%R n) = repeat 0%R n.
Proof. unfold rscale. induction n; simpl; auto. rewrite IHn, Rmult_0_r. reflexivity. Qed.
Lemma length_dense acf v : length (dense_toeplitz acf v) = length acf.
Proof. apply length_tab. Qed.
Lemma length_tcg acf xc it : length (toeplitz_cg_spec acf xc it) = length acf.
Proof.
  unfold toeplitz_cg_spec, conjugate_gradient. apply cg_run_len; [apply repeat_length|].
  intros; apply length_circ_prec.
Qed.
Lemma tcg_sign acf xc t it : is_sign t -> length xc = length acf ->
  toeplitz_cg_spec acf (rscale t xc) it = rscale t (toeplitz_cg_spec acf xc it).
Proof.
  intros Ht Hl. rewrite <- (spm_const (length acf) t (toeplitz_cg_spec acf xc it)) by apply length_tcg.
  unfold toeplitz_cg_spec. rewrite <- (spm_const (length acf) t xc) by auto.
  rewrite <- (rscale_zeros t (length acf)) at 1.
  rewrite <- (spm_const (length acf) t (repeat 0%R (length acf))) by apply repeat_length.
  apply cg_sym.
  - apply signs_const; auto.
  - apply perm_id.
  - apply repeat_length.
  - intros; apply length_circ_prec.
  - intros v Hv. rewrite !spm_const; auto using length_dense. apply dense_toeplitz_scale; auto.
  - intros v Hv. rewrite !spm_const; auto using length_circ_prec. apply circ_prec_scale; auto.
Qed.
Lemma sdr_cell_sign cg acf xc t : is_sign t -> length xc = length acf ->
  sdr_cell cg acf (rscale t xc) = sdr_cell cg acf xc.
Proof.
  intros Ht Hl. unfold sdr_cell, dot_nth. apply Rsum_ext. intros l Hll.
  assert (E : sdr_sol cg acf (rscale t xc) l = (t * sdr_sol cg acf xc l)%R).
  { unfold sdr_sol. destruct cg as [it|].
    - rewrite tcg_sign by auto. apply smp_rscale.
    - apply (solution_spm (length acf) (fun _ => t) (fun i => i)); auto.
      + apply signs_const; auto.
      + apply perm_id.
      + intros i j _ _. unfold is_sign in Ht. rewrite Ht. ring.
      + intros i Hi. apply smp_rscale. }
  rewrite E. change (nth l (rscale t xc) 0%R) with (smp (rscale t xc) l). rewrite smp_rscale. unfold smp, is_sign in *.
  transitivity (t * t * (nth l xc 0 * sdr_sol cg acf xc l))%R; [ring|]. rewrite Ht. ring.
Qed.

(** ** Relabelled channel lists *)
Definition relabel (sg : nat -> nat) (s : nat -> R) (l : list chan) : list chan :=
  tab (length l) (fun c => sign_chan (s c) (nth (sg c) l None)).
Lemma length_relabel sg s l : length (relabel sg s l) = length l.
Proof. apply length_tab. Qed.
Lemma nth_relabel sg s l c : c < length l ->
  nth c (relabel sg s l) None = sign_chan (s c) (nth (sg c) l None).
Proof. intros H. unfold relabel. rewrite nth_tab; auto. Qed.
Lemma flip_relabel s l : flip_chans s l = relabel (fun i => i) s l.
Proof. reflexivity. Qed.

(** ** Related results *)
Definition rrel {A B} (Q : A -> B -> Prop) (r : res A) (r' : res B) : Prop :=
  match r, r' with Ok a, Ok a' => Q a a' | Raise e, Raise e' => e = e' | _, _ => False end.
Definition rrelE {A B} (E : exn) (Q : A -> B -> Prop) (r : res A) (r' : res B) : Prop :=
  match r, r' with Ok a, Ok a' => Q a a' | Raise e, Raise e' => e = E /\ e' = E | _, _ => False end.
Lemma rrelE_rrel {A B} E (Q : A -> B -> Prop) r r' : rrelE E Q r r' -> rrel Q r r'.
Proof. destruct r, r'; simpl; auto. intros [-> ->]. reflexivity. Qed.
Lemma rrel_mono {A B} (Q Q' : A -> B -> Prop) r r' : (forall a b, Q a b -> Q' a b) -> rrel Q r r' -> rrel Q' r r'.
Proof. intros H. destruct r, r'; simpl; auto. Qed.
Lemma rrel_eq {A} (r r' : res A) : rrel eq r r' -> r = r'.
Proof. destruct r, r'; simpl; try contradiction; congruence. Qed.
Lemma rrel_bind {A A' B B'} (Q : A -> A' -> Prop) (Q' : B -> B' -> Prop) r r' f f' :
  rrel Q r r' -> (forall a a', r = Ok a -> r' = Ok a' -> Q a a' -> rrel Q' (f a) (f' a')) ->
  rrel Q' (bind r f) (bind r' f').
Proof. intros H Hf. destruct r as [a|e], r' as [a'|e']; simpl in *; try contradiction; auto. Qed.
Lemma rrelE_bind {A A' B B'} E (Q : A -> A' -> Prop) (Q' : B -> B' -> Prop) r r' f f' :
  rrelE E Q r r' -> (forall a a', r = Ok a -> r' = Ok a' -> Q a a' -> rrelE E Q' (f a) (f' a')) ->
  rrelE E Q' (bind r f) (bind r' f').
Proof. intros H Hf. destruct r as [a|e], r' as [a'|e']; simpl in *; try contradiction; auto. Qed.

Lemma mapM_perm {A B A' B'} E (Q : B -> B' -> Prop) (f : A -> res B) (g : A' -> res B') l l' sg dA dA' dB dB' :
  length l' = length l -> perm_of (length l) sg ->
  (forall i, i < length l -> rrelE E Q (f (nth (sg i) l dA)) (g (nth i l' dA'))) ->
  rrelE E (fun r r' => length r = length l /\ length r' = length l /\
                       forall i, i < length l -> Q (nth (sg i) r dB) (nth i r' dB'))
        (mapM f l) (mapM g l').
Proof.
  intros Hlen Hp H. destruct (perm_inverse _ sg Hp) as (ti & H1 & H2 & H3).
  destruct (mapM f l) as [r|e] eqn:Ef.
  - assert (Hg : exists r', mapM g l' = Ok r').
    { apply mapM_all_ok. intros x Hx. apply (In_nth _ _ dA') in Hx. destruct Hx as (i & Hi & <-).
      rewrite Hlen in Hi. specialize (H i Hi).
      rewrite (mapM_nth f l r dA dB (sg i) Ef) in H by (apply Hp; auto).
      destruct (g (nth i l' dA')); simpl in H; [eauto|contradiction]. }
    destruct Hg as [r' Eg]. rewrite Eg. simpl.
    split; [apply (mapM_length f); auto|]. split; [rewrite <- Hlen; apply (mapM_length g); auto|].
    intros i Hi. specialize (H i Hi).
    rewrite (mapM_nth f l r dA dB (sg i) Ef) in H by (apply Hp; auto).
    rewrite (mapM_nth g l' r' dA' dB' i Eg) in H by lia. exact H.
  - destruct (mapM_raise f l e Ef) as (x & Hx & Ex).
    apply (In_nth _ _ dA) in Hx. destruct Hx as (j & Hj & <-).
    pose proof (H (ti j) (H1 j Hj)) as Hj'. rewrite H3, Ex in Hj' by auto.
    destruct (mapM g l') as [r'|e'] eqn:Eg.
    + rewrite (mapM_nth g l' r' dA' dB' (ti j) Eg) in Hj' by (rewrite Hlen; auto). contradiction.
    + simpl. split.
      * destruct (g (nth (ti j) l' dA')); simpl in Hj'; [contradiction|tauto].
      * destruct (mapM_raise g l' e' Eg) as (x' & Hx' & Ex').
        apply (In_nth _ _ dA') in Hx'. destruct Hx' as (i & Hi & <-). rewrite Hlen in Hi.
        specialize (H i Hi). rewrite Ex' in H.
        destruct (f (nth (sg i) l dA)); simpl in H; [contradiction|tauto].
Qed.

(** ** SDR rows *)
Lemma nth_map_chan (f : chan -> xr) (l : list chan) i : i < length l -> nth i (map f l) NaN = f (nth i l None).
Proof. intros H. rewrite (nth_indep _ NaN (f None)) by (rewrite map_length; auto). apply map_nth. Qed.
Lemma vcell_sign f (y : chan) t : (forall v, y = Some v -> f (rscale t v) = f v) ->
  vcell f (sign_chan t y) = vcell f y.
Proof. intros H. destruct y as [v|]; auto. simpl. rewrite (H v); auto. Qed.

Lemma sdr_row_rel cg ld nf L ests (x : chan) tau s0 s : 0 < nf ->
  perm_of (length ests) tau -> (x <> None -> is_sign s0) -> signs (length ests) s ->
  rrelE LinAlgError (fun r r' => length r = length ests /\ length r' = length ests /\
       forall j, j < length ests -> nth j r' NaN = nth (tau j) r NaN)
    (sdr_row_cells cg ld nf L ests x)
    (sdr_row_cells cg ld nf L (relabel tau s ests) (sign_chan s0 x)).
Proof.
  intros Hn Ht Hs0 Hs. destruct x as [v|].
  - rewrite sign_chan_some. unfold sdr_row_cells. assert (S0 : is_sign s0) by (apply Hs0; discriminate).
    rewrite stats_acf_sign by auto.
    destruct (solvable cg _ _) as [u|e] eqn:Es; cbn [bind rrelE].
    + rewrite !map_length, length_relabel. split; auto. split; auto. intros j Hj.
      assert (Htj : tau j < length ests) by (apply Ht; auto).
      rewrite !nth_map_chan by (rewrite ?length_relabel; auto). rewrite nth_relabel by auto.
      destruct (nth (tau j) ests None) as [w|]; auto. simpl. f_equal.
      rewrite stats_xcorr_sign by auto. apply sdr_cell_sign; [|apply stats_len].
      specialize (Hs j Hj). unfold is_sign in *.
      transitivity ((s0 * s0) * (s j * s j))%R; [ring|]. rewrite S0, Hs. ring.
    + unfold solvable in Es. destruct cg; [discriminate|]. destruct (Rsolve _ _ _); [discriminate|].
      injection Es as <-. auto.
  - simpl. rewrite !map_length, length_relabel. split; auto. split; auto. intros j Hj.
    rewrite !nth_map_chan by (rewrite ?length_relabel; auto; apply Ht; auto). reflexivity.
Qed.
