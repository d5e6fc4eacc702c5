(** * Reordering and sign changes of channels: the SAR row, both solvers (C23, C31) *)
From Coq Require Import Reals Lra.
From Coquelicot Require Import Complex.
From Verif Require Import Prelude ExtReal Slice Sums SpecSig Fft FftProofs Helpers Linalg LinalgProofs
  Cgd Metrics StatsProofs LeastSq PrepProofs MetricsProofs SarProofs ProjTheorems MetricTheorems Invariance
  CgdOps CgdPrecond CgProofs CgCirc Cells Symmetry.
Local Open Scope nat_scope.

Lemma Rsum_perm_eq n sg f g : perm_of n sg -> (forall i, i < n -> g i = f (sg i)) -> Rsum n g = Rsum n f.
Proof. intros Hp H. rewrite <- (Rsum_perm n sg f Hp). apply Rsum_ext; auto. Qed.
Lemma Csum_perm_eq n sg f g : perm_of n sg -> (forall i, i < n -> g i = f (sg i)) -> Csum n g = Csum n f.
Proof. intros Hp H. rewrite <- (Csum_perm n sg f Hp). apply Csum_ext; auto. Qed.

(** ** Lag-major layout *)
Definition lay (k : nat) (sg : nat -> nat) (p : nat) : nat := p / k * k + sg (p mod k).
Lemma lay_at k sg l c : c < k -> lay k sg (l * k + c) = l * k + sg c.
Proof. intros H. unfold lay. rewrite lag_div, lag_mod by auto. reflexivity. Qed.
Lemma perm_lay n k sg : perm_of k sg -> perm_of (n * k) (lay k sg).
Proof.
  intros [H1 H2]. split.
  - intros p Hp. destruct (lag_split k n p Hp) as (l & c & Hl & Hc & ->). rewrite lay_at by auto.
    specialize (H1 c Hc). nia.
  - intros p q Hp Hq E. destruct (lag_split k n p Hp) as (l & c & Hl & Hc & ->).
    destruct (lag_split k n q Hq) as (l' & c' & Hl' & Hc' & ->). rewrite !lay_at in E by auto.
    assert (El : l = l').
    { rewrite <- (lag_div k l (sg c)), <- (lag_div k l' (sg c')) by auto. congruence. }
    assert (Ec : sg c = sg c').
    { rewrite <- (lag_mod k l (sg c)), <- (lag_mod k l' (sg c')) by auto. congruence. }
    rewrite (H2 c c') by auto. congruence.
Qed.
Definition layd (k : nat) (u : nat -> R) (p : nat) : R := u (p mod k).
Lemma signs_lay n k u : signs k u -> signs (n * k) (layd k u).
Proof.
  intros H p Hp. apply H. apply Nat.mod_upper_bound. intros ->. lia.
Qed.
Lemma flatten_spm k n u sg f f' : perm_of k sg ->
  (forall r i, r < k -> i < n -> nth i (f' r) 0%R = (u r * nth i (f (sg r)) 0)%R) ->
  flatten k n f' = spm (n * k) (layd k u) (lay k sg) (flatten k n f).
Proof.
  intros [Hp _] H. unfold spm. unfold flatten at 1. apply tab_ext. intros p Hpp.
  destruct (lag_split k n p Hpp) as (l & c & Hl & Hc & ->). rewrite lay_at by auto.
  unfold layd. rewrite lag_div, lag_mod by auto. rewrite nth_flatten by auto. apply H; auto.
Qed.
Lemma nth_layd_spm k n u sg v l c : l < n -> c < k ->
  nth (l * k + c) (spm (n * k) (layd k u) (lay k sg) v) 0%R = (u c * nth (l * k + sg c) v 0)%R.
Proof.
  intros Hl Hc. rewrite nth_spm by nia. unfold layd. rewrite lay_at, lag_mod by auto. reflexivity.
Qed.

(** ** Related block correlations *)
Definition blk_rel (k : nat) (u : nat -> R) (sg : nat -> nat) (acf acf' : nat -> nat -> list R) : Prop :=
  forall c d p, c < k -> d < k -> nth p (acf' c d) 0%R = (u c * u d * nth p (acf (sg c) (sg d)) 0)%R.

Lemma dense_block_spm n k u sg acf acf' v : 0 < n -> signs k u -> perm_of k sg -> blk_rel k u sg acf acf' ->
  dense_block (2 * n) k acf' (spm (n * k) (layd k u) (lay k sg) v) =
  spm (n * k) (layd k u) (lay k sg) (dense_block (2 * n) k acf v).
Proof.
  intros Hn Hu Hp HR. unfold dense_block.
  replace (2 * n / 2) with n by (rewrite Nat.mul_comm, Nat.div_mul by lia; reflexivity).
  apply flatten_spm; auto. intros r i Hr Hi. rewrite !nth_tab by auto.
  rewrite <- Rsum_scal_l. apply (Rsum_perm_eq k sg); auto. intros c Hc.
  rewrite <- Rsum_scal_l. apply Rsum_ext. intros j Hj. rewrite nth_layd_spm by auto.
  assert (E : blk_ent (2 * n) acf' r i c j = (u r * u c * blk_ent (2 * n) acf (sg r) i (sg c) j)%R).
  { unfold blk_ent. destruct (j <? i); apply HR; auto. }
  rewrite E. specialize (Hu c Hc). unfold is_sign in Hu.
  transitivity ((u c * u c) * (u r * (blk_ent (2 * n) acf (sg r) i (sg c) j * nth (j * k + sg c) v 0)))%R; [ring|].
  rewrite Hu. ring.
Qed.

(** ** The block preconditioner *)
Lemma rfft_lin n a x y j : (forall t, nth t y 0%R = (a * nth t x 0)%R) ->
  nth j (rfft n y) (RtoC 0) = Cmult (RtoC a) (nth j (rfft n x) (RtoC 0)).
Proof.
  intros H. destruct (Nat.le_gt_cases j (n / 2)) as [Hj|Hj].
  - rewrite !rfft_dft by auto. unfold dft. rewrite <- Csum_scal_l. apply Csum_ext. intros t Ht.
    rewrite H, RtoC_mult. ring.
  - rewrite !nth_overflow by (rewrite length_rfft; lia). ring.
Qed.
Lemma nonsym_col_lin n a x y : (forall t, nth t y 0%R = (a * nth t x 0)%R) ->
  forall t, nth t (nonsym_col n y) 0%R = (a * nth t (nonsym_col n x) 0)%R.
Proof.
  intros H t. unfold nonsym_col. destruct (Nat.lt_ge_cases t n) as [Ht|Ht].
  - rewrite !nth_tab by auto. destruct (t =? 0); rewrite !H; [ring|]. unfold Rdiv. ring.
  - rewrite !nth_overflow by (rewrite length_tab; auto). ring.
Qed.
Definition dM : nat -> nat -> C := fun _ _ => RtoC 0.
Definition inv_rel (k : nat) (u : nat -> R) (sg : nat -> nat) (M M' : nat -> nat -> C) : Prop :=
  forall i j, i < k -> j < k -> M' i j = Cmult (RtoC (u i * u j)) (M (sg i) (sg j)).
Lemma prec_inv_rel n k u sg acf acf' : signs k u -> perm_of k sg -> blk_rel k u sg acf acf' ->
  rrelE LinAlgError (fun r r' => length r = n / 2 + 1 /\ length r' = n / 2 + 1 /\
     forall j, j < n / 2 + 1 -> inv_rel k u sg (nth j r dM) (nth j r' dM))
    (prec_inv k n acf) (prec_inv k n acf').
Proof.
  intros Hu Hp HR. unfold prec_inv.
  pose proof (@mapM_perm _ _ _ _ LinAlgError (inv_rel k u sg)
    (fun j => cinv k (fun r s => nth j (rfft n (nonsym_col n (acf r s))) (RtoC 0)))
    (fun j => cinv k (fun r s => nth j (rfft n (nonsym_col n (acf' r s))) (RtoC 0)))
    (seq 0 (n / 2 + 1)) (seq 0 (n / 2 + 1)) (fun i => i) 0 0 dM dM) as H.
  rewrite !seq_length in H. apply H; [reflexivity|apply perm_id|]. clear H.
  intros j Hj. rewrite seq_nth by auto. simpl Nat.add.
  pose proof (cinv_spm k u sg (fun r s => nth j (rfft n (nonsym_col n (acf r s))) (RtoC 0))
    (fun r s => nth j (rfft n (nonsym_col n (acf' r s))) (RtoC 0)) Hu Hp) as H.
  cbv beta in H. 
  assert (HA : forall a b, a < k -> b < k ->
     nth j (rfft n (nonsym_col n (acf' a b))) (RtoC 0) =
     Cmult (RtoC (u a * u b)) (nth j (rfft n (nonsym_col n (acf (sg a) (sg b)))) (RtoC 0))).
  { intros a b Ha Hb. apply rfft_lin. apply nonsym_col_lin. intros t. apply HR; auto. }
  specialize (H HA).
  destruct (cinv k (fun r s => nth j (rfft n (nonsym_col n (acf r s))) (RtoC 0))),
           (cinv k (fun r s => nth j (rfft n (nonsym_col n (acf' r s))) (RtoC 0))); simpl; auto.
Qed.
Lemma irfft_lin n a Z Z' t : (forall k, nth k Z' (RtoC 0) = Cmult (RtoC a) (nth k Z (RtoC 0))) ->
  nth t (irfft n Z') 0%R = (a * nth t (irfft n Z) 0)%R.
Proof.
  intros H. destruct (Nat.lt_ge_cases t n) as [Ht|Ht].
  - rewrite !nth_irfft by auto. rewrite <- Rmult_assoc, (Rmult_comm a), Rmult_assoc. f_equal.
    rewrite Rmult_plus_distr_l, <- Rsum_scal_l. f_equal.
    + rewrite H. unfold Re, Cmult, RtoC. simpl. ring.
    + apply Rsum_ext. intros k Hk. cbv zeta. rewrite H.
      destruct (nth (S k) Z (RtoC 0)) as [x y], (cis (ang n (S k * t))) as [e f].
      destruct (2 * S k =? n); unfold Re, Cmult, RtoC; simpl; ring.
  - rewrite !nth_overflow by (rewrite length_irfft; auto). ring.
Qed.
Lemma block_prec_spm n k u sg inv inv' v : 0 < n -> signs k u -> perm_of k sg ->
  length inv = n / 2 + 1 -> length inv' = n / 2 + 1 ->
  (forall j, j < n / 2 + 1 -> inv_rel k u sg (nth j inv dM) (nth j inv' dM)) ->
  block_prec k n inv' (spm (n * k) (layd k u) (lay k sg) v) =
  spm (n * k) (layd k u) (lay k sg) (block_prec k n inv v).
Proof.
  intros Hn Hu Hp L1 L2 HR. unfold block_prec. apply flatten_spm; auto. intros r i Hr Hi.
  unfold block_apply. apply irfft_lin. intros j.
  destruct (Nat.lt_ge_cases j (n / 2 + 1)) as [Hj|Hj].
  2:{ rewrite !nth_overflow by (rewrite length_tab; auto). ring. }
  rewrite !nth_tab by auto. rewrite <- Csum_scal_l.
  apply (Csum_perm_eq k sg); auto. intros c Hc.
  assert (EM : forall (l : list (nat -> nat -> C)) a b, length l = n / 2 + 1 ->
     nth j (map (fun M : nat -> nat -> C => M a b) l) (RtoC 0) = nth j l dM a b).
  { intros l a b Hl. change (RtoC 0) with ((fun M : nat -> nat -> C => M a b) dM). rewrite map_nth. reflexivity. }
  rewrite !EM by auto. rewrite (HR j Hj r c Hr Hc).
  rewrite (rfft_lin n (u c) (chan_of k n (sg c) v)).
  - specialize (Hu c Hc). apply sign_C in Hu. rewrite RtoC_mult.
    set (A := nth j inv dM (sg r) (sg c)). set (B := nth j (rfft n (chan_of k n (sg c) v)) (RtoC 0)).
    transitivity (Cmult (Cmult (RtoC (u c)) (RtoC (u c))) (Cmult (RtoC (u r)) (Cmult A B))); [ring|].
    rewrite Hu. ring.
  - intros t. destruct (Nat.lt_ge_cases t n) as [Ht|Ht].
    + unfold chan_of. rewrite !nth_tab by auto. apply nth_layd_spm; auto.
    + rewrite !nth_overflow by (rewrite length_chan_of; auto). ring.
Qed.

(** ** The block correlations of relabelled channels *)
Lemma stats2_acf_scale nf L x y a b t : 0 < nf -> 0 < L -> L <= nf ->
  nth t (stats2_acf nf L (rscale a x) (rscale b y)) 0%R = (a * b * nth t (stats2_acf nf L x y) 0)%R.
Proof.
  intros Hn HL HLn. destruct (Nat.lt_ge_cases t L) as [H1|H1].
  - rewrite !stats2_acf_first_c by lia. rewrite ccorr_scale. ring.
  - destruct (Nat.lt_ge_cases t (2 * L)) as [H2|H2].
    + replace t with (2 * Nat.min L nf - (2 * L - t)) by lia.
      rewrite !stats2_acf_last_c by lia. rewrite ccorr_scale. ring.
    + rewrite !nth_overflow by (rewrite length_stats2_acf by auto; lia). ring.
Qed.
Lemma rchan_relabel sg s refs c : c < length refs ->
  rchan (relabel sg s refs) c = rscale (s c) (rchan refs (sg c)).
Proof. intros H. unfold rchan. rewrite nth_relabel by auto. destruct (nth (sg c) refs None); reflexivity. Qed.

Lemma sar_acf_rel nf L ld refs sg s t : 0 < L -> L <= nf -> is_sign t ->
  signs (length refs) s -> perm_of (length refs) sg ->
  blk_rel (length refs) (fun c => s c * t)%R sg (sar_acf nf L ld refs) (sar_acf nf L ld (relabel sg s refs)).
Proof.
  intros HL HLn Ht Hs [Hp Hi] c d p Hc Hd. unfold sar_acf, block_acf.
  rewrite !rchan_relabel by auto.
  assert (Hl : forall x y, 0 < length (stats2_acf nf L x y)) by (intros; rewrite length_stats2_acf by auto; lia).
  destruct (Nat.eqb_spec c d) as [E|N].
  - rewrite <- E, Nat.eqb_refl. rewrite !nth_add_load by auto. rewrite stats2_acf_scale by lia.
    specialize (Hs c Hc). unfold is_sign in *.
    replace (s c * t * (s c * t))%R with ((s c * s c) * (t * t))%R by ring. rewrite Hs, Ht. ring.
  - destruct (Nat.eqb_spec (sg c) (sg d)) as [E|_]; [exfalso; apply N; auto|].
    rewrite stats2_acf_scale by lia. unfold is_sign in Ht.
    replace (s c * t * (s d * t))%R with ((s c * s d) * (t * t))%R by ring. rewrite Ht. ring.
Qed.
Lemma sar_xc_rel nf L refs y sg s t : 0 < L -> L <= nf -> signs (length refs) s -> perm_of (length refs) sg ->
  sar_xc nf L (relabel sg s refs) (rscale t y) =
  spm (L * length refs) (layd (length refs) (fun c => s c * t)%R) (lay (length refs) sg) (sar_xc nf L refs y).
Proof.
  intros HL HLn Hs Hp. unfold sar_xc. rewrite length_relabel, Nat.min_l by auto.
  apply flatten_spm; auto. intros r i Hr Hi. rewrite rchan_relabel by auto. rewrite stats_xcorr_sign by lia.
  apply smp_rscale.
Qed.
Lemma sar_start_rel pw it nf L ld refs y sg s t : 0 < L -> L <= nf -> is_sign t ->
  signs (length refs) s -> perm_of (length refs) sg ->
  sar_start pw it nf L ld (relabel sg s refs) (rscale t y) =
  spm (L * length refs) (layd (length refs) (fun c => s c * t)%R) (lay (length refs) sg)
      (sar_start pw it nf L ld refs y).
Proof.
  intros HL HLn Ht Hs Hp. unfold sar_start. rewrite length_relabel. destruct pw.
  - apply flatten_spm; auto. intros r i Hr Hi.
    destruct (Nat.ltb_spec r (length refs)); [|lia].
    destruct (Nat.ltb_spec (sg r) (length refs)) as [_|Hge].
    2:{ pose proof (proj1 Hp r Hr). lia. }
    rewrite rchan_relabel by auto. rewrite stats_acf_sign, stats_xcorr_sign by (auto; lia).
    rewrite tcg_sign; [apply smp_rscale| |apply stats_len].
    specialize (Hs r Hr). unfold is_sign in *.
    replace (s r * t * (s r * t))%R with ((s r * s r) * (t * t))%R by ring. rewrite Hs, Ht. ring.
  - symmetry. apply (list_eq_nth _ _ 0%R).
    + rewrite length_spm, repeat_length. reflexivity.
    + rewrite length_spm. intros i Hi. rewrite nth_spm by auto. rewrite !nth_repeat. ring.
Qed.

(** ** Cells and rows *)
Lemma sar_mat_rel n k u sg acf acf' : 2 <= n -> perm_of k sg -> blk_rel k u sg acf acf' ->
  (forall c d, length (acf c d) = 2 * n) -> (forall c d, length (acf' c d) = 2 * n) ->
  forall p q, p < n * k -> q < n * k ->
  sar_mat n k acf' p q = (layd k u p * layd k u q * sar_mat n k acf (lay k sg p) (lay k sg q))%R.
Proof.
  intros Hn [Hp _] HR HL HL' p q Hpp Hq. 
  destruct (lag_split k n p Hpp) as (i & r & Hi & Hr & ->).
  destruct (lag_split k n q Hq) as (j & c & Hj & Hc & ->).
  rewrite !lay_at by auto. unfold sar_mat, layd. rewrite !lag_div, !lag_mod by auto.
  rewrite !bt_block_entry by (auto; rewrite ?HL, ?HL'; lia). rewrite HL, HL'.
  destruct (j <? i); apply HR; auto.
Qed.

Section SarRel.
Variables (cg : option nat) (pw : bool) (nf L : nat) (ld : option R) (refs : list chan)
  (sg : nat -> nat) (s : nat -> R).
Hypothesis HL2 : 2 <= L.
Hypothesis HL : L <= nf.
Hypothesis Hs : signs (length refs) s.
Hypothesis Hp : perm_of (length refs) sg.
Let k := length refs.
Let acf := sar_acf nf L ld refs.
Let acf' := sar_acf nf L ld (relabel sg s refs).

Lemma len_sar_acf rs c d : length (sar_acf nf L ld rs c d) = 2 * L.
Proof. unfold sar_acf. rewrite length_block_acf by lia. rewrite Nat.min_l by lia. reflexivity. Qed.

Definition ready_rel (inv inv' : list (nat -> nat -> C)) : Prop :=
  match cg with
  | None => True
  | Some _ => length inv = L / 2 + 1 /\ length inv' = L / 2 + 1 /\
       forall j, j < L / 2 + 1 -> inv_rel k s sg (nth j inv dM) (nth j inv' dM)
  end.
Lemma blk_rel1 : blk_rel k s sg acf acf'.
Proof.
  intros c d p Hc Hd. unfold acf', acf.
  rewrite (sar_acf_rel nf L ld refs sg s 1) by (auto; try lia; unfold is_sign; ring). ring.
Qed.
Lemma sar_ready_rel : rrelE LinAlgError ready_rel (sar_ready cg nf L ld refs)
   (sar_ready cg nf L ld (relabel sg s refs)).
Proof.
  unfold sar_ready, ready_rel. rewrite length_relabel. fold k acf acf'. destruct cg as [it|].
  - apply prec_inv_rel; auto using blk_rel1.
  - assert (E : Rsolve (L * k) (sar_mat L k acf') (fun _ => 0%R) = None <->
               Rsolve (L * k) (sar_mat L k acf) (fun _ => 0%R) = None).
    { apply (Rsolve_opt_spm (L * k) (layd k s) (lay k sg)).
      - apply signs_lay; auto.
      - apply perm_lay; auto.
      - intros p q H1 H2. apply sar_mat_rel; auto using blk_rel1; intros; apply len_sar_acf. }
    destruct (Rsolve (L * k) (sar_mat L k acf') (fun _ => 0%R)),
             (Rsolve (L * k) (sar_mat L k acf) (fun _ => 0%R)); simpl; auto.
    + destruct E as [_ E]. specialize (E eq_refl). discriminate.
    + destruct E as [E _]. specialize (E eq_refl). discriminate.
Qed.
Lemma dot_nth_spm n d pi u v v' x : signs n d -> perm_of n pi -> x = spm n d pi u ->
  (forall l, l < n -> v' l = (d l * v (pi l))%R) -> dot_nth n x v' = dot_nth n u v.
Proof.
  intros Hd Hpi -> Hv. unfold dot_nth. apply (Rsum_perm_eq n pi); auto.
  intros l Hl. rewrite nth_spm by auto. rewrite Hv by auto. specialize (Hd l Hl). unfold is_sign in Hd.
  transitivity ((d l * d l) * (nth (pi l) u 0 * v (pi l)))%R; [ring|]. rewrite Hd. ring.
Qed.
Lemma sar_cell_rel inv inv' y t : ready_rel inv inv' -> is_sign t ->
  sar_cell cg pw nf L ld (relabel sg s refs) inv' (rscale t y) = sar_cell cg pw nf L ld refs inv y.
Proof.
  intros HR Ht. unfold ready_rel in HR. unfold sar_cell. rewrite length_relabel. fold k.
  set (u := fun c => (s c * t)%R).
  assert (Hu : signs k u).
  { intros c Hc. specialize (Hs c Hc). unfold u, is_sign in *.
    replace (s c * t * (s c * t))%R with ((s c * s c) * (t * t))%R by ring. rewrite Hs, Ht. ring. }
  assert (HB : blk_rel k u sg acf acf') by (apply sar_acf_rel; auto; lia).
  pose proof (signs_lay L k u Hu) as Hd. pose proof (perm_lay L k sg Hp) as Hq.
  apply (dot_nth_spm _ (layd k u) (lay k sg)); auto.
  { apply sar_xc_rel; auto; lia. }
  intros l Hl. unfold sar_sol. rewrite length_relabel. fold k acf acf'.
  destruct cg as [it|].
  - destruct HR as (I1 & I2 & HI).
    assert (HI' : forall j, j < L / 2 + 1 -> inv_rel k u sg (nth j inv dM) (nth j inv' dM)).
    { intros j Hj a b Ha Hb. rewrite (HI j Hj a b Ha Hb). do 2 f_equal. unfold u, is_sign in *.
      replace (s a * t * (s b * t))%R with ((s a * s b) * (t * t))%R by ring. rewrite Ht. ring. }
    rewrite sar_xc_rel by (auto; lia). rewrite sar_start_rel by (auto; lia). fold k. fold u.
    unfold block_cg_spec.
    rewrite (cg_sym (L * k) (layd k u) (lay k sg) (dense_block (2 * L) k acf) (dense_block (2 * L) k acf')
       (block_prec k L inv) (block_prec k L inv')); auto.
    + apply nth_spm; auto.
    + unfold sar_start. destruct pw; [apply length_flatten|apply repeat_length].
    + intros; apply length_block_prec.
    + intros v Hv. apply dense_block_spm; auto; lia.
    + intros v Hv. apply block_prec_spm; auto; lia.
  - apply (solution_spm (L * k)); auto.
    + intros i j Hi Hj. apply sar_mat_rel; auto; intros; apply len_sar_acf.
    + intros i Hi. rewrite sar_xc_rel by (auto; lia). apply nth_spm; auto.
Qed.
End SarRel.

Lemma tainted_relabel sg s refs : perm_of (length refs) sg ->
  existsb tainted (relabel sg s refs) = existsb tainted refs.
Proof.
  intros Hp. destruct (perm_inverse _ sg Hp) as (ti & H1 & H2 & H3).
  destruct (existsb tainted refs) eqn:E.
  - apply existsb_exists in E. destruct E as (x & Hin & Hx). apply existsb_exists.
    apply (In_nth _ _ (None : chan)) in Hin. destruct Hin as (c & Hc & Ec).
    exists (nth (ti c) (relabel sg s refs) None). split; [apply nth_In; rewrite length_relabel; auto|].
    rewrite nth_relabel, H3, Ec by auto. destruct x; auto.
  - rewrite existsb_tainted_false in *. rewrite length_relabel. intros c Hc H. apply (E (sg c)); [apply Hp; auto|].
    rewrite nth_relabel in H by auto. destruct (nth (sg c) refs None); auto. discriminate.
Qed.
Definition col_rel (m : nat) (tau : nat -> nat) (r r' : list xr) : Prop :=
  length r = m /\ length r' = m /\ forall j, j < m -> nth j r' NaN = nth (tau j) r NaN.

Theorem sar_row_rel b cg nf L ld pw refs ests sg s tau s' : 2 <= L -> L <= nf ->
  signs (length refs) s -> perm_of (length refs) sg ->
  signs (length ests) s' -> perm_of (length ests) tau ->
  rrel (col_rel (length ests) tau)
    (sar_row b cg nf L ld pw refs ests) (sar_row b cg nf L ld pw (relabel sg s refs) (relabel tau s' ests)).
Proof.
  intros HL2 HL Hs Hp Hs' Ht. rewrite !sar_row_cells by auto. rewrite tainted_relabel by auto.
  assert (Hm : forall (f : chan -> xr) (f' : chan -> xr),
     (forall j, j < length ests -> f' (sign_chan (s' j) (nth (tau j) ests None)) = f (nth (tau j) ests None)) ->
     col_rel (length ests) tau (map f ests) (map f' (relabel tau s' ests))).
  { intros f f' H. unfold col_rel. rewrite !map_length, length_relabel. split; auto. split; auto. intros j Hj.
    rewrite !nth_map_chan by (rewrite ?length_relabel; auto; apply Ht; auto). rewrite nth_relabel by auto. auto. }
  destruct (existsb tainted refs).
  - simpl. apply Hm. auto.
  - eapply rrel_bind; [eapply rrelE_rrel; apply sar_ready_rel; auto|].
    intros inv inv' _ _ HR. simpl. apply Hm. intros j Hj.
    destruct (nth (tau j) ests None) as [v|]; [|reflexivity]. simpl. f_equal. apply sar_cell_rel; auto.
Qed.

Lemma len1_sar_rel n lx ld refs ests sg s tau s' :
  signs (length refs) s -> perm_of (length refs) sg ->
  signs (length ests) s' -> perm_of (length ests) tau ->
  rrel (col_rel (length ests) tau)
    (len1_sar n lx ld refs ests) (len1_sar n lx ld (relabel sg s refs) (relabel tau s' ests)).
Proof.
  intros Hs Hp Hs' Ht. unfold len1_sar. rewrite tainted_relabel by auto.
  destruct (existsb tainted refs) eqn:HT.
  { simpl. unfold col_rel. rewrite !map_length, length_relabel. split; auto. split; auto. intros j Hj.
    rewrite !nth_map_chan by (rewrite ?length_relabel; auto; apply Ht; auto). reflexivity. }
  cbv zeta. rewrite !length_relabel. set (k := length refs) in *. set (m := length ests) in *.
  set (A := fun c d => (ip lx (opt0 (nth c refs None)) (opt0 (nth d refs None)) +
      match ld with Some l => if Nat.eqb c d then l else 0 | None => 0 end)%R).
  set (B := fun c d => ip n (opt0 (nth c refs None)) (opt0 (nth d ests None))).
  set (A' := fun c d => (ip lx (opt0 (nth c (relabel sg s refs) None)) (opt0 (nth d (relabel sg s refs) None)) +
      match ld with Some l => if Nat.eqb c d then l else 0 | None => 0 end)%R).
  set (B' := fun c d => ip n (opt0 (nth c (relabel sg s refs) None)) (opt0 (nth d (relabel tau s' ests) None))).
  assert (HA : forall c d, c < k -> d < k -> A' c d = (s c * s d * A (sg c) (sg d))%R).
  { intros c d Hc Hd. unfold A, A'. change (opt0 (nth c (relabel sg s refs) None)) with (rchan (relabel sg s refs) c).
    change (opt0 (nth d (relabel sg s refs) None)) with (rchan (relabel sg s refs) d).
    rewrite !rchan_relabel, ip_sign by auto. unfold rchan. pose proof (Hs c Hc) as H1. unfold is_sign in H1.
    destruct ld; [|ring]. destruct (Nat.eqb_spec c d) as [<-|N].
    - rewrite Nat.eqb_refl, H1. ring.
    - destruct (Nat.eqb_spec (sg c) (sg d)) as [E|_]; [exfalso; apply N, Hp; auto|]. ring. }
  assert (HB : forall c d, c < k -> d < m -> B' c d = (s c * s' d * B (sg c) (tau d))%R).
  { intros c d Hc Hd. unfold B, B'. change (opt0 (nth c (relabel sg s refs) None)) with (rchan (relabel sg s refs) c).
    change (opt0 (nth d (relabel tau s' ests) None)) with (rchan (relabel tau s' ests) d).
    rewrite !rchan_relabel, ip_sign by auto. reflexivity. }
  pose proof (nonsingular_spm k s sg A A' Hs Hp HA) as HN.
  destruct (solve_cols k m A B) as [X|e] eqn:E.
  - apply solve_cols_inv in E. destruct E as [N1 HX]. pose proof (proj2 HN N1) as N2.
    destruct (solve_cols_ok k m A' B' N2) as (X' & E' & HX'). rewrite E'. simpl.
    unfold col_rel. rewrite !length_tab. split; auto. split; auto. intros d Hd.
    assert (Htd : tau d < m) by (apply Ht; auto).
    rewrite !nth_tab by auto.
    assert (ET : tainted (nth d (relabel tau s' ests) None) = tainted (nth (tau d) ests None)).
    { rewrite nth_relabel by auto. destruct (nth (tau d) ests None); reflexivity. }
    rewrite ET. destruct (tainted (nth (tau d) ests None)); auto. f_equal.
    apply (Rsum_perm_eq k sg); auto. intros c Hc.
    assert (Eh : forall j, j < k -> X' j d = (s j * (s' d * X (sg j) (tau d)))%R).
    { apply (nonsingular_uniq k A' (fun j => X' j d) (fun j => s j * (s' d * X (sg j) (tau d)))%R N2).
      intros i Hi. rewrite HX', HB by auto.
      pose proof (Rmv_spm k s sg A A' (fun j => s' d * X j (tau d))%R i Hs Hp HA Hi) as HM. cbv beta in HM.
      rewrite HM. rewrite Rmult_assoc. f_equal. rewrite <- HX by (auto; apply Hp; auto).
      unfold mulmv. rewrite <- Rsum_scal_l. apply Rsum_ext. intros; ring. }
    change (B' c d * X' c d = B (sg c) (tau d) * X (sg c) (tau d))%R. rewrite HB, Eh by auto.
    pose proof (Hs c Hc) as H1. pose proof (Hs' d Hd) as H2. unfold is_sign in *.
    transitivity ((s c * s c) * (s' d * s' d) * (B (sg c) (tau d) * X (sg c) (tau d)))%R; [ring|].
    rewrite H1, H2. ring.
  - destruct (solve_cols_raise _ _ _ _ _ E) as [-> NA].
    destruct (solve_cols k m A' B') as [X'|e'] eqn:E'.
    + apply solve_cols_inv in E'. destruct E' as [N2 _]. exfalso.
      destruct (solve_cols_ok k m A B (proj1 HN N2)) as (X & E2 & _). congruence.
    + destruct (solve_cols_raise _ _ _ _ _ E') as [-> _]. reflexivity.
Qed.
