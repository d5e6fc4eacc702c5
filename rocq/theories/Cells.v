(** * The metric matrices entry by entry, for both solvers

    [coh_row] and [sar_row] rewritten as: one check that can raise, then one
    independent value per estimate.  Shows at once that the backend plays no role. *)
From Coq Require Import Reals Lra.
From Coquelicot Require Import Complex.
From Verif Require Import Prelude ExtReal Slice Sums SpecSig Fft Helpers Linalg LinalgProofs
  Cgd Metrics StatsProofs LeastSq PrepProofs MetricsProofs SarProofs MetricTheorems CgdOps CgdPrecond.
Local Open Scope nat_scope.

Lemma toeplitz_backend b x : toeplitz b x = toeplitz NumPy x.
Proof. unfold toeplitz. rewrite (toeplitz_two_x b x), (toeplitz_two_x NumPy x). reflexivity. Qed.

Lemma mapM_ext {A B} (f g : A -> res B) l : (forall x, In x l -> f x = g x) -> mapM f l = mapM g l.
Proof.
  induction l as [|a l IH]; simpl; intros H; auto.
  rewrite H, IH by auto. reflexivity.
Qed.
Lemma tab_map {A B} (l : list A) (f : A -> B) d : tab (length l) (fun i => f (nth i l d)) = map f l.
Proof.
  unfold tab. rewrite <- (map_map (fun i => nth i l d) f). f_equal. symmetry.
  induction l as [|a l IH] using rev_ind; auto.
  rewrite app_length. simpl. rewrite seq_app, map_app. simpl. f_equal.
  - rewrite IH at 1. apply map_ext_in. intros i Hi. apply in_seq in Hi. rewrite app_nth1 by lia. reflexivity.
  - rewrite app_nth2, Nat.sub_diag by lia. reflexivity.
Qed.

Definition vcell (f : list R -> R) (y : chan) : xr := match y with None => NaN | Some v => Fin (f v) end.

(** ** SDR *)
Definition solvable (cg : option nat) (n : nat) (A : nat -> nat -> R) : res unit :=
  match cg with
  | Some _ => Ok tt
  | None => match Rsolve n A (fun _ => 0%R) with None => Raise LinAlgError | Some _ => Ok tt end
  end.
Definition solution (n : nat) (A : nat -> nat -> R) (b : list R) (l : nat) : R :=
  match Rsolve n A (fun i => nth i b 0%R) with Some x => x l | None => 0%R end.
Definition sdr_sol (cg : option nat) (acf xc : list R) (l : nat) : R :=
  match cg with
  | None => solution (length acf) (ent (toeplitz NumPy acf)) xc l
  | Some k => nth l (toeplitz_cg_spec acf xc k) 0%R
  end.
Definition sdr_cell (cg : option nat) (acf xc : list R) : R :=
  dot_nth (length acf) xc (sdr_sol cg acf xc).

Theorem coh_row_cells b cg acf xc ests : (forall v, length (xc v) = length acf) ->
  coh_row b cg acf xc ests =
  do _ <- solvable cg (length acf) (ent (toeplitz NumPy acf));
  Ok (map (vcell (fun v => sdr_cell cg acf (xc v))) ests).
Proof.
  intros Hl. unfold coh_row, solvable. destruct cg as [k|].
  - cbn [bind]. apply mapM_ok. intros [v|] _; auto.
    rewrite toeplitz_cg_ok, Hl, Nat.eqb_refl. reflexivity.
  - rewrite toeplitz_backend. unfold solve_cols.
    destruct (Rsolve (length acf) (ent (toeplitz NumPy acf)) (fun _ => 0%R)) as [x0|]; auto.
    cbn [bind]. f_equal. rewrite <- (tab_map ests _ None). apply tab_ext. intros d Hd.
    destruct (nth d ests None) as [v|]; reflexivity.
Qed.

Lemma stats_len nf L ld x v :
  length (stats_xcorr nf L x v) = length (add_load ld (stats_acf nf L x)).
Proof. rewrite length_stats_xcorr, length_loaded. reflexivity. Qed.

Definition sdr_row_cells (cg : option nat) (ld : option R) (nf L : nat) (ests : list chan) (x : chan)
  : res (list xr) :=
  match x with
  | None => Ok (map (fun _ => NaN) ests)
  | Some v =>
    do _ <- solvable cg (Nat.min L nf) (ent (toeplitz NumPy (add_load ld (stats_acf nf L v))));
    Ok (map (vcell (fun w => sdr_cell cg (add_load ld (stats_acf nf L v)) (stats_xcorr nf L v w))) ests)
  end.
Theorem sdr_coh_cells b o ref est : filter_length o <> 1 ->
  sdr_coh b o ref est =
  mapM (sdr_row_cells (use_cg_iter o) (load_diag o) (n_fft (a_len ref) (a_len est)) (filter_length o)
          (prep_arr (zero_mean o) est)) (prep_arr (zero_mean o) ref).
Proof.
  intros HL. rewrite sdr_coh_unfold by auto.
  apply mapM_ext. intros [v|] _; auto. unfold sdr_row_cells.
  rewrite coh_row_cells by (intros; apply stats_len). rewrite length_loaded. reflexivity.
Qed.

(** ** SAR *)
Definition sar_acf (nf L : nat) (ld : option R) (refs : list chan) : nat -> nat -> list R :=
  block_acf nf L ld (rchan refs).
Definition sar_xc (nf L : nat) (refs : list chan) (y : list R) : list R :=
  flatten (length refs) (Nat.min L nf) (fun c => stats_xcorr nf L (rchan refs c) y).
(** the matrix of the direct solver, in range *)
Definition sar_mat (L k : nat) (acf : nat -> nat -> list R) : nat -> nat -> R :=
  fun p q => ent (bt_block L (acf (p mod k) (q mod k))) (p / k) (q / k).
Definition sar_ready (cg : option nat) (nf L : nat) (ld : option R) (refs : list chan)
  : res (list (nat -> nat -> C)) :=
  match cg with
  | None => match Rsolve (L * length refs) (sar_mat L (length refs) (sar_acf nf L ld refs)) (fun _ => 0%R) with
            | None => Raise LinAlgError | Some _ => Ok [] end
  | Some _ => prec_inv (length refs) L (sar_acf nf L ld refs)
  end.
Definition sar_start (pw : bool) (it nf L : nat) (ld : option R) (refs : list chan) (y : list R) : list R :=
  if pw then flatten (length refs) L (fun c =>
      if c <? length refs then toeplitz_cg_spec (add_load ld (stats_acf nf L (rchan refs c)))
                       (stats_xcorr nf L (rchan refs c) y) it else [])
  else repeat 0%R (L * length refs).
Definition sar_sol (cg : option nat) (pw : bool) (nf L : nat) (ld : option R) (refs : list chan)
    (inv : list (nat -> nat -> C)) (y : list R) (l : nat) : R :=
  match cg with
  | None => solution (L * length refs) (sar_mat L (length refs) (sar_acf nf L ld refs)) (sar_xc nf L refs y) l
  | Some it => nth l (block_cg_spec (length refs) L (sar_acf nf L ld refs) inv (sar_xc nf L refs y)
                        (sar_start pw it nf L ld refs y) it) 0%R
  end.
Definition sar_cell cg pw nf L ld refs inv y : R :=
  dot_nth (L * length refs) (sar_xc nf L refs y) (sar_sol cg pw nf L ld refs inv y).

Lemma bind_ok {A B} (r : res A) (f : A -> B) : (do x <- r; Ok (f x)) = match r with Ok x => Ok (f x) | Raise e => Raise e end.
Proof. destruct r; reflexivity. Qed.

Theorem sar_row_cells b cg nf L ld pw refs ests : 2 <= L -> L <= nf ->
  sar_row b cg nf L ld pw refs ests =
  if existsb tainted refs then Ok (map (fun _ => NaN) ests)
  else do inv <- sar_ready cg nf L ld refs;
       Ok (map (vcell (sar_cell cg pw nf L ld refs inv)) ests).
Proof.
  intros HL2 HL. unfold sar_row. destruct (existsb tainted refs) eqn:HT; auto. cbv zeta.
  set (k := length refs).
  change (fun c d => (if c =? d then add_load ld else fun l => l)
     (stats2_acf nf L (opt0 (nth c refs None)) (opt0 (nth d refs None)))) with (sar_acf nf L ld refs).
  change ((if 0 =? 0 then add_load ld else fun l => l)
     (stats2_acf nf L (opt0 (nth 0 refs None)) (opt0 (nth 0 refs None)))) with (sar_acf nf L ld refs 0 0).
  assert (Hlen : forall r c, length (sar_acf nf L ld refs r c) = 2 * L).
  { intros r c. unfold sar_acf. rewrite length_block_acf by lia. rewrite Nat.min_l by lia. reflexivity. }
  rewrite Hlen.
  assert (H2 : 2 * L / 2 = L) by (rewrite Nat.mul_comm; apply Nat.div_mul; lia). rewrite H2.
  assert (Hxc : forall y, flatten k (length (stats_xcorr nf L (opt0 (nth 0 refs None)) y))
       (fun c => stats_xcorr nf L (opt0 (nth c refs None)) y) = sar_xc nf L refs y).
  { intros y. rewrite length_stats_xcorr. reflexivity. }
  destruct cg as [it|].
  - rewrite (block_precond_ok b k L) by (auto; lia).
    unfold sar_ready. fold k. destruct (prec_inv k L (sar_acf nf L ld refs)) as [inv|e] eqn:Ei; cbn [bind]; auto.
    apply mapM_ok. intros [v|] _; auto. rewrite Hxc.
    assert (Hx : (if pw then do cols <- mapM (fun c => toeplitz_cg b (add_load ld (stats_acf nf L (opt0 (nth c refs None))))
                 (stats_xcorr nf L (opt0 (nth c refs None)) v) it) (seq 0 k);
               Ok (Some (flatten k L (fun c => nth c cols []))) else Ok None)
       = Ok (if pw then Some (sar_start pw it nf L ld refs v) else None)).
    { unfold sar_start. destruct pw; auto.
      rewrite (mapM_ok _ (fun c => toeplitz_cg_spec (add_load ld (stats_acf nf L (rchan refs c)))
                       (stats_xcorr nf L (rchan refs c) v) it)).
      - cbn [bind]. do 2 f_equal. apply flatten_ext. intros c Hc i Hi.
        fold k. destruct (Nat.ltb_spec c k); [|lia].
        match goal with |- nth i (nth c (map ?f (seq 0 k)) []) _ = _ => change (map f (seq 0 k)) with (tab k f) end.
        rewrite nth_tab by auto. reflexivity.
      - intros c _. rewrite toeplitz_cg_ok.
        rewrite (stats_len nf L ld). rewrite Nat.eqb_refl. reflexivity. }
    rewrite Hx. cbn [bind].
    rewrite block_cg_ok; auto; try lia.
    + rewrite Ei. cbn [bind]. unfold sar_xc at 1. rewrite length_flatten. fold k. rewrite Nat.min_l by lia.
      rewrite Nat.eqb_refl. cbn [bind]. unfold vcell, sar_cell, sar_sol. fold k. destruct pw; reflexivity.
    + destruct pw; auto. unfold sar_start. apply length_flatten.
  - unfold sar_ready. fold k.
    destruct (block_toeplitz_ok b (2 * L) k k (sar_acf nf L ld refs)) as (M & HM & _); [lia|auto|].
    rewrite HM. cbn [bind].
    assert (EM : M = sar_mat L k (sar_acf nf L ld refs)).
    { unfold block_toeplitz in HM. rewrite H2 in HM.
      destruct (existsb2 _ _ _) in HM; [discriminate|]. injection HM as <-. reflexivity. }
    rewrite EM. unfold solve_cols.
    destruct (Rsolve (L * k) (sar_mat L k (sar_acf nf L ld refs)) (fun _ => 0%R)); auto.
    cbn [bind]. f_equal. rewrite <- (tab_map ests _ None). apply tab_ext. intros d Hd.
    destruct (nth d ests None) as [v|]; auto. unfold vcell, sar_cell, sar_sol. cbn [opt0]. rewrite Hxc. fold k. reflexivity.
Qed.

(** ** square_cosine_metrics *)
Theorem sq_cos_cells b o ref est : 2 <= filter_length o ->
  filter_length o <= n_fft (a_len ref) (a_len est) ->
  sq_cos b o ref est =
  do m <- sdr_coh b o ref est;
  do s <- sar_row b (use_cg_iter o) (n_fft (a_len ref) (a_len est)) (filter_length o) (load_diag o) true
             (prep_arr (zero_mean o) ref) (prep_arr (zero_mean o) est);
  Ok (m, s).
Proof.
  intros H2 HL. unfold sq_cos, sdr_coh.
  destruct (Nat.eqb_spec (filter_length o) 1); [lia|]. cbv zeta.
  destruct (check_sizes_ok b (use_cg_iter o) (n_fft (a_len ref) (a_len est)) (filter_length o)) as [_ Hc];
    [lia|apply n_fft_pos|]. rewrite (Hc HL). cbn [bind].
  rewrite (mapM_ext _ (fun x : chan => match x with
      | None => Ok (map (fun _ => NaN) (prep_arr (zero_mean o) est))
      | Some v => coh_row b (use_cg_iter o)
          (add_load (load_diag o) (stats_acf (n_fft (a_len ref) (a_len est)) (filter_length o) v))
          (stats_xcorr (n_fft (a_len ref) (a_len est)) (filter_length o) v) (prep_arr (zero_mean o) est)
      end)).
  - reflexivity.
  - intros [v|] _; auto. rewrite acf_sdr_eq by lia. reflexivity.
Qed.

(** ** Both backends compute the same (C36) *)
Lemma row_cells_backend o nf ests x b :
  coh_row b (use_cg_iter o) (add_load (load_diag o) (stats_acf nf (filter_length o) x))
     (stats_xcorr nf (filter_length o) x) ests =
  coh_row NumPy (use_cg_iter o) (add_load (load_diag o) (stats_acf nf (filter_length o) x))
     (stats_xcorr nf (filter_length o) x) ests.
Proof. rewrite !coh_row_cells by (intros; apply stats_len). reflexivity. Qed.
Lemma bc_len_backend b lx ly n : bc_len b lx ly = Ok n <-> bc_len NumPy lx ly = Ok n.
Proof. unfold bc_len. destruct (lx =? ly), (lx =? 1), (ly =? 1); split; auto; discriminate. Qed.
Lemma bc_len_bind {A} lx ly (f : nat -> res A) v :
  (do n <- bc_len Torch lx ly; f n) = Ok v <-> (do n <- bc_len NumPy lx ly; f n) = Ok v.
Proof. unfold bc_len. destruct (lx =? ly), (lx =? 1), (ly =? 1); cbn [bind]; split; auto; discriminate. Qed.

Theorem backend_sdr_coh o ref est m :
  sdr_coh Torch o ref est = Ok m <-> sdr_coh NumPy o ref est = Ok m.
Proof.
  destruct (Nat.eq_dec (filter_length o) 1) as [E|N].
  - unfold sdr_coh. rewrite E. apply bc_len_bind.
  - rewrite !sdr_coh_cells by auto. reflexivity.
Qed.
Theorem backend_pairwise o ref est m :
  pairwise_sdr_loss Torch o est ref = Ok m <-> pairwise_sdr_loss NumPy o est ref = Ok m.
Proof.
  unfold pairwise_sdr_loss. pose proof (backend_sdr_coh o ref est) as H.
  destruct (sdr_coh Torch o ref est) as [m1|e1]; destruct (sdr_coh NumPy o ref est) as [m2|e2]; cbn [bind].
  - destruct (H m1) as [H1 _]. specialize (H1 eq_refl). injection H1 as <-. reflexivity.
  - destruct (H m1) as [H1 _]. specialize (H1 eq_refl). discriminate.
  - destruct (H m2) as [_ H1]. specialize (H1 eq_refl). discriminate.
  - split; discriminate.
Qed.
Lemma raise_backend {A} (r r' : res A) (H : forall v, r = Ok v <-> r' = Ok v) :
  (exists v, r = Ok v /\ r' = Ok v) \/ (exists e e', r = Raise e /\ r' = Raise e').
Proof.
  destruct r as [a|e], r' as [a'|e'].
  - left. exists a. split; auto. apply H. reflexivity.
  - destruct (H a) as [H1 _]. specialize (H1 eq_refl). discriminate.
  - destruct (H a') as [_ H1]. specialize (H1 eq_refl). discriminate.
  - right. eauto.
Qed.
Lemma bind_backend {A B} (r r' : res A) (f : A -> res B) v : (forall v, r = Ok v <-> r' = Ok v) ->
  ((do x <- r; f x) = Ok v <-> (do x <- r'; f x) = Ok v).
Proof.
  intros H. destruct (raise_backend r r' H) as [(u & -> & ->)|(e & e' & -> & ->)]; cbn [bind]; [reflexivity|].
  split; discriminate.
Qed.
Theorem backend_sq_cos o ref est c : 0 < filter_length o ->
  (sq_cos Torch o ref est = Ok c <-> sq_cos NumPy o ref est = Ok c).
Proof.
  intros HL0.
  destruct (Nat.eq_dec (filter_length o) 1) as [E|N].
  - unfold sq_cos. rewrite E. apply bc_len_bind.
  - destruct (Nat.le_gt_cases (filter_length o) (n_fft (a_len ref) (a_len est))) as [HL|HL].
    + rewrite !sq_cos_cells by lia. rewrite !sar_row_cells by lia. apply bind_backend. apply backend_sdr_coh.
    + split; intros H; apply sq_cos_bound in H; auto; lia.
Qed.
Theorem backend_sq_cos_diag o ref est c : 0 < filter_length o ->
  (sq_cos_diag Torch o ref est = Ok c <-> sq_cos_diag NumPy o ref est = Ok c).
Proof.
  intros HL0. unfold sq_cos_diag.
  destruct (Nat.eqb_spec (filter_length o) 1) as [E|N]; [apply bc_len_bind|]. cbv zeta.
  set (nf := n_fft (a_len ref) (a_len est)).
  assert (Hnf : 0 < nf) by apply n_fft_pos.
  destruct (Nat.le_gt_cases (filter_length o) nf) as [HL|HL].
  - rewrite !(proj2 (check_sizes_ok _ _ _ _ HL0 Hnf) HL). cbn [bind].
    rewrite !sar_row_cells by lia.
    rewrite (mapM_ext _ (fun i => match nth i (prep_arr (zero_mean o) ref) None with
      | None => Ok NaN
      | Some v => do row <- coh_row NumPy (use_cg_iter o) (acf_sdr nf (filter_length o) (load_diag o) v)
           (stats_xcorr nf (filter_length o) v) [nth i (prep_arr (zero_mean o) est) None]; Ok (nth 0 row NaN)
      end)).
    + reflexivity.
    + intros i _. destruct (nth i (prep_arr (zero_mean o) ref) None); auto.
      rewrite acf_sdr_eq by lia. rewrite row_cells_backend. reflexivity.
  - rewrite !check_sizes_raise by auto. cbn [bind]. split; discriminate.
Qed.
Theorem backend_noperm o ref est v : 0 < filter_length o ->
  (bss_eval_sources_noperm Torch o ref est = Ok v <-> bss_eval_sources_noperm NumPy o ref est = Ok v).
Proof.
  intros HL. unfold bss_eval_sources_noperm. destruct (n_chan ref =? n_chan est); [|reflexivity].
  apply bind_backend. intros c. apply backend_sq_cos_diag; auto.
Qed.
Theorem backend_sdr_loss o ref est v : n_chan ref = n_chan est \/ n_chan est = 1 ->
  (sdr_loss Torch o est ref = Ok v <-> sdr_loss NumPy o est ref = Ok v).
Proof.
  intros Hn. apply bind_backend. intros m. unfold sdr_coh_diag. rewrite !length_prep.
  assert (Hb : forall b, bc_chan b o (n_chan ref) (n_chan est) = Ok (n_chan ref)).
  { intros b. unfold bc_chan. destruct (Nat.eqb_spec (n_chan ref) (n_chan est)); auto.
    destruct (Nat.eqb_spec (n_chan est) 1); auto. destruct Hn; contradiction. }
  rewrite !Hb.
  destruct (Nat.eqb_spec (filter_length o) 1) as [E|N]; [apply bc_len_bind|]. cbv zeta. cbn [bind].
  set (nf := n_fft (a_len ref) (a_len est)).
  rewrite (mapM_ext _ (fun i => match bc_pick (prep_arr (zero_mean o) ref) i None with
      | None => Ok NaN
      | Some v => do row <- coh_row NumPy (use_cg_iter o) (add_load (load_diag o) (stats_acf nf (filter_length o) v))
           (stats_xcorr nf (filter_length o) v) [bc_pick (prep_arr (zero_mean o) est) i None]; Ok (nth 0 row NaN)
      end)).
  - reflexivity.
  - intros i _. destruct (bc_pick (prep_arr (zero_mean o) ref) i None); auto.
    rewrite row_cells_backend. reflexivity.
Qed.
