(** * The non-pairwise functions are the diagonals of the pairwise ones (C30) *)
From Coq Require Import Reals Lra.
From Coquelicot Require Import Complex.
From Verif Require Import Prelude ExtReal Slice Sums SpecSig Fft Helpers DbProofs Linalg LinalgProofs
  Cgd Metrics StatsProofs LeastSq PrepProofs MetricsProofs SarProofs MetricTheorems CgdOps CgdPrecond Cells.
Local Open Scope nat_scope.

Lemma mapM_seq {A B} (f : A -> res B) l d : mapM f l = mapM (fun i => f (nth i l d)) (seq 0 (length l)).
Proof.
  induction l as [|a l IH]; auto. simpl. rewrite IH, <- seq_shift.
  destruct (f a); simpl; auto.
  assert (E : forall m, mapM (fun i => f (nth i l d)) m = mapM (fun i => f (nth i (a :: l) d)) (map S m)).
  { induction m as [|x m IHm]; simpl; auto. rewrite IHm. reflexivity. }
  rewrite E. reflexivity.
Qed.
Lemma mapM_const {A B} (l : list A) (r : res B) : l <> [] ->
  mapM (fun _ => r) l = do x <- r; Ok (map (fun _ => x) l).
Proof.
  destruct l as [|a l]; [congruence|]. intros _. simpl. destruct r as [x|e]; simpl; auto.
  assert (E : mapM (fun _ : A => Ok x) l = Ok (map (fun _ => x) l)).
  { induction l; simpl; auto. rewrite IHl. reflexivity. }
  rewrite E. reflexivity.
Qed.

(** the entry of one pair *)
Definition pair_cell (cg : option nat) (ld : option R) (nf L : nat) (x y : chan) : xr :=
  match x with
  | None => NaN
  | Some v => vcell (fun w => sdr_cell cg (add_load ld (stats_acf nf L v)) (stats_xcorr nf L v w)) y
  end.
(** the check made on one reference *)
Definition pair_check (cg : option nat) (ld : option R) (nf L : nat) (x : chan) : res unit :=
  match x with
  | None => Ok tt
  | Some v => solvable cg (Nat.min L nf) (ent (toeplitz NumPy (add_load ld (stats_acf nf L v))))
  end.
Lemma sdr_row_pair cg ld nf L ests x :
  sdr_row_cells cg ld nf L ests x =
  do _ <- pair_check cg ld nf L x; Ok (map (pair_cell cg ld nf L x) ests).
Proof. destruct x; reflexivity. Qed.
Lemma coh_row_one b cg ld nf L x y :
  (match x with None => Ok NaN
   | Some v => do row <- coh_row b cg (add_load ld (stats_acf nf L v)) (stats_xcorr nf L v) [y];
               Ok (nth 0 row NaN) end) =
  do _ <- pair_check cg ld nf L x; Ok (pair_cell cg ld nf L x y).
Proof.
  destruct x as [v|]; auto. rewrite coh_row_cells by (intros; apply stats_len). rewrite length_loaded.
  unfold pair_check. destruct (solvable _ _ _); reflexivity.
Qed.
Lemma mapM_check {A B} (c : A -> res unit) (g : A -> B) l :
  mapM (fun x => do _ <- c x; Ok (g x)) l = do _ <- mapM c l; Ok (map g l).
Proof.
  induction l as [|a l IH]; simpl; auto. rewrite IH. destruct (c a); simpl; auto.
  destruct (mapM c l); reflexivity.
Qed.
Lemma map_seq {A B} (g : A -> B) l d : map g l = map (fun i => g (nth i l d)) (seq 0 (length l)).
Proof. symmetry. apply tab_map. Qed.

Theorem sdr_coh_entries b o ref est : filter_length o <> 1 ->
  sdr_coh b o ref est =
  do _ <- mapM (pair_check (use_cg_iter o) (load_diag o) (n_fft (a_len ref) (a_len est)) (filter_length o))
            (prep_arr (zero_mean o) ref);
  Ok (map (fun x => map (pair_cell (use_cg_iter o) (load_diag o) (n_fft (a_len ref) (a_len est)) (filter_length o) x)
        (prep_arr (zero_mean o) est)) (prep_arr (zero_mean o) ref)).
Proof.
  intros HL. rewrite sdr_coh_cells by auto. rewrite <- mapM_check. apply mapM_ext. intros x _. apply sdr_row_pair.
Qed.
Lemma mat_of_map2 (f : chan -> chan -> xr) refs ests i j : i < length refs -> j < length ests ->
  mat_of (map (fun x => map (f x) ests) refs) i j = f (nth i refs None) (nth j ests None).
Proof.
  intros Hi Hj. unfold mat_of.
  rewrite (nth_indep _ [] ((fun x => map (f x) ests) None)) by (rewrite map_length; auto). rewrite (map_nth (fun x => map (f x) ests)).
  rewrite (nth_indep _ NaN (f (nth i refs None) None)) by (rewrite map_length; auto). apply map_nth.
Qed.

Definition bc_idx (n i : nat) : nat := if Nat.eqb n 1 then 0 else i.
Lemma bc_pick_idx {A} (l : list A) i d : bc_pick l i d = nth (bc_idx (length l) i) l d.
Proof. unfold bc_pick, bc_idx. destruct (length l =? 1); reflexivity. Qed.
Lemma bc_chan_bound b o nr ne k i : bc_chan b o nr ne = Ok k -> i < k -> bc_idx nr i < nr /\ bc_idx ne i < ne.
Proof.
  unfold bc_chan, bc_idx. intros H Hi.
  destruct (Nat.eqb_spec nr ne) as [->|N].
  { injection H as <-. destruct (Nat.eqb_spec ne 1); lia. }
  destruct (Nat.eqb_spec ne 1) as [->|N1].
  { injection H as <-. destruct (Nat.eqb_spec nr 1); lia. }
  destruct (Nat.eqb_spec nr 1) as [->|N2]; [|discriminate].
  assert (k = ne) by (destruct b, (use_cg_iter o), (filter_length o =? 1); congruence). lia.
Qed.
Lemma bc_chan_k b o nr ne k : bc_chan b o nr ne = Ok k ->
  (nr = ne /\ k = nr) \/ (ne = 1 /\ k = nr) \/ (nr = 1 /\ k = ne).
Proof.
  unfold bc_chan. intros H.
  destruct (Nat.eqb_spec nr ne) as [->|N]; [injection H as <-; auto|].
  destruct (Nat.eqb_spec ne 1) as [->|N1]; [injection H as <-; auto|].
  destruct (Nat.eqb_spec nr 1) as [->|N2]; [|discriminate].
  assert (k = ne) by (destruct b, (use_cg_iter o), (filter_length o =? 1); congruence). auto.
Qed.

Theorem sdr_coh_diag_spec b o ref est k : bc_chan b o (n_chan ref) (n_chan est) = Ok k ->
  (n_chan ref = 1 -> 0 < n_chan est) ->
  sdr_coh_diag b o ref est =
  do m <- sdr_coh b o ref est;
  Ok (tab k (fun i => mat_of m (bc_idx (n_chan ref) i) (bc_idx (n_chan est) i))).
Proof.
  intros Hk H1. unfold sdr_coh_diag. rewrite !length_prep, Hk. cbv zeta. cbn [bind].
  destruct (Nat.eqb_spec (filter_length o) 1) as [E|N].
  - unfold sdr_coh. rewrite E, Nat.eqb_refl. destruct (bc_len _ _ _); cbn [bind]; auto. f_equal.
    apply tab_ext. intros i Hi. destruct (bc_chan_bound _ _ _ _ _ _ Hk Hi) as [B1 B2].
    unfold len1_sdr. rewrite mat_of_map2 by (rewrite length_prep; auto).
    rewrite !bc_pick_idx, !length_prep. reflexivity.
  - rewrite sdr_coh_entries by auto.
    set (nf := n_fft (a_len ref) (a_len est)). set (refs := prep_arr (zero_mean o) ref).
    set (ests := prep_arr (zero_mean o) est).
    rewrite (mapM_ext _ (fun i => do _ <- pair_check (use_cg_iter o) (load_diag o) nf (filter_length o) (bc_pick refs i None);
       Ok (pair_cell (use_cg_iter o) (load_diag o) nf (filter_length o) (bc_pick refs i None) (bc_pick ests i None))))
      by (intros i _; apply coh_row_one).
    rewrite (mapM_check (fun i => pair_check (use_cg_iter o) (load_diag o) nf (filter_length o) (bc_pick refs i None))).
    assert (Ecell : map (fun i => pair_cell (use_cg_iter o) (load_diag o) nf (filter_length o) (bc_pick refs i None) (bc_pick ests i None)) (seq 0 k) =
       tab k (fun i => mat_of (map (fun x => map (pair_cell (use_cg_iter o) (load_diag o) nf (filter_length o) x) ests) refs)
          (bc_idx (n_chan ref) i) (bc_idx (n_chan est) i))).
    { apply tab_ext. intros i Hi. destruct (bc_chan_bound _ _ _ _ _ _ Hk Hi) as [B1 B2].
      rewrite mat_of_map2 by (unfold refs, ests; rewrite length_prep; auto).
      rewrite !bc_pick_idx. unfold refs, ests. rewrite !length_prep. reflexivity. }
    rewrite Ecell. clear Ecell.
    assert (Echk : (exists u, mapM (fun i => pair_check (use_cg_iter o) (load_diag o) nf (filter_length o) (bc_pick refs i None)) (seq 0 k) = Ok u /\
                     exists u', mapM (pair_check (use_cg_iter o) (load_diag o) nf (filter_length o)) refs = Ok u') \/
                   (exists e, mapM (fun i => pair_check (use_cg_iter o) (load_diag o) nf (filter_length o) (bc_pick refs i None)) (seq 0 k) = Raise e /\
                     mapM (pair_check (use_cg_iter o) (load_diag o) nf (filter_length o)) refs = Raise e)).
    { destruct (Nat.eq_dec (n_chan ref) 1) as [R1|R1].
      - rewrite (mapM_ext _ (fun _ => pair_check (use_cg_iter o) (load_diag o) nf (filter_length o) (nth 0 refs None))).
        2:{ intros i _. rewrite bc_pick_idx. unfold refs, bc_idx. rewrite length_prep, R1. reflexivity. }
        rewrite mapM_const.
        2:{ specialize (H1 R1). assert (0 < k) by (destruct (bc_chan_k _ _ _ _ _ Hk) as [[? ?]|[[? ?]|[? ?]]]; lia).
            destruct k; [lia|discriminate]. }
        assert (E1 : exists x, refs = [x]).
        { assert (length refs = 1) by (unfold refs; rewrite length_prep; auto).
          destruct refs as [|x [|? ?]]; simpl in *; try lia. eauto. }
        destruct E1 as [x ->]. simpl. destruct (pair_check _ _ _ _ x); simpl; [left|right]; eauto.
      - assert (k = n_chan ref) by (destruct (bc_chan_k _ _ _ _ _ Hk) as [[? ?]|[[? ?]|[? ?]]]; congruence). subst k.
        rewrite (mapM_seq _ refs None).
        replace (length refs) with (n_chan ref) by (unfold refs; rewrite length_prep; auto).
        rewrite (mapM_ext _ (fun i => pair_check (use_cg_iter o) (load_diag o) nf (filter_length o) (nth i refs None))).
        2:{ intros i _. rewrite bc_pick_idx. unfold refs, bc_idx. rewrite length_prep.
            destruct (Nat.eqb_spec (n_chan ref) 1); [contradiction|reflexivity]. }
        destruct (mapM _ _); [left|right]; eauto. }
    destruct Echk as [(u & -> & u' & ->)|(e & -> & ->)]; reflexivity.
Qed.

(** sdr_loss and pairwise_sdr_loss *)
Lemma mat_of_to_db o m i j : mat_of (to_db o m) i j = coherence_to_neg_sdr (clamp_db o) (mat_of m i j).
Proof.
  unfold mat_of, to_db.
  change (@nil xr) with (map (coherence_to_neg_sdr (clamp_db o)) []) at 1. rewrite map_nth.
  rewrite <- (neg_sdr_nan (clamp_db o)) at 1. apply map_nth.
Qed.
Theorem sdr_loss_spec b o ref est k : bc_chan b o (n_chan ref) (n_chan est) = Ok k ->
  (n_chan ref = 1 -> 0 < n_chan est) ->
  sdr_loss b o est ref =
  do m <- pairwise_sdr_loss b o est ref;
  Ok (tab k (fun i => mat_of m (bc_idx (n_chan ref) i) (bc_idx (n_chan est) i))).
Proof.
  intros Hk H1. unfold sdr_loss, pairwise_sdr_loss. rewrite (sdr_coh_diag_spec b o ref est k) by auto.
  destruct (sdr_coh b o ref est) as [m|e]; cbn [bind]; auto. f_equal.
  unfold tab. rewrite map_map. apply map_ext. intros i. rewrite mat_of_to_db. reflexivity.
Qed.
Lemma bc_chan_eq b o n : bc_chan b o n n = Ok n.
Proof. unfold bc_chan. rewrite Nat.eqb_refl. reflexivity. Qed.
Lemma tab_bc_idx n (f : nat -> nat -> xr) : tab n (fun i => f (bc_idx n i) (bc_idx n i)) = tab n (fun i => f i i).
Proof. apply tab_ext. intros i Hi. unfold bc_idx. destruct (Nat.eqb_spec n 1); auto. replace i with 0 by lia. reflexivity. Qed.
Theorem sdr_loss_diag b o ref est : n_chan ref = n_chan est ->
  sdr_loss b o est ref =
  do m <- pairwise_sdr_loss b o est ref; Ok (tab (n_chan ref) (fun i => mat_of m i i)).
Proof.
  intros Hn. rewrite (sdr_loss_spec b o ref est (n_chan ref)).
  - rewrite <- Hn. destruct (pairwise_sdr_loss b o est ref); cbn [bind]; auto. f_equal. apply tab_bc_idx.
  - rewrite Hn. apply bc_chan_eq.
  - lia.
Qed.
Theorem sdr_loss_mismatch b o ref est : n_chan ref <> n_chan est -> n_chan ref <> 1 -> n_chan est <> 1 ->
  sdr_loss b o est ref = Raise (shape_exn b).
Proof.
  intros H1 H2 H3. unfold sdr_loss, sdr_coh_diag. rewrite !length_prep.
  assert (E : bc_chan b o (n_chan ref) (n_chan est) = Raise (shape_exn b)).
  { unfold bc_chan. destruct (Nat.eqb_spec (n_chan ref) (n_chan est)); [contradiction|].
    destruct (Nat.eqb_spec (n_chan est) 1); [contradiction|]. destruct (Nat.eqb_spec (n_chan ref) 1); [contradiction|]. auto. }
  rewrite E. destruct (filter_length o =? 1); auto. unfold bc_len.
  destruct (a_len ref =? a_len est), (a_len ref =? 1), (a_len est =? 1); reflexivity.
Qed.

(** square_cosine_metrics(pairwise=False) *)
Theorem sq_cos_diag_unfold b o ref est : 2 <= filter_length o ->
  filter_length o <= n_fft (a_len ref) (a_len est) -> n_chan ref = n_chan est ->
  sq_cos_diag b o ref est =
  do v <- sdr_coh_diag b o ref est;
  do s <- sar_row b (use_cg_iter o) (n_fft (a_len ref) (a_len est)) (filter_length o) (load_diag o) false
             (prep_arr (zero_mean o) ref) (prep_arr (zero_mean o) est);
  Ok (v, s).
Proof.
  intros H2 HL Hn. unfold sq_cos_diag, sdr_coh_diag.
  destruct (Nat.eqb_spec (filter_length o) 1); [lia|]. cbv zeta. rewrite !length_prep, <- Hn, bc_chan_eq. cbn [bind].
  destruct (check_sizes_ok b (use_cg_iter o) (n_fft (a_len ref) (a_len est)) (filter_length o)) as [_ Hc];
    [lia|apply n_fft_pos|]. rewrite (Hc HL). cbn [bind].
  set (nf := n_fft (a_len ref) (a_len est)) in *.
  assert (E : forall l : list chan, length l = n_chan ref -> forall i, i < n_chan ref -> bc_pick l i None = nth i l None).
  { intros l Hl i Hi. rewrite bc_pick_idx. unfold bc_idx. destruct (Nat.eqb_spec (length l) 1); auto.
    replace i with 0 by lia. reflexivity. }
  rewrite (mapM_ext (fun i => match bc_pick (prep_arr (zero_mean o) ref) i None with None => Ok NaN | Some v => _ end)
    (fun i => match nth i (prep_arr (zero_mean o) ref) None with
      | None => Ok NaN
      | Some v =>
        do row <- coh_row b (use_cg_iter o) (acf_sdr nf (filter_length o) (load_diag o) v)
                          (stats_xcorr nf (filter_length o) v) [nth i (prep_arr (zero_mean o) est) None];
        Ok (nth 0 row NaN)
      end)).
  - reflexivity.
  - intros i Hi. apply in_seq in Hi. rewrite !E by (rewrite ?length_prep; lia).
    destruct (nth i (prep_arr (zero_mean o) ref) None); auto. rewrite acf_sdr_eq by lia. reflexivity.
Qed.
Theorem sq_cos_diag_direct b o ref est : 0 < filter_length o -> use_cg_iter o = None -> n_chan ref = n_chan est ->
  sq_cos_diag b o ref est =
  do c <- sq_cos b o ref est; Ok (tab (n_chan ref) (fun i => mat_of (fst c) i i), snd c).
Proof.
  intros HL Hcg Hn. destruct (Nat.eq_dec (filter_length o) 1) as [E|N].
  - unfold sq_cos_diag, sq_cos. rewrite E, Nat.eqb_refl. destruct (bc_len _ _ _); cbn [bind]; auto.
    destruct (len1_sar _ _ _ _ _); cbn [bind]; auto. do 2 f_equal. rewrite length_prep.
    apply tab_ext. intros i Hi. cbn [fst]. unfold len1_sdr. rewrite mat_of_map2 by (rewrite length_prep; lia). reflexivity.
  - destruct (Nat.le_gt_cases (filter_length o) (n_fft (a_len ref) (a_len est))) as [HLn|HLn].
    + rewrite sq_cos_diag_unfold, sq_cos_cells by (auto; lia).
      rewrite (sdr_coh_diag_spec b o ref est (n_chan ref)) by (rewrite <- ?Hn; auto using bc_chan_eq; lia).
      destruct (sdr_coh b o ref est) as [m|e]; cbn [bind]; auto.
      rewrite !sar_row_cells by lia. rewrite Hcg. rewrite <- Hn.
      destruct (existsb tainted _); cbn [bind fst snd].
      * do 2 f_equal. apply tab_bc_idx.
      * destruct (sar_ready _ _ _ _ _); cbn [bind fst snd]; auto. do 2 f_equal. apply tab_bc_idx.
    + unfold sq_cos_diag, sq_cos. destruct (Nat.eqb_spec (filter_length o) 1); [contradiction|]. cbv zeta.
      rewrite check_sizes_raise by (auto using n_fft_pos). reflexivity.
Qed.
(** the SDR part for both solvers *)
Theorem sq_cos_diag_sdr b o ref est : 0 < filter_length o -> n_chan ref = n_chan est ->
  match sq_cos b o ref est, sq_cos_diag b o ref est with
  | Ok c, Ok d => fst d = tab (n_chan ref) (fun i => mat_of (fst c) i i)
  | Raise e, Raise e' => e = e'
  | _, _ => False
  end.
Proof.
  intros HL Hn. destruct (use_cg_iter o) as [it|] eqn:Hcg.
  2:{ rewrite sq_cos_diag_direct by auto. destruct (sq_cos b o ref est); cbn [bind fst]; auto. }
  destruct (Nat.eq_dec (filter_length o) 1) as [E|N].
  - unfold sq_cos_diag, sq_cos. rewrite E, Nat.eqb_refl. destruct (bc_len _ _ _); cbn [bind]; auto.
    destruct (len1_sar _ _ _ _ _); cbn [bind fst]; auto. rewrite length_prep.
    apply tab_ext. intros i Hi. unfold len1_sdr. rewrite mat_of_map2 by (rewrite length_prep; lia). reflexivity.
  - destruct (Nat.le_gt_cases (filter_length o) (n_fft (a_len ref) (a_len est))) as [HLn|HLn].
    + rewrite sq_cos_diag_unfold, sq_cos_cells by (auto; lia).
      rewrite (sdr_coh_diag_spec b o ref est (n_chan ref)) by (rewrite <- ?Hn; auto using bc_chan_eq; lia).
      destruct (sdr_coh b o ref est) as [m|e]; cbn [bind]; auto.
      rewrite !sar_row_cells by lia. rewrite Hcg. rewrite <- Hn. unfold sar_ready.
      destruct (existsb tainted _); cbn [bind fst snd].
      * apply tab_bc_idx.
      * destruct (prec_inv _ _ _); cbn [bind fst snd]; auto. apply tab_bc_idx.
    + unfold sq_cos_diag, sq_cos. destruct (Nat.eqb_spec (filter_length o) 1); [contradiction|]. cbv zeta.
      rewrite check_sizes_raise by (auto using n_fft_pos). reflexivity.
Qed.
Theorem noperm_mismatch b o ref est : n_chan ref <> n_chan est ->
  bss_eval_sources_noperm b o ref est = Raise AssertionError.
Proof. intros H. unfold bss_eval_sources_noperm. destruct (Nat.eqb_spec (n_chan ref) (n_chan est)); [contradiction|reflexivity]. Qed.
(** the negated diagonals of the three pairwise matrices *)
Definition diag_out (n : nat) (m : nat -> nat -> xr) : list xr := tab n (fun i => xneg (m i i)).
Theorem noperm_diag b o ref est : 0 < filter_length o -> use_cg_iter o = None -> n_chan ref = n_chan est ->
  bss_eval_sources_noperm b o ref est =
  do c <- sq_cos b o ref est;
  let '(nsdr, nsir, nsar) := bss_mats o c in
  Ok (diag_out (n_chan ref) nsdr, diag_out (n_chan ref) nsir, diag_out (n_chan ref) nsar).
Proof.
  intros HL Hcg Hn. unfold bss_eval_sources_noperm. rewrite <- Hn, Nat.eqb_refl.
  rewrite sq_cos_diag_direct by auto. destruct (sq_cos b o ref est) as [[m s]|e]; cbn [bind fst snd]; auto.
  unfold bss_mats, diag_out. cbv zeta.
  assert (E : forall f : xr * xr * xr -> xr,
    map (fun t => xneg (f t)) (tab (n_chan ref) (fun i => base_metrics o (nth i (tab (n_chan ref) (fun i => mat_of m i i)) NaN) (nth i s NaN))) =
    tab (n_chan ref) (fun i => xneg (f (base_metrics o (mat_of m i i) (nth i s NaN))))).
  { intros f. unfold tab at 1. rewrite map_map. apply tab_ext. intros i Hi. rewrite nth_tab by auto. reflexivity. }
  rewrite (E (fun t => fst (fst t))), (E (fun t => snd (fst t))), (E snd). reflexivity.
Qed.
