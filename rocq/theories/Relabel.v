(** * Outputs for relabelled channels and for sign changes, all functions, both solvers (C23, C31) *)
From Coq Require Import Reals Lra.
From Coquelicot Require Import Complex.
From Verif Require Import Prelude ExtReal Slice Sums SpecSig Fft FftProofs Helpers DbProofs Linalg LinalgProofs
  Cgd Metrics StatsProofs LeastSq PrepProofs MetricsProofs SarProofs ProjTheorems MetricTheorems Invariance
  CgdOps CgdPrecond CgProofs CgCirc Cells Diag Symmetry SarSymmetry Outputs Spec.
Local Open Scope nat_scope.

(** [m'] is [m] with rows and columns relabelled *)
Definition mat_rel (nr ne : nat) (sg tau : nat -> nat) (m m' : list (list xr)) : Prop :=
  length m = nr /\ length m' = nr /\
  forall i, i < nr -> col_rel ne tau (nth (sg i) m []) (nth i m' []).
Lemma mat_rel_at nr ne sg tau m m' i j : mat_rel nr ne sg tau m m' -> i < nr -> j < ne ->
  mat_of m' i j = mat_of m (sg i) (tau j).
Proof. intros (_ & _ & H) Hi Hj. unfold mat_of. apply (H i Hi); auto. Qed.
Lemma mat_rel_id nr ne m m' : mat_rel nr ne (fun i => i) (fun j => j) m m' -> m' = m.
Proof.
  intros (H1 & H2 & H). apply (list_eq_nth _ _ []); [congruence|]. rewrite H2. intros i Hi.
  destruct (H i Hi) as (L1 & L2 & E). apply (list_eq_nth _ _ NaN); [congruence|]. rewrite L2. apply E.
Qed.
Lemma col_rel_id ne r r' : col_rel ne (fun j => j) r r' -> r' = r.
Proof. intros (H1 & H2 & H). apply (list_eq_nth _ _ NaN); [congruence|]. rewrite H2. apply H. Qed.

Lemma rrel_refl {A} (Q : A -> A -> Prop) r : (forall a, Q a a) -> rrel Q r r.
Proof. intros H. destruct r; simpl; auto. Qed.
Lemma len1_sdr_rel n refs ests sg s tau s' :
  signs (length refs) s -> perm_of (length refs) sg -> signs (length ests) s' -> perm_of (length ests) tau ->
  mat_rel (length refs) (length ests) sg tau (len1_sdr n refs ests)
    (len1_sdr n (relabel sg s refs) (relabel tau s' ests)).
Proof.
  intros Hs Hp Hs' Ht. unfold mat_rel, len1_sdr. rewrite !map_length, length_relabel. split; auto. split; auto.
  intros i Hi.
  assert (Hm : forall (f : chan -> list xr) l i, i < length l -> nth i (map f l) [] = f (nth i l None)).
  { intros f l c Hc. rewrite (nth_indep _ [] (f None)) by (rewrite map_length; auto). apply map_nth. }
  rewrite !Hm by (rewrite ?length_relabel; auto; apply Hp; auto).
  unfold col_rel. rewrite !map_length, length_relabel. split; auto. split; auto. intros j Hj.
  rewrite !nth_map_chan by (rewrite ?length_relabel; auto; apply Ht; auto). rewrite !nth_relabel by auto.
  apply lift2_flip; intros _; auto.
Qed.

Section Rel.
Variables (b : backend) (o : opts) (ref est ref' est' : arr) (sg tau : nat -> nat) (s s' : nat -> R).
Hypothesis Er : a_len ref' = a_len ref.
Hypothesis Ee : a_len est' = a_len est.
Hypothesis Hs : signs (n_chan ref) s.
Hypothesis Hs' : signs (n_chan est) s'.
Hypothesis Hp : perm_of (n_chan ref) sg.
Hypothesis Ht : perm_of (n_chan est) tau.
Hypothesis Pr : prep_arr (zero_mean o) ref' = relabel sg s (prep_arr (zero_mean o) ref).
Hypothesis Pe : prep_arr (zero_mean o) est' = relabel tau s' (prep_arr (zero_mean o) est).

Let Lr : signs (length (prep_arr (zero_mean o) ref)) s.
Proof. rewrite length_prep; auto. Qed.
Let Le : signs (length (prep_arr (zero_mean o) est)) s'.
Proof. rewrite length_prep; auto. Qed.
Let Qr : perm_of (length (prep_arr (zero_mean o) ref)) sg.
Proof. rewrite length_prep; auto. Qed.
Let Qe : perm_of (length (prep_arr (zero_mean o) est)) tau.
Proof. rewrite length_prep; auto. Qed.
Lemma rel_n_ref : n_chan ref' = n_chan ref.
Proof. rewrite <- (length_prep (zero_mean o)), Pr, length_relabel, length_prep. reflexivity. Qed.
Lemma rel_n_est : n_chan est' = n_chan est.
Proof. rewrite <- (length_prep (zero_mean o)), Pe, length_relabel, length_prep. reflexivity. Qed.

Theorem sdr_coh_rel : rrel (mat_rel (n_chan ref) (n_chan est) sg tau) (sdr_coh b o ref est) (sdr_coh b o ref' est').
Proof.
  destruct (Nat.eq_dec (filter_length o) 1) as [E1|N1].
  - unfold sdr_coh. rewrite E1, Er, Ee, Pr, Pe. cbn [Nat.eqb].
    destruct (bc_len _ _ _); simpl; auto.
    rewrite <- (length_prep (zero_mean o) ref), <- (length_prep (zero_mean o) est). apply len1_sdr_rel; auto.
  - rewrite !sdr_coh_cells by auto. rewrite Er, Ee, Pr, Pe.
    set (nf := n_fft (a_len ref) (a_len est)).
    assert (Hn : 0 < nf) by apply n_fft_pos.
    set (ests := prep_arr (zero_mean o) est) in *. set (refs := prep_arr (zero_mean o) ref) in *.
    rewrite <- (length_prep (zero_mean o) ref), <- (length_prep (zero_mean o) est). fold refs ests.
    apply (rrelE_rrel LinAlgError).
    apply (@mapM_perm _ _ _ _ LinAlgError (col_rel (length ests) tau)
       (sdr_row_cells (use_cg_iter o) (load_diag o) nf (filter_length o) ests)
       (sdr_row_cells (use_cg_iter o) (load_diag o) nf (filter_length o) (relabel tau s' ests))
       refs (relabel sg s refs) sg (None : chan) (None : chan) [] []); auto.
    + apply length_relabel.
    + intros i Hi. rewrite nth_relabel by auto. apply sdr_row_rel; auto.
Qed.

Theorem sq_cos_rel : 0 < filter_length o ->
  rrel (fun c c' => mat_rel (n_chan ref) (n_chan est) sg tau (fst c) (fst c') /\
                    col_rel (n_chan est) tau (snd c) (snd c'))
    (sq_cos b o ref est) (sq_cos b o ref' est').
Proof.
  intros HL. destruct (Nat.eq_dec (filter_length o) 1) as [E1|N1].
  - unfold sq_cos. rewrite E1, Er, Ee, Pr, Pe. cbn [Nat.eqb].
    destruct (bc_len _ _ _); simpl; auto.
    eapply rrel_bind; [apply len1_sar_rel; eauto|]. intros r r' _ _ H. simpl.
    rewrite <- (length_prep (zero_mean o) ref), <- (length_prep (zero_mean o) est).
    split; auto. apply len1_sdr_rel; auto.
  - destruct (Nat.le_gt_cases (filter_length o) (n_fft (a_len ref) (a_len est))) as [HLn|HLn].
    + rewrite !sq_cos_cells by (rewrite ?Er, ?Ee; lia).
      eapply rrel_bind; [apply sdr_coh_rel|]. intros m m' _ _ Hm.
      rewrite Er, Ee, Pr, Pe.
      eapply rrel_bind; [apply sar_row_rel; eauto; lia|]. intros r r' _ _ Hr. simpl. split; auto.
      rewrite <- (length_prep (zero_mean o) est). exact Hr.
    + unfold sq_cos. destruct (Nat.eqb_spec (filter_length o) 1); [contradiction|]. cbv zeta. rewrite Er, Ee.
      rewrite check_sizes_raise by (auto using n_fft_pos). reflexivity.
Qed.
Theorem pairwise_rel : rrel (mat_rel (n_chan ref) (n_chan est) sg tau)
  (pairwise_sdr_loss b o est ref) (pairwise_sdr_loss b o est' ref').
Proof.
  unfold pairwise_sdr_loss. eapply rrel_bind; [apply sdr_coh_rel|]. intros m m' _ _ (H1 & H2 & H). simpl.
  unfold mat_rel, to_db. rewrite !map_length. split; auto. split; auto. intros i Hi.
  assert (Hnil : forall (l : list (list xr)) c,
     nth c (map (map (coherence_to_neg_sdr (clamp_db o))) l) [] = map (coherence_to_neg_sdr (clamp_db o)) (nth c l [])).
  { intros l c. change (@nil xr) with (map (coherence_to_neg_sdr (clamp_db o)) []) at 1. apply map_nth. }
  rewrite !Hnil.
  destruct (H i Hi) as (L1 & L2 & E). unfold col_rel. rewrite !map_length. split; auto. split; auto.
  intros j Hj. rewrite <- (neg_sdr_nan (clamp_db o)). rewrite !map_nth. f_equal. auto.
Qed.

(** non-pairwise: same permutation of references and estimates *)
Theorem sdr_coh_diag_rel : n_chan ref = n_chan est -> (forall i, i < n_chan est -> tau i = sg i) ->
  rrel (col_rel (n_chan est) tau) (sdr_coh_diag b o ref est) (sdr_coh_diag b o ref' est').
Proof.
  intros Hn Hst.
  rewrite (sdr_coh_diag_spec b o ref est (n_chan est)) by (rewrite ?Hn; auto using bc_chan_eq; lia).
  rewrite (sdr_coh_diag_spec b o ref' est' (n_chan est))
    by (rewrite ?rel_n_ref, ?rel_n_est, ?Hn; auto using bc_chan_eq; lia).
  eapply rrel_bind; [apply sdr_coh_rel|]. intros m m' _ _ Hm. rewrite rel_n_ref, rel_n_est, Hn.
  simpl. rewrite !tab_bc_idx. unfold col_rel. rewrite !length_tab. split; auto. split; auto.
  intros j Hj. assert (tau j < n_chan est) by (apply Ht; auto). rewrite !nth_tab by auto.
  rewrite (mat_rel_at _ _ _ _ _ _ _ _ Hm) by lia. rewrite Hst by auto. reflexivity.
Qed.
Theorem sq_cos_diag_rel : 0 < filter_length o -> n_chan ref = n_chan est ->
  (forall i, i < n_chan est -> tau i = sg i) ->
  rrel (fun c c' => col_rel (n_chan est) tau (fst c) (fst c') /\ col_rel (n_chan est) tau (snd c) (snd c'))
    (sq_cos_diag b o ref est) (sq_cos_diag b o ref' est').
Proof.
  intros HL Hn Hst. destruct (Nat.eq_dec (filter_length o) 1) as [E1|N1].
  - unfold sq_cos_diag. rewrite E1, Er, Ee, Pr, Pe. cbn [Nat.eqb].
    destruct (bc_len _ _ _) as [n|]; simpl; auto.
    eapply rrel_bind; [apply len1_sar_rel; eauto|]. intros r r' _ _ H. simpl.
    rewrite length_prep in H. split; auto.
    rewrite length_relabel, !length_prep, Hn. unfold col_rel. rewrite !length_tab. split; auto. split; auto.
    intros j Hj. assert (tau j < n_chan est) by (apply Ht; auto). rewrite !nth_tab by auto.
    rewrite !nth_relabel by (rewrite length_prep; lia). rewrite <- (Hst j) by auto.
    apply lift2_flip; intros _; [apply Hs; lia|apply Hs'; auto].
  - destruct (Nat.le_gt_cases (filter_length o) (n_fft (a_len ref) (a_len est))) as [HLn|HLn].
    + rewrite !sq_cos_diag_unfold by (rewrite ?Er, ?Ee, ?rel_n_ref, ?rel_n_est; lia).
      eapply rrel_bind; [apply sdr_coh_diag_rel; auto|]. intros v v' _ _ Hv.
      rewrite Er, Ee, Pr, Pe.
      eapply rrel_bind; [apply sar_row_rel; eauto; lia|]. intros r r' _ _ Hr. simpl. split; auto.
      rewrite <- (length_prep (zero_mean o) est). exact Hr.
    + unfold sq_cos_diag. destruct (Nat.eqb_spec (filter_length o) 1); [contradiction|]. cbv zeta. rewrite Er, Ee.
      rewrite check_sizes_raise by (auto using n_fft_pos). reflexivity.
Qed.
End Rel.

(** ** Sign changes only: equal results *)
Section Flip.
Variables (b : backend) (o : opts) (ref est ref' est' : arr) (s s' : nat -> R).
Hypothesis Er : a_len ref' = a_len ref.
Hypothesis Ee : a_len est' = a_len est.
Hypothesis Hs : signs (n_chan ref) s.
Hypothesis Hs' : signs (n_chan est) s'.
Hypothesis Pr : prep_arr (zero_mean o) ref' = flip_chans s (prep_arr (zero_mean o) ref).
Hypothesis Pe : prep_arr (zero_mean o) est' = flip_chans s' (prep_arr (zero_mean o) est).
Let idn := fun i : nat => i.

Theorem sdr_coh_flip : sdr_coh b o ref' est' = sdr_coh b o ref est.
Proof.
  pose proof (sdr_coh_rel b o ref est ref' est' idn idn s s' Er Ee Hs Hs' (perm_id _) (perm_id _) Pr Pe) as H.
  symmetry. apply rrel_eq. eapply rrel_mono; [|exact H]. intros m m' Hm. symmetry. apply (mat_rel_id _ _ _ _ Hm).
Qed.
Theorem sq_cos_flip : 0 < filter_length o -> sq_cos b o ref' est' = sq_cos b o ref est.
Proof.
  intros HL. pose proof (sq_cos_rel b o ref est ref' est' idn idn s s' Er Ee Hs Hs' (perm_id _) (perm_id _) Pr Pe HL) as H.
  symmetry. apply rrel_eq. eapply rrel_mono; [|exact H]. intros [m r] [m' r'] [Hm Hr].
  simpl in *. f_equal; symmetry; [apply (mat_rel_id _ _ _ _ Hm)|apply (col_rel_id _ _ _ Hr)].
Qed.
Theorem sdr_coh_diag_flip : (n_chan ref = 1 -> 0 < n_chan est) -> 
  sdr_coh_diag b o ref' est' = sdr_coh_diag b o ref est.
Proof.
  intros H1.
  assert (N1 : n_chan ref' = n_chan ref) by (apply (rel_n_ref o ref ref' idn s Pr)).
  assert (N2 : n_chan est' = n_chan est) by (apply (rel_n_ref o est est' idn s' Pe)).
  destruct (bc_chan b o (n_chan ref) (n_chan est)) as [k|e] eqn:EK.
  - rewrite (sdr_coh_diag_spec b o ref est k), (sdr_coh_diag_spec b o ref' est' k) by (rewrite ?N1, ?N2; auto).
    rewrite sdr_coh_flip, N1, N2. reflexivity.
  - unfold sdr_coh_diag. rewrite !length_prep, N1, N2, EK, Er, Ee.
    destruct (filter_length o =? 1), (bc_len b (a_len ref) (a_len est)); reflexivity.
Qed.
Theorem sq_cos_diag_flip : 0 < filter_length o -> n_chan ref = n_chan est ->
  sq_cos_diag b o ref' est' = sq_cos_diag b o ref est.
Proof.
  intros HL Hn. pose proof (sq_cos_diag_rel b o ref est ref' est' idn idn s s' Er Ee Hs Hs' (perm_id _) (perm_id _) Pr Pe
    HL Hn (fun i _ => eq_refl)) as H.
  symmetry. apply rrel_eq. eapply rrel_mono; [|exact H]. intros [m r] [m' r'] [Hm Hr].
  simpl in *. f_equal; symmetry; [apply (col_rel_id _ _ _ Hm)|apply (col_rel_id _ _ _ Hr)].
Qed.
End Flip.

(** ** All public functions are invariant under nonzero factors, both solvers (C23) *)
Section ScaleInv.
Variables (b : backend) (sp : scipy_lsa) (o : opts) (ref est : arr) (k k' : nat -> R).
Hypothesis HL : 0 < filter_length o.
Hypothesis Hwr : wf ref.
Hypothesis Hwe : wf est.
Hypothesis Hk : scale_ok (zero_mean o) k ref.
Hypothesis Hk' : scale_ok (zero_mean o) k' est.
Let R' := scale k ref.
Let E' := scale k' est.
Let Pr := prep_arr_scale (zero_mean o) k ref Hwr Hk.
Let Pe := prep_arr_scale (zero_mean o) k' est Hwe Hk'.
Let Sr : signs (n_chan ref) (fun c => sgn (k c)).
Proof. intros c _. apply sgn_sq. Qed.
Let Se : signs (n_chan est) (fun c => sgn (k' c)).
Proof. intros c _. apply sgn_sq. Qed.

Lemma scale_sdr_coh : sdr_coh b o R' E' = sdr_coh b o ref est.
Proof. apply (sdr_coh_flip b o ref est R' E' _ _ eq_refl eq_refl Sr Se Pr Pe). Qed.
Lemma scale_pairwise : pairwise_sdr_loss b o E' R' = pairwise_sdr_loss b o est ref.
Proof. unfold pairwise_sdr_loss. rewrite scale_sdr_coh. reflexivity. Qed.
Lemma scale_sdr_loss : (n_chan ref = 1 -> 0 < n_chan est) -> sdr_loss b o E' R' = sdr_loss b o est ref.
Proof.
  intros H1. unfold sdr_loss. rewrite (sdr_coh_diag_flip b o ref est R' E' _ _ eq_refl eq_refl Sr Se Pr Pe H1). reflexivity.
Qed.
Lemma scale_sdr cs : sdr b sp o cs R' E' = sdr b sp o cs ref est.
Proof.
  unfold sdr. rewrite scale_pairwise. unfold R', E', scale. rewrite !map_chans_n. reflexivity.
Qed.
Lemma scale_pit : sdr_pit_loss b sp o E' R' = sdr_pit_loss b sp o est ref.
Proof. unfold sdr_pit_loss. rewrite scale_sdr. reflexivity. Qed.
Lemma scale_sq_cos : sq_cos b o R' E' = sq_cos b o ref est.
Proof. apply (sq_cos_flip b o ref est R' E' _ _ eq_refl eq_refl Sr Se Pr Pe HL). Qed.
Lemma scale_bss : bss_eval_sources b sp o R' E' = bss_eval_sources b sp o ref est.
Proof.
  unfold bss_eval_sources. rewrite scale_sq_cos. unfold R', E', scale. rewrite !map_chans_n. reflexivity.
Qed.
Lemma scale_bss_noperm : bss_eval_sources_noperm b o R' E' = bss_eval_sources_noperm b o ref est.
Proof.
  unfold bss_eval_sources_noperm.
  assert (N1 : n_chan R' = n_chan ref) by apply map_chans_n.
  assert (N2 : n_chan E' = n_chan est) by apply map_chans_n. rewrite N1, N2.
  destruct (Nat.eqb_spec (n_chan ref) (n_chan est)) as [Hn|]; auto.
  rewrite (sq_cos_diag_flip b o ref est R' E' _ _ eq_refl eq_refl Sr Se Pr Pe HL Hn). reflexivity.
Qed.
End ScaleInv.

(** ** Permuted channels (C31) *)
(** channel i of [pick sg a] is channel [sg i] of [a] *)
Definition pick (sg : nat -> nat) (a : arr) : arr :=
  Arr (a_len a) (map (fun i => nth (sg i) (a_chans a) []) (seq 0 (n_chan a))).
Lemma sign_chan_1 x : sign_chan 1 x = x.
Proof. destruct x as [v|]; auto. simpl. f_equal. unfold rscale. rewrite <- (map_id v) at 2. apply map_ext. intros; ring. Qed.
Lemma prep_pick zm sg a : (forall i, i < n_chan a -> sg i < n_chan a) ->
  prep_arr zm (pick sg a) = relabel sg (fun _ => 1%R) (prep_arr zm a).
Proof.
  intros H. unfold prep_arr, pick, relabel. cbn [a_chans]. rewrite map_map, map_length. fold (n_chan a).
  apply map_ext_in. intros i Hi. apply in_seq in Hi. rewrite sign_chan_1.
  rewrite (nth_indep _ None (prep zm [])) by (rewrite map_length; apply H; lia). symmetry. apply map_nth.
Qed.
Lemma n_chan_pick sg a : n_chan (pick sg a) = n_chan a.
Proof. unfold n_chan at 1, pick. simpl. rewrite map_length, seq_length. reflexivity. Qed.
Lemma signs_1 n : signs n (fun _ => 1%R).
Proof. intros i _. unfold is_sign. ring. Qed.

Section PermInv.
Variables (b : backend) (o : opts) (ref est : arr) (sg tau : nat -> nat).
Hypothesis Hp : perm_of (n_chan ref) sg.
Hypothesis Ht : perm_of (n_chan est) tau.
Let Pr := prep_pick (zero_mean o) sg ref (proj1 Hp).
Let Pe := prep_pick (zero_mean o) tau est (proj1 Ht).
Lemma perm_pairwise : rrel (mat_rel (n_chan ref) (n_chan est) sg tau)
  (pairwise_sdr_loss b o est ref) (pairwise_sdr_loss b o (pick tau est) (pick sg ref)).
Proof. apply (pairwise_rel b o ref est (pick sg ref) (pick tau est) sg tau _ _ eq_refl eq_refl (signs_1 _) (signs_1 _) Hp Ht Pr Pe). Qed.
Lemma perm_sq_cos : 0 < filter_length o ->
  rrel (fun c c' => mat_rel (n_chan ref) (n_chan est) sg tau (fst c) (fst c') /\
     col_rel (n_chan est) tau (snd c) (snd c'))
    (sq_cos b o ref est) (sq_cos b o (pick sg ref) (pick tau est)).
Proof. apply (sq_cos_rel b o ref est (pick sg ref) (pick tau est) sg tau _ _ eq_refl eq_refl (signs_1 _) (signs_1 _) Hp Ht Pr Pe). Qed.
Lemma perm_bss_mats c c' : mat_rel (n_chan ref) (n_chan est) sg tau (fst c) (fst c') ->
  col_rel (n_chan est) tau (snd c) (snd c') ->
  forall i j, i < n_chan ref -> j < n_chan est ->
  fst (fst (bss_mats o c')) i j = fst (fst (bss_mats o c)) (sg i) (tau j) /\
     snd (fst (bss_mats o c')) i j = snd (fst (bss_mats o c)) (sg i) (tau j) /\
     snd (bss_mats o c') i j = snd (bss_mats o c) (sg i) (tau j).
Proof.
  destruct c as [m r], c' as [m' r']. intros Hm Hr i j Hi Hj. cbn [fst snd] in *. unfold bss_mats. cbn [fst snd].
  rewrite (mat_rel_at _ _ _ _ _ _ _ _ Hm) by auto. destruct Hr as (_ & _ & Hr). rewrite Hr by auto. auto.
Qed.
End PermInv.

(** non-pairwise, the same permutation on both sides *)
Lemma perm_sdr_loss b o ref est sg : n_chan ref = n_chan est -> perm_of (n_chan ref) sg ->
  rrel (col_rel (n_chan ref) sg) (sdr_loss b o est ref) (sdr_loss b o (pick sg est) (pick sg ref)).
Proof.
  intros Hn Hp. assert (Ht : perm_of (n_chan est) sg) by congruence. unfold sdr_loss.
  eapply rrel_bind.
  - apply (sdr_coh_diag_rel b o ref est (pick sg ref) (pick sg est) sg sg _ _ eq_refl eq_refl (signs_1 _) (signs_1 _) Hp Ht
      (prep_pick (zero_mean o) sg ref (proj1 Hp)) (prep_pick (zero_mean o) sg est (proj1 Ht)) Hn (fun _ _ => eq_refl)).
  - intros m m' _ _ (L1 & L2 & H). simpl. rewrite Hn. unfold col_rel. rewrite !map_length. split; auto. split; auto.
    intros j Hj. rewrite <- (neg_sdr_nan (clamp_db o)). rewrite !map_nth. f_equal. auto.
Qed.

(** *** Complete assignments are carried along *)
Definition carry (ti tj : nat -> nat) (l : list (nat * nat)) : list (nat * nat) :=
  map (fun p => (ti (fst p), tj (snd p))) l.
Lemma NoDup_map_on {A B} (f : A -> B) l : (forall x y, In x l -> In y l -> f x = f y -> x = y) ->
  NoDup l -> NoDup (map f l).
Proof.
  intros Hi H. induction H as [|a l Ha Hl IH]; simpl; constructor.
  - intros Hin. apply in_map_iff in Hin. destruct Hin as (x & E & Hx). apply Ha.
    rewrite <- (Hi x a); simpl; auto.
  - apply IH. intros x y Hx Hy. apply Hi; simpl; auto.
Qed.
Lemma carry_complete n m ti tj l : perm_of n ti -> perm_of m tj ->
  complete_assignment n m l -> complete_assignment n m (carry ti tj l).
Proof.
  intros [P1 P2] [Q1 Q2] (H1 & H2 & H3 & H4). unfold carry, complete_assignment. rewrite map_length, !map_map.
  split; auto. cbn [fst snd]. split; [|split].
  - intros i j Hin. apply in_map_iff in Hin. destruct Hin as ([x y] & E & Hin). injection E as <- <-.
    destruct (H2 x y Hin). split; simpl; auto.
  - rewrite <- (map_map fst ti). apply NoDup_map_on; auto. intros x y Hx Hy.
    apply in_map_iff in Hx. apply in_map_iff in Hy. destruct Hx as ([x1 x2] & <- & Hx), Hy as ([y1 y2] & <- & Hy).
    apply P2; [apply (H2 x1 x2 Hx)|apply (H2 y1 y2 Hy)].
  - rewrite <- (map_map snd tj). apply NoDup_map_on; auto. intros x y Hx Hy.
    apply in_map_iff in Hx. apply in_map_iff in Hy. destruct Hx as ([x1 x2] & <- & Hx), Hy as ([y1 y2] & <- & Hy).
    apply Q2; [apply (H2 x1 x2 Hx)|apply (H2 y1 y2 Hy)].
Qed.
(** best totals over two matrices that are relabellings of each other agree *)
Definition best_total (n m : nat) (C : nat -> nat -> xr) (t : R) : Prop :=
  (exists l, complete_assignment n m l /\ sumR (map (fun p => to_R (xneg (at_pair C p))) l) = t) /\
     (forall l, complete_assignment n m l -> (sumR (map (fun p => to_R (xneg (at_pair C p))) l) <= t)%R).
Lemma best_total_carry n m C C' sg tau t t' : perm_of n sg -> perm_of m tau ->
  (forall i j, i < n -> j < m -> C' i j = C (sg i) (tau j)) ->
  best_total n m C t -> best_total n m C' t' -> t' = t.
Proof.
  intros Hp Ht HC ((l & Hl & El) & Hb) ((l' & Hl' & El') & Hb').
  assert (E1 : forall l, complete_assignment n m l ->
    sumR (map (fun p => to_R (xneg (at_pair C' p))) l) = sumR (map (fun p => to_R (xneg (at_pair C p))) (carry sg tau l))).
  { intros l0 H0. unfold carry. rewrite map_map. f_equal. apply map_ext_in. intros [i j] Hin.
    destruct (proj1 (proj2 H0) i j Hin). unfold at_pair. simpl. rewrite HC; auto. }
  apply Rle_antisym.
  - rewrite <- El', E1 by auto. apply Hb. apply carry_complete; auto.
  - destruct (perm_inverse n sg Hp) as (ti & Hti). destruct (perm_inverse m tau Ht) as (tj & Htj).
    pose proof (inverse_perm _ _ _ Hp Hti) as Pi. pose proof (inverse_perm _ _ _ Ht Htj) as Pj.
    pose proof (carry_complete n m ti tj l Pi Pj Hl) as HC2.
    specialize (Hb' _ HC2). rewrite E1 in Hb' by auto.
    replace (carry sg tau (carry ti tj l)) with l in Hb'; [lra|].
    unfold carry. rewrite map_map. rewrite <- (map_id l) at 1. apply map_ext_in. intros [i j] Hin.
    destruct (proj1 (proj2 Hl) i j Hin). destruct Hti as (_ & _ & I3), Htj as (_ & _ & J3). simpl. rewrite I3, J3; auto.
Qed.
Lemma sdr_best b sp o ref est loss : lsa_contract sp -> pairwise_sdr_loss b o est ref = Ok loss ->
  (forall i j, i < n_chan ref -> j < n_chan est -> is_fin (mat_of loss i j) = true) ->
  exists vals perm, sdr b sp o false ref est = Ok (vals, perm) /\
     best_total (n_chan ref) (n_chan est) (mat_of loss) (sumR (map to_R vals)).
Proof.
  intros Hsp H Hf. destruct (sdr_optimal b sp o ref est loss Hsp H Hf) as (vals & perm & E & Hb).
  exists vals, perm. split; auto. split; auto.
  destruct (sdr_outputs b sp o false ref est vals perm Hsp E) as (loss' & E' & HC & _ & _ & _ & ->).
  assert (loss' = loss) by congruence. subst. exists (matching (n_chan ref) (n_chan est) perm). split; auto.
  rewrite map_map. reflexivity.
Qed.
Lemma bss_best b sp o ref est c : lsa_contract sp -> sq_cos b o ref est = Ok c ->
  (forall i j, i < n_chan ref -> j < n_chan est -> is_fin (snd (fst (bss_mats o c)) i j) = true) ->
  exists s i a perm, bss_eval_sources b sp o ref est = Ok (s, i, a, perm) /\
     best_total (n_chan ref) (n_chan est) (snd (fst (bss_mats o c))) (sumR (map to_R i)).
Proof.
  intros Hsp H Hf. pose proof (bss_optimal b sp o ref est c Hsp H) as Hopt.
  destruct (bss_mats o c) as [[nsdr nsir] nsar] eqn:EM. cbn [fst snd] in *.
  destruct (Hopt Hf) as (s & i & a & perm & E & Hb). exists s, i, a, perm. split; auto. split; auto.
  destruct (bss_outputs b sp o ref est s i a perm Hsp E) as (c' & E' & HO).
  assert (c' = c) by congruence. subst. rewrite EM in HO.
  destruct HO as (HC & _ & _ & _ & _ & -> & _). exists (matching (n_chan ref) (n_chan est) perm). split; auto.
  rewrite map_map. reflexivity.
Qed.
Theorem perm_sdr_total b sp o ref est sg tau loss : lsa_contract sp ->
  perm_of (n_chan ref) sg -> perm_of (n_chan est) tau ->
  pairwise_sdr_loss b o est ref = Ok loss ->
  (forall i j, i < n_chan ref -> j < n_chan est -> is_fin (mat_of loss i j) = true) ->
  exists v p v' p', sdr b sp o false ref est = Ok (v, p) /\
     sdr b sp o false (pick sg ref) (pick tau est) = Ok (v', p') /\
     sumR (map to_R v') = sumR (map to_R v).
Proof.
  intros Hsp Hp Ht H Hf. destruct (sdr_best b sp o ref est loss Hsp H Hf) as (v & p & E & B).
  pose proof (perm_pairwise b o ref est sg tau Hp Ht) as HR. rewrite H in HR.
  destruct (pairwise_sdr_loss b o (pick tau est) (pick sg ref)) as [loss'|] eqn:H'; [|contradiction].
  simpl in HR.
  destruct (sdr_best b sp o (pick sg ref) (pick tau est) loss' Hsp H') as (v' & p' & E' & B').
  { rewrite !n_chan_pick. intros i j Hi Hj. rewrite (mat_rel_at _ _ _ _ _ _ _ _ HR) by auto.
    apply Hf; [apply Hp|apply Ht]; auto. }
  exists v, p, v', p'. split; auto. split; auto. rewrite !n_chan_pick in B'.
  apply (best_total_carry (n_chan ref) (n_chan est) (mat_of loss) (mat_of loss') sg tau); auto.
  intros i j Hi Hj. apply (mat_rel_at _ _ _ _ _ _ _ _ HR); auto.
Qed.
Theorem perm_bss_total b sp o ref est sg tau c : lsa_contract sp -> 0 < filter_length o ->
  perm_of (n_chan ref) sg -> perm_of (n_chan est) tau ->
  sq_cos b o ref est = Ok c ->
  (forall i j, i < n_chan ref -> j < n_chan est -> is_fin (snd (fst (bss_mats o c)) i j) = true) ->
  exists s i a p s' i' a' p', bss_eval_sources b sp o ref est = Ok (s, i, a, p) /\
     bss_eval_sources b sp o (pick sg ref) (pick tau est) = Ok (s', i', a', p') /\
     sumR (map to_R i') = sumR (map to_R i).
Proof.
  intros Hsp HL Hp Ht H Hf. destruct (bss_best b sp o ref est c Hsp H Hf) as (s & i & a & p & E & B).
  pose proof (perm_sq_cos b o ref est sg tau Hp Ht HL) as HR. rewrite H in HR.
  destruct (sq_cos b o (pick sg ref) (pick tau est)) as [c'|] eqn:H'; [|contradiction].
  simpl in HR. destruct HR as [HR1 HR2].
  pose proof (perm_bss_mats o ref est sg tau c c' HR1 HR2) as HB.
  destruct (bss_best b sp o (pick sg ref) (pick tau est) c' Hsp H') as (s' & i' & a' & p' & E' & B').
  { rewrite !n_chan_pick. intros x y Hx Hy. rewrite (proj1 (proj2 (HB x y Hx Hy))).
    apply Hf; [apply Hp|apply Ht]; auto. }
  exists s, i, a, p, s', i', a', p'. split; auto. split; auto. rewrite !n_chan_pick in B'.
  apply (best_total_carry (n_chan ref) (n_chan est) (snd (fst (bss_mats o c))) (snd (fst (bss_mats o c'))) sg tau); auto.
  intros x y Hx Hy. apply (HB x y Hx Hy).
Qed.

(** both backends reach the same total (C36) *)
Theorem backend_sdr_total sp o ref est loss : lsa_contract sp -> pairwise_sdr_loss NumPy o est ref = Ok loss ->
  (forall i j, i < n_chan ref -> j < n_chan est -> is_fin (mat_of loss i j) = true) ->
  exists v p v' p', sdr NumPy sp o false ref est = Ok (v, p) /\ sdr Torch sp o false ref est = Ok (v', p') /\
     sumR (map to_R v') = sumR (map to_R v).
Proof.
  intros Hsp H Hf. destruct (sdr_best NumPy sp o ref est loss Hsp H Hf) as (v & p & E & B).
  apply backend_pairwise in H. destruct (sdr_best Torch sp o ref est loss Hsp H Hf) as (v' & p' & E' & B').
  exists v, p, v', p'. split; auto. split; auto.
  apply (best_total_carry _ _ _ _ (fun i => i) (fun j => j) _ _ (perm_id _) (perm_id _) (fun _ _ _ _ => eq_refl) B B').
Qed.
Theorem backend_bss_total sp o ref est c : lsa_contract sp -> 0 < filter_length o -> sq_cos NumPy o ref est = Ok c ->
  (forall i j, i < n_chan ref -> j < n_chan est -> is_fin (snd (fst (bss_mats o c)) i j) = true) ->
  exists s i a p s' i' a' p', bss_eval_sources NumPy sp o ref est = Ok (s, i, a, p) /\
     bss_eval_sources Torch sp o ref est = Ok (s', i', a', p') /\
     sumR (map to_R i') = sumR (map to_R i).
Proof.
  intros Hsp HL H Hf. destruct (bss_best NumPy sp o ref est c Hsp H Hf) as (s & i & a & p & E & B).
  apply backend_sq_cos in H; auto. destruct (bss_best Torch sp o ref est c Hsp H Hf) as (s' & i' & a' & p' & E' & B').
  exists s, i, a, p, s', i', a', p'. split; auto. split; auto.
  apply (best_total_carry _ _ _ _ (fun i => i) (fun j => j) _ _ (perm_id _) (perm_id _) (fun _ _ _ _ => eq_refl) B B').
Qed.
