(** * The SAR coherences and the matrices of bss_eval_sources *)
From Coq Require Import Reals Lra.
From Coquelicot Require Import Complex.
From Verif Require Import Prelude ExtReal Slice Sums Fft FftProofs Helpers HelpersProofs Linalg
  LinalgProofs Cgd Metrics SpecSig StatsProofs LeastSq PrepProofs DbProofs MetricsProofs.
Local Open Scope nat_scope.

Lemma existsb_tainted_false refs : existsb tainted refs = false <->
  forall c, c < length refs -> nth c refs None <> None.
Proof.
  split.
  - intros H c Hc E. assert (existsb tainted refs = true); [|congruence].
    apply existsb_exists. exists None. split; auto. rewrite <- E. apply nth_In; auto.
  - intros H. destruct (existsb tainted refs) eqn:E; auto.
    apply existsb_exists in E. destruct E as (x & Hin & Hx). destruct x; [discriminate|].
    apply (In_nth _ _ None) in Hin. destruct Hin as (c & Hc & E). exfalso. apply (H c); auto.
Qed.

Lemma check_sizes_ok b cg nf L : 0 < L -> 0 < nf ->
  (check_sizes b cg nf L = Ok tt <-> L <= nf).
Proof.
  intros HL Hn. unfold check_sizes. cbv zeta.
  destruct (Nat.eqb_spec (Nat.min L (2 * Nat.min L nf)) (Nat.min L nf)); split; intros; auto;
    try discriminate; lia.
Qed.
Lemma check_sizes_raise b cg nf L : nf < L -> 0 < nf ->
  check_sizes b cg nf L = Raise (match cg with None => shape_exn b | Some _ => AssertionError end).
Proof.
  intros HL Hn. unfold check_sizes. cbv zeta.
  destruct (Nat.eqb_spec (Nat.min L (2 * Nat.min L nf)) (Nat.min L nf)); auto. lia.
Qed.

Definition rchan (refs : list chan) (c : nat) : list R := opt0 (nth c refs None).

(** ** filter_length >= 2, direct solver *)
Lemma sar_row_inv b nf L ld pw refs ests sar : 2 <= L -> L <= nf ->
  sar_row b None nf L ld pw refs ests = Ok sar -> existsb tainted refs = false ->
  length sar = length ests /\
  nonsingular (L * length refs) (gram nf (all_cdelays nf (length refs) (rchan refs)) (loadv ld)) /\
  forall d, d < length ests ->
    match nth d ests None with
    | None => nth d sar NaN = NaN
    | Some y => exists q,
        lsq (L * length refs) nf (all_cdelays nf (length refs) (rchan refs)) (loadv ld) (smp y) q /\
        nth d sar NaN = Fin q
    end.
Proof.
  intros HL2 HL H HT. unfold sar_row in H. rewrite HT in H. cbv zeta in H.
  change (fun c => opt0 (nth c refs None)) with (rchan refs) in H.
  set (k := length refs) in *.
  destruct (sar_system_cgram b nf L ld k (rchan refs) HL2 HL) as (B & EB & HB).
  assert (Etop : length (block_acf nf L ld (rchan refs) 0 0) = 2 * L).
  { rewrite length_block_acf by lia. lia. }
  unfold block_acf in EB, Etop. unfold rchan in EB, Etop.
  rewrite Etop in H. rewrite EB in H. unfold bind in H at 1.
  replace (2 * L / 2) with L in H by (rewrite Nat.mul_comm, Nat.div_mul by lia; reflexivity).
  match type of H with context [solve_cols ?a ?b ?c ?d] => destruct (solve_cols a b c d) as [X|] eqn:ES end; simpl in H; [|discriminate].
  apply solve_cols_inv in ES. destruct ES as [HN HX]. injection H as <-.
  split; [apply length_tab|]. split.
  { apply (nonsingular_ext _ B); [|exact HN]. intros p q Hp Hq. rewrite HB by auto. reflexivity. }
  intros d Hd. rewrite nth_tab by auto. destruct (nth d ests None) as [y|] eqn:Ey; auto.
  assert (Hx : forall p, p < L * k ->
     nth p (flatten k (length (stats_xcorr nf L (opt0 (nth 0 refs None)) y))
              (fun c => stats_xcorr nf L (opt0 (nth c refs None)) y)) 0%R =
     dot nf (all_cdelays nf k (rchan refs) p) (smp y)).
  { intros p Hp. rewrite length_stats_xcorr, Nat.min_l by lia.
    apply (sar_crhs nf L k (rchan refs)); auto. }
  eexists. split; [exists (fun j => X j d); split; [|reflexivity]|].
  - intros p Hp. specialize (HX d p Hp). rewrite Ey in HX. cbn [opt0] in HX. rewrite Hx in HX by auto.
    rewrite <- HX. apply Rsum_ext. intros q Hq. rewrite HB by auto. reflexivity.
  - f_equal. apply Rsum_ext. intros p Hp. rewrite Hx by auto. reflexivity.
Qed.
Lemma sar_row_ok b nf L ld pw refs ests : 2 <= L -> L <= nf -> existsb tainted refs = false ->
  nonsingular (L * length refs) (gram nf (all_cdelays nf (length refs) (rchan refs)) (loadv ld)) ->
  exists sar, sar_row b None nf L ld pw refs ests = Ok sar.
Proof.
  intros HL2 HL HT HN. unfold sar_row. rewrite HT. cbv zeta.
  set (k := length refs) in *.
  destruct (sar_system_cgram b nf L ld k (rchan refs) HL2 HL) as (B & EB & HB).
  assert (Etop : length (block_acf nf L ld (rchan refs) 0 0) = 2 * L).
  { rewrite length_block_acf by lia. lia. }
  unfold block_acf in EB, Etop. unfold rchan in EB, Etop.
  rewrite Etop, EB. unfold bind at 1.
  replace (2 * L / 2) with L by (rewrite Nat.mul_comm, Nat.div_mul by lia; reflexivity).
  match goal with |- context [solve_cols ?n ?m ?A ?C] =>
    destruct (solve_cols_ok n m A C) as (X & -> & _) end.
  { apply (nonsingular_ext _ (gram nf (all_cdelays nf k (rchan refs)) (loadv ld))); [|exact HN].
    intros p q Hp Hq. rewrite HB by auto. reflexivity. }
  simpl. eauto.
Qed.
Lemma sar_row_raise b nf L ld pw refs ests e : 2 <= L -> L <= nf ->
  sar_row b None nf L ld pw refs ests = Raise e ->
  e = LinAlgError /\ existsb tainted refs = false /\
  ~ nonsingular (L * length refs) (gram nf (all_cdelays nf (length refs) (rchan refs)) (loadv ld)).
Proof.
  intros HL2 HL H. destruct (existsb tainted refs) eqn:HT.
  { unfold sar_row in H. rewrite HT in H. discriminate. }
  split; [|split; auto].
  - unfold sar_row in H. rewrite HT in H. cbv zeta in H. set (k := length refs) in *.
    destruct (sar_system_cgram b nf L ld k (rchan refs) HL2 HL) as (B & EB & HB).
    assert (Etop : length (block_acf nf L ld (rchan refs) 0 0) = 2 * L).
    { rewrite length_block_acf by lia. lia. }
    unfold block_acf in EB, Etop. unfold rchan in EB, Etop.
    rewrite Etop, EB in H. unfold bind in H at 1.
    destruct (solve_cols _ _ _ _) as [X|e'] eqn:ES; simpl in H; [discriminate|].
    apply solve_cols_raise in ES. destruct ES as [-> _]. congruence.
  - intros HN. destruct (sar_row_ok b nf L ld pw refs ests HL2 HL HT HN) as [sar E]. congruence.
Qed.

(** ** filter_length = 1 *)
Lemma len1_sar_inv n lx ld refs ests sar :
  (forall c, c < length refs -> length (rchan refs c) = n) -> lx = n ->
  len1_sar n lx ld refs ests = Ok sar -> existsb tainted refs = false ->
  length sar = length ests /\
  nonsingular (length refs) (gram n (fun c => smp (rchan refs c)) (loadv ld)) /\
  forall d, d < length ests ->
    match nth d ests None with
    | None => nth d sar NaN = NaN
    | Some y => length y = n -> exists q,
        lsq (length refs) n (fun c => smp (rchan refs c)) (loadv ld) (smp y) q /\
        nth d sar NaN = Fin q
    end.
Proof.
  intros Hr -> H HT. unfold len1_sar in H. rewrite HT in H. cbv zeta in H.
  set (k := length refs) in *.
  match type of H with context [solve_cols ?a ?b ?c ?d] => destruct (solve_cols a b c d) as [X|] eqn:ES end; simpl in H; [|discriminate].
  apply solve_cols_inv in ES. destruct ES as [HN HX]. injection H as <-.
  assert (HG : forall i j, i < k -> j < k ->
    (ip n (opt0 (nth i refs None)) (opt0 (nth j refs None)) +
      match ld with Some l => if i =? j then l else 0 | None => 0 end)%R =
    gram n (fun c => smp (rchan refs c)) (loadv ld) i j).
  { intros i j Hi Hj. unfold gram. rewrite ip_dot by (apply Hr; auto). f_equal.
    destruct ld; simpl; destruct (i =? j); auto. }
  split; [apply length_tab|]. split.
  { eapply nonsingular_ext; [|exact HN]. intros i j Hi Hj. apply HG; auto. }
  intros d Hd. rewrite nth_tab by auto. destruct (nth d ests None) as [y|] eqn:Ey; auto.
  intros Hy. simpl tainted. cbv iota. simpl opt0.
  assert (Hx : forall c, c < k -> ip n (opt0 (nth c refs None)) y = dot n (smp (rchan refs c)) (smp y)).
  { intros c Hc. apply ip_dot; [apply Hr; auto|auto]. }
  eexists. split; [exists (fun j => X j d); split; [|reflexivity]|].
  - intros c Hc. specialize (HX d c Hc). cbv beta in HX. rewrite Ey in HX. cbn [opt0] in HX.
    rewrite Hx in HX by auto.
    rewrite <- HX. apply Rsum_ext. intros j Hj. rewrite HG by auto. reflexivity.
  - f_equal. apply Rsum_ext. intros c Hc. rewrite Hx by auto. reflexivity.
Qed.
Lemma len1_sar_ok n ld refs ests :
  (forall c, c < length refs -> length (rchan refs c) = n) ->
  nonsingular (length refs) (gram n (fun c => smp (rchan refs c)) (loadv ld)) ->
  exists sar, len1_sar n n ld refs ests = Ok sar.
Proof.
  intros Hr HN. unfold len1_sar. destruct (existsb tainted refs) eqn:HT; [eauto|]. cbv zeta.
  match goal with |- context [solve_cols ?n ?m ?A ?C] =>
    destruct (solve_cols_ok n m A C) as (X & -> & _) end.
  { eapply nonsingular_ext; [|exact HN]. intros i j Hi Hj. unfold gram.
    rewrite ip_dot by (apply Hr; auto). f_equal.
    destruct ld; simpl; destruct (i =? j); auto. }
  simpl. eauto.
Qed.
Lemma len1_sar_raise n ld refs ests e :
  (forall c, c < length refs -> length (rchan refs c) = n) ->
  len1_sar n n ld refs ests = Raise e ->
  e = LinAlgError /\ existsb tainted refs = false /\
  ~ nonsingular (length refs) (gram n (fun c => smp (rchan refs c)) (loadv ld)).
Proof.
  intros Hr H. destruct (existsb tainted refs) eqn:HT.
  { unfold len1_sar in H. rewrite HT in H. discriminate. }
  split; [|split; auto].
  - unfold len1_sar in H. rewrite HT in H. cbv zeta in H.
    destruct (solve_cols _ _ _ _) as [X|e'] eqn:ES; simpl in H; [discriminate|].
    apply solve_cols_raise in ES. destruct ES as [-> _]. congruence.
  - intros HN. destruct (len1_sar_ok n ld refs ests Hr HN) as [sar E]. congruence.
Qed.

(** ** square_cosine_metrics *)
(** its SDR part is the matrix of sdr_loss, for any solver (L <= n_fft) *)
Theorem sq_cos_sdr b o ref est : 0 < filter_length o ->
  filter_length o = 1 \/ filter_length o <= n_fft (a_len ref) (a_len est) ->
  forall m sar, sq_cos b o ref est = Ok (m, sar) -> sdr_coh b o ref est = Ok m.
Proof.
  intros HL0 HL m sar H. unfold sq_cos in H. unfold sdr_coh.
  destruct (Nat.eqb_spec (filter_length o) 1) as [E1|N1].
  - destruct (bc_len _ _ _) as [n|]; simpl in *; [|discriminate].
    destruct (len1_sar _ _ _ _ _); simpl in H; [|discriminate]. congruence.
  - destruct HL as [HL|HL]; [congruence|]. cbv zeta in *.
    set (nf := n_fft (a_len ref) (a_len est)) in *.
    destruct (check_sizes _ _ _ _); simpl in H; [|discriminate].
    rewrite (mapM_ext _ (fun x : chan => match x with
      | None => Ok (map (fun _ => NaN) (prep_arr (zero_mean o) est))
      | Some v => coh_row b (use_cg_iter o) (add_load (load_diag o) (stats_acf nf (filter_length o) v))
                     (stats_xcorr nf (filter_length o) v) (prep_arr (zero_mean o) est)
      end)) in H.
    + destruct (mapM _ _) as [r|]; simpl in *; [|discriminate].
      destruct (sar_row _ _ _ _ _ _ _ _); simpl in H; [|discriminate]. congruence.
    + intros [v|] _; auto. rewrite acf_sdr_eq by lia. reflexivity.
Qed.
Lemma sq_cos_bound b o ref est r : 0 < filter_length o -> sq_cos b o ref est = Ok r ->
  filter_length o = 1 \/ filter_length o <= n_fft (a_len ref) (a_len est).
Proof.
  intros HL0 H. unfold sq_cos in H. destruct (Nat.eqb_spec (filter_length o) 1); auto. right.
  cbv zeta in H. destruct (check_sizes _ _ _ _) as [[]|] eqn:E; simpl in H; [|discriminate].
  apply check_sizes_ok in E; auto. apply n_fft_pos.
Qed.
Corollary sq_cos_sdr' b o ref est m sar : 0 < filter_length o ->
  sq_cos b o ref est = Ok (m, sar) -> sdr_coh b o ref est = Ok m.
Proof. intros HL H. apply (sq_cos_sdr b o ref est HL) with (sar := sar); auto. apply (sq_cos_bound b o ref est _ HL H). Qed.

(** all channels of [a] finite *)
Definition clean (zm : bool) (a : arr) : Prop := forall c, c < n_chan a -> pchan zm a c <> None.
Definition pc (zm : bool) (a : arr) (c : nat) : list R := opt0 (pchan zm a c).

Lemma clean_tainted zm a : clean zm a <-> existsb tainted (prep_arr zm a) = false.
Proof.
  rewrite existsb_tainted_false. rewrite length_prep. unfold clean, pchan. tauto.
Qed.
Lemma clean_pc zm a c : clean zm a -> c < n_chan a -> pchan zm a c = Some (pc zm a c).
Proof. intros H Hc. specialize (H c Hc). unfold pc. destruct (pchan zm a c); [auto|congruence]. Qed.

(** SAR coherence, filter_length >= 2 *)
Theorem sar_entry b o ref est m sar d y :
  sq_cos b o ref est = Ok (m, sar) -> use_cg_iter o = None -> 2 <= filter_length o ->
  clean (zero_mean o) ref -> d < n_chan est -> pchan (zero_mean o) est d = Some y ->
  let nf := n_fft (a_len ref) (a_len est) in
  filter_length o <= nf /\
  exists q, lsq (filter_length o * n_chan ref) nf (all_cdelays nf (n_chan ref) (pc (zero_mean o) ref))
                (loadv (load_diag o)) (smp y) q /\
            nth d sar NaN = Fin q.
Proof.
  intros H Hcg HL Hcl Hd Hy nf.
  pose proof (sq_cos_bound b o ref est _ ltac:(lia) H) as HB. fold nf in HB.
  assert (HLn : filter_length o <= nf) by lia. split; auto.
  unfold sq_cos in H.
  replace (Nat.eqb (filter_length o) 1) with false in H by (symmetry; apply Nat.eqb_neq; lia).
  cbv zeta in H. fold nf in H. rewrite Hcg in H.
  destruct (check_sizes _ _ _ _); simpl in H; [|discriminate].
  destruct (mapM _ _) as [r|]; simpl in H; [|discriminate].
  destruct (sar_row _ _ _ _ _ _ _ _) as [s|] eqn:E; simpl in H; [|discriminate].
  injection H as -> ->. apply sar_row_inv in E; auto. 2: apply clean_tainted; auto.
  destruct E as (_ & _ & E). specialize (E d). rewrite !length_prep in E. specialize (E Hd).
  unfold pchan in Hy. rewrite Hy in E. exact E.
Qed.
(** SAR coherence, filter_length = 1 *)
Theorem sar_entry1 b o ref est m sar d y : wf ref -> wf est ->
  sq_cos b o ref est = Ok (m, sar) -> filter_length o = 1 -> a_len ref = a_len est ->
  clean (zero_mean o) ref -> d < n_chan est -> pchan (zero_mean o) est d = Some y ->
  exists q, lsq (n_chan ref) (a_len ref) (fun c => smp (pc (zero_mean o) ref c))
                (loadv (load_diag o)) (smp y) q /\
            nth d sar NaN = Fin q.
Proof.
  intros Hwr Hwe H HL Hlen Hcl Hd Hy. unfold sq_cos in H. rewrite HL in H. simpl Nat.eqb in H.
  cbv iota in H. unfold bc_len in H. rewrite Hlen, Nat.eqb_refl in H. simpl in H.
  destruct (len1_sar _ _ _ _ _) as [s|] eqn:E; simpl in H; [|discriminate]. injection H as _ ->.
  apply len1_sar_inv in E; auto.
  - destruct E as (_ & _ & E). specialize (E d). rewrite !length_prep in E. specialize (E Hd).
    unfold pchan in Hy. rewrite Hy in E. rewrite Hlen. apply E.
    apply (pchan_length (zero_mean o) est d); auto.
  - intros c Hc. rewrite length_prep in Hc. unfold rchan.
    pose proof (clean_pc _ _ _ Hcl Hc) as Ec. unfold pchan in Ec. rewrite Ec.
    rewrite <- Hlen. apply (pchan_length (zero_mean o) ref c); auto.
  - apply clean_tainted; auto.
Qed.
