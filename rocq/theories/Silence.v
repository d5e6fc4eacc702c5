(** * Leading and trailing silence (C68) *)
From Coq Require Import Reals Lra FunctionalExtensionality.
From Coquelicot Require Import Complex.
From Verif Require Import Prelude ExtReal Slice Sums Spec SpecSig Fft FftProofs Helpers HelpersProofs
  DbProofs Linalg LinalgProofs Cgd Metrics StatsProofs LeastSq PrepProofs MetricsProofs SarProofs
  ProjTheorems MetricTheorems Invariance CgdOps CgdPrecond Cells Diag.
Local Open Scope nat_scope.

(** j zeros before and k zeros after the samples of every channel. *)
Definition silence (j k : nat) (a : arr) : arr :=
  Arr (j + a_len a + k) (map (fun c => repeat (Fin 0) j ++ c ++ repeat (Fin 0) k) (a_chans a)).

(** x' is x delayed by j (anything silent may follow). *)
Definition later (j : nat) (x x' : list R) : Prop :=
  (forall t, smp x' (j + t) = smp x t) /\ (forall t, t < j -> smp x' t = 0%R).

Lemma smp_ge x t : length x <= t -> smp x t = 0%R.
Proof. intros H. unfold smp. apply nth_overflow. auto. Qed.
Lemma xcorr_any M x y l : length x <= M -> xcorr x y l = Rsum M (fun t => smp x t * smp y (t + l))%R.
Proof.
  intros H. unfold xcorr. replace M with (length x + (M - length x)) by lia. rewrite Rsum_add.
  rewrite (Rsum_zero (M - length x)). { ring. }
  intros t _. rewrite smp_ge by lia. ring.
Qed.
Lemma later_xcorr j x x' y y' l : later j x x' -> later j y y' -> xcorr x' y' l = xcorr x y l.
Proof.
  intros [X1 X2] [Y1 Y2].
  rewrite (xcorr_any (j + (length x' + length x))) by lia. rewrite Rsum_add.
  rewrite (Rsum_zero j). 2:{ intros t Ht. rewrite X2 by auto. ring. }
  rewrite (xcorr_any (length x' + length x) x) by lia. rewrite Rplus_0_l. apply Rsum_ext.
  intros t _. rewrite X1. replace (j + t + l) with (j + (t + l)) by lia. rewrite Y1. reflexivity.
Qed.
Lemma later_nil j : later j [] [].
Proof. split; intros; unfold smp; destruct (j + t), t; reflexivity. Qed.
Lemma later_pad j k x : later j x (repeat 0%R j ++ x ++ repeat 0%R k).
Proof.
  split; intros t; unfold smp; intros.
  - rewrite app_nth2 by (rewrite repeat_length; lia). rewrite repeat_length.
    replace (j + t - j) with t by lia. destruct (Nat.lt_ge_cases t (length x)).
    + rewrite app_nth1 by auto. reflexivity.
    + rewrite app_nth2 by auto. rewrite nth_repeat, nth_overflow by auto. reflexivity.
  - rewrite app_nth1 by (rewrite repeat_length; auto). apply nth_repeat.
Qed.

(** ** Lags *)
Section Agree.
Variable L : nat.
Hypothesis HL : 0 < L.
(** The entry of lag -L is never read. *)
Definition agree (r r' : list R) : Prop :=
  length r = 2 * L /\ length r' = 2 * L /\ forall i, i < 2 * L -> i <> L -> nth i r' 0%R = nth i r 0%R.
Lemma agree_load ld r r' : agree r r' -> agree (add_load ld r) (add_load ld r').
Proof.
  intros (A & B & H). split; [|split]; try (rewrite length_add_load; auto).
  intros i Hi Ni. rewrite !nth_add_load by lia. rewrite H by auto. reflexivity.
Qed.
Lemma agree_bt r r' : 2 <= L -> agree r r' -> bt_block L r' = bt_block L r.
Proof.
  intros H2 (A & B & H). unfold bt_block. f_equal. f_equal.
  rewrite !(slice_to _ L 0%R), A, B. f_equal.
  2:{ apply tab_ext. intros i Hi. apply H; lia. }
  replace (- Z.of_nat L + 1)%Z with (- Z.of_nat (L - 1))%Z by lia.
  rewrite !(slice_last _ _ 0%R) by lia. rewrite A, B. apply tab_ext. intros i Hi. apply H; lia.
Qed.
Lemma agree_prec r r' : agree r r' -> nonsym_col L r' = nonsym_col L r.
Proof.
  intros (A & B & H). apply tab_ext. intros k Hk. destruct (Nat.eqb_spec k 0); [apply H; lia|].
  rewrite !H by lia. reflexivity.
Qed.
End Agree.

(** ** Statistics *)
Section Stats.
Variables (lx ly lx' ly' L : nat).
Hypothesis Hlx : 0 < lx. Hypothesis Hlx' : 0 < lx'.
Hypothesis HL : 0 < L. Hypothesis HLm : L <= Nat.max lx ly. Hypothesis HLm' : L <= Nat.max lx' ly'.
Notation nf := (n_fft lx ly).
Notation nf' := (n_fft lx' ly').
Let G : lx + L - 1 <= nf.
Proof. pose proof (n_fft_ge lx ly Hlx). lia. Qed.
Let G' : lx' + L - 1 <= nf'.
Proof. pose proof (n_fft_ge lx' ly' Hlx'). lia. Qed.
Let N : L <= nf. Proof. lia. Qed.
Let N' : L <= nf'. Proof. lia. Qed.

Lemma later_stats_acf j x x' : length x <= lx -> length x' <= lx' -> later j x x' ->
  stats_acf nf' L x' = stats_acf nf L x.
Proof.
  intros H H' Hj. apply (list_eq_nth _ _ 0%R); rewrite !length_stats_acf; [lia|].
  intros i Hi. rewrite !stats_acf_plain by lia. apply (later_xcorr j); auto.
Qed.
Lemma later_stats_xcorr j x x' y y' : length x <= lx -> length x' <= lx' -> later j x x' -> later j y y' ->
  stats_xcorr nf' L x' y' = stats_xcorr nf L x y.
Proof.
  intros H H' Hj Hk. apply (list_eq_nth _ _ 0%R); rewrite !length_stats_xcorr; [lia|].
  intros i Hi. rewrite !stats_xcorr_plain by lia. apply (later_xcorr j); auto.
Qed.
Lemma later_stats2_acf j x x' y y' : length x <= lx -> length x' <= lx' -> length y <= lx -> length y' <= lx' ->
  later j x x' -> later j y y' -> agree L (stats2_acf nf L x y) (stats2_acf nf' L x' y').
Proof.
  intros H H' K K' Hj Hk. split; [|split]; try (rewrite length_stats2_acf by auto; lia).
  intros i Hi Ni. destruct (Nat.lt_ge_cases i L) as [Hlt|Hge].
  - rewrite !stats2_acf_first by lia. apply (later_xcorr j); auto.
  - replace i with (2 * Nat.min L nf' - (2 * L - i)) at 1 by lia.
    replace i with (2 * Nat.min L nf - (2 * L - i)) at 2 by lia.
    rewrite !stats2_acf_last by lia. apply (later_xcorr j); auto.
Qed.
End Stats.

(** ** Coherences *)
Definition padc (j k : nat) (x : chan) : chan :=
  match x with Some v => Some (repeat 0%R j ++ v ++ repeat 0%R k) | None => None end.
Lemma later_opt0 j k (x : chan) : later j (opt0 x) (opt0 (padc j k x)).
Proof. destruct x; simpl; [apply later_pad|apply later_nil]. Qed.
Lemma tainted_padc j k x : tainted (padc j k x) = tainted x.
Proof. destruct x; reflexivity. Qed.
Lemma existsb_padc j k l : existsb tainted (map (padc j k) l) = existsb tainted l.
Proof. induction l; simpl; auto. rewrite tainted_padc, IHl. reflexivity. Qed.
Lemma nth_padc j k l c : nth c (map (padc j k) l) None = padc j k (nth c l None).
Proof. apply (map_nth (padc j k) l None). Qed.
Lemma vcell_padc j k f g l : (forall x, In x l -> f (opt0 (padc j k x)) = g (opt0 x)) ->
  map (vcell f) (map (padc j k) l) = map (vcell g) l.
Proof.
  intros H. rewrite map_map. apply map_ext_in. intros [v|] Hin; simpl; auto.
  specialize (H _ Hin). simpl in H. rewrite H. reflexivity.
Qed.

Section Rows.
Variables (lx ly j kr ke L : nat) (cg : option nat) (ld : option R).
Hypothesis Hlx : 0 < lx. Hypothesis HL2 : 2 <= L. Hypothesis HLm : L <= Nat.max lx ly.
Notation nf := (n_fft lx ly).
Notation lx' := (j + lx + kr).
Notation ly' := (j + ly + ke).
Notation nf' := (n_fft lx' ly').
Let H1 : 0 < lx'. Proof. lia. Qed.
Let H2 : 0 < L. Proof. lia. Qed.
Let H3 : L <= Nat.max lx' ly'. Proof. lia. Qed.
Let N1 : L <= nf. Proof. pose proof (n_fft_ge lx ly Hlx). lia. Qed.
Let N2 : L <= nf'. Proof. pose proof (n_fft_ge lx' ly' H1). lia. Qed.

Definition short (x : chan) : Prop := length (opt0 x) <= lx.
Lemma short_padc x : short x -> length (opt0 (padc j kr x)) <= lx'.
Proof. destruct x; unfold short; simpl; [|lia]. rewrite !app_length, !repeat_length. lia. Qed.

Lemma pad_acf x : short x -> stats_acf nf' L (opt0 (padc j kr x)) = stats_acf nf L (opt0 x).
Proof.
  intros H. apply (later_stats_acf lx ly lx' ly' L Hlx H1 H2 HLm H3 j); auto.
  - apply short_padc; auto.
  - apply later_opt0.
Qed.
Lemma pad_xcorr x y : short x ->
  stats_xcorr nf' L (opt0 (padc j kr x)) (opt0 (padc j ke y)) = stats_xcorr nf L (opt0 x) (opt0 y).
Proof.
  intros H. apply (later_stats_xcorr lx ly lx' ly' L Hlx H1 H2 HLm H3 j); auto.
  - apply short_padc; auto.
  - apply later_opt0.
  - apply later_opt0.
Qed.
Lemma pad_acf2 x y : short x -> short y ->
  agree L (stats2_acf nf L (opt0 x) (opt0 y)) (stats2_acf nf' L (opt0 (padc j kr x)) (opt0 (padc j kr y))).
Proof.
  intros H K. apply (later_stats2_acf lx ly lx' ly' L Hlx H1 H2 HLm H3 j); auto;
    try apply short_padc; auto; apply later_opt0.
Qed.

Lemma pad_sdr_row ests x : short x ->
  sdr_row_cells cg ld nf' L (map (padc j ke) ests) (padc j kr x) = sdr_row_cells cg ld nf L ests x.
Proof.
  intros H. pose proof (pad_acf x H) as EA. pose proof (fun y => pad_xcorr x y H) as EX.
  unfold sdr_row_cells. destruct x as [v|]; cbn [padc opt0] in *; [|rewrite map_map; reflexivity].
  rewrite EA. rewrite !Nat.min_l by lia.
  destruct (solvable cg L (ent (toeplitz NumPy (add_load ld (stats_acf nf L v))))); cbn [bind]; auto.
  f_equal. apply vcell_padc. intros y _. rewrite EX. reflexivity.
Qed.
Variable refs : list chan.
Hypothesis Hs : forall x, In x refs -> short x.
Lemma short_nth c : short (nth c refs None).
Proof.
  destruct (Nat.lt_ge_cases c (length refs)).
  - apply Hs, nth_In; auto.
  - rewrite nth_overflow by auto. unfold short. simpl. lia.
Qed.
Notation refs' := (map (padc j kr) refs).
Lemma rchan_padc c : rchan refs' c = opt0 (padc j kr (nth c refs None)).
Proof. unfold rchan. rewrite nth_padc. reflexivity. Qed.
Lemma pad_sar_acf r c : agree L (sar_acf nf L ld refs r c) (sar_acf nf' L ld refs' r c).
Proof.
  unfold sar_acf, block_acf. rewrite !rchan_padc.
  destruct (Nat.eqb r c); [apply agree_load|]; auto; apply pad_acf2; apply short_nth.
Qed.
Lemma pad_sar_xc y : sar_xc nf' L refs' (opt0 (padc j ke y)) = sar_xc nf L refs (opt0 y).
Proof.
  unfold sar_xc. rewrite map_length, !Nat.min_l by lia. apply flatten_ext. intros c Hc i Hi.
  rewrite rchan_padc, pad_xcorr by apply short_nth. reflexivity.
Qed.
Lemma pad_sar_mat k : sar_mat L k (sar_acf nf' L ld refs') = sar_mat L k (sar_acf nf L ld refs).
Proof.
  unfold sar_mat. apply functional_extensionality. intros p. apply functional_extensionality. intros q.
  rewrite (agree_bt L H2 _ _ HL2 (pad_sar_acf _ _)). reflexivity.
Qed.
Lemma pad_prec_inv k : prec_inv k L (sar_acf nf' L ld refs') = prec_inv k L (sar_acf nf L ld refs).
Proof.
  unfold prec_inv. f_equal. apply functional_extensionality. intros i. f_equal.
  apply functional_extensionality. intros r. apply functional_extensionality. intros s.
  rewrite (agree_prec L H2 _ _ (pad_sar_acf _ _)). reflexivity.
Qed.
Lemma pad_dense k : dense_block (2 * L) k (sar_acf nf' L ld refs') = dense_block (2 * L) k (sar_acf nf L ld refs).
Proof.
  apply functional_extensionality. intros v. unfold dense_block.
  replace (2 * L / 2) with L by (rewrite Nat.mul_comm, Nat.div_mul by lia; reflexivity).
  apply flatten_ext. intros r Hr i Hi. rewrite !nth_tab by auto.
  apply Rsum_ext. intros c Hc. apply Rsum_ext. intros l Hl. f_equal. unfold blk_ent.
  destruct (pad_sar_acf r c) as (_ & _ & H). destruct (Nat.ltb_spec l i); apply H; lia.
Qed.
Lemma pad_start pw it y :
  sar_start pw it nf' L ld refs' (opt0 (padc j ke y)) = sar_start pw it nf L ld refs (opt0 y).
Proof.
  unfold sar_start. rewrite map_length. destruct pw; auto. apply flatten_ext. intros c Hc i Hi.
  destruct (c <? length refs); auto.
  rewrite rchan_padc, pad_xcorr, pad_acf by apply short_nth. reflexivity.
Qed.
Lemma pad_sar_row b pw ests :
  sar_row b cg nf' L ld pw refs' (map (padc j ke) ests) = sar_row b cg nf L ld pw refs ests.
Proof.
  rewrite !sar_row_cells by auto. rewrite existsb_padc. destruct (existsb tainted refs).
  { rewrite map_map. reflexivity. }
  assert (E : sar_ready cg nf' L ld refs' = sar_ready cg nf L ld refs).
  { unfold sar_ready. rewrite map_length, pad_sar_mat, pad_prec_inv. reflexivity. }
  rewrite E. destruct (sar_ready cg nf L ld refs) as [inv|]; cbn [bind]; auto. f_equal.
  apply vcell_padc. intros y _. unfold sar_cell. rewrite map_length, pad_sar_xc. f_equal.
  apply functional_extensionality. intros l. unfold sar_sol. rewrite map_length, pad_sar_xc, pad_sar_mat.
  destruct cg as [it|]; auto. unfold block_cg_spec. rewrite pad_dense, pad_start. reflexivity.
Qed.
End Rows.

(** ** Arrays *)
Definition hush {A} (z : A) (j k : nat) (l : list A) : list A := repeat z j ++ l ++ repeat z k.
Lemma hush_map {A B} (f : A -> B) z j k l : map f (hush z j k l) = hush (f z) j k (map f l).
Proof. unfold hush. rewrite !map_app. f_equal; [|f_equal].
  - induction j; simpl; f_equal; auto.
  - induction k; simpl; f_equal; auto.
Qed.
Lemma nth_hush {A} (z d : A) j k l i : i < length l -> nth (j + i) (hush z j k l) d = nth i l d.
Proof.
  intros H. unfold hush. rewrite app_nth2 by (rewrite repeat_length; lia). rewrite repeat_length.
  replace (j + i - j) with i by lia. apply app_nth1. auto.
Qed.
Lemma length_hush {A} (z : A) j k l : length (hush z j k l) = j + length l + k.
Proof. unfold hush. rewrite !app_length, !repeat_length. lia. Qed.

Lemma norm2_hush j k v : norm2 (hush 0%R j k v) = norm2 v.
Proof.
  unfold norm2. f_equal. rewrite length_hush, !Rsum_add.
  rewrite (Rsum_zero j), (Rsum_zero k).
  - rewrite Rplus_0_l, Rplus_0_r. apply Rsum_ext. intros t _. unfold smp.
    change (hush 0%R j k v) with (repeat 0%R j ++ v ++ repeat 0%R k).
    destruct (later_pad j k v) as [H _]. specialize (H t). unfold smp in H. rewrite H. reflexivity.
  - intros t Ht. destruct (later_pad j k v) as [H _].
    change (hush 0%R j k v) with (repeat 0%R j ++ v ++ repeat 0%R k).
    rewrite <- Nat.add_assoc, H, smp_ge by lia. ring.
  - intros t Ht. destruct (later_pad j k v) as [_ H].
    change (hush 0%R j k v) with (repeat 0%R j ++ v ++ repeat 0%R k). rewrite H by auto. ring.
Qed.
Lemma unit_hush j k v : unit_of (hush 0%R j k v) = hush 0%R j k (unit_of v).
Proof.
  unfold unit_of. rewrite hush_map. unfold gain. rewrite norm2_hush. rewrite Rmult_0_r. reflexivity.
Qed.
Lemma prep_hush j k c : 0 < length c -> prep false (hush (Fin 0) j k c) = padc j k (prep false c).
Proof.
  intros Hc. destruct (nonfin_dec c) as [H|(i & Hi & H)].
  - destruct (all_fin_map c H) as [v ->]. rewrite map_length in Hc.
    rewrite <- (hush_map Fin 0%R). rewrite !prep_fin by (rewrite ?length_hush; lia).
    cbn [pre padc]. rewrite unit_hush. reflexivity.
  - rewrite (prep_nonfin false c i) by auto.
    rewrite (prep_nonfin false (hush (Fin 0) j k c) (j + i)); auto.
    + rewrite length_hush. lia.
    + rewrite nth_hush by auto. auto.
Qed.
Lemma prep_silence j k a : wf a -> prep_arr false (silence j k a) = map (padc j k) (prep_arr false a).
Proof.
  intros [H0 H]. unfold prep_arr, silence. cbn [a_chans]. rewrite !map_map. apply map_ext_in.
  intros c Hc. rewrite Forall_forall in H. apply (prep_hush j k c). rewrite H; auto.
Qed.
Lemma n_chan_silence j k a : n_chan (silence j k a) = n_chan a.
Proof. unfold n_chan, silence. cbn [a_chans]. apply map_length. Qed.
Lemma wf_silence j k a : wf a -> wf (silence j k a).
Proof.
  intros [H0 H]. split; cbn [a_len silence]; [lia|]. cbn [a_chans]. apply Forall_map.
  revert H. apply Forall_impl. intros c Hc. rewrite !app_length, !repeat_length. lia.
Qed.
Lemma prep_len zm a x : wf a -> In x (prep_arr zm a) -> x = None \/ length (opt0 x) = a_len a.
Proof.
  intros [H0 H] Hx. unfold prep_arr in Hx. apply in_map_iff in Hx. destruct Hx as (c & <- & Hc).
  rewrite Forall_forall in H. specialize (H _ Hc).
  destruct (prep zm c) as [u|] eqn:Eu; auto. right.
  apply prep_some_inv in Eu; [|lia]. destruct Eu as (v & -> & ->). rewrite map_length in H.
  cbn [opt0]. rewrite length_unit_of, length_pre. auto.
Qed.
Lemma mapM_map {A B C} (f : A -> B) (g : B -> res C) l : mapM g (map f l) = mapM (fun x => g (f x)) l.
Proof. induction l; simpl; auto. rewrite IHl. reflexivity. Qed.
Lemma coh_row_padc j k b cg acf xc xc' ests :
  (forall y, xc' (opt0 (padc j k y)) = xc (opt0 y)) ->
  coh_row b cg acf xc' (map (padc j k) ests) = coh_row b cg acf xc ests.
Proof.
  intros H. unfold coh_row. destruct cg as [it|].
  - rewrite mapM_map. apply mapM_ext. intros y _. specialize (H y).
    destruct y as [v|]; cbn [padc opt0] in *; auto. rewrite H. reflexivity.
  - rewrite map_length.
    replace (fun l d => nth l (xc' (opt0 (nth d (map (padc j k) ests) None))) 0%R)
      with (fun l d => nth l (xc (opt0 (nth d ests None))) 0%R).
    2:{ apply functional_extensionality. intros l. apply functional_extensionality. intros d.
        rewrite nth_padc, H. reflexivity. }
    destruct (solve_cols _ _ _ _) as [X|]; cbn [bind]; auto. f_equal. apply tab_ext. intros d Hd.
    rewrite nth_padc. specialize (H (nth d ests None)). destruct (nth d ests None); cbn [padc opt0] in *; auto.
    rewrite H. reflexivity.
Qed.

(** filter_length = 1 *)
Lemma ip_xcorr n x y : x = None \/ length (opt0 x) = n -> y = None \/ length (opt0 y) = n ->
  ip n (opt0 x) (opt0 y) = xcorr (opt0 x) (opt0 y) 0.
Proof.
  assert (E : forall (x : chan) t, t < n -> x = None \/ length (opt0 x) = n -> bc_get (opt0 x) t = smp (opt0 x) t).
  { intros z t Ht [->|Hz]; [destruct t; reflexivity|]. unfold bc_get, smp. destruct (Nat.eqb_spec (length (opt0 z)) 1); auto.
    replace t with 0 by lia. reflexivity. }
  intros Hx Hy. rewrite (xcorr_any n) by (destruct Hx as [->|Hx]; simpl; lia). unfold ip.
  apply Rsum_ext. intros t Ht. rewrite !E by auto. rewrite Nat.add_0_r. reflexivity.
Qed.
Lemma padc_len j k n x : x = None \/ length (opt0 x) = n -> padc j k x = None \/ length (opt0 (padc j k x)) = j + n + k.
Proof. intros [->|H]; [left; reflexivity|]. destruct x; [|left; reflexivity]. right. cbn [padc opt0] in *. rewrite <- H. apply (length_hush 0%R). Qed.
Lemma ip_padc j k n x y : x = None \/ length (opt0 x) = n -> y = None \/ length (opt0 y) = n ->
  ip (j + n + k) (opt0 (padc j k x)) (opt0 (padc j k y)) = ip n (opt0 x) (opt0 y).
Proof.
  intros Hx Hy. rewrite !ip_xcorr by auto using padc_len. apply (later_xcorr j); apply later_opt0.
Qed.
Lemma nth_len n l i : (forall x : chan, In x l -> x = None \/ length (opt0 x) = n) ->
  nth i l None = None \/ length (opt0 (nth i l None)) = n.
Proof.
  intros H. destruct (Nat.lt_ge_cases i (length l)); [apply H, nth_In; auto|left; apply nth_overflow; auto].
Qed.
Lemma lift_ip_padc j k n x y : x = None \/ length (opt0 x) = n -> y = None \/ length (opt0 y) = n ->
  lift2 (fun a b => ip (j + n + k) a b ^ 2)%R (padc j k x) (padc j k y) = lift2 (fun a b => ip n a b ^ 2)%R x y.
Proof.
  intros Hx Hy. pose proof (ip_padc j k n x y Hx Hy) as H. unfold lift2.
  destruct x, y; cbn [padc opt0] in *; auto. rewrite H. reflexivity.
Qed.
Section Len1.
Variables (j k n : nat) (refs ests : list chan).
Hypothesis Hr : forall x, In x refs -> x = None \/ length (opt0 x) = n.
Hypothesis He : forall x, In x ests -> x = None \/ length (opt0 x) = n.
Lemma len1_sdr_padc :
  len1_sdr (j + n + k) (map (padc j k) refs) (map (padc j k) ests) = len1_sdr n refs ests.
Proof.
  unfold len1_sdr. rewrite map_map. apply map_ext_in. intros x Hx. rewrite map_map. apply map_ext_in.
  intros y Hy. apply lift_ip_padc; auto.
Qed.
Lemma len1_sar_padc ld :
  len1_sar (j + n + k) (j + n + k) ld (map (padc j k) refs) (map (padc j k) ests) = len1_sar n n ld refs ests.
Proof.
  unfold len1_sar. rewrite existsb_padc, !map_length, map_map. destruct (existsb tainted refs); auto. cbv zeta.
  assert (E : forall c d, ip (j + n + k) (opt0 (nth c (map (padc j k) refs) None)) (opt0 (nth d (map (padc j k) refs) None)) =
    ip n (opt0 (nth c refs None)) (opt0 (nth d refs None))).
  { intros. rewrite !nth_padc. apply ip_padc; apply nth_len; auto. }
  assert (F : forall c d, ip (j + n + k) (opt0 (nth c (map (padc j k) refs) None)) (opt0 (nth d (map (padc j k) ests) None)) =
    ip n (opt0 (nth c refs None)) (opt0 (nth d ests None))).
  { intros. rewrite !nth_padc. apply ip_padc; apply nth_len; auto. }
  match goal with |- (do X <- solve_cols ?a ?b ?A ?B; _) = (do Y <- solve_cols _ _ ?A' ?B'; _) =>
    replace A with A'; [replace B with B'|] end.
  - destruct (solve_cols _ _ _ _); cbn [bind]; auto. f_equal. apply tab_ext. intros d Hd.
    rewrite nth_padc, tainted_padc. destruct (tainted _); auto. f_equal. apply Rsum_ext. intros c Hc.
    rewrite <- nth_padc, F. reflexivity.
  - apply functional_extensionality. intros c. apply functional_extensionality. intros d. rewrite F. reflexivity.
  - apply functional_extensionality. intros c. apply functional_extensionality. intros d. rewrite E. reflexivity.
Qed.
End Len1.

Lemma bc_pick_padc j k l i : bc_pick (map (padc j k) l) i None = padc j k (bc_pick l i None).
Proof. unfold bc_pick. rewrite map_length. destruct (length l =? 1); apply nth_padc. Qed.
Lemma bc_pick_in (l : list chan) i : bc_pick l i None = None \/ In (bc_pick l i None) l.
Proof.
  unfold bc_pick. destruct (Nat.eqb_spec (length l) 1).
  - right. apply nth_In. lia.
  - destruct (Nat.lt_ge_cases i (length l)); [right; apply nth_In; auto|left; apply nth_overflow; auto].
Qed.

(** ** The functions *)
Section Fun.
Variables (b : backend) (o : opts) (ref est : arr) (j kr ke : nat).
Hypothesis Hzm : zero_mean o = false.
Hypothesis Wr : wf ref. Hypothesis We : wf est.
Hypothesis HL0 : 1 <= filter_length o.
Hypothesis HLm : filter_length o <= Nat.max (a_len ref) (a_len est).
Hypothesis H1 : filter_length o = 1 -> a_len ref = a_len est /\ kr = ke.
Notation ref' := (silence j kr ref).
Notation est' := (silence j ke est).

Let short_ref x : In x (prep_arr false ref) -> short (a_len ref) x.
Proof. intros Hx. destruct (prep_len false ref x Wr Hx) as [->|E]; unfold short; [simpl|]; lia. Qed.

Lemma silence_sdr_coh : sdr_coh b o ref' est' = sdr_coh b o ref est.
Proof.
  unfold sdr_coh. rewrite Hzm, !prep_silence by auto. cbv zeta. cbn [a_len silence].
  destruct (Nat.eqb_spec (filter_length o) 1) as [E|N].
  - destruct (H1 E) as [Hl ->]. unfold bc_len. rewrite <- Hl, !Nat.eqb_refl. cbn [bind]. f_equal.
    apply len1_sdr_padc; intros x Hx; [|rewrite Hl]; eapply prep_len; eauto.
  - rewrite mapM_map. apply mapM_ext. intros x Hx.
    pose proof (pad_acf (a_len ref) (a_len est) j kr ke (filter_length o) (proj1 Wr) ltac:(lia) HLm x (short_ref x Hx)) as EA.
    pose proof (fun y => pad_xcorr (a_len ref) (a_len est) j kr ke (filter_length o) (proj1 Wr) ltac:(lia) HLm x y (short_ref x Hx)) as EX.
    destruct x as [v|]; cbn [padc opt0] in *.
    + rewrite EA. apply coh_row_padc. auto.
    + rewrite map_map. reflexivity.
Qed.
Lemma silence_sdr_diag : sdr_coh_diag b o ref' est' = sdr_coh_diag b o ref est.
Proof.
  unfold sdr_coh_diag. rewrite Hzm, !prep_silence, !map_length by auto. cbv zeta. cbn [a_len silence].
  destruct (Nat.eqb_spec (filter_length o) 1) as [E|N].
  - destruct (H1 E) as [Hl ->]. unfold bc_len. rewrite <- Hl, !Nat.eqb_refl. cbn [bind].
    destruct (bc_chan _ _ _ _); cbn [bind]; auto. f_equal. apply tab_ext. intros i _. rewrite !bc_pick_padc.
    apply lift_ip_padc.
    + destruct (bc_pick_in (prep_arr false ref) i) as [->|Hx]; auto. eapply prep_len; eauto.
    + rewrite Hl. destruct (bc_pick_in (prep_arr false est) i) as [->|Hx]; auto. eapply prep_len; eauto.
  - destruct (bc_chan _ _ _ _); cbn [bind]; auto. apply mapM_ext. intros i _. rewrite !bc_pick_padc.
    assert (Hs : short (a_len ref) (bc_pick (prep_arr false ref) i None)).
    { destruct (bc_pick_in (prep_arr false ref) i) as [->|Hx]; auto. unfold short. cbn [opt0 length]. lia. }
    pose proof (pad_acf (a_len ref) (a_len est) j kr ke (filter_length o) (proj1 Wr) ltac:(lia) HLm _ Hs) as EA.
    pose proof (fun y => pad_xcorr (a_len ref) (a_len est) j kr ke (filter_length o) (proj1 Wr) ltac:(lia) HLm _ y Hs) as EX.
    destruct (bc_pick (prep_arr false ref) i None) as [v|]; cbn [padc opt0] in *; auto.
    rewrite EA. change [padc j ke ?z] with (map (padc j ke) [z]).
    rewrite <- (coh_row_padc j ke _ _ _ (stats_xcorr (n_fft (a_len ref) (a_len est)) (filter_length o) v) _ [bc_pick (prep_arr false est) i None] EX).
    reflexivity.
Qed.
Let nfL : filter_length o <= n_fft (a_len ref) (a_len est).
Proof. pose proof (n_fft_ge (a_len ref) (a_len est) (proj1 Wr)). pose proof (proj1 Wr). lia. Qed.
Let nfL' : filter_length o <= n_fft (a_len ref') (a_len est').
Proof. cbn [a_len silence]. pose proof (n_fft_ge (j + a_len ref + kr) (j + a_len est + ke) ltac:(destruct Wr; lia)). pose proof (proj1 Wr). lia. Qed.
Lemma silence_sq_cos : sq_cos b o ref' est' = sq_cos b o ref est.
Proof.
  destruct (Nat.eq_dec (filter_length o) 1) as [E|N].
  - unfold sq_cos. rewrite Hzm, !prep_silence by auto. cbv zeta. cbn [a_len silence].
    rewrite E, Nat.eqb_refl.
    destruct (H1 E) as [Hl ->]. unfold bc_len. rewrite <- Hl, !Nat.eqb_refl. cbn [bind].
    pose proof (fun x Hx => prep_len false ref x Wr Hx) as Hr. pose proof (fun x Hx => prep_len false est x We Hx) as He.
    rewrite <- Hl in He. rewrite len1_sar_padc, len1_sdr_padc by auto. reflexivity.
  - rewrite (sq_cos_cells b o ref' est' ltac:(lia) nfL'), (sq_cos_cells b o ref est ltac:(lia) nfL). rewrite silence_sdr_coh. destruct (sdr_coh b o ref est); cbn [bind]; auto.
    rewrite Hzm, !prep_silence by auto. cbn [a_len silence].
    rewrite (pad_sar_row (a_len ref) (a_len est) j kr ke (filter_length o) (use_cg_iter o) (load_diag o) (proj1 Wr)); auto; lia.
Qed.
Lemma silence_sq_cos_diag : n_chan ref = n_chan est -> sq_cos_diag b o ref' est' = sq_cos_diag b o ref est.
Proof.
  intros Hn. destruct (Nat.eq_dec (filter_length o) 1) as [E|N].
  - unfold sq_cos_diag. rewrite Hzm, !prep_silence by auto. cbv zeta. cbn [a_len silence].
    rewrite E, Nat.eqb_refl.
    destruct (H1 E) as [Hl ->]. unfold bc_len. rewrite <- Hl, !Nat.eqb_refl. cbn [bind].
    pose proof (fun x Hx => prep_len false ref x Wr Hx) as Hr. pose proof (fun x Hx => prep_len false est x We Hx) as He.
    rewrite <- Hl in He. rewrite len1_sar_padc by auto.
    destruct (len1_sar _ _ _ _ _); cbn [bind]; auto. do 2 f_equal. rewrite map_length. apply tab_ext. intros i _.
    rewrite !nth_padc. apply lift_ip_padc; apply nth_len; auto.
  - rewrite (sq_cos_diag_unfold b o ref' est' ltac:(lia) nfL' ltac:(rewrite !n_chan_silence; auto)), (sq_cos_diag_unfold b o ref est ltac:(lia) nfL Hn).
    rewrite silence_sdr_diag. destruct (sdr_coh_diag b o ref est); cbn [bind]; auto.
    rewrite Hzm, !prep_silence by auto. cbn [a_len silence].
    rewrite (pad_sar_row (a_len ref) (a_len est) j kr ke (filter_length o) (use_cg_iter o) (load_diag o) (proj1 Wr)); auto; lia.
Qed.

Theorem silence_pairwise : pairwise_sdr_loss b o est' ref' = pairwise_sdr_loss b o est ref.
Proof. unfold pairwise_sdr_loss. rewrite silence_sdr_coh. reflexivity. Qed.
Theorem silence_sdr_loss : sdr_loss b o est' ref' = sdr_loss b o est ref.
Proof. unfold sdr_loss. rewrite silence_sdr_diag. reflexivity. Qed.
Theorem silence_sdr sp sg : sdr b sp o sg ref' est' = sdr b sp o sg ref est.
Proof. unfold sdr. rewrite silence_pairwise, !n_chan_silence. reflexivity. Qed.
Theorem silence_pit sp : sdr_pit_loss b sp o est' ref' = sdr_pit_loss b sp o est ref.
Proof. unfold sdr_pit_loss. rewrite silence_sdr. reflexivity. Qed.
Theorem silence_bss sp : bss_eval_sources b sp o ref' est' = bss_eval_sources b sp o ref est.
Proof. unfold bss_eval_sources. rewrite silence_sq_cos, !n_chan_silence. reflexivity. Qed.
Theorem silence_noperm : bss_eval_sources_noperm b o ref' est' = bss_eval_sources_noperm b o ref est.
Proof.
  unfold bss_eval_sources_noperm. rewrite !n_chan_silence. destruct (Nat.eqb_spec (n_chan ref) (n_chan est)); auto.
  rewrite silence_sq_cos_diag by auto. reflexivity.
Qed.
End Fun.

(** Where appending silence is harmless: no mean removal, and filters no longer than the signals. *)
Definition fits (o : opts) (ref est : arr) (kr ke : nat) : Prop :=
  zero_mean o = false /\ wf ref /\ wf est /\
  1 <= filter_length o <= Nat.max (a_len ref) (a_len est) /\
  (filter_length o = 1 -> a_len ref = a_len est /\ kr = ke).
