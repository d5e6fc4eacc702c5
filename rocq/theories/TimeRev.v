(** * Time reversal (C93) *)
From Coq Require Import Reals Lra.
From Verif Require Import Prelude ExtReal Slice Sums Spec SpecSig Fft FftProofs Helpers HelpersProofs
  DbProofs Linalg LinalgProofs Cgd Metrics StatsProofs LeastSq PrepProofs MetricsProofs SarProofs
  ProjTheorems MetricTheorems Invariance CgdOps CgdPrecond Cells Diag Edge Witness Glue Silence Delay NegLoad SumEst.
Local Open Scope nat_scope.

(** The recordings played backwards. *)
Definition flip (a : arr) : arr := Arr (a_len a) (map (@rev xr) (a_chans a)).

Definition flipc (x : chan) : chan := option_map (@rev R) x.

(** ** Signals *)
Lemma smp_rev x t : smp (rev x) t = if t <? length x then smp x (length x - 1 - t) else 0%R.
Proof.
  unfold smp. destruct (Nat.ltb_spec t (length x)).
  - rewrite rev_nth by auto. f_equal. lia.
  - apply nth_overflow. rewrite rev_length. auto.
Qed.
Lemma smp_out x t : length x <= t -> smp x t = 0%R.
Proof. apply nth_overflow. Qed.
Lemma delayed_rev x L k t : k < L -> t < length x + L - 1 ->
  delayed (rev x) k t = delayed x (L - 1 - k) (length x + L - 1 - 1 - t).
Proof.
  intros Hk Ht. unfold delayed. destruct (Nat.ltb_spec t k).
  - destruct (Nat.ltb_spec (length x + L - 1 - 1 - t) (L - 1 - k)); auto. rewrite smp_out by lia. reflexivity.
  - rewrite smp_rev. destruct (Nat.ltb_spec (t - k) (length x)).
    + destruct (Nat.ltb_spec (length x + L - 1 - 1 - t) (L - 1 - k)); [lia|]. f_equal. lia.
    + destruct (Nat.ltb_spec (length x + L - 1 - 1 - t) (L - 1 - k)); [auto|lia].
Qed.
Lemma smp_back j y t : t < j + length y -> smp (hush 0%R j 0 (rev y)) t = smp y (j + length y - 1 - t).
Proof.
  intros Ht. rewrite smp_hush. unfold pushed. destruct (Nat.ltb_spec t j).
  - rewrite smp_out by lia. reflexivity.
  - rewrite smp_rev. destruct (Nat.ltb_spec (t - j) (length y)); [f_equal; lia|lia].
Qed.
Lemma dot_rev M u v u' v' : (forall t, t < M -> u' t = u (M - 1 - t)) -> (forall t, t < M -> v' t = v (M - 1 - t)) ->
  dot M u' v' = dot M u v.
Proof. intros Hu Hv. unfold dot. rewrite (Rsum_rev M (fun t => u t * v t)%R). apply Rsum_ext. intros t Ht. rewrite Hu, Hv by auto. reflexivity. Qed.

Lemma Rsum_revl x (f : R -> R) : Rsum (length x) (fun t => f (smp (rev x) t)) = Rsum (length x) (fun t => f (smp x t)).
Proof.
  rewrite (Rsum_rev (length x) (fun t => f (smp x t))). apply Rsum_ext. intros t Ht. rewrite smp_rev.
  destruct (Nat.ltb_spec t (length x)); [reflexivity|lia].
Qed.
Lemma norm2_rev x : norm2 (rev x) = norm2 x.
Proof. unfold norm2. rewrite rev_length, (Rsum_revl x (fun v => v ^ 2)%R). reflexivity. Qed.
Lemma mean_rev x : mean (rev x) = mean x.
Proof. unfold mean. rewrite rev_length. f_equal. exact (Rsum_revl x (fun v => v)). Qed.
Lemma pre_rev zm x : pre zm (rev x) = rev (pre zm x).
Proof. destruct zm; auto. unfold pre, centered. rewrite mean_rev, map_rev. reflexivity. Qed.
Lemma unit_rev x : unit_of (rev x) = rev (unit_of x).
Proof. unfold unit_of, gain. rewrite norm2_rev, map_rev. reflexivity. Qed.
Lemma prep_rev zm c : 0 < length c -> prep zm (rev c) = flipc (prep zm c).
Proof.
  intros H. destruct (prep zm c) as [u|] eqn:E; simpl.
  - apply prep_some_inv in E; auto. destruct E as (v & -> & ->). rewrite <- map_rev.
    rewrite prep_fin; [|rewrite rev_length, <- (map_length Fin); auto]. rewrite pre_rev, unit_rev. reflexivity.
  - destruct (prep zm (rev c)) as [u|] eqn:E'; auto. apply prep_some_inv in E'; [|rewrite rev_length; auto].
    destruct E' as (v & Ev & _). assert (Ec : c = map Fin (rev v)) by (rewrite map_rev, <- Ev, rev_involutive; auto).
    rewrite Ec, prep_fin in E; [discriminate|]. rewrite <- (map_length Fin), <- Ec. auto.
Qed.
Lemma prep_flip zm a : wf a -> prep_arr zm (flip a) = map flipc (prep_arr zm a).
Proof.
  intros [H0 H]. unfold prep_arr, flip. cbn [a_chans]. rewrite !map_map. apply map_ext_in. intros c Hc.
  rewrite Forall_forall in H. apply prep_rev. rewrite H; auto.
Qed.
Lemma wf_flip a : wf a -> wf (flip a).
Proof.
  intros [H0 H]. split; auto. cbn [a_chans flip a_len]. rewrite Forall_forall in *. intros c Hc.
  apply in_map_iff in Hc. destruct Hc as (c' & <- & Hc). rewrite rev_length. auto.
Qed.

(** ** Least squares with the unknowns in another order *)
Section Reindex.
Variables (K M : nat) (a a' : nat -> nat -> R) (y y' : nat -> R) (lam : R) (sg : nat -> nat).
Hypotheses (S1 : forall k, k < K -> sg k < K) (S2 : forall k, k < K -> sg (sg k) = k).
Hypothesis (S3 : forall f, Rsum K (fun k => f (sg k)) = Rsum K f).
Hypothesis (Ha : forall i j, i < K -> j < K -> dot M (a' i) (a' j) = dot M (a (sg i)) (a (sg j))).
Hypothesis (Hy : forall i, i < K -> dot M (a' i) y' = dot M (a (sg i)) y).
Lemma gram_sg i j : i < K -> j < K -> gram M a' lam i j = gram M a lam (sg i) (sg j).
Proof.
  intros Hi Hj. unfold gram. rewrite Ha by auto. f_equal.
  destruct (Nat.eqb_spec i j), (Nat.eqb_spec (sg i) (sg j)); auto; subst; try congruence.
  exfalso. apply n. rewrite <- (S2 i), <- (S2 j), e by auto. reflexivity.
Qed.
Lemma gram_sg_mv h i : i < K -> Rmv K (gram M a' lam) (fun k => h (sg k)) i = Rmv K (gram M a lam) h (sg i).
Proof.
  intros Hi. unfold mulmv. rewrite <- (S3 (fun k => gram M a lam (sg i) k * h k)%R). apply Rsum_ext. intros j Hj.
  rewrite gram_sg by auto. reflexivity.
Qed.
Lemma lsq_sg q : lsq K M a lam y q -> lsq K M a' lam y' q.
Proof.
  intros (h & N & ->). exists (fun k => h (sg k)). split.
  - intros i Hi. rewrite gram_sg_mv, N, Hy by auto. reflexivity.
  - unfold qval. rewrite <- (S3 (fun k => h k * dot M (a k) y)%R) || rewrite <- S3. apply Rsum_ext. intros k Hk. rewrite Hy by auto. reflexivity.
Qed.
Lemma nonsingular_sg : nonsingular K (gram M a lam) -> nonsingular K (gram M a' lam).
Proof.
  intros H v Hv. assert (Z : forall j, j < K -> v (sg j) = 0%R).
  { apply (H (fun k => v (sg k))). intros i Hi. rewrite <- (S2 i Hi), <- gram_sg_mv by auto. etransitivity; [|apply (Hv (sg i)); auto].
    unfold mulmv. apply Rsum_ext. intros j Hj. rewrite S2 by auto. reflexivity. }
  intros j Hj. rewrite <- (S2 j Hj). auto.
Qed.
End Reindex.
Lemma lsq_unique_any K M a lam y q q' : lsq K M a lam y q -> lsq K M a lam y q' -> q = q'.
Proof.
  intros (h & N & ->) (h' & N' & ->).
  rewrite (qval_form K M a lam y h' h N'), (qval_form K M a lam y h h' N). f_equal; [apply dot_comm|].
  f_equal. apply Rsum_ext. intros; ring.
Qed.

(** ** The systems of the reversed recordings *)
Definition back (j : nat) (y : chan) : chan := padc j 0 (flipc y).
Lemma rev_index L (f : nat -> R) : Rsum L (fun k => f (L - 1 - k)) = Rsum L f.
Proof. symmetry. apply Rsum_rev. Qed.
Lemma gram_plain nf M L ld u : length u + L - 1 <= nf -> length u + L - 1 <= M -> L <= nf ->
  nonsingular (Nat.min L nf) (gram nf (cdelayed nf u) (loadv ld)) <-> nonsingular L (gram M (delays u) (loadv ld)).
Proof.
  intros H1 H2 HL. rewrite Nat.min_l by auto.
  split; apply nonsingular_ext; intros i j Hi Hj; [|symmetry]; apply (delays_gram nf M u (loadv ld) L); auto.
Qed.
Lemma delays_flip u L i k : i < L -> k < L -> let M := length u + L - 1 in
  dot M (delays (rev u) i) (delays (rev u) k) = dot M (delays u (L - 1 - i)) (delays u (L - 1 - k)).
Proof. intros Hi Hk M. apply dot_rev; intros t Ht; apply delayed_rev; auto. Qed.
Lemma rhs_flip u y j L i : i < L -> j + length y = length u + L - 1 -> let M := length u + L - 1 in
  dot M (delays (rev u) i) (smp (hush 0%R j 0 (rev y))) = dot M (delays u (L - 1 - i)) (smp y).
Proof.
  intros Hi Hj M. apply dot_rev; intros t Ht; [apply delayed_rev; auto|]. rewrite smp_back by (unfold M in Ht; lia).
  f_equal. unfold M. lia.
Qed.
Lemma row_flip b nf nf' L ld j u (ests : list chan) : 0 < length u -> 2 <= L -> L <= nf -> length u + L - 1 <= nf -> length u + L - 1 <= nf' ->
  (forall y, In (Some y) ests -> j + length y = length u + L - 1) ->
  coh_row b None (add_load ld (stats_acf nf' L (rev u))) (stats_xcorr nf' L (rev u)) (map (back j) ests) =
  coh_row b None (add_load ld (stats_acf nf L u)) (stats_xcorr nf L u) ests.
Proof.
  intros Hu HL HLn Hn Hn' He. set (M := length u + L - 1) in *.
  assert (S1 : forall k, k < L -> L - 1 - k < L) by (intros; lia).
  assert (S2 : forall k, k < L -> L - 1 - (L - 1 - k) = k) by (intros; lia).
  assert (Ha : forall i k, i < L -> k < L -> dot M (delays (rev u) i) (delays (rev u) k) = dot M (delays u (L - 1 - i)) (delays u (L - 1 - k)))
    by (intros; apply delays_flip; auto).
  assert (Ha' : forall i k, i < L -> k < L -> dot M (delays u i) (delays u k) = dot M (delays (rev u) (L - 1 - i)) (delays (rev u) (L - 1 - k))).
  { intros i k Hi Hk. rewrite Ha by auto. rewrite !S2 by auto. reflexivity. }
  assert (NS : nonsingular L (gram M (delays u) (loadv ld)) <-> nonsingular L (gram M (delays (rev u)) (loadv ld))).
  { split; apply (nonsingular_sg L M _ _ (loadv ld) (fun k => L - 1 - k)); auto using rev_index. }
  destruct (coh_row b None (add_load ld (stats_acf nf L u)) (stats_xcorr nf L u) ests) as [row|e] eqn:E.
  - pose proof (coh_row_inv _ _ _ _ _ E) as (Hl & HN & _). rewrite row_nonsingular, (gram_plain nf M) in HN by (unfold M; lia).
    destruct (coh_row_ok b (add_load ld (stats_acf nf' L (rev u))) (stats_xcorr nf' L (rev u)) (map (back j) ests)) as [row' E'].
    { rewrite row_nonsingular, (gram_plain nf' M) by (rewrite ?rev_length; unfold M in *; lia). apply NS. auto. }
    rewrite E'. f_equal. pose proof (coh_row_inv _ _ _ _ _ E') as (Hl' & _ & HD'). rewrite map_length in *.
    apply (nth_ext _ _ NaN NaN); [congruence|]. intros d Hd. rewrite Hl' in Hd.
    assert (En : nth d (map (back j) ests) None = back j (nth d ests None)).
    { change (None : chan) with (back j None) at 1. apply map_nth. }
    destruct (nth d ests None) as [y|] eqn:Ey.
    + assert (Iy : j + length y = M) by (apply He; rewrite <- Ey; apply nth_In; auto).
      destruct (row_lsq b nf L ld u ests row d y E Hd Ey) as (q & Hq & ->).
      destruct (row_lsq b nf' L ld (rev u) (map (back j) ests) row' d (hush 0%R j 0 (rev y)) E') as (q' & Hq' & ->);
        [rewrite map_length; auto|rewrite En; reflexivity|].
      f_equal. rewrite Nat.min_l in Hq, Hq' by (unfold M in *; lia).
      apply (lsq_plain nf L u y M) in Hq; try (unfold M in *; lia).
      apply (lsq_plain nf' L (rev u) _ M) in Hq'; rewrite ?rev_length; try (unfold M in *; lia).
      apply (lsq_unique_any L M (delays (rev u)) (loadv ld) (smp (hush 0%R j 0 (rev y)))); auto.
      apply (lsq_sg L M (delays u) (delays (rev u)) (smp y) _ (loadv ld) (fun k => L - 1 - k)); auto using rev_index.
      intros i Hi. apply rhs_flip; auto.
    + specialize (HD' d Hd). rewrite En in HD'. cbn [back flipc option_map padc] in HD'. rewrite HD'.
      pose proof (coh_row_inv _ _ _ _ _ E) as (_ & _ & HD). specialize (HD d Hd). change (@nth chan d ests None = None) in Ey. rewrite Ey in HD. auto.
  - apply coh_row_raise in E. destruct E as [-> HN]. rewrite row_nonsingular, (gram_plain nf M) in HN by (unfold M; lia).
    destruct (coh_row b None _ _ _) as [row|e'] eqn:E'.
    + exfalso. apply HN, NS. pose proof (coh_row_inv _ _ _ _ _ E') as (_ & HN' & _).
      rewrite row_nonsingular, (gram_plain nf' M) in HN' by (rewrite ?rev_length; unfold M in *; lia). auto.
    + apply coh_row_raise in E'. destruct E' as [-> _]. reflexivity.
Qed.

(** the block system *)
Definition turn (L n k : nat) : nat := (L - 1 - k / n) * n + k mod n.
Lemma turn_at L n l c : c < n -> turn L n (l * n + c) = (L - 1 - l) * n + c.
Proof. intros H. unfold turn. rewrite lag_div, lag_mod by auto. reflexivity. Qed.
Lemma turn_lt L n k : k < L * n -> turn L n k < L * n.
Proof. intros H. destruct (lag_split _ _ _ H) as (l & c & Hl & Hc & ->). rewrite turn_at by auto. nia. Qed.
Lemma turn_turn L n k : k < L * n -> turn L n (turn L n k) = k.
Proof. intros H. destruct (lag_split _ _ _ H) as (l & c & Hl & Hc & ->). rewrite !turn_at by auto. f_equal. f_equal. lia. Qed.
Lemma turn_sum L n (f : nat -> R) : Rsum (L * n) (fun k => f (turn L n k)) = Rsum (L * n) f.
Proof.
  rewrite !Rsum_prod, (Rsum_rev L (fun l => Rsum n (fun c => f (l * n + c)))). apply Rsum_ext. intros l Hl.
  apply Rsum_ext. intros c Hc. rewrite turn_at by auto. reflexivity.
Qed.
Lemma all_delays_lag n xs l c : c < n -> all_delays n xs (l * n + c) = delayed (xs c) l.
Proof. intros H. unfold all_delays. rewrite lag_div, lag_mod by auto. reflexivity. Qed.
Lemma block_flip xs T L n i k : (forall c, c < n -> length (xs c) = T) -> i < L * n -> k < L * n -> let M := T + L - 1 in
  dot M (all_delays n (fun c => rev (xs c)) i) (all_delays n (fun c => rev (xs c)) k) =
  dot M (all_delays n xs (turn L n i)) (all_delays n xs (turn L n k)).
Proof.
  intros Hx Hi Hk M. destruct (lag_split _ _ _ Hi) as (l & c & Hl & Hc & ->). destruct (lag_split _ _ _ Hk) as (l' & c' & Hl' & Hc' & ->).
  rewrite !turn_at, !all_delays_lag by auto. unfold M.
  apply dot_rev; intros t Ht; [rewrite <- (Hx c Hc) in *|rewrite <- (Hx c' Hc') in *]; apply delayed_rev; auto.
Qed.
Lemma block_rhs xs T L n j y i : (forall c, c < n -> length (xs c) = T) -> i < L * n -> j + length y = T + L - 1 -> let M := T + L - 1 in
  dot M (all_delays n (fun c => rev (xs c)) i) (smp (hush 0%R j 0 (rev y))) = dot M (all_delays n xs (turn L n i)) (smp y).
Proof.
  intros Hx Hi Hj M. destruct (lag_split _ _ _ Hi) as (l & c & Hl & Hc & ->).
  rewrite !turn_at, !all_delays_lag by auto. unfold M.
  apply dot_rev; intros t Ht; [rewrite <- (Hx c Hc) in *; apply delayed_rev; auto|].
  rewrite smp_back by lia. f_equal. lia.
Qed.
Lemma block_plain nf M L n T lam xs : (forall c, c < n -> length (xs c) = T) -> T + L - 1 <= nf -> T + L - 1 <= M -> L <= nf ->
  nonsingular (L * n) (gram nf (all_cdelays nf n xs) lam) <-> nonsingular (L * n) (gram M (all_delays n xs) lam).
Proof.
  intros Hx H1 H2 HL. 
  assert (E : forall p q, p < L * n -> q < L * n -> gram nf (all_cdelays nf n xs) lam p q = gram M (all_delays n xs) lam p q).
  { intros p q Hp Hq. destruct (lag_split n L p Hp) as (i & r & Hi & Hr & ->). destruct (lag_split n L q Hq) as (k & c & Hk & Hc & ->).
    unfold gram. f_equal. rewrite !all_cdelays_at, !all_delays_lag by auto. pose proof (Hx r Hr). pose proof (Hx c Hc).
    rewrite (dot_ext nf _ (delayed (xs r) i) _ (delayed (xs c) k)).
    2,3: intros t Ht; apply cdelayed_plain; lia.
    destruct (Nat.le_ge_cases i k).
    + rewrite !dot_delayed2 by lia. auto.
    + rewrite (dot_comm nf), (dot_comm M), !dot_delayed2 by lia. auto. }
  split; apply nonsingular_ext; intros i k Hi Hk; [|symmetry]; apply E; auto.
Qed.
Lemma lsq_xs K M n xs xs' lam y q : 0 < n -> (forall c, c < n -> xs c = xs' c) ->
  lsq K M (all_delays n xs) lam y q -> lsq K M (all_delays n xs') lam y q.
Proof.
  intros Hn H. assert (E : forall k, all_delays n xs k = all_delays n xs' k).
  { intros k. unfold all_delays. rewrite H; auto. apply Nat.mod_upper_bound. lia. }
  apply lsq_ext; intros; rewrite !E; auto.
Qed.
Lemma sar_flip b nf nf' L ld j T (refs ests : list chan) : 0 < T -> 2 <= L -> L <= nf -> T + L - 1 <= nf -> T + L - 1 <= nf' ->
  (forall x, In (Some x) refs -> length x = T) -> (forall y, In (Some y) ests -> j + length y = T + L - 1) ->
  sar_row b None nf' L ld true (map flipc refs) (map (back j) ests) = sar_row b None nf L ld true refs ests.
Proof.
  intros HT HL HLn Hn Hn' Hr He. set (M := T + L - 1) in *.
  assert (TT : existsb tainted (map flipc refs) = existsb tainted refs).
  { clear. induction refs as [|[x|] l IH]; simpl; auto. }
  destruct (existsb tainted refs) eqn:Ht.
  { unfold sar_row. rewrite TT, Ht, map_map. reflexivity. }
  assert (HX : forall c, c < length refs -> length (rchan refs c) = T).
  { intros c Hc. pose proof (proj1 (existsb_tainted_false refs) Ht c Hc) as Hn0. unfold rchan.
    destruct (@nth chan c refs None) as [x|] eqn:E; [|congruence]. cbn [opt0]. apply Hr. rewrite <- E. apply nth_In; auto. }
  assert (HR : forall c, c < length refs -> rchan (map flipc refs) c = rev (rchan refs c)).
  { intros c Hc. unfold rchan. change (None : chan) with (flipc None) at 1. rewrite map_nth.
    destruct (@nth chan c refs None); reflexivity. }
  assert (HX' : forall c, c < length refs -> length (rchan (map flipc refs) c) = T).
  { intros c Hc. rewrite HR, rev_length by auto. auto. }
  set (n := length refs) in *. set (xs := rchan refs) in *.
  set (xs' := rchan (map flipc refs)) in *.
  assert (Hn0 : 0 < n \/ n = 0) by lia.
  assert (EX : forall k, k < L * n -> all_delays n xs' k = all_delays n (fun c => rev (xs c)) k).
  { intros k Hk. destruct (lag_split n L k Hk) as (l & c & Hl & Hc & ->). rewrite !all_delays_lag by auto. rewrite HR by auto. reflexivity. }
  assert (Ha : forall i k, i < L * n -> k < L * n -> dot M (all_delays n xs' i) (all_delays n xs' k) =
     dot M (all_delays n xs (turn L n i)) (all_delays n xs (turn L n k))).
  { intros i k Hi Hk. rewrite !EX by auto. apply block_flip; auto. }
  assert (Ha' : forall i k, i < L * n -> k < L * n -> dot M (all_delays n xs i) (all_delays n xs k) =
     dot M (all_delays n xs' (turn L n i)) (all_delays n xs' (turn L n k))).
  { intros i k Hi Hk. rewrite Ha by auto using turn_lt. rewrite !turn_turn by auto. reflexivity. }
  assert (NS : nonsingular (L * n) (gram M (all_delays n xs) (loadv ld)) <-> nonsingular (L * n) (gram M (all_delays n xs') (loadv ld))).
  { split; apply (nonsingular_sg (L * n) M _ _ (loadv ld) (turn L n)); auto using turn_lt, turn_turn, turn_sum. }
  assert (Ln : length (map flipc refs) = n) by apply map_length.
  destruct (sar_row b None nf L ld true refs ests) as [sar|e] eqn:E.
  - destruct (sar_row_inv b nf L ld true refs ests sar HL HLn E Ht) as (Hl & HN & HD).
    fold n xs in HN, HD. rewrite (block_plain nf M L n T) in HN by (auto; unfold M; lia).
    destruct (sar_row_ok b nf' L ld true (map flipc refs) (map (back j) ests)) as [sar' E']; auto; try (unfold M in *; lia).
    { rewrite Ln. fold xs'. rewrite (block_plain nf' M L n T) by (auto; unfold M in *; lia). apply NS. auto. }
    rewrite E'. f_equal. destruct (sar_row_inv b nf' L ld true _ _ sar' HL ltac:(unfold M in *; lia) E' TT) as (Hl' & _ & HD').
    rewrite Ln in HD'. fold xs' in HD'. rewrite map_length in *.
    apply (nth_ext _ _ NaN NaN); [congruence|]. intros d Hd. rewrite Hl' in Hd. specialize (HD d Hd). specialize (HD' d Hd).
    assert (En : nth d (map (back j) ests) None = back j (nth d ests None)).
    { change (None : chan) with (back j None) at 1. apply map_nth. }
    rewrite En in HD'. destruct (@nth chan d ests None) as [y|] eqn:Ey; [|cbn [back flipc option_map padc] in HD'; congruence].
    assert (Iy : j + length y = M) by (apply He; rewrite <- Ey; apply nth_In; auto).
    cbn [back flipc option_map padc] in HD'. destruct HD as (q & Hq & ->). destruct HD' as (q' & Hq' & ->). f_equal.
    apply (lsq_all_plain nf L n xs y M q (loadv ld) T) in Hq; auto; try (unfold M in *; lia).
    apply (lsq_all_plain nf' L n xs' _ M q' (loadv ld) T) in Hq'; auto; try (unfold M in *; lia).
    apply (lsq_unique_any (L * n) M (all_delays n xs') (loadv ld) (smp (hush 0%R j 0 (rev y)))); auto.
    apply (lsq_sg (L * n) M (all_delays n xs) (all_delays n xs') (smp y) _ (loadv ld) (turn L n)); auto using turn_lt, turn_turn, turn_sum.
    intros i Hi. rewrite EX by auto. apply block_rhs; auto.
  - apply sar_row_raise in E; auto. destruct E as (-> & _ & HN). fold n xs in HN.
    rewrite (block_plain nf M L n T) in HN by (auto; unfold M; lia).
    destruct (sar_row b None nf' L ld true _ _) as [sar|e'] eqn:E'.
    + exfalso. apply HN, NS. destruct (sar_row_inv b nf' L ld true _ _ sar HL ltac:(unfold M in *; lia) E' TT) as (_ & HN' & _).
      rewrite Ln in HN'. fold xs' in HN'. rewrite (block_plain nf' M L n T) in HN' by (auto; unfold M in *; lia). auto.
    + apply sar_row_raise in E'; auto; [|unfold M in *; lia]. destruct E' as [-> _]. reflexivity.
Qed.

(** ** The functions *)
Lemma prep_back zm j a : wf a -> (zm = true -> j = 0) -> prep_arr zm (silence j 0 (flip a)) = map (back j) (prep_arr zm a).
Proof.
  intros Hw Hz. destruct zm.
  - rewrite (Hz eq_refl). transitivity (prep_arr true (flip a)).
    + assert (E : a_chans (silence 0 0 (flip a)) = a_chans (flip a)).
      { unfold silence. cbn [a_chans repeat app]. transitivity (map (fun c => c) (a_chans (flip a))); [|apply map_id]. apply map_ext. intros c. apply app_nil_r. }
      unfold prep_arr. rewrite E. reflexivity.
    + rewrite prep_flip by auto. apply map_ext. intros [y|]; unfold back, padc, flipc; cbn [option_map repeat app]; [rewrite app_nil_r|]; reflexivity.
  - rewrite prep_silence by (apply wf_flip; auto). rewrite prep_flip by auto. rewrite map_map. reflexivity.
Qed.
Lemma prep_arr_len zm a x : wf a -> In (Some x) (prep_arr zm a) -> length x = a_len a.
Proof. intros Hw H. destruct (prep_len zm a (Some x) Hw H) as [E|E]; [discriminate|exact E]. Qed.
Lemma mapM_map {A B C} (f : B -> res C) (g : A -> B) (h : A -> res C) l :
  (forall x, In x l -> f (g x) = h x) -> mapM f (map g l) = mapM h l.
Proof. induction l as [|x l IH]; simpl; intros H; auto. rewrite H by auto. rewrite IH by auto. reflexivity. Qed.

Section Main.
Variables (b : backend) (o : opts) (ref est : arr).
Hypotheses (Wr : wf ref) (We : wf est) (Hcg : use_cg_iter o = None).
Hypothesis (HL : 2 <= filter_length o <= Nat.max (a_len ref) (a_len est)).
Hypothesis (HT : a_len est <= a_len ref + filter_length o - 1).
Let j := a_len ref + filter_length o - 1 - a_len est.
Hypothesis (Hz : zero_mean o = true -> j = 0).

Lemma nf_old : a_len ref + filter_length o - 1 <= n_fft (a_len ref) (a_len est).
Proof. pose proof (n_fft_ge (a_len ref) (a_len est) (proj1 Wr)). lia. Qed.
Lemma nf_new : a_len ref + filter_length o - 1 <= n_fft (a_len ref) (j + a_len est + 0).
Proof. pose proof (n_fft_ge (a_len ref) (j + a_len est + 0) (proj1 Wr)) as H. pose proof (proj1 Wr). unfold j in *. lia. Qed.
Lemma sdr_coh_back : sdr_coh b o (flip ref) (silence j 0 (flip est)) = sdr_coh b o ref est.
Proof.
  pose proof nf_old as N1. pose proof nf_new as N2. pose proof (proj1 Wr) as H0.
  rewrite !sdr_coh_unfold by lia. rewrite Hcg. cbn [a_len flip silence].
  rewrite prep_back, prep_flip by auto. apply mapM_map. intros [u|] Hu; cbn [flipc option_map].
  - pose proof (prep_arr_len _ _ _ Wr Hu) as Lu.
    apply row_flip; rewrite ?Lu; auto; try lia. intros y Hy. rewrite (prep_arr_len _ _ _ We Hy). unfold j. lia.
  - rewrite map_map. reflexivity.
Qed.
Lemma sq_cos_back : sq_cos b o (flip ref) (silence j 0 (flip est)) = sq_cos b o ref est.
Proof.
  pose proof nf_old as N1. pose proof nf_new as N2. pose proof (proj1 Wr) as H0.
  rewrite !sq_cos_cells by (cbn [a_len flip silence]; lia). rewrite sdr_coh_back.
  destruct (sdr_coh b o ref est) as [m|e]; auto. cbn [bind]. rewrite Hcg. cbn [a_len flip silence].
  rewrite prep_back, prep_flip by auto.
  rewrite (sar_flip b (n_fft (a_len ref) (a_len est)) _ (filter_length o) (load_diag o) j (a_len ref)); auto; try lia.
  - intros x. apply prep_arr_len. auto.
  - intros y Hy. rewrite (prep_arr_len _ _ _ We Hy). unfold j. lia.
Qed.
Lemma n_chan_back : n_chan (flip ref) = n_chan ref /\ n_chan (silence j 0 (flip est)) = n_chan est.
Proof. unfold n_chan, flip, silence. cbn [a_chans]. rewrite !map_length. auto. Qed.
Theorem time_reversal sp cs :
  pairwise_sdr_loss b o (silence j 0 (flip est)) (flip ref) = pairwise_sdr_loss b o est ref /\
  sdr b sp o cs (flip ref) (silence j 0 (flip est)) = sdr b sp o cs ref est /\
  bss_eval_sources b sp o (flip ref) (silence j 0 (flip est)) = bss_eval_sources b sp o ref est.
Proof.
  destruct n_chan_back as [E1 E2].
  assert (P : pairwise_sdr_loss b o (silence j 0 (flip est)) (flip ref) = pairwise_sdr_loss b o est ref).
  { unfold pairwise_sdr_loss. rewrite sdr_coh_back. reflexivity. }
  split; [exact P|]. split.
  - unfold sdr. rewrite P, E1, E2. reflexivity.
  - unfold bss_eval_sources. rewrite sq_cos_back, E1, E2. reflexivity.
Qed.
End Main.
Lemma reversed b o sp cs ref est ref' est' : wf ref -> wf est -> use_cg_iter o = None ->
  2 <= filter_length o <= Nat.max (a_len ref) (a_len est) ->
  a_len est <= a_len ref + filter_length o - 1 ->
  (zero_mean o = true -> a_len est = a_len ref + filter_length o - 1) ->
  ref' = Arr (a_len ref) (map (fun c => rev c) (a_chans ref)) ->
  est' = Arr (a_len ref + filter_length o - 1)
             (map (fun c => repeat (Fin 0) (a_len ref + filter_length o - 1 - a_len est) ++ rev c) (a_chans est)) ->
  pairwise_sdr_loss b o est' ref' = pairwise_sdr_loss b o est ref /\
  sdr b sp o cs ref' est' = sdr b sp o cs ref est /\
  bss_eval_sources b sp o ref' est' = bss_eval_sources b sp o ref est.
Proof.
  intros Wr We Hcg HL HT Hz -> ->.
  replace (Arr (a_len ref + filter_length o - 1) _) with
    (silence (a_len ref + filter_length o - 1 - a_len est) 0 (flip est)).
  - apply time_reversal; auto. intros E. rewrite (Hz E). lia.
  - unfold silence, flip. cbn [a_len a_chans]. f_equal; [lia|]. rewrite map_map. apply map_ext. intros c.
    cbn [repeat]. rewrite app_nil_r. reflexivity.
Qed.
Lemma no_delay_refuted b : exists ref est m m', wf ref /\ wf est /\
  pairwise_sdr_loss b (plain_opts 2) est ref = Ok m /\
  pairwise_sdr_loss b (plain_opts 2) (Arr (a_len est) (map (fun c => rev c) (a_chans est)))
     (Arr (a_len ref) (map (fun c => rev c) (a_chans ref))) = Ok m' /\
  mat_of m 0 0 = NInf /\ mat_of m' 0 0 = PInf.
Proof.
  destruct (reorder_refuted b) as (m & m' & H1 & H2 & H3 & H4).
  exists rev_ref, rev_est, m, m'. split; [apply sum_ref_wf|]. split; [apply rarr_wf; [lia|repeat constructor]|].
  split; [exact H1|]. split; [exact H2|]. split; auto.
Qed.
