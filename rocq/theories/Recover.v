(** * When the permutation is the expected one

    If every reference (or every estimate) has one partner with a smaller loss than all others, and these
    partners are distinct, then that is the assignment returned. *)
From Coq Require Import Reals Lra Permutation.
From Verif Require Import Prelude ExtReal Spec SpecSig Sums Helpers PermProofs DbProofs Metrics StatsProofs LeastSq
  PrepProofs MetricsProofs SarProofs ProjTheorems MetricTheorems Delay.
Local Open Scope nat_scope.

(** ** What an answer of solve_permutation says *)
Lemma count_zero {A} (P : A -> bool) l : (forall x, In x l -> P x = false) -> length (filter P l) = 0.
Proof. induction l as [|x l IH]; simpl; auto. intros H. rewrite (H x) by auto. apply IH. auto. Qed.

Lemma solved_cases b sp n_ref n_est loss args out outs perm : lsa_contract sp ->
  solve_permutation b sp n_ref n_est loss args = Ok (out, outs, perm) ->
  let m := matching n_ref n_est perm in
  complete_assignment n_ref n_est m /\
  (forall i j, i < n_ref -> j < n_est -> loss i j <> NaN) /\
  (((forall i j, i < n_ref -> j < n_est -> loss i j <> PInf) /\
    forall l', complete_assignment n_ref n_est l' ->
      n_neginf loss m > n_neginf loss l' \/ (n_neginf loss m = n_neginf loss l' /\ (finite_sum loss m <= finite_sum loss l')%R)) \/
   ((forall i j, i < n_ref -> j < n_est -> loss i j <> NInf) /\
    forall l', complete_assignment n_ref n_est l' ->
      n_posinf loss m < n_posinf loss l' \/ (n_posinf loss m = n_posinf loss l' /\ (finite_sum loss m <= finite_sum loss l')%R))).
Proof.
  intros Hsp H m. pose proof (solve_perm_outputs sp Hsp b n_ref n_est loss args out outs perm H) as (C & _).
  fold m in C. split; auto.
  pose proof (proj1 (solve_perm_total_iff sp Hsp b n_ref n_est loss args) (ex_intro _ _ H)) as (HN & HC). split; auto.
  destruct HC as [HF|[(i0 & j0 & r0 & Hi0 & Hj0 & E0) HC]].
  - left. split. { intros i j Hi Hj E. specialize (HF i j Hi Hj). rewrite E in HF. discriminate. }
    destruct (solve_perm_optimal sp Hsp b n_ref n_est loss args HF) as (v & os & p & E & O). rewrite H in E. injection E as <- <- <-.
    intros l' Hl'. right. split; [|exact (proj2 O l' Hl')].
    assert (Z : forall l, complete_assignment n_ref n_est l -> n_neginf loss l = 0).
    { intros l (_ & Hin & _). apply count_zero. intros [i j] Hij. destruct (Hin i j Hij) as [Hi Hj]. specialize (HF i j Hi Hj).
      simpl. destruct (loss i j); auto; discriminate. }
    rewrite !Z; auto.
  - assert (HN' : forall i j, i < n_ref -> j < n_est -> is_nan (loss i j) = false).
    { intros i j Hi Hj. specialize (HN i j Hi Hj). destruct (loss i j); auto. congruence. }
    destruct HC as [HP|HP].
    + left. split; auto.
      destruct (solve_perm_neginf sp Hsp b n_ref n_est loss args i0 j0 r0) as (v & os & p & E & _ & O); auto.
      rewrite H in E. injection E as <- <- <-. exact O.
    + right. split; auto.
      destruct (solve_perm_posinf sp Hsp b n_ref n_est loss args i0 j0 r0) as (v & os & p & E & _ & O); auto.
      rewrite H in E. injection E as <- <- <-. exact O.
Qed.

(** ** Two families compared place by place *)
Lemma count_le {A} (P Q : A -> bool) l : (forall x, In x l -> P x = true -> Q x = true) ->
  length (filter P l) <= length (filter Q l) /\
  (length (filter Q l) <= length (filter P l) -> forall x, In x l -> Q x = true -> P x = true).
Proof.
  induction l as [|x l IH]; intros H; simpl; [split; [lia|tauto]|].
  destruct IH as [I1 I2]; [intros; apply H; simpl; auto|]. pose proof (H x (or_introl eq_refl)) as Hx.
  destruct (P x) eqn:EP.
  - rewrite Hx by auto. simpl. split; [lia|]. intros HQ y [->|Hy] Hq; auto. apply I2; auto. lia.
  - destruct (Q x) eqn:EQ; simpl; split; try lia. intros HQ y [->|Hy] Hq; [congruence|]. apply I2; auto.
Qed.
Lemma sum_le_eq {A} (a c : A -> R) l : (forall x, In x l -> (a x <= c x)%R) ->
  (sumR (map a l) <= sumR (map c l))%R /\ ((sumR (map c l) <= sumR (map a l))%R -> forall x, In x l -> a x = c x).
Proof.
  induction l as [|x l IH]; intros H; simpl; [split; [lra|tauto]|].
  destruct IH as [I1 I2]; [intros; apply H; simpl; auto|]. pose proof (H x (or_introl eq_refl)) as Hx. split; [lra|].
  intros HQ y [->|Hy]; [lra|]. apply I2; auto. lra.
Qed.

Definition cnt (P : xr -> bool) (f : nat -> xr) (l : list nat) : nat := length (filter (fun i => P (f i)) l).
Definition fsum (f : nat -> xr) (l : list nat) : R := sumR (map (fun i => to_R (f i)) l).
Lemma place_neg (f g : nat -> xr) l : (forall i, In i l -> xle (f i) (g i)) -> (forall i, In i l -> g i <> PInf) ->
  cnt is_neginf g l > cnt is_neginf f l \/ (cnt is_neginf g l = cnt is_neginf f l /\ (fsum g l <= fsum f l)%R) ->
  forall i, In i l -> f i = g i.
Proof.
  intros Hle HP HC.
  destruct (count_le (fun i => is_neginf (g i)) (fun i => is_neginf (f i)) l) as [H1 H2].
  { intros i Hi E. specialize (Hle i Hi). unfold xle, xleb in Hle. destruct (g i), (f i); try discriminate; auto. }
  fold (cnt is_neginf g l) in H1, H2. fold (cnt is_neginf f l) in H1, H2.
  destruct HC as [HC|[EC HS]]; [lia|]. specialize (H2 ltac:(lia)). cbv beta in H2.
  destruct (sum_le_eq (fun i => to_R (f i)) (fun i => to_R (g i)) l) as [_ S2].
  { intros i Hi. specialize (Hle i Hi). specialize (HP i Hi). specialize (H2 i Hi). unfold xle, xleb in Hle.
    destruct (f i), (g i); simpl in *; try discriminate; try congruence; try lra.
    destruct Rle_dec; [auto|discriminate]. }
  specialize (S2 HS). cbv beta in S2.
  intros i Hi. specialize (S2 i Hi). specialize (Hle i Hi). specialize (HP i Hi). specialize (H2 i Hi). unfold xle, xleb in Hle.
  destruct (f i), (g i); simpl in *; try discriminate; try congruence.
  all: specialize (H2 eq_refl); discriminate.
Qed.
Lemma place_pos (f g : nat -> xr) l : (forall i, In i l -> xle (f i) (g i)) -> (forall i, In i l -> f i <> NInf) ->
  cnt is_posinf g l < cnt is_posinf f l \/ (cnt is_posinf g l = cnt is_posinf f l /\ (fsum g l <= fsum f l)%R) ->
  forall i, In i l -> f i = g i.
Proof.
  intros Hle HP HC.
  destruct (count_le (fun i => is_posinf (f i)) (fun i => is_posinf (g i)) l) as [H1 H2].
  { intros i Hi E. specialize (Hle i Hi). unfold xle, xleb in Hle. destruct (g i), (f i); try discriminate; auto. }
  fold (cnt is_posinf g l) in H1, H2. fold (cnt is_posinf f l) in H1, H2.
  destruct HC as [HC|[EC HS]]; [lia|]. specialize (H2 ltac:(lia)). cbv beta in H2.
  destruct (sum_le_eq (fun i => to_R (f i)) (fun i => to_R (g i)) l) as [_ S2].
  { intros i Hi. specialize (Hle i Hi). specialize (HP i Hi). specialize (H2 i Hi). unfold xle, xleb in Hle.
    destruct (f i), (g i); simpl in *; try discriminate; try congruence; try lra.
    destruct Rle_dec; [auto|discriminate]. }
  specialize (S2 HS). cbv beta in S2.
  intros i Hi. specialize (S2 i Hi). specialize (Hle i Hi). specialize (HP i Hi). specialize (H2 i Hi). unfold xle, xleb in Hle.
  destruct (f i), (g i); simpl in *; try discriminate; try congruence.
  all: specialize (H2 eq_refl); discriminate.
Qed.

(** ** Assignments listed by row or by column *)
Lemma filter_perm {A} (P : A -> bool) l l' : Permutation l l' -> length (filter P l) = length (filter P l').
Proof.
  induction 1; simpl; auto; [destruct (P x); simpl; lia| |lia].
  destruct (P x), (P y); simpl; lia.
Qed.
Lemma sumR_perm l l' : Permutation l l' -> sumR l = sumR l'.
Proof. induction 1; simpl; lra. Qed.
Lemma listed (f : nat -> nat * nat) C n l : Permutation l (map f (seq 0 n)) ->
  n_neginf C l = cnt is_neginf (fun i => at_pair C (f i)) (seq 0 n) /\
  n_posinf C l = cnt is_posinf (fun i => at_pair C (f i)) (seq 0 n) /\
  finite_sum C l = fsum (fun i => at_pair C (f i)) (seq 0 n).
Proof.
  intros H.
  assert (F : forall (P : xr -> bool) s, length (filter (fun p => P (C (fst p) (snd p))) (map f s)) = cnt P (fun i => at_pair C (f i)) s).
  { intros P s. unfold cnt. induction s as [|i s IH]; simpl; auto. unfold at_pair at 1. destruct (P _); simpl; lia. }
  unfold n_neginf, n_posinf, finite_sum, total_cost, fsum.
  rewrite (filter_perm _ _ _ H), (filter_perm (fun p => is_posinf (C (fst p) (snd p))) _ _ H), !F. repeat split; auto.
  rewrite (sumR_perm _ _ (Permutation_map (fun p => to_R (C (fst p) (snd p))) H)), map_map. reflexivity.
Qed.

Definition partner (l : list (nat * nat)) (j : nat) : nat :=
  match find (fun p => Nat.eqb (snd p) j) l with Some p => fst p | None => 0 end.
Lemma by_column n m l : m <= n -> complete_assignment n m l ->
  Permutation l (map (fun j => (partner l j, j)) (seq 0 m)) /\ (forall j, j < m -> partner l j < n) /\
  (forall i j, In (i, j) l -> partner l j = i).
Proof.
  intros Hmn (Len & Hin & _ & ND). rewrite Nat.min_r in Len by auto.
  assert (U : forall i j, In (i, j) l -> partner l j = i).
  { intros i j Hij. unfold partner. destruct (find _ l) as [[i' j']|] eqn:E.
    - destruct (find_some _ _ E) as [H1 H2]. apply Nat.eqb_eq in H2. simpl in *. subst j'.
      clear - ND H1 Hij. induction l as [|[a c] l IH]; simpl in *; [tauto|]. inversion ND; subst.
      destruct H1 as [H1|H1], Hij as [H|H]; try congruence.
      + injection H1 as -> ->. elim H2. apply (in_map snd) in H. exact H.
      + injection H as -> ->. elim H2. apply (in_map snd) in H1. exact H1.
      + auto.
    - pose proof (find_none _ _ E _ Hij) as HX. simpl in HX. rewrite Nat.eqb_refl in HX. discriminate. }
  assert (S : forall j, j < m -> In j (map snd l)).
  { intros j Hj. apply (NoDup_length_incl ND (l' := seq 0 m)).
    - rewrite map_length, seq_length. lia.
    - intros x Hx. apply in_map_iff in Hx. destruct Hx as ([a c] & <- & Hx). apply in_seq. simpl. destruct (Hin a c Hx). lia.
    - apply in_seq. lia. }
  split; [|split; auto].
  - apply NoDup_Permutation.
    + apply (NoDup_map_inv snd). exact ND.
    + apply (NoDup_map_inv snd). rewrite map_map. simpl. rewrite map_id. apply seq_NoDup.
    + intros [i j]. rewrite in_map_iff. split.
      * intros H. exists j. rewrite (U i j H). split; auto. apply in_seq. destruct (Hin i j H). lia.
      * intros (j' & E & Hj'). injection E as <- <-. apply in_seq in Hj'. specialize (S j' ltac:(lia)). apply in_map_iff in S.
        destruct S as ([a c] & E & H). simpl in E. subst c. rewrite (U a j' H). exact H.
  - intros j Hj. specialize (S j Hj). apply in_map_iff in S. destruct S as ([a c] & E & H). simpl in E. subst c.
    rewrite (U a j H). apply (Hin a j H).
Qed.

Definition swap (p : nat * nat) : nat * nat := (snd p, fst p).
Lemma swap_complete n m l : complete_assignment n m l -> complete_assignment m n (map swap l).
Proof.
  intros (Len & Hin & N1 & N2). split; [rewrite map_length, Nat.min_comm; auto|]. rewrite !map_map. simpl. split; [|auto].
  intros i j H. apply in_map_iff in H. destruct H as ([a c] & E & H). injection E as <- <-. destruct (Hin a c H). auto.
Qed.
Lemma by_row n m l : n <= m -> complete_assignment n m l ->
  exists r, Permutation l (map (fun i => (i, r i)) (seq 0 n)) /\ (forall i, i < n -> r i < m) /\ (forall i j, In (i, j) l -> r i = j).
Proof.
  intros H C. destruct (by_column m n (map swap l) H (swap_complete _ _ _ C)) as (P & B & U). exists (partner (map swap l)). split; [|split; auto].
  - apply (Permutation_map swap) in P. rewrite !map_map in P. unfold swap in P at 1 2 3. simpl in P.
    rewrite (map_ext _ (fun p => p)) in P by (intros [a c]; reflexivity). rewrite map_id in P. exact P.
  - intros i j Hij. apply (U j i). apply (in_map swap) in Hij. exact Hij.
Qed.

Lemma NoDup_map_in {A B} (f : A -> B) l : (forall x y, In x l -> In y l -> f x = f y -> x = y) -> NoDup l -> NoDup (map f l).
Proof.
  induction l as [|x l IH]; intros H N; simpl; [constructor|]. inversion N; subst. constructor.
  - intros E. apply in_map_iff in E. destruct E as (y & E & Hy). rewrite <- (H y x) in H2; simpl; auto.
  - apply IH; auto. intros; apply H; simpl; auto.
Qed.
Lemma complete_rows n m s : n <= m -> (forall i, i < n -> s i < m) -> (forall i i', i < n -> i' < n -> s i = s i' -> i = i') ->
  complete_assignment n m (map (fun i => (i, s i)) (seq 0 n)).
Proof.
  intros H Hb Hj. split; [rewrite map_length, seq_length; lia|]. rewrite !map_map. simpl. rewrite map_id. split; [|split; [apply seq_NoDup|]].
  - intros i j Hij. apply in_map_iff in Hij. destruct Hij as (i' & E & Hi). injection E as <- <-. apply in_seq in Hi. split; [lia|]. apply Hb. lia.
  - apply NoDup_map_in; [|apply seq_NoDup]. intros x y Hx Hy. apply in_seq in Hx, Hy. apply Hj; lia.
Qed.

(** ** Dominance *)
Lemma xlt_irrefl a : ~ xlt a a. Proof. intros [H1 H2]. congruence. Qed.
Lemma dominated b sp n_ref n_est loss args out outs perm n (f g : nat -> nat * nat) : lsa_contract sp ->
  solve_permutation b sp n_ref n_est loss args = Ok (out, outs, perm) ->
  complete_assignment n_ref n_est (map f (seq 0 n)) ->
  Permutation (matching n_ref n_est perm) (map g (seq 0 n)) ->
  (forall i, i < n -> f i <> g i -> xlt (at_pair loss (f i)) (at_pair loss (g i))) ->
  forall i, i < n -> f i = g i.
Proof.
  intros Hsp H Cf Pg Hd. destruct (solved_cases b sp n_ref n_est loss args out outs perm Hsp H) as (C & HN & HC).
  destruct (listed f loss n _ (Permutation_refl _)) as (F1 & F2 & F3). destruct (listed g loss n _ Pg) as (G1 & G2 & G3).
  assert (Bf : forall i, i < n -> fst (f i) < n_ref /\ snd (f i) < n_est).
  { intros i Hi. destruct Cf as (_ & Hin & _). apply Hin. apply in_map_iff. exists i. split; [destruct (f i); auto|apply in_seq; lia]. }
  assert (Bg : forall i, i < n -> fst (g i) < n_ref /\ snd (g i) < n_est).
  { intros i Hi. destruct C as (_ & Hin & _). apply Hin. apply (Permutation_in _ (Permutation_sym Pg)). apply in_map_iff.
    exists i. split; [destruct (g i); auto|apply in_seq; lia]. }
  assert (Dec : forall p q : nat * nat, {p = q} + {p <> q}) by (decide equality; apply Nat.eq_dec).
  assert (Hle : forall i, In i (seq 0 n) -> xle (at_pair loss (f i)) (at_pair loss (g i))).
  { intros i Hi. apply in_seq in Hi. destruct (Dec (f i) (g i)) as [E|E].
    - rewrite E. pose proof (Bg i ltac:(lia)) as [B1 B2]. specialize (HN _ _ B1 B2). unfold at_pair, xle, xleb.
      destruct (loss (fst (g i)) (snd (g i))); auto; try congruence. destruct Rle_dec; auto. lra.
    - apply Hd; auto. lia. }
  assert (Heq : forall i, In i (seq 0 n) -> at_pair loss (f i) = at_pair loss (g i)).
  { destruct HC as [[HP HC]|[HP HC]].
    - apply place_neg; auto.
      + intros i Hi. apply in_seq in Hi. apply HP; apply Bg; lia.
      + specialize (HC _ Cf). rewrite F1, F3, G1, G3 in HC. exact HC.
    - apply place_pos; auto.
      + intros i Hi. apply in_seq in Hi. apply HP; apply Bf; lia.
      + specialize (HC _ Cf). rewrite F2, F3, G2, G3 in HC. exact HC. }
  intros i Hi. destruct (Dec (f i) (g i)) as [E|E]; auto. exfalso. specialize (Hd i Hi E). rewrite (Heq i) in Hd by (apply in_seq; lia).
  exact (xlt_irrefl _ Hd).
Qed.

(** every reference has its estimate *)
Theorem recover_rows b sp n_ref n_est loss args out outs perm s : lsa_contract sp ->
  solve_permutation b sp n_ref n_est loss args = Ok (out, outs, perm) -> n_ref <= n_est ->
  (forall i, i < n_ref -> s i < n_est) -> (forall i i', i < n_ref -> i' < n_ref -> s i = s i' -> i = i') ->
  (forall i j, i < n_ref -> j < n_est -> j <> s i -> xlt (loss i (s i)) (loss i j)) ->
  perm = map s (seq 0 n_ref).
Proof.
  intros Hsp H Hn Hb Hj Hd. destruct (solve_perm_outputs sp Hsp b n_ref n_est loss args out outs perm H) as (C & Lp & _).
  rewrite Nat.min_l in Lp by auto.
  assert (M : matching n_ref n_est perm = map (fun i => (i, nth i perm 0)) (seq 0 n_ref)).
  { unfold matching, pair_at. rewrite Nat.min_l by auto. apply map_ext. intros i. rewrite (proj2 (Nat.leb_le _ _) Hn). reflexivity. }
  assert (E : forall i, i < n_ref -> (i, s i) = (i, nth i perm 0)).
  { apply (dominated b sp n_ref n_est loss args out outs perm n_ref (fun i => (i, s i)) (fun i => (i, nth i perm 0))); auto.
    - apply complete_rows; auto.
    - rewrite M. apply Permutation_refl.
    - intros i Hi Hne. unfold at_pair. simpl.
      assert (B : nth i perm 0 < n_est).
      { destruct C as (_ & Hin & _). apply (Hin i (nth i perm 0)). rewrite M. apply in_map_iff. exists i. split; auto. apply in_seq. lia. }
      apply Hd; [exact Hi|exact B|]. intros E. apply Hne. rewrite E. reflexivity. }
  apply (nth_ext _ _ 0 (s 0)); [rewrite map_length, seq_length; auto|]. intros i Hi. rewrite map_nth, seq_nth by lia.
  specialize (E i ltac:(lia)). injection E as E. rewrite Nat.add_0_l. congruence.
Qed.

(** every estimate has its reference *)
Theorem recover_cols b sp n_ref n_est loss args out outs perm s : lsa_contract sp ->
  solve_permutation b sp n_ref n_est loss args = Ok (out, outs, perm) -> n_est <= n_ref ->
  (forall j, j < n_est -> s j < n_ref) -> (forall j j', j < n_est -> j' < n_est -> s j = s j' -> j = j') ->
  (forall i j, i < n_ref -> j < n_est -> i <> s j -> xlt (loss (s j) j) (loss i j)) ->
  forall i j, In (i, j) (matching n_ref n_est perm) -> i = s j.
Proof.
  intros Hsp H Hn Hb Hj Hd. destruct (solve_perm_outputs sp Hsp b n_ref n_est loss args out outs perm H) as (C & _).
  destruct (by_column n_ref n_est _ Hn C) as (P & B & U).
  assert (E : forall j, j < n_est -> (s j, j) = (partner (matching n_ref n_est perm) j, j)).
  { apply (dominated b sp n_ref n_est loss args out outs perm n_est (fun j => (s j, j)) (fun j => (partner (matching n_ref n_est perm) j, j))); auto.
    - pose proof (swap_complete _ _ _ (complete_rows n_est n_ref s Hn Hb Hj)) as X. rewrite map_map in X. exact X.
    - intros j Hj' Hne. unfold at_pair. simpl. apply Hd; auto. }
  intros i j Hij. destruct C as (_ & Hin & _). destruct (Hin i j Hij) as [_ Hj']. specialize (E j Hj'). injection E as E.
  rewrite E. symmetry. apply U. exact Hij.
Qed.

(** ** References without common part *)
Definition apart (L M : nat) (x x' : list R) : Prop := forall k k', k < L -> k' < L -> dot M (delayed x k) (delayed x' k') = 0%R.
Lemma bessel2 M (y p p' : nat -> R) q q' : dot M p p' = 0%R -> dot M y p = q -> dot M y p' = q' -> (energy M p <= q)%R -> (energy M p' <= q')%R ->
  (q + q' <= energy M y)%R.
Proof.
  intros H0 H1 H2 H3 H4. pose proof (energy_nonneg M (fun t => (y t - p t) - p' t)%R) as E.
  rewrite (energy_sub M (fun t => (y t - p t)%R) p'), energy_sub, dot_sub_l, H1, H2, H0 in E. lra.
Qed.
Lemma apart_sum L M x x' lam y q q' : (0 <= lam)%R -> apart L M x x' -> length y <= M ->
  lsq L M (delays (unit_of x)) lam (smp (unit_of y)) q -> lsq L M (delays (unit_of x')) lam (smp (unit_of y)) q' -> (q + q' <= 1)%R.
Proof.
  intros Hl HA HM (h & N & ->) (h' & N' & ->).
  apply Rle_trans with (energy M (smp (unit_of y))); [|apply energy_unit_le1; auto].
  assert (P : forall K a g, (0 <= lam * sq K g)%R /\ qval K M a (smp (unit_of y)) g = dot M (smp (unit_of y)) (comb K a g)).
  { intros K a g. split; [|apply qval_dot]. apply Rmult_le_pos; auto. apply Rsum_nonneg. intros i _. apply Rle_0_sqr. }
  apply (bessel2 M _ (comb L (delays (unit_of x)) h) (comb L (delays (unit_of x')) h')).
  - rewrite dot_comb_r, Rsum_zero; auto. intros k Hk. rewrite dot_comb_l, Rsum_zero; [ring|]. intros k' Hk'.
    rewrite (dot_ext M (delays (unit_of x) k') (fun t => gain x * delayed x k' t)%R (delays (unit_of x') k) (fun t => gain x' * delayed x' k t)%R).
    + rewrite dot_scal_l, dot_scal_r, (HA k' k) by auto. ring.
    + intros t _. apply delayed_unit.
    + intros t _. apply delayed_unit.
  - symmetry. apply P.
  - symmetry. apply P.
  - rewrite (q_energy _ _ _ _ _ _ N). pose proof (proj1 (P L (delays (unit_of x)) h)). lra.
  - rewrite (q_energy _ _ _ _ _ _ N'). pose proof (proj1 (P L (delays (unit_of x')) h')). lra.
Qed.

Lemma coh_apart b o ref est m c c' d x x' y M : wf ref -> wf est -> use_cg_iter o = None -> (0 <= loadv (load_diag o))%R ->
  1 <= filter_length o <= Nat.max (a_len ref) (a_len est) -> (filter_length o = 1 -> a_len ref = a_len est) ->
  a_len ref + filter_length o - 1 <= M -> a_len est <= M ->
  has_chan ref c x -> has_chan ref c' x' -> has_chan est d y -> apart (filter_length o) M (pre (zero_mean o) x) (pre (zero_mean o) x') ->
  sdr_coh b o ref est = Ok m ->
  exists q q', mat_of m c d = Fin q /\ mat_of m c' d = Fin q' /\ (0 <= q <= 1)%R /\ (0 <= q' <= 1)%R /\ (q + q' <= 1)%R.
Proof.
  intros Hwr Hwe Hcg Hld HL HL1 HM1 HM2 Hx Hx' Hy HA H.
  destruct (sdr_coh_unit_range b o ref est m c d x y) as (q & E & Q); auto; try lia.
  destruct (sdr_coh_unit_range b o ref est m c' d x' y) as (q' & E' & Q'); auto; try lia.
  exists q, q'. repeat (split; auto).
  destruct (has_chan_pchan (zero_mean o) ref c x Hwr Hx) as [Px Lx]. destruct (has_chan_pchan (zero_mean o) ref c' x' Hwr Hx') as [Px' Lx'].
  destruct (has_chan_pchan (zero_mean o) est d y Hwe Hy) as [Py Ly].
  destruct (Nat.eq_dec (filter_length o) 1) as [E1|N1].
  - rewrite (sdr_entry1 b o ref est m c d _ _ Hwr Hwe H E1 (HL1 E1) Px Py) in E. injection E as <-.
    rewrite (sdr_entry1 b o ref est m c' d _ _ Hwr Hwe H E1 (HL1 E1) Px' Py) in E'. injection E' as <-.
    rewrite E1 in HA, HM1. set (ux := unit_of (pre (zero_mean o) x)) in *. set (ux' := unit_of (pre (zero_mean o) x')) in *.
    set (uy := unit_of (pre (zero_mean o) y)) in *. set (T := a_len ref) in *.
    assert (D0 : dot T (smp ux) (smp ux') = 0%R).
    { pose proof (HA 0 0 ltac:(lia) ltac:(lia)) as A0.
      assert (A1 : dot T (smp (pre (zero_mean o) x)) (smp (pre (zero_mean o) x')) = 0%R).
      { rewrite <- A0. unfold dot. rewrite (Rsum_trunc M T); [|lia|].
        - apply Rsum_ext. intros t _. unfold delayed. simpl. rewrite Nat.sub_0_r. reflexivity.
        - intros t Ht Ht2. unfold delayed. simpl. rewrite Nat.sub_0_r. unfold smp at 1. rewrite nth_overflow; [ring|]. rewrite length_pre. lia. }
      unfold ux, ux'. rewrite (dot_ext T _ (fun t => gain (pre (zero_mean o) x) * smp (pre (zero_mean o) x) t)%R _ (fun t => gain (pre (zero_mean o) x') * smp (pre (zero_mean o) x') t)%R)
        by (intros; apply smp_unit_of).
      rewrite dot_scal_l, dot_scal_r, A1. ring. }
    assert (B : forall v, length v = T -> forall w, (energy T (fun t => dot T (smp (unit_of v)) w * smp (unit_of v) t) <= dot T (smp (unit_of v)) w ^ 2)%R).
    { intros v Hv w. rewrite energy_scal. pose proof (energy_unit_le1 T v ltac:(lia)). pose proof (energy_nonneg T (smp (unit_of v))).
      pose proof (pow2_ge_0 (dot T (smp (unit_of v)) w)). rewrite <- (Rmult_1_r (dot T (smp (unit_of v)) w ^ 2)) at 2. apply Rmult_le_compat_l; auto. }
    apply Rle_trans with (energy T (smp uy)); [|apply energy_unit_le1; rewrite length_pre; lia].
    apply (bessel2 T _ (fun t => dot T (smp ux) (smp uy) * smp ux t)%R (fun t => dot T (smp ux') (smp uy) * smp ux' t)%R).
    + rewrite dot_scal_l, dot_scal_r, D0. ring.
    + rewrite dot_scal_r, (dot_comm T (smp uy)). ring.
    + rewrite dot_scal_r, (dot_comm T (smp uy)). ring.
    + apply B. rewrite length_pre. auto.
    + apply B. rewrite length_pre. auto.
  - destruct (sdr_entry_loaded b o ref est m c d x y M) as (q1 & F & S1); auto; try lia.
    destruct (sdr_entry_loaded b o ref est m c' d x' y M) as (q2 & F' & S2); auto; try lia.
    rewrite E in F. injection F as <-. rewrite E' in F'. injection F' as <-.
    apply (apart_sum (filter_length o) M (pre (zero_mean o) x) (pre (zero_mean o) x') (loadv (load_diag o)) (pre (zero_mean o) y)); auto.
    rewrite length_pre. lia.
Qed.

(** ** 0 dB is the coherence one half *)
Lemma neg_sdr_half cd : xle (Fin 0) (coherence_to_neg_sdr cd (Fin (1 / 2))).
Proof.
  assert (E : coherence_to_neg_sdr None (Fin (1 / 2)) = Fin 0).
  { rewrite neg_sdr_fin by lra. f_equal. unfold gdb. replace ((1 - 1 / 2) / (1 / 2))%R with 1%R by field. unfold log10. rewrite ln_1. unfold Rdiv. ring. }
  destruct cd as [D|].
  - destruct (Rlt_dec D 0) as [HD|HD].
    + rewrite clamp_negative by (auto; discriminate). unfold xle, xleb. destruct Rle_dec; auto. lra.
    + rewrite clamp_saturates by (try lra; discriminate). rewrite E. unfold xmin, xmax, xleb, xle, xleb.
      repeat (destruct Rle_dec; auto); try lra.
  - rewrite E. unfold xle, xleb. destruct Rle_dec; auto. lra.
Qed.
Lemma xle_trans a c d : xle a c -> xle c d -> xle a d.
Proof.
  unfold xle, xleb. destruct a, c, d; auto; try discriminate. destruct Rle_dec; [|discriminate]. destruct Rle_dec; [|discriminate].
  destruct Rle_dec; auto. lra.
Qed.
Lemma xlt_le_trans a c d : xlt a c -> xle c d -> xlt a d.
Proof.
  intros [H1 H2] H. split; [exact (xle_trans a c d H1 H)|]. destruct (xleb d a) eqn:E; auto.
  pose proof (xle_trans c d a H E) as X. unfold xle in X. congruence.
Qed.
Lemma half_split cd q q' : (0 <= q)%R -> (0 <= q')%R -> (q + q' <= 1)%R -> xlt (coherence_to_neg_sdr cd (Fin q)) (Fin 0) ->
  xlt (coherence_to_neg_sdr cd (Fin q)) (coherence_to_neg_sdr cd (Fin q')).
Proof.
  intros Hq Hq' Hs H. destruct (Rle_dec q (1 / 2)) as [L|L].
  - exfalso. destruct H as [_ H]. pose proof (xle_trans _ _ _ (neg_sdr_half cd) (neg_sdr_mono cd q (1 / 2) Hq L ltac:(lra))) as X.
    unfold xle in X. congruence.
  - apply (xlt_le_trans _ _ _ H). apply (xle_trans _ _ _ (neg_sdr_half cd)). apply neg_sdr_mono; lra.
Qed.

(** ** The metrics *)
Lemma sdr_solved b sp o cs ref est vals perm : sdr b sp o cs ref est = Ok (vals, perm) ->
  exists loss v outs, pairwise_sdr_loss b o est ref = Ok loss /\ solve_permutation b sp (n_chan ref) (n_chan est) (mat_of loss) [] = Ok (v, outs, perm).
Proof.
  unfold sdr. destruct (pairwise_sdr_loss b o est ref) as [loss|]; [|discriminate]. cbn [bind].
  destruct (solve_permutation _ _ _ _ _ _) as [[[v outs] p]|] eqn:E; [|discriminate]. cbn [bind]. intros H. injection H as _ <-.
  exists loss, v, outs. auto.
Qed.
Theorem sdr_recover_rows b sp o cs ref est loss vals perm s : lsa_contract sp ->
  sdr b sp o cs ref est = Ok (vals, perm) -> pairwise_sdr_loss b o est ref = Ok loss -> n_chan ref <= n_chan est ->
  (forall i, i < n_chan ref -> s i < n_chan est) -> (forall i i', i < n_chan ref -> i' < n_chan ref -> s i = s i' -> i = i') ->
  (forall i j, i < n_chan ref -> j < n_chan est -> j <> s i -> xlt (mat_of loss i (s i)) (mat_of loss i j)) ->
  perm = map s (seq 0 (n_chan ref)).
Proof.
  intros Hsp H HL. destruct (sdr_solved b sp o cs ref est vals perm H) as (l & v & outs & E & S). rewrite HL in E. injection E as <-.
  exact (recover_rows b sp _ _ _ _ _ _ _ s Hsp S).
Qed.
Theorem sdr_recover_cols b sp o cs ref est loss vals perm s : lsa_contract sp ->
  sdr b sp o cs ref est = Ok (vals, perm) -> pairwise_sdr_loss b o est ref = Ok loss -> n_chan est <= n_chan ref ->
  (forall j, j < n_chan est -> s j < n_chan ref) -> (forall j j', j < n_chan est -> j' < n_chan est -> s j = s j' -> j = j') ->
  (forall i j, i < n_chan ref -> j < n_chan est -> i <> s j -> xlt (mat_of loss (s j) j) (mat_of loss i j)) ->
  forall i j, In (i, j) (matching (n_chan ref) (n_chan est) perm) -> i = s j.
Proof.
  intros Hsp H HL. destruct (sdr_solved b sp o cs ref est vals perm H) as (l & v & outs & E & S). rewrite HL in E. injection E as <-.
  exact (recover_cols b sp _ _ _ _ _ _ _ s Hsp S).
Qed.

Theorem sdr_uncorrelated b sp o cs ref est loss vals perm s M xs ys : lsa_contract sp -> wf ref -> wf est ->
  use_cg_iter o = None -> (0 <= loadv (load_diag o))%R ->
  1 <= filter_length o <= Nat.max (a_len ref) (a_len est) -> (filter_length o = 1 -> a_len ref = a_len est) ->
  a_len ref + filter_length o - 1 <= M -> a_len est <= M -> has_chans ref xs -> has_chans est ys ->
  (forall c c', c < n_chan ref -> c' < n_chan ref -> c <> c' -> apart (filter_length o) M (pre (zero_mean o) (xs c)) (pre (zero_mean o) (xs c'))) ->
  sdr b sp o cs ref est = Ok (vals, perm) -> pairwise_sdr_loss b o est ref = Ok loss -> n_chan est <= n_chan ref ->
  (forall j, j < n_chan est -> s j < n_chan ref) -> (forall j j', j < n_chan est -> j' < n_chan est -> s j = s j' -> j = j') ->
  (forall j, j < n_chan est -> xlt (mat_of loss (s j) j) (Fin 0)) ->
  forall i j, In (i, j) (matching (n_chan ref) (n_chan est) perm) -> i = s j.
Proof.
  intros Hsp Hwr Hwe Hcg Hld HL HL1 HM1 HM2 Hx Hy HA H Hl Hn Hb Hj Hp.
  apply (sdr_recover_cols b sp o cs ref est loss vals perm s Hsp H Hl Hn Hb Hj).
  intros i j Hi Hjj Hne. destruct (loss_inv _ _ _ _ _ Hl) as (m & Em & El). pose proof (Hb j Hjj) as Hsj.
  destruct (coh_apart b o ref est m (s j) i j (xs (s j)) (xs i) (ys j) M) as (q & q' & E & E' & Q & Q' & S); auto; try (apply has_chans_at; auto).
  specialize (Hp j Hjj). rewrite El, !to_db_entry in *. rewrite E in *. rewrite E'. apply half_split; auto; lra.
Qed.

(** an estimate prefers the same reference by SIR as by SDR *)
Theorem bss_recover_cols b sp o ref est m sar xs ys out perm s : lsa_contract sp -> wf ref -> wf est ->
  use_cg_iter o = None -> (0 <= loadv (load_diag o))%R -> clamp_db o = None ->
  2 <= filter_length o \/ (filter_length o = 1 /\ a_len ref = a_len est /\ loadv (load_diag o) = 0%R) ->
  has_chans ref xs -> has_chans est ys -> sq_cos b o ref est = Ok (m, sar) ->
  bss_eval_sources b sp o ref est = Ok (out, perm) -> n_chan est <= n_chan ref ->
  (forall j, j < n_chan est -> s j < n_chan ref) -> (forall j j', j < n_chan est -> j' < n_chan est -> s j = s j' -> j = j') ->
  (forall i j, i < n_chan ref -> j < n_chan est -> i <> s j -> xlt (mat_of (to_db o m) (s j) j) (mat_of (to_db o m) i j)) ->
  forall i j, In (i, j) (matching (n_chan ref) (n_chan est) perm) -> i = s j.
Proof.
  intros Hsp Hwr Hwe Hcg Hld HD HL Hx Hy Hm H Hn Hb Hj Hd.
  assert (E : bss_mats o (m, sar) = (fun i j => coherence_to_neg_sdr None (mat_of m i j), fun i j => coherence_to_neg_sdr None (xdiv (mat_of m i j) (nth j sar NaN)),
     fun i j => coherence_to_neg_sdr None (nth j sar NaN))).
  { unfold bss_mats, base_metrics. rewrite HD. reflexivity. }
  unfold bss_eval_sources in H. rewrite Hm in H. cbn [bind] in H. rewrite E in H. cbv beta iota in H.
  destruct (solve_permutation _ _ _ _ _ _) as [[[v outs] p]|] eqn:S; [|discriminate]. cbn [bind] in H. injection H as _ <-.
  apply (recover_cols b sp _ _ _ _ _ _ _ s Hsp S Hn Hb Hj).
  intros i j Hi Hjj Hne. pose proof (Hb j Hjj) as Hsj. specialize (Hd i j Hi Hjj Hne). rewrite !to_db_entry, HD in Hd.
  destruct (sdr_le_sar_coh b o ref est m sar i j (ys j) xs) as (q' & a & E' & Ea & Q' & _); auto. { apply has_chans_at; auto. }
  destruct (sdr_le_sar_coh b o ref est m sar (s j) j (ys j) xs) as (q & a2 & E2 & Ea2 & Q & A1); auto. { apply has_chans_at; auto. }
  rewrite Ea in Ea2. injection Ea2 as <-. rewrite E2, E' in Hd. rewrite E2, E', Ea.
  assert (Hlt : (q' < q)%R).
  { destruct (Rlt_dec q' q) as [|N]; auto. exfalso. destruct Hd as [_ Hd].
    pose proof (neg_sdr_mono None q q' ltac:(lra) ltac:(lra) ltac:(lra)) as X. unfold xle in X. congruence. }
  assert (Pa : (0 < a)%R) by lra. rewrite !xdiv_fin by lra. pose proof (Rinv_0_lt_compat a Pa) as Ia.
  apply neg_sdr_decreasing.
  - apply Rmult_le_pos; lra.
  - apply Rmult_lt_compat_r; auto.
  - apply Rmult_le_reg_r with a; auto. unfold Rdiv. rewrite Rmult_assoc, Rinv_l by lra. lra.
Qed.
