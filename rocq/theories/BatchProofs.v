(** * Proofs about the batched, in-place version *)
From Coq Require Import Reals FunctionalExtensionality.
From Verif Require Import Prelude ExtReal Hungarian HungarianTop Helpers Batch.
Local Open Scope nat_scope.

(** [h'] extends [h]: every buffer of [h] is unchanged. *)
Definition preserves (h h' : heap) : Prop :=
  next h <= next h' /\ forall a, a < next h -> buf h' a = buf h a.
Lemma preserves_refl h : preserves h h.
Proof. split; auto. Qed.
Lemma preserves_trans h1 h2 h3 : preserves h1 h2 -> preserves h2 h3 -> preserves h1 h3.
Proof. intros [A B] [C D]. split; [lia|]. intros a Ha. rewrite D by lia. auto. Qed.

Lemma vcopy_spec h v : let '(vc, h') := vcopy h v in
  vc = whole (next h) /\ next h' = S (next h) /\ preserves h h' /\ vread h' vc = vread h v.
Proof.
  unfold vcopy, alloc. split; auto. split; auto. split.
  - split; simpl; [lia|]. intros a Ha. apply upd_neq. lia.
  - apply functional_extensionality; intros i. apply functional_extensionality; intros j.
    unfold vread at 1. simpl. rewrite upd_eq. reflexivity.
Qed.
Lemma vwrite_whole h a f : vread (vwrite h (whole a) f) (whole a) = f.
Proof.
  apply functional_extensionality; intros i. apply functional_extensionality; intros j.
  unfold vread, vwrite. simpl. rewrite upd_eq. reflexivity.
Qed.
Lemma vwrite_preserves h0 h v f : preserves h0 h -> next h0 <= vaddr v ->
  preserves h0 (vwrite h v f).
Proof.
  intros [A B] Hv. split; simpl; auto. intros a Ha. rewrite upd_neq by lia. auto.
Qed.
Lemma vread_preserves h h' v : preserves h h' -> vaddr v < next h -> vread h' v = vread h v.
Proof.
  intros [A B] Hv. apply functional_extensionality; intros i.
  apply functional_extensionality; intros j. unfold vread. rewrite B; auto.
Qed.

Lemma set_C_same {A} (st : @hungary A) : set_C st (hC st) = st.
Proof. destruct st; reflexivity. Qed.

Lemma run_h_spec h0 n m a : next h0 <= a -> forall fuel s h st,
  preserves h0 h -> (fun i j => to_R (vread h (whole a) i j)) = hC st ->
  fst (run_h n m fuel s h (whole a) st) = run R_ops n m fuel s st /\
  preserves h0 (snd (run_h n m fuel s h (whole a) st)).
Proof.
  intros Ha. induction fuel as [|fuel IH]; intros s h st Hp HC; destruct s as [s|]; simpl; auto.
  rewrite HC, set_C_same. destruct (do_step R_ops n m s st) as [[st' s']|e]; simpl; auto.
  apply IH.
  - apply vwrite_preserves; auto.
  - rewrite vwrite_whole. reflexivity.
Qed.

Lemma hungarian_h_spec fuel n m h v :
  fst (hungarian_h fuel n m h v) =
    linear_sum_assignment R_ops fuel n m (fun i j => to_R (vread h v i j)) /\
  preserves h (snd (hungarian_h fuel n m h v)).
Proof.
  unfold hungarian_h, linear_sum_assignment.
  set (v' := if m <? n then vtrans v else v).
  pose proof (vcopy_spec h v') as Hc. destruct (vcopy h v') as [vc h'].
  destruct Hc as (-> & Hn & Hp & Hr). rewrite Hr.
  set (st := hungary_init (fun i j => to_R (vread h v' i j))).
  set (s := if _ || _ then None else _).
  destruct (run_h_spec h (if m <? n then m else n) (if m <? n then n else m) (next h) (le_n _)
    fuel s h' st Hp) as [E1 E2].
  { rewrite Hr. reflexivity. }
  destruct (run_h _ _ fuel s h' (whole (next h)) st) as [r h''] eqn:E. simpl in E1, E2. subst r.
  simpl. split; auto.
  replace st with (hungary_init (if m <? n then fun i j => to_R (vread h v j i) else fun i j => to_R (vread h v i j))).
  { reflexivity. }
  unfold st, v'. destruct (m <? n); reflexivity.
Qed.

Lemma lsa_h_spec b sp n m h v :
  fst (lsa_h b sp n m h v) = lsa b sp n m (vread h v) /\ preserves h (snd (lsa_h b sp n m h v)).
Proof.
  unfold lsa_h, lsa. destruct (existsb2 n m _); simpl; [split; auto using preserves_refl|].
  destruct b; simpl; [split; auto using preserves_refl|].
  apply hungarian_h_spec.
Qed.

Lemma lsa_with_inf_h_spec b sp n m h v :
  fst (lsa_with_inf_h b sp n m h v) = lsa_with_inf b sp n m (vread h v) /\
  preserves h (snd (lsa_with_inf_h b sp n m h v)).
Proof.
  unfold lsa_with_inf_h, lsa_with_inf.
  destruct (match b with NumPy => false | Torch => n * m =? 0 end); [simpl; auto using preserves_refl|].
  destruct (existsb2 n m (fun i j => is_neginf (vread h v i j))) eqn:Emin;
  destruct (existsb2 n m (fun i j => is_posinf (vread h v i j))) eqn:Emax;
    cbn [andb orb]; [simpl; auto using preserves_refl| | |apply lsa_h_spec].
  all: pose proof (vcopy_spec h v) as Hc; destruct (vcopy h v) as [vc h'];
    destruct Hc as (-> & Hn & Hp & Hr); rewrite Hr;
    set (vals := filter _ _);
    destruct (values_min b vals) as [mi|e]; cbn [bind]; [|simpl; auto];
    destruct (values_max b vals) as [ma|e]; cbn [bind]; [|simpl; auto].
  all: match goal with |- context [vwrite ?h ?v ?f] => set (ff := f) end.
  all: destruct (lsa_h_spec b sp n m (vwrite h' (whole (next h)) ff) (whole (next h))) as [E1 E2];
    rewrite vwrite_whole in E1; split; [exact E1|];
    eapply preserves_trans; [|exact E2]; apply vwrite_preserves; auto; simpl; lia.
Qed.

(** Batch item [m] of buffer [a]. *)
Definition item_of (h : heap) (a : nat) (m : index) : nat -> nat -> xr :=
  fun i j => buf h a (m ++ [i; j]).

Lemma batch_body_spec b sp n_ref n_est loss args m o h h0 :
  preserves h0 h -> loss < next h0 -> (forall a, In a args -> a < next h0) ->
  preserves h0 (snd (batch_body b sp n_ref n_est loss args m o h)) /\
  fst (batch_body b sp n_ref n_est loss args m o h) =
    (do r <- solve_permutation b sp n_ref n_est (item_of h0 loss m) (map (fun a => item_of h0 a m) args);
     let '(lo, ao, p) := r in
     Ok (mkOuts (updi (o_loss o) m lo)
          (map (fun oa => updi (fst oa) m (snd oa)) (combine (o_args o) ao))
          (updi (o_perm o) m p))).
Proof.
  intros Hp Hl Ha. unfold batch_body.
  set (it := bitem (n_est <? n_ref) m).
  set (n := if n_est <? n_ref then n_est else n_ref).
  set (mm := if n_est <? n_ref then n_ref else n_est).
  assert (Hit : forall a h', preserves h0 h' -> a < next h0 ->
    vread h' (it a) = (if n_est <? n_ref then fun i j => item_of h0 a m j i else item_of h0 a m)).
  { intros a h' Hp' Ha'. rewrite (vread_preserves h0 h') by (auto; unfold it, bitem; destruct (n_est <? n_ref); auto).
    unfold it, bitem. destruct (n_est <? n_ref); reflexivity. }
  destruct (lsa_with_inf_h_spec b sp n mm h (it loss)) as [E1 E2].
  destruct (lsa_with_inf_h b sp n mm h (it loss)) as [r h'] eqn:E. simpl in E1, E2. subst r.
  assert (Hp' : preserves h0 h') by (eapply preserves_trans; eauto).
  unfold solve_permutation. fold n mm.
  rewrite (Hit loss h Hp Hl).
  set (L := if n_est <? n_ref then _ else _).
  destruct (lsa_with_inf b sp n mm L) as [l|e]; simpl; [|split; auto].
  split; [auto|]. rewrite (Hit loss h' Hp' Hl). fold L. f_equal. f_equal.
  rewrite !map_map. clear E. generalize (o_args o) as oas.
  induction args as [|a args IH]; intros [|oa oas]; simpl; auto.
  rewrite IH by (intros; apply Ha; right; auto). f_equal.
  simpl in Hit. rewrite (Hit a h' Hp') by (apply Ha; left; auto). reflexivity.
Qed.

Lemma idx_eqb_refl k : idx_eqb k k = true.
Proof. unfold idx_eqb. destruct (list_eq_dec Nat.eq_dec k k); congruence. Qed.
Lemma idx_eqb_neq a b : a <> b -> idx_eqb a b = false.
Proof. unfold idx_eqb. destruct (list_eq_dec Nat.eq_dec a b); congruence. Qed.
Lemma updi_eq {A} (f : index -> A) k v : updi f k v k = v.
Proof. unfold updi. rewrite idx_eqb_refl. auto. Qed.
Lemma updi_neq {A} (f : index -> A) k v x : x <> k -> updi f k v x = f x.
Proof. intros. unfold updi. rewrite idx_eqb_neq; auto. Qed.

(** Row [m] of all the outputs. *)
Definition row_of (o : outs) (m : index) : list xr * list (list xr) * list nat :=
  (o_loss o m, map (fun f => f m) (o_args o), o_perm o m).

Lemma in_ndindex shape m : In m (ndindex shape) <-> Forall2 lt m shape.
Proof.
  revert m. induction shape as [|d r IH]; intros m; simpl.
  - split; [intros [<-|[]]; constructor|intros H; inversion H; auto].
  - rewrite in_flat_map. split.
    + intros (i & Hi & Hm). apply in_map_iff in Hm. destruct Hm as (m' & <- & Hm').
      apply in_seq in Hi. constructor; [lia|]. apply IH; auto.
    + intros H. inversion H; subst. exists x. rewrite in_seq. split; [lia|].
      apply in_map. apply IH. auto.
Qed.
Lemma NoDup_ndindex shape : NoDup (ndindex shape).
Proof.
  induction shape as [|d r IH]; simpl; [constructor; auto; constructor|].
  generalize 0 as s. induction d as [|d IHd]; intros s; simpl; [constructor|].
  assert (G : forall (l1 l2 : list index), NoDup l1 -> NoDup l2 ->
     (forall x, In x l1 -> ~ In x l2) -> NoDup (l1 ++ l2)).
  { induction l1; simpl; intros l2 H1 H2 H3; auto. inversion H1; subst. constructor.
    - rewrite in_app_iff. intros [Hq|Hq]; [auto|exact (H3 a (or_introl eq_refl) Hq)].
    - apply IHl1; auto. }
  apply G; auto.
  - apply FinFun.Injective_map_NoDup; auto. intros a b E. inversion E; auto.
  - intros x Hx Hy. apply in_map_iff in Hx. destruct Hx as (x' & <- & _).
    apply in_flat_map in Hy. destruct Hy as (i & Hi & Hy). apply in_map_iff in Hy.
    destruct Hy as (y' & E & _). inversion E; subst. apply in_seq in Hi. lia.
Qed.

Section Loop.
  Context (b : backend) (sp : scipy_lsa) (n_ref n_est : nat) (loss : nat) (args : list nat) (h0 : heap).
  Hypothesis Hloss : loss < next h0.
  Hypothesis Hargs : forall a, In a args -> a < next h0.
  Definition single (m : index) :=
    solve_permutation b sp n_ref n_est (item_of h0 loss m) (map (fun a => item_of h0 a m) args).

  Lemma single_args_len m lo ao p : single m = Ok (lo, ao, p) -> length ao = length args.
  Proof.
    unfold single, solve_permutation. destruct (lsa_with_inf _ _ _ _ _); simpl; [|discriminate].
    intros E. inversion E. rewrite !map_length. reflexivity.
  Qed.

  Lemma batch_loop_spec : forall ms o h, preserves h0 h -> NoDup ms -> length (o_args o) = length args ->
    preserves h0 (snd (batch_loop b sp n_ref n_est loss args ms o h)) /\
    match fst (batch_loop b sp n_ref n_est loss args ms o h) with
    | Ok o' => (forall m, In m ms -> single m = Ok (row_of o' m)) /\
               (forall m, ~ In m ms -> row_of o' m = row_of o m)
    | Raise e => exists m, In m ms /\ single m = Raise e
    end.
  Proof.
    induction ms as [|m ms IH]; intros o h Hp Hnd Hlen; simpl.
    - split; auto. split; [intros m []|auto].
    - destruct (batch_body_spec b sp n_ref n_est loss args m o h h0 Hp Hloss Hargs) as [P1 E1].
      fold (single m) in E1.
      destruct (batch_body b sp n_ref n_est loss args m o h) as [r h'] eqn:Eb. simpl in P1, E1.
      destruct (single m) as [[[lo ao] p]|e] eqn:Es; simpl in E1; subst r.
      + set (o1 := mkOuts _ _ _).
        assert (Hal : length ao = length args) by (eapply single_args_len; eauto).
        assert (Hlen1 : length (o_args o1) = length args).
        { unfold o1; simpl. rewrite map_length, combine_length. lia. }
        inversion Hnd; subst.
        assert (Hrow : row_of o1 m = (lo, ao, p)).
        { unfold row_of, o1; simpl. rewrite !updi_eq. f_equal. f_equal.
          rewrite map_map. clear - Hlen Hal. revert ao Hal Hlen. generalize (o_args o) as oas.
          generalize (length args) as k. intros k oas. revert k.
          induction oas as [|x oas IH]; intros k [|a ao] H1 H2; simpl in *; try lia; auto.
          rewrite updi_eq. f_equal. apply (IH (length ao)); lia. }
        assert (Hoth : forall m', m' <> m -> row_of o1 m' = row_of o m').
        { intros m' Hm. unfold row_of, o1; simpl. rewrite !updi_neq by auto. f_equal. f_equal.
          rewrite map_map. clear - Hlen Hal Hm. revert ao Hal Hlen. generalize (o_args o) as oas.
          generalize (length args) as k. intros k oas. revert k.
          induction oas as [|x oas IH]; intros k [|a ao] H1 H2; simpl in *; try lia; auto.
          rewrite updi_neq by auto. f_equal. apply (IH (length ao)); lia. }
        destruct (IH o1 h' P1 H2 Hlen1) as [P2 R2]. split; auto.
        destruct (fst (batch_loop b sp n_ref n_est loss args ms o1 h')) as [o'|e].
        * destruct R2 as [Ra Rb]. split.
          -- intros m' [<-|Hm']; auto. rewrite Es. f_equal. rewrite Rb by auto. auto.
          -- intros m' Hm'. rewrite Rb by tauto. apply Hoth. intros ->. tauto.
        * destruct R2 as (m' & Hm' & E'). exists m'. auto.
      + split; auto. exists m. auto.
  Qed.

  Theorem batch_independent b_shape :
    let r := solve_permutation_batch b sp b_shape n_ref n_est loss args h0 in
    preserves h0 (snd r) /\
    (forall o, fst r = Ok o -> forall m, Forall2 lt m b_shape -> single m = Ok (row_of o m)) /\
    (forall e, fst r = Raise e -> exists m, Forall2 lt m b_shape /\ single m = Raise e) /\
    ((exists m e, Forall2 lt m b_shape /\ single m = Raise e) -> exists e, fst r = Raise e).
  Proof.
    intros r. unfold solve_permutation_batch in r.
    set (o0 := mkOuts _ _ _) in r.
    destruct (batch_loop_spec (ndindex b_shape) o0 h0 (preserves_refl h0) (NoDup_ndindex _)) as [P R].
    { unfold o0; simpl. apply map_length. }
    fold r in P, R. split; auto. destruct (fst r) as [o|e].
    - destruct R as [R _]. split; [|split].
      + intros o' Eo m Hm. inversion Eo; subst. apply R. apply in_ndindex; auto.
      + intros e Ee. discriminate.
      + intros (m & e & Hm & Ee). apply in_ndindex in Hm. rewrite (R m Hm) in Ee. discriminate.
    - split; [intros o Eo; discriminate|]. split; [|eauto].
      intros e' Ee. inversion Ee; subst. destruct R as (m & Hm & E). exists m. split; auto. apply in_ndindex; auto.
  Qed.
End Loop.
