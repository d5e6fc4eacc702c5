(** * Arrays with batch axes: what each operation of Tensor.v does to one batch item *)
From Coq Require Import Reals Lra.
From Coquelicot Require Import Complex.
From Verif Require Import Prelude ExtReal Slice Sums Fft FftProofs Helpers Linalg LinalgProofs Cgd Metrics Shapes ShapesProofs Tensor.
Local Open Scope nat_scope.

Definition inr (s : shape) (i : idx) : Prop := Forall2 lt i s.

(** ** Indices *)
Lemma inr_length s i : inr s i -> length i = length s.
Proof. intros H. induction H; cbn; auto. Qed.
Lemma inr_app c bs ci m : inr c ci -> inr bs m -> inr (c ++ bs) (ci ++ m).
Proof. intros; apply Forall2_app; auto. Qed.
Lemma inr_app_inv c bs i : inr (c ++ bs) i -> exists ci m, i = ci ++ m /\ inr c ci /\ inr bs m.
Proof.
  revert i. induction c as [|n c IH]; intros i H.
  - exists [], i. repeat split; auto. constructor.
  - inversion H; subst. destruct (IH _ H4) as (ci & m & -> & Hc & Hm).
    exists (x :: ci), m. repeat split; auto. constructor; auto.
Qed.
Lemma bix_app c bs ci m : length ci = length c -> bix (c ++ bs) (ci ++ m) = bix c ci ++ bix bs m.
Proof.
  revert ci. induction c as [|n c IH]; intros [|k ci]; cbn; intros H; try discriminate; auto.
  f_equal. apply IH. lia.
Qed.
Lemma bix_self s i : inr s i -> bix s i = i.
Proof.
  intros H. induction H as [|k n i s Hk H IH]; auto. cbn. rewrite IH.
  destruct (Nat.eqb_spec n 1); [subst; f_equal; lia|reflexivity].
Qed.
Definition sle (s t : shape) : Prop := bc s t = Some t.
Lemma bc1_le a n : bc1 a n = Some n <-> a = n \/ a = 1.
Proof.
  unfold bc1. destruct (Nat.eqb_spec a n); [subst; split; auto|].
  destruct (Nat.eqb_spec a 1); [split; auto|].
  destruct (Nat.eqb_spec n 1); split; try discriminate; intros H.
  - injection H; intros; lia.
  - destruct H; lia.
  - destruct H; lia.
Qed.
Lemma sle_cons a s n t : sle (a :: s) (n :: t) <-> (a = n \/ a = 1) /\ sle s t.
Proof.
  unfold sle. cbn. split.
  - destruct (bc1 a n) eqn:E1; [|discriminate]. destruct (bc s t) eqn:E2; [|discriminate].
    intros [= -> ->]. split; [apply bc1_le; exact E1|reflexivity].
  - intros [H1 H2]. apply bc1_le in H1. rewrite H1, H2. reflexivity.
Qed.
Lemma sle_nil_l t : sle [] t. Proof. reflexivity. Qed.
Lemma sle_nil_r a s : ~ sle (a :: s) [].
Proof. unfold sle. cbn. discriminate. Qed.
Lemma sle_refl s : sle s s. Proof. apply bc_refl. Qed.
Lemma sle_trans s t u : sle s t -> sle t u -> sle s u.
Proof.
  revert t u. induction s as [|a s IH]; intros t u H1 H2; [apply sle_nil_l|].
  destruct t as [|n t]; [elim (sle_nil_r _ _ H1)|]. destruct u as [|k u]; [elim (sle_nil_r _ _ H2)|].
  apply sle_cons in H1. apply sle_cons in H2. apply sle_cons. split; [lia|]. destruct H1, H2; eauto.
Qed.
Lemma bix_bix s t i : sle s t -> bix s (bix t i) = bix s i.
Proof.
  revert t i. induction s as [|a s IH]; intros t i H; [reflexivity|].
  destruct t as [|n t]; [elim (sle_nil_r _ _ H)|]. apply sle_cons in H. destruct H as [H1 H2].
  destruct i as [|k i]; [reflexivity|]. cbn. rewrite IH by auto. f_equal.
  destruct (Nat.eqb_spec a 1); auto. destruct (Nat.eqb_spec n 1); auto. lia.
Qed.
Lemma inr_bix s t i : sle s t -> inr t i -> inr s (bix s i).
Proof.
  revert t i. induction s as [|a s IH]; intros t i H Hi; [constructor|].
  destruct t as [|n t]; [elim (sle_nil_r _ _ H)|]. apply sle_cons in H. destruct H as [H1 H2].
  inversion Hi; subst. cbn. constructor; [|eapply IH; eauto].
  destruct (Nat.eqb_spec a 1); [lia|]. destruct H1; lia.
Qed.
Lemma bc_lub a b e : sle a e -> sle b e -> exists u, bc a b = Some u /\ sle u e /\ sle a u /\ sle b u.
Proof.
  revert b e. induction a as [|x a IH]; intros b e Ha Hb.
  - exists b. repeat split; auto using sle_nil_l, sle_refl.
  - destruct e as [|n e]; [elim (sle_nil_r _ _ Ha)|]. destruct b as [|y b].
    + exists (x :: a). repeat split; auto using sle_nil_l, sle_refl.
    + apply sle_cons in Ha. apply sle_cons in Hb. destruct Ha as [Ha1 Ha2], Hb as [Hb1 Hb2].
      destruct (IH b e Ha2 Hb2) as (u & E & Hu & H1 & H2).
      assert (Hc : exists c, bc1 x y = Some c /\ (c = n \/ c = 1) /\ (x = c \/ x = 1) /\ (y = c \/ y = 1)).
      { unfold bc1. destruct (Nat.eqb_spec x y); [exists x; repeat split; auto; lia|].
        destruct (Nat.eqb_spec x 1); [exists y; repeat split; auto; lia|].
        destruct (Nat.eqb_spec y 1); [exists x; repeat split; auto; lia|]. lia. }
      destruct Hc as (c & Ec & C1 & C2 & C3). exists (c :: u). cbn. rewrite Ec, E.
      repeat split; auto; apply sle_cons; auto.
Qed.
Lemma sle_app c c' bs e : length c = length c' -> sle c c' -> sle bs e -> sle (c ++ bs) (c' ++ e).
Proof.
  revert c'. induction c as [|a c IH]; intros [|n c'] HL H1 H2; cbn in *; try discriminate; auto.
  apply sle_cons in H1. apply sle_cons. destruct H1. split; auto.
Qed.
Lemma bc_app c c' bs bs' u v : length c = length c' -> bc c c' = Some u -> bc bs bs' = Some v ->
  bc (c ++ bs) (c' ++ bs') = Some (u ++ v).
Proof.
  revert c' u. induction c as [|a c IH]; intros [|n c'] u HL H1 H2; cbn in *; try discriminate.
  - injection H1 as <-. exact H2.
  - destruct (bc1 a n); [|discriminate]. destruct (bc c c') as [w|] eqn:E; [|discriminate]. injection H1 as <-.
    rewrite (IH c' w) by auto. reflexivity.
Qed.
Lemma put_app k v ci m : k < length ci -> put k v (ci ++ m) = put k v ci ++ m.
Proof.
  revert k. induction ci as [|a ci IH]; intros k H; cbn in *; [lia|]. destruct k; [reflexivity|].
  cbn. f_equal. apply IH. lia.
Qed.
Lemma inr_put k v c n ci : k < length c -> inr (put k n c) ci -> v < nth k c 0 -> inr c (put k v ci).
Proof.
  revert k ci. induction c as [|a c IH]; intros k ci Hk H Hv; cbn in Hk; [lia|].
  destruct k as [|k]; cbn in H; inversion H; subst; cbn in *; constructor; auto.
  apply IH; auto. lia.
Qed.
Lemma put_length k v c : length (put k v c) = length c.
Proof. revert k. induction c; intros [|k]; cbn; auto. Qed.
Lemma nth_inr k c ci : inr c ci -> k < length c -> nth k ci 0 < nth k c 0.
Proof.
  intros H. revert k. induction H as [|x n ci c Hx H IH]; intros k Hk; cbn in Hk; [lia|].
  destruct k; cbn; auto. apply IH. lia.
Qed.
Lemma nth_put k v c : k < length c -> nth k (put k v c) 0 = v.
Proof. revert k. induction c; intros [|k] H; cbn in *; try lia; auto. apply IHc. lia. Qed.
Lemma put_put k v w c : put k v (put k w c) = put k v c.
Proof. revert k. induction c; intros [|k]; cbn; auto. f_equal; auto. Qed.
Lemma in_indices s i : In i (indices s) <-> inr s i.
Proof.
  revert i. induction s as [|n s IH]; intros i; cbn.
  - split; [intros [<-|[]]; constructor|]. intros H; inversion H; auto.
  - rewrite in_flat_map. split.
    + intros (m & Hm & H). apply in_map_iff in H. destruct H as (k & <- & Hk). apply in_seq in Hk.
      constructor; [lia|]. apply IH; auto.
    + intros H. inversion H as [|k n' m s' Hk Hm]; subst. exists m. split; [apply IH; auto|].
      apply in_map_iff. exists k. split; auto. apply in_seq. lia.
Qed.
(** Every index of a broadcast array is met. *)
Lemma bix_surj s e i : sle s e -> inr s i -> Forall (lt 0) e -> exists m, inr e m /\ bix s m = i.
Proof.
  revert e i. induction s as [|a s IH]; intros e i H Hi He.
  - inversion Hi; subst. exists (repeat 0 (length e)). split; [|reflexivity].
    clear -He. induction He; cbn; constructor; auto.
  - destruct e as [|n e]; [elim (sle_nil_r _ _ H)|]. apply sle_cons in H. destruct H as [H1 H2].
    inversion Hi as [|k a' i' s' Hk Hi']; subst. inversion He; subst.
    destruct (IH e i' H2 Hi') as (m & Hm & Em); auto.
    destruct H1 as [->| ->].
    + exists (k :: m). split; [constructor; auto|]. cbn. rewrite Em. f_equal.
      destruct (Nat.eqb_spec n 1); lia.
    + exists (0 :: m). split; [constructor; auto; lia|]. cbn. rewrite Em. f_equal. lia.
Qed.

(** ** An array as a family of core arrays, one per batch index *)
Record rep {A} (core bs e : shape) (t : tensor A) (v : idx -> idx -> A) : Prop := Rep {
  rep_sh : tsh t = core ++ bs;
  rep_le : sle bs e;
  rep_at : forall m ci, inr e m -> inr core ci -> tat t (ci ++ bix bs m) = v m ci }.

Lemma rep_eq {A} core bs e (t : tensor A) v v' : rep core bs e t v ->
  (forall m ci, inr e m -> inr core ci -> v m ci = v' m ci) -> rep core bs e t v'.
Proof. intros [H1 H2 H3] H. split; auto. intros m ci Hm Hc. rewrite H3 by auto. apply H; auto. Qed.

(** Access through broadcasting. *)
Lemma rep_get {A} core bs e (t : tensor A) v b' m ci : rep core bs e t v -> sle bs b' ->
  inr e m -> length ci = length core -> inr core (bix core ci) ->
  tat t (bix (tsh t) (ci ++ bix b' m)) = v m (bix core ci).
Proof.
  intros [H1 H2 H3] Hb Hm HL Hc. rewrite H1, bix_app, bix_bix by auto. apply H3; auto.
Qed.
Lemma rep_get_self {A} core bs e (t : tensor A) v b' m ci : rep core bs e t v -> sle bs b' ->
  inr e m -> inr core ci -> tat t (bix (tsh t) (ci ++ bix b' m)) = v m ci.
Proof.
  intros H Hb Hm Hc. rewrite (rep_get core bs e t v b' m ci H Hb Hm).
  - rewrite bix_self; auto.
  - apply inr_length; auto.
  - rewrite bix_self; auto.
Qed.

Lemma rep_input {A} core bs e (t : tensor A) : tsh t = core ++ bs -> sle bs e ->
  rep core bs e t (fun m ci => tat t (ci ++ bix bs m)).
Proof. intros; split; auto. Qed.

Lemma tmap_rep {A B} core bs e (t : tensor A) v (f : A -> B) : rep core bs e t v ->
  rep core bs e (tmap f t) (fun m ci => f (v m ci)).
Proof. intros [H1 H2 H3]. split; auto. intros m ci Hm Hc. cbn. rewrite H3; auto. Qed.

Lemma along_rep {A B} k da db (f : list A -> list B) core bs e (t : tensor A) v n' :
  rep core bs e t v -> k < length core ->
  (forall x, length x = nth k core 0 -> length (f x) = n') ->
  rep (put k n' core) bs e (along k da db f t)
    (fun m ci => nth (nth k ci 0) (f (tab (nth k core 0) (fun j => v m (put k j ci)))) db).
Proof.
  intros [H1 H2 H3] Hk Hf.
  assert (Hn : nth k (tsh t) 0 = nth k core 0) by (rewrite H1, app_nth1; auto).
  split; auto.
  - cbn. rewrite Hn, Hf by apply repeat_length. rewrite H1, put_app; auto.
  - intros m ci Hm Hc. cbn. unfold fib. rewrite Hn.
    assert (HL : length ci = length core) by (apply inr_length in Hc; rewrite put_length in Hc; auto).
    rewrite app_nth1 by lia. do 2 f_equal. apply tab_ext. intros j Hj.
    rewrite put_app by lia. apply H3; auto. eapply inr_put; eauto.
Qed.

(** A channel axis counted among the batch axes. *)
Lemma rep_shift {A} core c bs e (t : tensor A) v : rep (core ++ [c]) bs e t v ->
  rep core (c :: bs) (c :: e) t (fun m ci => v (tl m) (ci ++ [hd 0 m])).
Proof.
  intros [H1 H2 H3]. split.
  - rewrite H1, <- app_assoc. reflexivity.
  - apply sle_cons; auto.
  - intros m ci Hm Hc. inversion Hm as [|i c' m' e' Hi Hm']; subst. cbn [tl hd].
    rewrite <- H3; auto; [|apply inr_app; auto; constructor; auto; constructor].
    rewrite <- app_assoc. cbn. destruct (Nat.eqb_spec c 1); [|auto]. replace i with 0 by lia. auto.
Qed.
Lemma rep_unshift {A} core c bs e (t : tensor A) v : rep core (c :: bs) (c :: e) t v ->
  rep (core ++ [c]) bs e t (fun m ci => v (last ci 0 :: m) (removelast ci)).
Proof.
  intros [H1 H2 H3]. apply sle_cons in H2. split.
  - rewrite H1, <- app_assoc. reflexivity.
  - tauto.
  - intros m ci Hm Hc. destruct (inr_app_inv _ _ _ Hc) as (cj & i & -> & Hcj & Hi).
    inversion Hi as [|i0 c' i' e' Hi0 Hi1]; subst. inversion Hi1; subst.
    rewrite last_last, removelast_last. rewrite <- H3; auto; [|constructor; auto].
    rewrite <- app_assoc. cbn. destruct (Nat.eqb_spec c 1); [|auto]. replace i0 with 0 by lia. auto.
Qed.

Lemma tzip_rep {A B D} l (f : A -> B -> D) c1 c2 c bs1 bs2 e x y v w :
  rep c1 bs1 e x v -> rep c2 bs2 e y w -> length c1 = length c2 -> bc c1 c2 = Some c ->
  exists z bs, tzip l f x y = Ok z /\ sle bs1 bs /\ sle bs2 bs /\ bc bs1 bs2 = Some bs /\
    rep c bs e z (fun m ci => f (v m (bix c1 ci)) (w m (bix c2 ci))).
Proof.
  intros Hx Hy HL Hc. destruct (bc_lub bs1 bs2 e (rep_le _ _ _ _ _ Hx) (rep_le _ _ _ _ _ Hy)) as (u & E & Hu & H1 & H2).
  destruct (bc_absorb _ _ _ Hc) as (S1 & S2 & _ & _).
  eexists. exists u. unfold tzip, bcr.
  rewrite (rep_sh _ _ _ _ _ Hx), (rep_sh _ _ _ _ _ Hy).
  rewrite (bc_app c1 c2 bs1 bs2 c u HL Hc E). cbn [of_opt bind]. split; [reflexivity|]. split; [auto|]. split; [auto|].
  split; [auto|]. split; [reflexivity|auto|]. intros m ci Hm Hci. cbn.
  assert (Lc1 : length c1 = length c) by (rewrite (bc_length _ _ _ Hc); lia).
  pose proof (inr_length _ _ Hci) as Lci.
  pose proof (rep_get c1 bs1 e x v u m ci Hx H1 Hm ltac:(lia) (inr_bix _ _ _ S1 Hci)) as G1.
  pose proof (rep_get c2 bs2 e y w u m ci Hy H2 Hm ltac:(lia) (inr_bix _ _ _ S2 Hci)) as G2.
  rewrite (rep_sh _ _ _ _ _ Hx) in G1. rewrite (rep_sh _ _ _ _ _ Hy) in G2. rewrite G1, G2. reflexivity.
Qed.
(** The same with equal core axes. *)
Lemma tzip_rep_same {A B D} l (f : A -> B -> D) c bs1 bs2 e x y v w :
  rep c bs1 e x v -> rep c bs2 e y w ->
  exists z bs, tzip l f x y = Ok z /\ sle bs1 bs /\ sle bs2 bs /\ bc bs1 bs2 = Some bs /\
    rep c bs e z (fun m ci => f (v m ci) (w m ci)).
Proof.
  intros Hx Hy. destruct (tzip_rep l f c c c bs1 bs2 e x y v w Hx Hy eq_refl (bc_refl c)) as (z & bs & H1 & H2 & H3 & H4 & H5).
  exists z, bs. repeat split; auto; [apply (rep_sh _ _ _ _ _ H5)|apply (rep_le _ _ _ _ _ H5)|].
  intros m ci Hm Hc. rewrite (rep_at _ _ _ _ _ H5) by auto. rewrite bix_self; auto.
Qed.

(** Explicit core indices. *)
Lemma inr1 a ci : inr [a] ci -> exists i, ci = [i] /\ i < a.
Proof. intros H. inversion H as [|i ? r ? Hi Hr]; subst. inversion Hr; subst. eauto. Qed.
Lemma inr2 a b ci : inr [a; b] ci -> exists i j, ci = [i; j] /\ i < a /\ j < b.
Proof. intros H. inversion H as [|i ? r ? Hi Hr]; subst. apply inr1 in Hr. destruct Hr as (j & -> & Hj). eauto. Qed.
Lemma inr3 a b c ci : inr [a; b; c] ci -> exists i j k, ci = [i; j; k] /\ i < a /\ j < b /\ k < c.
Proof. intros H. inversion H as [|i ? r ? Hi Hr]; subst. apply inr2 in Hr. destruct Hr as (j & k & -> & Hj & Hk). eauto 7. Qed.
Lemma inr1' a i : i < a -> inr [a] [i].
Proof. repeat constructor; auto. Qed.
Lemma inr2' a b i j : i < a -> j < b -> inr [a; b] [i; j].
Proof. repeat constructor; auto. Qed.
Lemma inr3' a b c i j k : i < a -> j < b -> k < c -> inr [a; b; c] [i; j; k].
Proof. repeat constructor; auto. Qed.
Lemma bclen_same n : bclen n n = n.
Proof. unfold bclen. destruct (Nat.eqb_spec n 1); lia. Qed.

Tactic Notation "bc_two" constr(Hx) constr(Hy) ident(u) ident(E) ident(Hu) ident(H1) ident(H2) :=
  destruct (bc_lub _ _ _ (rep_le _ _ _ _ _ Hx) (rep_le _ _ _ _ _ Hy)) as (u & E & Hu & H1 & H2).

Lemma ein_cnd_rep l n c d bs1 bs2 e x y v w :
  rep [n; c] bs1 e x v -> rep [n; d] bs2 e y w ->
  exists z bs, t_ein_cnd l x y = Ok z /\ bc bs1 bs2 = Some bs /\
    rep [d; n; c] bs e z (fun m ci => Cmult (v m [nth 1 ci 0; nth 2 ci 0]) (w m [nth 1 ci 0; nth 0 ci 0])).
Proof.
  intros Hx Hy. bc_two Hx Hy u E Hu H1 H2.
  eexists. exists u. unfold t_ein_cnd. rewrite (rep_sh _ _ _ _ _ Hx), (rep_sh _ _ _ _ _ Hy).
  cbn [app ein_cnd]. rewrite bc1_refl, E. cbn [of_opt bind]. split; [reflexivity|]. split; [auto|].
  split; [reflexivity|auto|]. intros m ci Hm Hci. apply inr3 in Hci. destruct Hci as (i & j & k & -> & Hi & Hj & Hk).
  cbn [app tat nth].
  pose proof (rep_get_self _ _ _ _ _ u m [j; k] Hx H1 Hm (inr2' _ _ _ _ Hj Hk)) as G1.
  pose proof (rep_get_self _ _ _ _ _ u m [j; i] Hy H2 Hm (inr2' _ _ _ _ Hj Hi)) as G2.
  rewrite (rep_sh _ _ _ _ _ Hx) in G1. rewrite (rep_sh _ _ _ _ _ Hy) in G2. cbn [app] in G1, G2.
  rewrite G1, G2. reflexivity.
Qed.
Lemma ein_ncd_rep l n c d bs1 bs2 e x y v w :
  rep [n; c] bs1 e x v -> rep [n; d] bs2 e y w ->
  exists z bs, t_ein_ncd l x y = Ok z /\ bc bs1 bs2 = Some bs /\
    rep [d; c; n] bs e z (fun m ci => Cmult (v m [nth 2 ci 0; nth 1 ci 0]) (w m [nth 2 ci 0; nth 0 ci 0])).
Proof.
  intros Hx Hy. bc_two Hx Hy u E Hu H1 H2.
  eexists. exists u. unfold t_ein_ncd. rewrite (rep_sh _ _ _ _ _ Hx), (rep_sh _ _ _ _ _ Hy).
  cbn [app ein_ncd]. rewrite bc1_refl, E. cbn [of_opt bind]. split; [reflexivity|]. split; [auto|].
  split; [reflexivity|auto|]. intros m ci Hm Hci. apply inr3 in Hci. destruct Hci as (i & j & k & -> & Hi & Hj & Hk).
  cbn [app tat nth].
  pose proof (rep_get_self _ _ _ _ _ u m [k; j] Hx H1 Hm (inr2' _ _ _ _ Hk Hj)) as G1.
  pose proof (rep_get_self _ _ _ _ _ u m [k; i] Hy H2 Hm (inr2' _ _ _ _ Hk Hi)) as G2.
  rewrite (rep_sh _ _ _ _ _ Hx) in G1. rewrite (rep_sh _ _ _ _ _ Hy) in G2. cbn [app] in G1, G2.
  rewrite G1, G2. reflexivity.
Qed.
(** Here the time axes may broadcast. *)
Definition sel (n t : nat) : nat := if Nat.eqb n 1 then 0 else t.
Lemma ein_cd_rep l n n' k c d bs1 bs2 e x y v w :
  rep [n; c] bs1 e x v -> rep [n'; d] bs2 e y w -> bc1 n n' = Some k ->
  exists z bs, t_ein_cd l x y = Ok z /\ bc bs1 bs2 = Some bs /\
    rep [d; c] bs e z (fun m ci => Rsum k (fun t =>
      Rmult (v m [sel n t; nth 1 ci 0]) (w m [sel n' t; nth 0 ci 0]))).
Proof.
  intros Hx Hy Hn. bc_two Hx Hy u E Hu H1 H2.
  eexists. exists u. unfold t_ein_cd. rewrite (rep_sh _ _ _ _ _ Hx), (rep_sh _ _ _ _ _ Hy).
  cbn [app ein_cd]. rewrite Hn, E. cbn [of_opt bind]. split; [reflexivity|]. split; [auto|].
  split; [reflexivity|auto|]. intros m ci Hm Hci. apply inr2 in Hci. destruct Hci as (i & j & -> & Hi & Hj).
  cbn [app tat nth].
  assert (Ek : bclen n n' = k /\ (k = n \/ n = 1) /\ (k = n' \/ n' = 1)).
  { revert Hn. unfold bc1, bclen. destruct (Nat.eqb_spec n n'); [intros [= <-]; destruct (Nat.eqb_spec n 1); lia|].
    destruct (Nat.eqb_spec n 1); [intros [= <-]; lia|].
    destruct (Nat.eqb_spec n' 1); [intros [= <-]; lia|discriminate]. }
  destruct Ek as (-> & K1 & K2). apply Rsum_ext. intros t Ht.
  pose proof (rep_get _ _ _ _ _ u m [t; j] Hx H1 Hm eq_refl) as G1.
  pose proof (rep_get _ _ _ _ _ u m [t; i] Hy H2 Hm eq_refl) as G2.
  rewrite (rep_sh _ _ _ _ _ Hx) in G1. rewrite (rep_sh _ _ _ _ _ Hy) in G2. cbn [app bix] in G1, G2.
  assert (F : forall q p, p < q -> (if Nat.eqb q 1 then 0 else p) = p)
    by (intros q p Hp; destruct (Nat.eqb_spec q 1); lia).
  rewrite (F c j Hj) in G1. rewrite (F d i Hi) in G2. cbn [bix]. unfold sel. rewrite (F c j Hj), (F d i Hi), G1, G2.
  - reflexivity.
  - apply inr2'; auto. destruct (Nat.eqb_spec n' 1); lia.
  - apply inr2'; auto. destruct (Nat.eqb_spec n 1); lia.
Qed.
Lemma ein_lc_rep l n c bs1 bs2 e x y v w :
  rep [c; n] bs1 e x v -> rep [c; n] bs2 e y w ->
  exists z bs, t_ein_lc l x y = Ok z /\ bc bs1 bs2 = Some bs /\
    rep [c] bs e z (fun m ci => Rsum n (fun t => Rmult (v m [nth 0 ci 0; t]) (w m [nth 0 ci 0; t]))).
Proof.
  intros Hx Hy. bc_two Hx Hy u E Hu H1 H2.
  eexists. exists u. unfold t_ein_lc. rewrite (rep_sh _ _ _ _ _ Hx), (rep_sh _ _ _ _ _ Hy).
  cbn [app ein_lc]. rewrite !bc1_refl, E. cbn [of_opt bind]. split; [reflexivity|]. split; [auto|].
  split; [reflexivity|auto|]. intros m ci Hm Hci. apply inr1 in Hci. destruct Hci as (i & -> & Hi).
  cbn [app tat nth]. rewrite bclen_same. apply Rsum_ext. intros t Ht.
  pose proof (rep_get_self _ _ _ _ _ u m [i; t] Hx H1 Hm (inr2' _ _ _ _ Hi Ht)) as G1.
  pose proof (rep_get_self _ _ _ _ _ u m [i; t] Hy H2 Hm (inr2' _ _ _ _ Hi Ht)) as G2.
  rewrite (rep_sh _ _ _ _ _ Hx) in G1. rewrite (rep_sh _ _ _ _ _ Hy) in G2. cbn [app] in G1, G2.
  rewrite G1, G2. reflexivity.
Qed.
Lemma ein_l_rep l n n' k bs1 bs2 e x y v w :
  rep [n] bs1 e x v -> rep [n'] bs2 e y w -> bc1 n n' = Some k ->
  exists z bs, t_ein_l l x y = Ok z /\ bc bs1 bs2 = Some bs /\
    rep [] bs e z (fun m ci => Rsum k (fun t =>
      Rmult (v m [sel n t]) (w m [sel n' t]))).
Proof.
  intros Hx Hy Hn. bc_two Hx Hy u E Hu H1 H2.
  eexists. exists u. unfold t_ein_l. rewrite (rep_sh _ _ _ _ _ Hx), (rep_sh _ _ _ _ _ Hy).
  cbn [app ein_l]. rewrite Hn. cbn [of_opt bind]. rewrite E. cbn [of_opt bind].
  split; [reflexivity|]. split; [auto|].
  split; [reflexivity|auto|]. intros m ci Hm Hci. inversion Hci; subst.
  cbn [app tat nth].
  assert (Ek : bclen n n' = k /\ (k = n \/ n = 1) /\ (k = n' \/ n' = 1)).
  { revert Hn. unfold bc1, bclen. destruct (Nat.eqb_spec n n'); [intros [= <-]; destruct (Nat.eqb_spec n 1); lia|].
    destruct (Nat.eqb_spec n 1); [intros [= <-]; lia|].
    destruct (Nat.eqb_spec n' 1); [intros [= <-]; lia|discriminate]. }
  destruct Ek as (-> & K1 & K2). apply Rsum_ext. intros t Ht.
  pose proof (rep_get _ _ _ _ _ u m [t] Hx H1 Hm eq_refl) as G1.
  pose proof (rep_get _ _ _ _ _ u m [t] Hy H2 Hm eq_refl) as G2.
  rewrite (rep_sh _ _ _ _ _ Hx) in G1. rewrite (rep_sh _ _ _ _ _ Hy) in G2. cbn [app bix] in G1, G2.
  cbn [bix]. unfold sel. rewrite G1, G2.
  - reflexivity.
  - apply inr1'. destruct (Nat.eqb_spec n' 1); lia.
  - apply inr1'. destruct (Nat.eqb_spec n 1); lia.
Qed.
Lemma ein_rm_rep l c r k n bs1 bs2 e x y v w :
  rep [c; r; n] bs1 e x v -> rep [k; c; n] bs2 e y w ->
  exists z bs, t_ein_rm l x y = Ok z /\ bc bs1 bs2 = Some bs /\
    rep [k; r; n] bs e z (fun m ci => Csum c (fun q =>
      Cmult (v m [q; nth 1 ci 0; nth 2 ci 0]) (w m [nth 0 ci 0; q; nth 2 ci 0]))).
Proof.
  intros Hx Hy. bc_two Hx Hy u E Hu H1 H2.
  eexists. exists u. unfold t_ein_rm. rewrite (rep_sh _ _ _ _ _ Hx), (rep_sh _ _ _ _ _ Hy).
  cbn [app ein_rm bc]. rewrite !bc1_refl, E. cbn [of_opt bind]. split; [reflexivity|]. split; [auto|].
  split; [reflexivity|auto|]. intros m ci Hm Hci. apply inr3 in Hci. destruct Hci as (i & j & p & -> & Hi & Hj & Hp).
  cbn [app tat nth]. rewrite bclen_same. apply Csum_ext. intros q Hq.
  pose proof (rep_get_self _ _ _ _ _ u m [q; j; p] Hx H1 Hm (inr3' _ _ _ _ _ _ Hq Hj Hp)) as G1.
  pose proof (rep_get_self _ _ _ _ _ u m [i; q; p] Hy H2 Hm (inr3' _ _ _ _ _ _ Hi Hq Hp)) as G2.
  rewrite (rep_sh _ _ _ _ _ Hx) in G1. rewrite (rep_sh _ _ _ _ _ Hy) in G2. cbn [app] in G1, G2.
  rewrite G1, G2. reflexivity.
Qed.

(** ** Views *)
Lemma newlast_rep {A} core bs e (t : tensor A) v : rep core bs e t v ->
  rep (1 :: core) bs e (newlast t) (fun m ci => v m (tl ci)).
Proof.
  intros [H1 H2 H3]. split; auto; [cbn; rewrite H1; auto|]. intros m ci Hm Hc.
  inversion Hc; subst. cbn. apply H3; auto.
Qed.
Lemma new2_rep {A} d bs e (t : tensor A) v : rep [d] bs e t v ->
  rep [d; 1] bs e (new2 t) (fun m ci => v m [nth 0 ci 0]).
Proof.
  intros [H1 H2 H3]. split; auto; [cbn; rewrite H1; auto|]. intros m ci Hm Hc.
  apply inr2 in Hc. destruct Hc as (i & j & -> & Hi & Hj). cbn. apply (H3 m [i]); auto. apply inr1'; auto.
Qed.
Lemma at0_rep {A} core n bs e (t : tensor A) v : rep (n :: core) bs e t v -> 0 < n ->
  rep core bs e (at0 t) (fun m ci => v m (0 :: ci)).
Proof.
  intros [H1 H2 H3] Hn. split; auto; [cbn; rewrite H1; auto|]. intros m ci Hm Hc.
  cbn. apply (H3 m (0 :: ci)); auto. constructor; auto.
Qed.
Lemma swap12_rep {A} a b core bs e (t : tensor A) v : rep (a :: b :: core) bs e t v ->
  rep (b :: a :: core) bs e (swap12 t) (fun m ci => v m (nth 1 ci 0 :: nth 0 ci 0 :: skipn 2 ci)).
Proof.
  intros [H1 H2 H3]. split; auto; [cbn; rewrite H1; auto|]. intros m ci Hm Hc.
  inversion Hc as [|i ? r ? Hi Hr]; subst. inversion Hr as [|j ? q ? Hj Hq]; subst.
  cbn. apply (H3 m (j :: i :: q)); auto. repeat constructor; auto.
Qed.
Lemma swap23_rep {A} d a b bs e (t : tensor A) v : rep [d; a; b] bs e t v ->
  rep [d; b; a] bs e (swap23 t) (fun m ci => v m [nth 0 ci 0; nth 2 ci 0; nth 1 ci 0]).
Proof.
  intros [H1 H2 H3]. split; auto; [cbn; rewrite H1; auto|]. intros m ci Hm Hc.
  apply inr3 in Hc. destruct Hc as (i & j & k & -> & Hi & Hj & Hk).
  cbn. apply (H3 m [i; k; j]); auto. apply inr3'; auto.
Qed.
Lemma flat23_rep {A} d c n bs e (t : tensor A) v : rep [d; c; n] bs e t v ->
  rep [d; n * c] bs e (flat23 t) (fun m ci => v m [nth 0 ci 0; nth 1 ci 0 mod c; nth 1 ci 0 / c]).
Proof.
  intros [H1 H2 H3]. split; auto; [cbn; rewrite H1; auto|]. intros m ci Hm Hc.
  apply inr2 in Hc. destruct Hc as (i & p & -> & Hi & Hp).
  cbn. rewrite H1. cbn. apply (H3 m [i; p mod c; p / c]); auto. apply inr3'; auto.
  - apply Nat.mod_upper_bound. intros ->. lia.
  - apply Nat.div_lt_upper_bound; [intros ->; lia|lia].
Qed.
Lemma unflat_rep {A} d c n bs e (t : tensor A) v : rep [d; c * n] bs e t v -> c <> 0 ->
  rep [d; c; n] bs e (unflat c t) (fun m ci => v m [nth 0 ci 0; nth 2 ci 0 * c + nth 1 ci 0]).
Proof.
  intros [H1 H2 H3] Hc0. split; auto.
  - cbn. rewrite H1. cbn. rewrite Nat.mul_comm, Nat.div_mul by auto. reflexivity.
  - intros m ci Hm Hc.
    apply inr3 in Hc. destruct Hc as (i & j & k & -> & Hi & Hj & Hk).
    cbn. apply (H3 m [i; k * c + j]); auto. apply inr2'; auto. nia.
Qed.
Lemma diag12_rep {A} c core bs e (t : tensor A) v nref : rep (c :: c :: core) bs e t v -> nref = c ->
  rep (c :: core) bs e (diag12 nref t) (fun m ci => v m (nth 0 ci 0 :: nth 0 ci 0 :: tl ci)).
Proof.
  intros [H1 H2 H3] ->. split; auto; [cbn; rewrite H1; auto|]. intros m ci Hm Hc.
  inversion Hc as [|i ? r ? Hi Hr]; subst. cbn. apply (H3 m (i :: i :: r)); auto. repeat constructor; auto.
Qed.
Lemma toeplitz_rep b n bs e t v : rep [n] bs e t v ->
  rep [n; n] bs e (t_toeplitz b t)
    (fun m ci => ent (toeplitz b (tab n (fun k => v m [k]))) (nth 1 ci 0) (nth 0 ci 0)).
Proof.
  intros [H1 H2 H3]. split; auto; [cbn; rewrite H1; auto|]. intros m ci Hm Hc.
  apply inr2 in Hc. destruct Hc as (i & j & -> & Hi & Hj). cbn [app tat t_toeplitz nth]. do 2 f_equal.
  unfold fib. rewrite H1. cbn [nth app]. apply tab_ext. intros k Hk. cbn.
  apply (H3 m [k]); auto. apply inr1'; auto.
Qed.

(** Along an axis, with the fibres given as lists. *)
Lemma along_repL {A B} k da db (f : list A -> list B) core bs e (t : tensor A) G n' :
  rep core bs e t (fun m ci => nth (nth k ci 0) (G m ci) da) -> k < length core ->
  (forall m ci j, G m (put k j ci) = G m ci) ->
  (forall m ci, inr e m -> inr (put k n' core) ci -> length (G m ci) = nth k core 0) ->
  (forall x, length x = nth k core 0 -> length (f x) = n') ->
  rep (put k n' core) bs e (along k da db f t) (fun m ci => nth (nth k ci 0) (f (G m ci)) db).
Proof.
  intros H Hk HG HL Hf. eapply rep_eq; [eapply along_rep; eauto|].
  intros m ci Hm Hc. cbv beta. do 2 f_equal. rewrite <- (tab_nth (G m ci) da) at 1.
  rewrite HL by auto. apply tab_ext. intros j Hj. rewrite HG, nth_put; auto.
  apply inr_length in Hc. rewrite put_length in Hc. lia.
Qed.

(** ** Linear systems *)
Lemma mapM_inv {A B} (f : A -> res B) l :
  match mapM f l with
  | Ok _ => forall x, In x l -> exists y, f x = Ok y
  | Raise e => exists x, In x l /\ f x = Raise e
  end.
Proof.
  induction l as [|a l IH]; cbn; [intros x []|].
  destruct (f a) as [y|e] eqn:E; cbn; [|exists a; auto].
  destruct (mapM f l) as [ys|e]; cbn.
  - intros x [<-|H]; eauto.
  - destruct IH as (x & H1 & H2). exists x; auto.
Qed.
Lemma solve_cols_ext n m A A' B B' :
  (forall i j, i < n -> j < n -> A i j = A' i j) -> (forall i d, i < n -> d < m -> B i d = B' i d) ->
  match solve_cols n m A B, solve_cols n m A' B' with
  | Ok X, Ok X' => forall i d, i < n -> d < m -> X i d = X' i d
  | Raise e, Raise e' => e = e'
  | _, _ => False
  end.
Proof.
  intros HA HB. unfold solve_cols.
  pose proof (Rsolve_ext_iff n A A' (fun _ => 0%R) (fun _ => 0%R) HA (fun _ _ => eq_refl)) as H.
  destruct (Rsolve n A _); destruct (Rsolve n A' _); auto; try contradiction.
  intros i d Hi Hd. pose proof (Rsolve_ext_iff n A A' (fun i => B i d) (fun i => B' i d) HA (fun i Hi => HB i d Hi Hd)) as H'.
  destruct (Rsolve n A (fun i => B i d)); destruct (Rsolve n A' (fun i => B' i d)); auto; contradiction.
Qed.
Definition okv {A} (d : A) (r : res A) : A := match r with Ok a => a | Raise _ => d end.
Definition zero2 (_ _ : nat) : R := 0%R.

(** Outcome of one batched call: values for all items, or some item raises. *)
Lemma solve_rep l n k bs1 bs2 e a b va vb :
  rep [n; n] bs1 e a va -> rep [k; n] bs2 e b vb -> bc bs1 bs2 = Some e ->
  vector_rhs l (tsh a) (tsh b) = false ->
  let run := fun m => solve_cols n k (fun i j => va m [j; i]) (fun i d => vb m [d; i]) in
  (exists z, t_solve l a b = Ok z /\ (forall m, inr e m -> is_ok (run m)) /\
     rep [k; n] e e z (fun m ci => okv zero2 (run m) (nth 1 ci 0) (nth 0 ci 0))) \/
  (raises (t_solve l a b) /\ exists m, inr e m /\ raises (run m)).
Proof.
  intros Ha Hb E Hv run.
  destruct (bc_absorb _ _ _ E) as (S1 & S2 & _ & _).
  assert (GA : forall m i j, inr e m -> i < n -> j < n -> tat a (bix (tsh a) (j :: i :: m)) = va m [j; i]).
  { intros m i j Hm Hi Hj. pose proof (rep_get_self _ _ _ _ _ e m [j; i] Ha S1 Hm (inr2' _ _ _ _ Hj Hi)) as G.
    rewrite (bix_self e m Hm) in G. exact G. }
  assert (GB : forall m i d, inr e m -> i < n -> d < k -> tat b (bix (tsh b) (d :: i :: m)) = vb m [d; i]).
  { intros m i d Hm Hi Hj. pose proof (rep_get_self _ _ _ _ _ e m [d; i] Hb S2 Hm (inr2' _ _ _ _ Hj Hi)) as G.
    rewrite (bix_self e m Hm) in G. exact G. }
  assert (Hs : sh_solve l (tsh a) (tsh b) = Ok (k :: n :: e)).
  { unfold sh_solve. rewrite Hv. rewrite (rep_sh _ _ _ _ _ Ha), (rep_sh _ _ _ _ _ Hb).
    cbn [app solve_mat]. rewrite !Nat.eqb_refl. cbn [andb]. rewrite E. reflexivity. }
  unfold t_solve. rewrite Hs. cbn [bind]. rewrite Hv.
  replace (hd 0 (tsh a)) with n by (rewrite (rep_sh _ _ _ _ _ Ha); reflexivity).
  replace (hd 0 (tsh b)) with k by (rewrite (rep_sh _ _ _ _ _ Hb); reflexivity).
  cbn [tl].
  match goal with |- context [mapM ?f _] => set (F := f) end.
  assert (HF : forall m, inr e m -> match F m, run m with
     | Ok X, Ok X' => forall i d, i < n -> d < k -> X i d = X' i d
     | Raise e, Raise e' => e = e' | _, _ => False end).
  { intros m Hm. apply solve_cols_ext; intros; auto. }
  pose proof (mapM_inv F (indices e)) as HM. destruct (mapM F (indices e)) as [ys|er]; cbn [bind].
  - left. eexists. split; [reflexivity|]. split.
    + intros m Hm. destruct (HM m) as [y Hy]; [apply in_indices; auto|].
      pose proof (HF m Hm) as H. rewrite Hy in H. destruct (run m); [eexists; eauto|contradiction].
    + split; [reflexivity|apply sle_refl|]. intros m ci Hm Hc. rewrite (bix_self e m Hm).
      apply inr2 in Hc. destruct Hc as (d & i & -> & Hd & Hi). cbn [app tat nth].
      pose proof (HF m Hm) as H. unfold F in H. unfold okv.
      destruct (HM m) as [y Hy]; [apply in_indices; auto|]. unfold F in Hy. rewrite Hy in *.
      destruct (run m); [auto|contradiction].
  - right. destruct HM as (m & Hm & Hr). apply in_indices in Hm. split; [eexists; reflexivity|].
    exists m. split; auto. pose proof (HF m Hm) as H. rewrite Hr in H. destruct (run m); [contradiction|eexists; eauto].
Qed.
(** A vector right-hand side. *)
Lemma solve_rep_vec l n bs1 bs2 e a b va vb :
  rep [n; n] bs1 e a va -> rep [n] bs2 e b vb -> bc bs1 bs2 = Some e ->
  vector_rhs l (tsh a) (tsh b) = true ->
  let run := fun m => solve_cols n 1 (fun i j => va m [j; i]) (fun i _ => vb m [i]) in
  (exists z, t_solve l a b = Ok z /\ (forall m, inr e m -> is_ok (run m)) /\
     rep [n] e e z (fun m ci => okv zero2 (run m) (nth 0 ci 0) 0)) \/
  (raises (t_solve l a b) /\ exists m, inr e m /\ raises (run m)).
Proof.
  intros Ha Hb E Hv run.
  destruct (bc_absorb _ _ _ E) as (S1 & S2 & _ & _).
  assert (GA : forall m i j, inr e m -> i < n -> j < n -> tat a (bix (tsh a) (j :: i :: m)) = va m [j; i]).
  { intros m i j Hm Hi Hj. pose proof (rep_get_self _ _ _ _ _ e m [j; i] Ha S1 Hm (inr2' _ _ _ _ Hj Hi)) as G.
    rewrite (bix_self e m Hm) in G. exact G. }
  assert (GB : forall m i, inr e m -> i < n -> tat b (bix (tsh b) (i :: m)) = vb m [i]).
  { intros m i Hm Hi. pose proof (rep_get_self _ _ _ _ _ e m [i] Hb S2 Hm (inr1' _ _ Hi)) as G.
    rewrite (bix_self e m Hm) in G. exact G. }
  assert (Hs : sh_solve l (tsh a) (tsh b) = Ok (n :: e)).
  { unfold sh_solve. rewrite Hv. rewrite (rep_sh _ _ _ _ _ Ha), (rep_sh _ _ _ _ _ Hb).
    cbn [app Shapes.solve_vec]. rewrite !Nat.eqb_refl. cbn [andb]. rewrite E. reflexivity. }
  unfold t_solve. rewrite Hs. cbn [bind]. rewrite Hv.
  replace (hd 0 (tsh a)) with n by (rewrite (rep_sh _ _ _ _ _ Ha); reflexivity).
  cbn [tl].
  match goal with |- context [mapM ?f _] => set (F := f) end.
  assert (HF : forall m, inr e m -> match F m, run m with
     | Ok X, Ok X' => forall i d, i < n -> d < 1 -> X i d = X' i d
     | Raise e, Raise e' => e = e' | _, _ => False end).
  { intros m Hm. apply solve_cols_ext; intros; auto. }
  pose proof (mapM_inv F (indices e)) as HM. destruct (mapM F (indices e)) as [ys|er]; cbn [bind].
  - left. eexists. split; [reflexivity|]. split.
    + intros m Hm. destruct (HM m) as [y Hy]; [apply in_indices; auto|].
      pose proof (HF m Hm) as H. rewrite Hy in H. destruct (run m); [eexists; eauto|contradiction].
    + split; [reflexivity|apply sle_refl|]. intros m ci Hm Hc. rewrite (bix_self e m Hm).
      apply inr1 in Hc. destruct Hc as (i & -> & Hi). cbn [app tat nth].
      pose proof (HF m Hm) as H. unfold F in H. unfold okv.
      destruct (HM m) as [y Hy]; [apply in_indices; auto|]. unfold F in Hy. rewrite Hy in *.
      destruct (run m); [apply H; lia|contradiction].
  - right. destruct HM as (m & Hm & Hr). apply in_indices in Hm. split; [eexists; reflexivity|].
    exists m. split; auto. pose proof (HF m Hm) as H. rewrite Hr in H. destruct (run m); [contradiction|eexists; eauto].
Qed.
