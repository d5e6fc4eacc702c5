(** * Facts about Strided.v: writing, block_toeplitz, load_diag *)
From Coq Require Import Reals Lra.
From Verif Require Import Prelude Slice Helpers Linalg Strided StridedProofs.
Local Open Scope nat_scope.

(** ** Writing *)
Lemma write_all_ok l : forall m v, inside m v -> spaced v ->
  (forall kr, In kr l -> valid (sv_shape v) (fst kr)) -> NoDup (map fst l) ->
  exists m', write_all m v l = Ok m' /\ sm_next m' = sm_next m /\
    (forall a, a <> sv_buf v -> sm_buf m' a = sm_buf m a) /\
    length (sm_buf m' (sv_buf v)) = length (sm_buf m (sv_buf v)) /\
    (forall k r, In (k, r) l -> value m' v k = r) /\
    (forall p, (forall kr, In kr l -> address v (fst kr) <> Z.of_nat p) ->
       nth p (sm_buf m' (sv_buf v)) 0%R = nth p (sm_buf m (sv_buf v)) 0%R).
Proof.
  induction l as [|[k r] l IH]; intros m v I S V N.
  - exists m. simpl. repeat (split; [auto; try tauto|]). auto.
  - cbn [write_all]. assert (Hk : valid (sv_shape v) k) by (apply (V (k, r)); now left).
    pose proof (proj2 I k Hk) as B. unfold store. rewrite (proj2 (in_buf_iff _ _ _) B). cbn [bind].
    set (m1 := SMem _ _).
    assert (L1 : length (sm_buf m1 (sv_buf v)) = length (sm_buf m (sv_buf v)))
      by (unfold m1; simpl; rewrite upd_eq, length_tab; auto).
    assert (I1 : inside m1 v) by (split; [apply I|]; intros; rewrite L1; now apply I).
    simpl in N. inversion N as [|? ? N1 N2]; subst.
    destruct (IH m1 v I1 S) as (m' & E & A1 & A2 & A3 & A4 & A5); auto.
    { intros; apply V; now right. }
    exists m'. split; auto. split; [rewrite A1; auto|]. split.
    { intros a Ha. rewrite A2 by auto. unfold m1. simpl. now rewrite upd_neq. }
    split; [congruence|]. split.
    + intros k' r' [H|H]; [|now apply A4]. inversion H; subst k' r'. unfold value. rewrite A5.
      * unfold m1. simpl. rewrite upd_eq. rewrite nth_tab by lia. now rewrite Nat.eqb_refl.
      * intros [k' r'] H'. simpl. rewrite Z2Nat.id by lia. intros Q. apply N1.
        apply S in Q; auto; [|apply (V (k', r')); now right]. subst. apply in_map_iff. exists (k, r'). auto.
    + intros p Hp. rewrite A5 by (intros; apply Hp; now right).
      unfold m1. simpl. rewrite upd_eq.
      destruct (le_lt_dec (length (sm_buf m (sv_buf v))) p).
      * rewrite nth_tab_ge, nth_overflow; auto.
      * rewrite nth_tab by auto. destruct (Nat.eqb_spec p (Z.to_nat (address v k))); auto.
        exfalso. apply (Hp (k, r)); [now left|]. simpl. lia.
Qed.

Lemma part_spaced v w f : part v w f -> spaced v ->
  (forall k k', valid (sv_shape w) k -> valid (sv_shape w) k' -> f k = f k' -> k = k') -> spaced w.
Proof.
  intros [B V A] S I k k' Hk Hk' E. rewrite !A in E by auto. apply S in E; auto.
Qed.

(** The effect of a write through a part [dst] of an array [out] on [out]. *)
Lemma write_part m out dst f l : part out dst f -> inside m out -> spaced out ->
  (forall k k', valid (sv_shape dst) k -> valid (sv_shape dst) k' -> f k = f k' -> k = k') ->
  (forall kr, In kr l -> valid (sv_shape dst) (fst kr)) -> NoDup (map fst l) ->
  exists m', write_all m dst l = Ok m' /\ sm_next m' = sm_next m /\
    (forall a, a <> sv_buf out -> sm_buf m' a = sm_buf m a) /\ inside m' out /\
    (forall k r, In (k, r) l -> value m' out (f k) = r) /\
    (forall k, valid (sv_shape out) k -> (forall kr, In kr l -> f (fst kr) <> k) ->
       value m' out k = value m out k).
Proof.
  intros P I S Inj V N.
  destruct (write_all_ok l m dst) as (m' & E & A1 & A2 & A3 & A4 & A5); auto.
  { eapply part_inside; eauto. } { eapply part_spaced; eauto. }
  pose proof P as [B PV PA]. rewrite B in *.
  exists m'. split; auto. split; auto. split; auto. split; [|split].
  - split; [rewrite A1; apply I|]. intros k Hk. rewrite A3. now apply I.
  - intros k r H. rewrite <- (part_value m' out dst f k P); [now apply A4|]. now apply (V (k, r)).
  - intros k Hk H. unfold value. apply A5. intros kr Hkr. rewrite PA by auto.
    pose proof (proj2 I k Hk). rewrite Z2Nat.id by lia. intros Q. apply S in Q; auto.
    apply (H kr); auto.
Qed.

Lemma assign_ok b m out dst f src : part out dst f -> inside m out -> spaced out ->
  (forall k k', valid (sv_shape dst) k -> valid (sv_shape dst) k' -> f k = f k' -> k = k') ->
  inside m src -> sv_shape dst = sv_shape src ->
  exists m', assign b m dst src = Ok m' /\ sm_next m' = sm_next m /\
    (forall a, a <> sv_buf out -> sm_buf m' a = sm_buf m a) /\ inside m' out /\
    (forall k, valid (sv_shape dst) k -> value m' out (f k) = value m src k) /\
    (forall k, valid (sv_shape out) k -> (forall k', valid (sv_shape dst) k' -> f k' <> k) ->
       value m' out k = value m out k).
Proof.
  intros P I S Inj Is Sh. unfold assign. destruct (list_eq_dec Nat.eq_dec _ _) as [_|]; [|contradiction].
  rewrite read_all_ok by auto. cbn [bind]. rewrite <- Sh.
  destruct (write_part m out dst f (filled (sv_shape dst) (value m src)) P I S Inj)
    as (m' & E & A1 & A2 & A3 & A4 & A5).
  { intros [k r] H. apply in_filled in H. tauto. }
  { unfold filled. rewrite map_map. simpl. rewrite map_id. apply NoDup_all_idx. }
  exists m'. do 4 (split; [auto|]). split.
  - intros k Hk. apply A4. apply in_filled. auto.
  - intros k Hk H. apply A5; auto. intros [k' r'] H'. apply in_filled in H'. simpl. apply H. tauto.
Qed.
Lemma iadd_ok m out dst f d : part out dst f -> inside m out -> spaced out ->
  (forall k k', valid (sv_shape dst) k -> valid (sv_shape dst) k' -> f k = f k' -> k = k') ->
  exists m', iadd m dst d = Ok m' /\ sm_next m' = sm_next m /\
    (forall a, a <> sv_buf out -> sm_buf m' a = sm_buf m a) /\ inside m' out /\
    (forall k, valid (sv_shape dst) k -> value m' out (f k) = (value m out (f k) + d)%R) /\
    (forall k, valid (sv_shape out) k -> (forall k', valid (sv_shape dst) k' -> f k' <> k) ->
       value m' out k = value m out k).
Proof.
  intros P I S Inj. unfold iadd. rewrite read_all_ok by (eapply part_inside; eauto). cbn [bind].
  set (l := map _ _).
  assert (El : l = filled (sv_shape dst) (fun k => value m dst k + d)%R).
  { unfold l, filled. rewrite map_map. reflexivity. }
  rewrite El.
  destruct (write_part m out dst f (filled (sv_shape dst) (fun k => value m dst k + d)%R) P I S Inj)
    as (m' & E & A1 & A2 & A3 & A4 & A5).
  { intros [k r] H. apply in_filled in H. tauto. }
  { unfold filled. rewrite map_map. simpl. rewrite map_id. apply NoDup_all_idx. }
  exists m'. do 4 (split; [auto|]). split.
  - intros k Hk. rewrite (A4 k (value m dst k + d)%R) by (apply in_filled; auto).
    now rewrite (part_value m out dst f k P).
  - intros k Hk H. apply A5; auto. intros [k' r'] H'. apply in_filled in H'. simpl. apply H. tauto.
Qed.

(** ** block_toeplitz *)
Definition bt_lag (top i j : nat) : nat := if Nat.leb i j then j - i else top - (i - j).

Lemma vec_ok b lays m x cols rows top sh n r c : (forall a, good_layout (lays a)) -> inside m x ->
  sv_shape x = cols :: rows :: top :: sh -> 2 <= n -> n <= top -> r < rows -> c < cols ->
  exists xc xrc vec m1, select 0 c x = Ok xc /\ select 0 r xc = Ok xrc /\
    cat b lays m (slice_view 0 (Some (- Z.of_nat n + 1)%Z) None 1 xrc)
                 (slice_view 0 None (Some (Z.of_nat n)) 1 xrc) = Ok (vec, m1) /\
    new m m1 vec (n - 1 + n :: sh) /\
    (forall t k, t < n - 1 -> valid sh k -> value m1 vec (t :: k) = value m x (c :: r :: top - (n - 1) + t :: k)) /\
    (forall t k, t < n -> valid sh k -> value m1 vec (n - 1 + t :: k) = value m x (c :: r :: t :: k)).
Proof.
  intros G I Sh Hn Ht Hr Hc.
  destruct (axes_cons x _ _ Sh) as (sc & ax & E & E1).
  destruct ax as [|[? sr] ax]; inversion E1 as [[Q1 E2]]; subst.
  destruct ax as [|[? st] ax]; inversion E2 as [[Q2 E3]]; subst.
  destruct (select0_part x _ _ _ c E Hc) as (xc & Ec & Ac & Pc).
  destruct (select0_part xc _ _ _ r Ac Hr) as (xrc & Er & Ar & Pr).
  pose proof (part_trans _ _ _ _ _ Pc Pr) as P. cbv beta in P.
  assert (Sx : sv_shape xrc = top :: map fst ax) by (unfold sv_shape; rewrite Ar; auto).
  destruct (slice0_part xrc top st ax (Some (- Z.of_nat n + 1)%Z) None 1 (Z.of_nat (top - (n - 1))) (n - 1)
      (fun t => top - (n - 1) + t) Ar) as [A1 P1].
  { replace (- Z.of_nat n + 1)%Z with (- Z.of_nat (n - 1))%Z by lia. apply range_last; lia. }
  { intros t H. split; lia. }
  destruct (slice0_part xrc top st ax None (Some (Z.of_nat n)) 1 0%Z n (fun t => t) Ar) as [A2 P2].
  { rewrite range_to. f_equal. lia. }
  { intros t H. split; lia. }
  assert (S1 : sv_shape (slice_view 0 (Some (- Z.of_nat n + 1)%Z) None 1 xrc) = n - 1 :: map fst ax)
    by (unfold sv_shape; rewrite A1; auto).
  assert (S2 : sv_shape (slice_view 0 None (Some (Z.of_nat n)) 1 xrc) = n :: map fst ax)
    by (unfold sv_shape; rewrite A2; auto).
  assert (Ix : inside m xrc) by (eapply part_inside; eauto).
  destruct (cat_ok b lays m _ _ (n - 1) n (map fst ax) G (part_inside _ _ _ _ P1 Ix) (part_inside _ _ _ _ P2 Ix) S1 S2)
    as (vec & m1 & Ecat & N & V1 & V2).
  exists xc, xrc, vec, m1. split; auto. split; auto. split; auto. split; auto. split.
  - intros t k H Hk. rewrite V1 by auto. rewrite (part_value m _ _ _ (t :: k) P1) by (rewrite S1; constructor; auto).
    rewrite set_idx0, (part_value m x xrc _ _ P); auto. rewrite Sx. constructor; auto. lia.
  - intros t k H Hk. rewrite V2 by auto. rewrite (part_value m _ _ _ (t :: k) P2) by (rewrite S2; constructor; auto).
    rewrite set_idx0, (part_value m x xrc _ _ P); auto. rewrite Sx. constructor; auto. lia.
Qed.

Lemma block_body_ok b lays m x out cols rows top sh n r c : (forall a, good_layout (lays a)) -> inside m x ->
  sv_shape x = cols :: rows :: top :: sh -> 2 <= n -> n <= top -> r < rows -> c < cols ->
  inside m out -> spaced out -> sv_shape out = cols :: n :: rows :: n :: sh ->
  exists m', block_body b lays n x out m (r, c) = Ok m' /\ sm_next m <= sm_next m' /\
    (forall a, a < sm_next m -> a <> sv_buf out -> sm_buf m' a = sm_buf m a) /\ inside m' out /\
    (forall j i k, j < n -> i < n -> valid sh k ->
       value m' out (c :: j :: r :: i :: k) = value m x (c :: r :: bt_lag top i j :: k)) /\
    (forall c' j r' i k, c' < cols -> j < n -> r' < rows -> i < n -> valid sh k -> (r', c') <> (r, c) ->
       value m' out (c' :: j :: r' :: i :: k) = value m out (c' :: j :: r' :: i :: k)).
Proof.
  intros G I Sh Hn Ht Hr Hc Io So Sho. unfold block_body. cbn [fst snd].
  destruct (vec_ok b lays m x cols rows top sh n r c G I Sh Hn Ht Hr Hc)
    as (xc & xrc & vec & m1 & -> & E2 & E3 & [N1 N2 N3 N4 N5 N6] & V1 & V2).
  cbn [bind]. rewrite E2. cbn [bind]. rewrite E3. cbn [bind].
  destruct (hankel_ok b m1 vec (n - 1 + n) sh n N4 N1) as (H & Eh & Sh2 & Ih & Bh & Vh); [lia|auto|].
  rewrite Eh. cbn [bind]. replace (n - 1 + n + 1 - n) with n in * by lia.
  destruct (flip_rows_ok b lays m1 H n n sh G Ih Sh2) as (T & m2 & Ef & K2 & It & St & Bt & Vt).
  rewrite Ef. cbn [bind].
  destruct (axes_cons out _ _ Sho) as (s0 & ax & Eo & F1).
  destruct ax as [|[? s1] ax]; inversion F1 as [[Q1 F2]]; subst.
  destruct ax as [|[? s2] ax]; inversion F2 as [[Q2 F3]]; subst.
  destruct ax as [|[? s3] ax]; inversion F3 as [[Q3 F4]]; subst.
  destruct (select0_part out _ _ _ c Eo Hc) as (dc & Ec & Ac & Pc). rewrite Ec. cbn [bind].
  destruct (select1_part dc _ _ _ _ r Ac Hr) as (dst & Ed & Ad & Pd). rewrite Ed. cbn [bind].
  pose proof (part_trans _ _ _ _ _ Pc Pd) as P. cbv beta in P.
  assert (Sd : sv_shape dst = n :: n :: map fst ax) by (unfold sv_shape; rewrite Ad; auto).
  assert (K : keeps m m2) by (eapply keeps_trans; eauto).
  destruct (assign_ok b m2 out dst _ T P (keeps_inside _ _ _ K Io) So) as (m' & E & A1 & A2 & A3 & A4 & A5).
  { rewrite Sd. intros k k' Hk Hk'. apply valid_cons in Hk, Hk'.
    destruct Hk as (j & k1 & -> & _ & _), Hk' as (j' & k1' & -> & _ & _). congruence. }
  { auto. } { rewrite Sd, St. reflexivity. }
  exists m'. split; auto. split; [rewrite A1; apply K|]. split.
  { intros a Ha Hb. rewrite A2 by auto. now apply K. }
  split; auto. split.
  - intros j i k Hj Hi Hk.
    pose proof (A4 (j :: i :: k)) as Q. cbv beta iota in Q. rewrite Q by (rewrite Sd; repeat (constructor; auto)).
    rewrite Vt, Vh by (auto; lia). unfold bt_lag. destruct (Nat.leb_spec i j).
    + replace (n - 1 - i + j) with (n - 1 + (j - i)) by lia. apply V2; auto. lia.
    + rewrite V1 by (auto; lia). idx.
  - intros c' j r' i k Hc' Hj Hr' Hi Hk Hne. rewrite A5.
    + apply keeps_value; auto. apply Io.
    + rewrite Sho. repeat (constructor; auto).
    + rewrite Sd. intros k' Hk'. apply valid_cons in Hk'. destruct Hk' as (j' & k1' & -> & _ & _).
      intros Q. inversion Q; subst. congruence.
Qed.

Lemma block_loop_ok b lays m0 x out cols rows top sh n l : (forall a, good_layout (lays a)) -> inside m0 x ->
  sv_shape x = cols :: rows :: top :: sh -> 2 <= n -> n <= top ->
  sv_buf out = sm_next m0 -> spaced out -> sv_shape out = cols :: n :: rows :: n :: sh ->
  (forall rc, In rc l -> fst rc < rows /\ snd rc < cols) ->
  forall (dn : list (nat * nat)) m, keeps m0 m -> inside m out ->
  (forall c j r i k, c < cols -> j < n -> r < rows -> i < n -> valid sh k -> In (r, c) dn ->
     value m out (c :: j :: r :: i :: k) = value m0 x (c :: r :: bt_lag top i j :: k)) ->
  exists m', block_loop b lays n x out l m = Ok m' /\ keeps m0 m' /\ inside m' out /\
  (forall c j r i k, c < cols -> j < n -> r < rows -> i < n -> valid sh k -> In (r, c) (dn ++ l) ->
     value m' out (c :: j :: r :: i :: k) = value m0 x (c :: r :: bt_lag top i j :: k)).
Proof.
  intros G I Sh Hn Ht Bo So Sho. induction l as [|[r c] l IH]; intros Hl dn m K Io V.
  - exists m. simpl. rewrite app_nil_r. auto.
  - cbn [block_loop]. destruct (Hl (r, c)) as [Hr Hc]; [now left|]. simpl in Hr, Hc.
    destruct (block_body_ok b lays m x out cols rows top sh n r c G (keeps_inside _ _ _ K I) Sh Hn Ht Hr Hc Io So Sho)
      as (m1 & E & A1 & A2 & A3 & A4 & A5).
    rewrite E. cbn [bind].
    assert (K1 : keeps m0 m1).
    { destruct K as [KA KB]. split; [lia|]. intros a Ha. rewrite A2 by lia. auto. }
    assert (V1 : forall c0 j r0 i k, c0 < cols -> j < n -> r0 < rows -> i < n -> valid sh k -> In (r0, c0) (dn ++ [(r, c)]) ->
      value m1 out (c0 :: j :: r0 :: i :: k) = value m0 x (c0 :: r0 :: bt_lag top i j :: k)).
    { intros c0 j r0 i k H1 H2 H3 H4 H5 H6.
      assert ({(r0, c0) = (r, c)} + {(r0, c0) <> (r, c)}) as [Q|Q] by (decide equality; apply Nat.eq_dec).
      - inversion Q; subst. rewrite A4 by auto. apply keeps_value; auto. apply I.
      - rewrite A5 by auto. apply V; auto. apply in_app_iff in H6. destruct H6 as [H6|[H6|[]]]; auto. congruence. }
    destruct (IH (fun rc H => Hl rc (or_intror H)) (dn ++ [(r, c)]) m1 K1 A3 V1) as (m' & B1 & B2 & B3 & B4).
    exists m'. split; auto. split; auto. split; auto. rewrite <- app_assoc in B4. exact B4.
Qed.

Lemma merge_valid rows cols n sh k : valid (cols :: n :: rows :: n :: sh) k ->
  valid (n * cols :: n * rows :: sh) (merge_idx rows cols k).
Proof.
  intros H. repeat (apply valid_cons in H; destruct H as (? & ? & -> & ? & H)).
  simpl. constructor; [nia|]. constructor; [nia|auto].
Qed.
Lemma merge_inj rows cols n sh k k' : valid (cols :: n :: rows :: n :: sh) k ->
  valid (cols :: n :: rows :: n :: sh) k' -> merge_idx rows cols k = merge_idx rows cols k' -> k = k'.
Proof.
  intros H H'. apply valid_cons in H, H'. destruct H as (c & k1 & -> & Hc & H), H' as (c' & k1' & -> & Hc' & H').
  apply valid_cons in H, H'. destruct H as (j & k2 & -> & Hj & H), H' as (j' & k2' & -> & Hj' & H').
  apply valid_cons in H, H'. destruct H as (r & k3 & -> & Hr & H), H' as (r' & k3' & -> & Hr' & H').
  apply valid_cons in H, H'. destruct H as (i & k4 & -> & Hi & H), H' as (i' & k4' & -> & Hi' & H').
  simpl. intros E. inversion E as [[E1 E2 E3]].
  destruct (Nat.div_mod_unique cols j j' c c') as [-> ->]; [auto|auto|lia|].
  destruct (Nat.div_mod_unique rows i i' r r') as [-> ->]; [auto|auto|lia|]. reflexivity.
Qed.

Theorem block_toeplitz_mem_ok b lays m x cols rows top sh : (forall a, good_layout (lays a)) -> inside m x ->
  sv_shape x = cols :: rows :: top :: sh -> 4 <= top ->
  exists T m', block_toeplitz_mem b lays m x = Ok (T, m') /\
    sv_shape T = top / 2 * cols :: top / 2 * rows :: sh /\ inside m' T /\ keeps m m' /\ sm_next m <= sv_buf T /\
    forall p q k, p < top / 2 * rows -> q < top / 2 * cols -> valid sh k ->
      value m' T (q :: p :: k) =
      value m x (q mod cols :: p mod rows :: bt_lag top (p / rows) (q / cols) :: k).
Proof.
  intros G I Sh Ht. unfold block_toeplitz_mem. rewrite Sh. set (n := top / 2).
  assert (Hn : 2 <= n) by (apply (Nat.div_le_mono 4 top 2); lia).
  assert (Hn' : n <= top) by (apply Nat.div_le_upper_bound; lia).
  destruct (alloc lays m (cols :: n :: rows :: n :: sh) []) as [out m1] eqn:A.
  apply alloc_ok in A; auto; [|intros ? []|constructor].
  destruct A as (A1 & A2 & A3 & A4 & A5 & A6 & A7 & A8 & A9).
  destruct (block_loop_ok b lays m x out cols rows top sh n (list_prod (seq 0 rows) (seq 0 cols)) G I Sh Hn Hn' A2 A6 A1)
    with (dn := @nil (nat * nat)) (m := m1) as (m2 & B1 & B2 & B3 & B4); auto.
  { intros [r c] H. apply in_prod_iff in H. rewrite !in_seq in H. simpl. lia. }
  rewrite B1. cbn [bind]. rewrite read_all_ok by auto. cbn [bind]. rewrite A1.
  change (map (fun kr => (merge_idx rows cols (fst kr), snd kr)) (filled (cols :: n :: rows :: n :: sh) (value m2 out)))
    with (moved (merge_idx rows cols) (filled (cols :: n :: rows :: n :: sh) (value m2 out))).
  destruct (alloc lays m2 _ _) as [T m3] eqn:A0.
  apply alloc_moved in A0; auto; [|intros; now apply merge_valid|intros; eapply merge_inj; eauto].
  destruct A0 as [[N1 N2 N3 N4 N5 N6] V]. exists T, m3. split; auto. split; auto. split; auto.
  split; [eapply keeps_trans; eauto|]. split; [destruct B2; lia|].
  intros p q k Hp Hq Hk.
  assert (0 < rows /\ 0 < cols) as [R0 C0] by nia.
  assert (Hv : valid (cols :: n :: rows :: n :: sh) (q mod cols :: q / cols :: p mod rows :: p / rows :: k)).
  { repeat constructor; auto; try (apply Nat.mod_upper_bound; lia); apply Nat.div_lt_upper_bound; lia. }
  pose proof (V _ Hv) as Q. cbn [merge_idx] in Q.
  replace (q / cols * cols + q mod cols) with q in Q by (rewrite Nat.mul_comm; apply Nat.div_mod; lia).
  replace (p / rows * rows + p mod rows) with p in Q by (rewrite Nat.mul_comm; apply Nat.div_mod; lia).
  rewrite Q. repeat (apply valid_cons in Hv; destruct Hv as (? & ? & Qv & ? & Hv); inversion Qv; subst; clear Qv).
  apply B4; auto. simpl. apply in_prod_iff. rewrite !in_seq. lia.
Qed.

(** ** load_diag *)
Theorem acf_ok lays m L ld N sh a : (forall i, good_layout (lays i)) -> 0 < L -> 0 < N ->
  exists acf m', acf_mem lays m L ld (N :: sh) a = Ok (acf, m') /\ sv_shape acf = Nat.min L N :: sh /\
    inside m' acf /\ keeps m m' /\ sm_next m <= sv_buf acf /\
    forall l k, l < Nat.min L N -> valid sh k ->
      value m' acf (l :: k) =
      (a (l :: k) + match ld with Some d => if Nat.eqb l 0 then d else 0 | None => 0 end)%R.
Proof.
  intros G HL HN. unfold acf_mem. destruct (alloc lays m (N :: sh) _) as [v m1] eqn:A.
  apply alloc_filled in A; auto. destruct A as [[N1 N2 N3 N4 N5 N6] V].
  destruct (axes_cons v _ _ N1) as (s & ax & E & E1).
  destruct (slice0_part v N s ax None (Some (Z.of_nat L)) 1 0%Z (Nat.min L N) (fun i => i) E (range_to N L)) as [A P].
  { intros i Hi. lia. }
  set (acf := slice_view 0 None (Some (Z.of_nat L)) 1 v) in *.
  assert (Sh : sv_shape acf = Nat.min L N :: sh) by (unfold sv_shape; rewrite A; simpl; now rewrite E1).
  assert (Ba : sv_buf acf = sv_buf v) by apply P.
  assert (V0 : forall l k, l < Nat.min L N -> valid sh k -> value m1 acf (l :: k) = a (l :: k)).
  { intros l k Hl Hk. rewrite (part_value m1 v acf _ (l :: k) P) by (rewrite Sh; constructor; auto).
    rewrite set_idx0. apply V. constructor; auto. lia. }
  destruct ld as [d|].
  - destruct (select0_part acf _ _ _ 0 A) as (z & Ez & Az & Pz); [lia|]. rewrite Ez. cbn [bind].
    assert (Ia : inside m1 acf) by (eapply part_inside; eauto).
    assert (Sa : spaced acf).
    { eapply part_spaced; eauto. rewrite Sh. intros k k' Hk Hk'. apply valid_cons in Hk, Hk'.
      destruct Hk as (i & k1 & -> & _ & _), Hk' as (i' & k1' & -> & _ & _). now rewrite !set_idx0. }
    destruct (iadd_ok m1 acf z _ d Pz Ia Sa) as (m2 & Ei & A1 & A2 & A3 & A4 & A5).
    { intros k k' _ _ Q. congruence. }
    rewrite Ei. cbn [bind]. exists acf, m2. split; auto. split; auto. split; auto. split.
    { destruct N3 as [K1 K2]. split; [lia|]. intros b Hb. rewrite A2 by lia. auto. }
    split; [lia|]. intros l k Hl Hk.
    assert (Sz : sv_shape z = sh) by (unfold sv_shape; rewrite Az; auto).
    destruct (Nat.eqb_spec l 0) as [->|Hl0].
    + pose proof (A4 k) as Q. cbv beta in Q. rewrite Q by (rewrite Sz; auto). now rewrite V0.
    + rewrite A5; [rewrite V0 by auto; lra|rewrite Sh; constructor; auto|]. intros k' _ Q. congruence.
  - exists acf, m1. split; auto. split; auto. split; [eapply part_inside; eauto|]. split; auto.
    split; [lia|]. intros l k Hl Hk. rewrite V0 by auto. lra.
Qed.

Theorem acf2_ok lays m ld c N sh a : (forall i, good_layout (lays i)) -> 0 < N ->
  exists acf m', acf2_mem lays m ld (c :: c :: N :: sh) a = Ok (acf, m') /\ sv_shape acf = c :: c :: N :: sh /\
    inside m' acf /\ keeps m m' /\ sm_next m <= sv_buf acf /\
    forall i j l k, i < c -> j < c -> l < N -> valid sh k ->
      value m' acf (i :: j :: l :: k) =
      (a (i :: j :: l :: k) + match ld with Some d => if Nat.eqb l 0 && Nat.eqb i j then d else 0 | None => 0 end)%R.
Proof.
  intros G HN. unfold acf2_mem. destruct (alloc lays m (c :: c :: N :: sh) _) as [v m1] eqn:A.
  apply alloc_filled in A; auto. destruct A as [[N1 N2 N3 N4 N5 N6] V].
  destruct ld as [d|].
  - destruct (axes_cons v _ _ N1) as (s0 & ax & E & F1).
    destruct ax as [|[? s1] ax]; inversion F1 as [[Q1 F2]]; subst.
    destruct ax as [|[? s2] ax]; inversion F2 as [[Q2 F3]]; subst.
    destruct (select2_part v _ _ _ _ _ 0 E HN) as (z & Ez & Az & Pz). rewrite Ez. cbn [bind].
    unfold diagonal. rewrite Az. cbn [bind]. set (dg := SView _ _ _).
    assert (Pd : part z dg (fun k => match k with i :: k' => i :: i :: k' | [] => [] end)).
    { split; auto; unfold sv_shape, dg; cbn [sv_axes map fst]; intros k Hk;
        apply valid_cons in Hk; destruct Hk as (i & k1 & -> & Hi & Hk).
      - rewrite Az. simpl. constructor; [lia|]. constructor; [lia|auto].
      - unfold address. cbn [sv_off sv_axes]. rewrite Az. cbn [addr]. ring. }
    pose proof (part_trans _ _ _ _ _ Pz Pd) as P. cbv beta in P.
    assert (Sd : sv_shape dg = c :: map fst ax) by (unfold sv_shape, dg; simpl; now rewrite Nat.min_id).
    destruct (iadd_ok m1 v dg _ d P N4 N5) as (m2 & Ei & A1 & A2 & A3 & A4 & A5).
    { rewrite Sd. intros k k' Hk Hk'. apply valid_cons in Hk, Hk'.
      destruct Hk as (i & k1 & -> & _ & _), Hk' as (i' & k1' & -> & _ & _). congruence. }
    rewrite Ei. cbn [bind]. exists v, m2. split; auto. split; auto. split; auto. split.
    { destruct N3 as [K1 K2]. split; [lia|]. intros b Hb. rewrite A2 by lia. auto. }
    split; [lia|]. intros i j l k Hi Hj Hl Hk.
    assert (Va : value m1 v (i :: j :: l :: k) = a (i :: j :: l :: k)) by (apply V; repeat (constructor; auto)).
    destruct (Nat.eqb_spec l 0) as [->|Hl0]; [destruct (Nat.eqb_spec i j) as [->|Hij]|]; simpl andb; cbv iota.
    + pose proof (A4 (j :: k)) as Q. cbv beta iota in Q. rewrite Q by (rewrite Sd; constructor; auto). now rewrite Va.
    + rewrite A5; [rewrite Va; lra|rewrite N1; repeat (constructor; auto)|].
      rewrite Sd. intros k' Hk'. apply valid_cons in Hk'. destruct Hk' as (i' & k1 & -> & _ & _). intros Q; inversion Q; congruence.
    + rewrite A5; [rewrite Va; lra|rewrite N1; repeat (constructor; auto)|].
      rewrite Sd. intros k' Hk'. apply valid_cons in Hk'. destruct Hk' as (i' & k1 & -> & _ & _). intros Q; inversion Q; congruence.
  - exists v, m1. split; auto. split; auto. split; auto. split; auto. split; auto.
    intros i j l k Hi Hj Hl Hk. rewrite V by (repeat (constructor; auto)). lra.
Qed.
