(** * Facts about Strided.v *)
From Coq Require Import Reals Lra.
From Verif Require Import Prelude Slice Helpers Linalg Strided.
Local Open Scope nat_scope.

(** ** What the theorems assume and conclude *)

(** Every entry of the view lies in its (allocated) buffer. *)
Definition inside (m : smem) (v : sview) : Prop :=
  sv_buf v < sm_next m /\
  forall k, valid (sv_shape v) k -> (0 <= address v k < Z.of_nat (length (sm_buf m (sv_buf v))))%Z.
(** Different entries lie at different places. *)
Definition spaced (v : sview) : Prop :=
  forall k k', valid (sv_shape v) k -> valid (sv_shape v) k' -> address v k = address v k' -> k = k'.
(** What the library guarantees for a new array. *)
Definition good_layout (lay : layout) : Prop :=
  forall shape, let '(size, off, strides) := lay shape in
  length strides = length shape /\ Forall (fun s => 0 <= s)%Z strides /\
  (forall k, valid shape k -> (0 <= off + addr (combine shape strides) k < Z.of_nat size)%Z) /\
  (forall k k', valid shape k -> valid shape k' ->
     addr (combine shape strides) k = addr (combine shape strides) k' -> k = k').
(** Everything that was allocated before is as it was. *)
Definition keeps (m m' : smem) : Prop :=
  sm_next m <= sm_next m' /\ forall a, a < sm_next m -> sm_buf m' a = sm_buf m a.

Ltac idx := repeat match goal with
  | |- value _ _ _ = value _ _ _ => f_equal
  | |- _ :: _ = _ :: _ => f_equal
  end; try lia.

(** ** Indices *)
Lemma in_all_idx sh k : In k (all_idx sh) <-> valid sh k.
Proof.
  revert k. induction sh as [|n sh IH]; intros k; simpl.
  - split.
    + intros [<-|[]]. constructor.
    + intros H. inversion H. now left.
  - rewrite in_flat_map. split.
    + intros (k' & Hk & H). apply in_map_iff in H. destruct H as (i & <- & Hi).
      apply in_seq in Hi. constructor; [lia|]. now apply IH.
    + intros H. inversion H as [|i ? k' ? Hi Hk]; subst. exists k'. split; [now apply IH|].
      apply in_map_iff. exists i. split; auto. apply in_seq. lia.
Qed.
Lemma NoDup_map_on {A B} (f : A -> B) l :
  (forall x y, In x l -> In y l -> f x = f y -> x = y) -> NoDup l -> NoDup (map f l).
Proof.
  intros H N. induction N as [|x l Hx N IH]; simpl; constructor.
  - intros K. apply in_map_iff in K. destruct K as (y & E & Hy).
    apply Hx. rewrite <- (H y x); auto; [now right|now left].
  - apply IH. intros; apply H; auto; now right.
Qed.
Lemma NoDup_all_idx sh : NoDup (all_idx sh).
Proof.
  induction sh as [|n sh IH]; simpl; [repeat constructor; auto|].
  induction IH as [|k l Hk N IHl]; simpl; [constructor|].
  assert (forall l1 l2 : list (list nat), NoDup l1 -> NoDup l2 ->
    (forall x, In x l1 -> In x l2 -> False) -> NoDup (l1 ++ l2)) as App.
  { induction l1 as [|a l1 I1]; simpl; intros l2 N1 N2 D; auto.
    inversion N1; subst. constructor.
    - rewrite in_app_iff. intros [K|K]; auto. eapply D; eauto.
    - apply I1; auto. intros x X1 X2. eapply D; eauto. }
  apply App; auto.
  - apply NoDup_map_on; [|apply seq_NoDup]. intros x y _ _ E. congruence.
  - intros x H1 H2. apply in_map_iff in H1. destruct H1 as (i & <- & _).
    apply in_flat_map in H2. destruct H2 as (k' & Hk' & H2).
    apply in_map_iff in H2. destruct H2 as (i' & E & _). inversion E; subst. contradiction.
Qed.
Lemma valid_cons n sh k : valid (n :: sh) k -> exists i k', k = i :: k' /\ i < n /\ valid sh k'.
Proof. intros H. inversion H; subst. eauto. Qed.
Lemma valid_cons_iff n sh i k : valid (n :: sh) (i :: k) <-> i < n /\ valid sh k.
Proof.
  split; [intros H; inversion H; auto|intros [H1 H2]; constructor; auto].
Qed.

(** ** Reading and writing *)
Lemma in_buf_iff m a p : in_buf m a p = true <-> (0 <= p < Z.of_nat (length (sm_buf m a)))%Z.
Proof. unfold in_buf. rewrite andb_true_iff, Z.leb_le, Z.ltb_lt. tauto. Qed.
Lemma mapM_map {A B} (f : A -> res B) (g : A -> B) l :
  (forall x, In x l -> f x = Ok (g x)) -> mapM f l = Ok (map g l).
Proof.
  induction l as [|a l IH]; simpl; intros H; auto.
  rewrite (H a) by now left. simpl. rewrite IH; auto.
Qed.
Lemma read_all_ok m v : inside m v -> read_all m v = Ok (filled (sv_shape v) (value m v)).
Proof.
  intros [_ H]. unfold read_all, filled. apply mapM_map. intros k Hk. apply in_all_idx in Hk.
  unfold load. rewrite (proj2 (in_buf_iff m (sv_buf v) (address v k))); auto.
Qed.
Lemma keeps_refl m : keeps m m.
Proof. split; auto. Qed.
Lemma keeps_trans m1 m2 m3 : keeps m1 m2 -> keeps m2 m3 -> keeps m1 m3.
Proof.
  intros [A1 B1] [A2 B2]. split; [lia|]. intros a Ha. rewrite B2 by lia. auto.
Qed.
Lemma keeps_value m m' v k : keeps m m' -> sv_buf v < sm_next m -> value m' v k = value m v k.
Proof. intros [_ K] H. unfold value. now rewrite K. Qed.
Lemma keeps_inside m m' v : keeps m m' -> inside m v -> inside m' v.
Proof. intros [N K] [H I]. split; [lia|]. intros k Hk. rewrite K by auto. auto. Qed.

(** ** New arrays *)
Lemma shape_combine (shape : list nat) (st : list Z) :
  length st = length shape -> map fst (combine shape st) = shape.
Proof.
  revert st. induction shape as [|n sh IH]; intros [|s st]; simpl; intros H; auto; try discriminate.
  f_equal. apply IH. lia.
Qed.
Lemma snd_combine (shape : list nat) (st : list Z) P :
  length st = length shape -> Forall P st -> Forall (fun a : nat * Z => P (snd a)) (combine shape st).
Proof.
  revert st. induction shape as [|n sh IH]; intros [|s st]; simpl; intros H F; auto; try discriminate.
  inversion F; subst. constructor; auto.
Qed.
Lemma find_unique {A} (p : A -> bool) l x :
  In x l -> p x = true -> (forall y, In y l -> p y = true -> y = x) -> find p l = Some x.
Proof.
  intros Hx Hp U. induction l as [|a l IH]; [destruct Hx|]. simpl.
  destruct (p a) eqn:E.
  - f_equal. apply U; auto. now left.
  - destruct Hx as [->|Hx]; [congruence|]. apply IH; auto. intros; apply U; auto; now right.
Qed.
Lemma find_none_iff {A} (p : A -> bool) l : (forall y, In y l -> p y = false) -> find p l = None.
Proof.
  induction l as [|a l IH]; simpl; intros H; auto.
  rewrite (H a) by now left. apply IH. auto.
Qed.

Lemma alloc_ok (lays : nat -> layout) m shape l w m' :
  (forall a, good_layout (lays a)) -> alloc lays m shape l = (w, m') ->
  (forall kr, In kr l -> valid shape (fst kr)) -> NoDup (map fst l) ->
  sv_shape w = shape /\ sv_buf w = sm_next m /\ sm_next m' = S (sm_next m) /\ keeps m m' /\
  inside m' w /\ spaced w /\ Forall (fun a : nat * Z => (0 <= snd a)%Z) (sv_axes w) /\
  (forall k r, In (k, r) l -> value m' w k = r) /\
  (forall k, valid shape k -> ~ In k (map fst l) -> value m' w k = 0%R).
Proof.
  intros G E V N. unfold alloc in E. specialize (G (sm_next m) shape).
  destruct (lays (sm_next m) shape) as [[size off] st]. destruct G as (G1 & G2 & G3 & G4).
  inversion E; subst w m'; clear E. simpl.
  set (v := SView (sm_next m) off (combine shape st)).
  assert (Sh : sv_shape v = shape) by (apply shape_combine; auto).
  assert (Inj : spaced v).
  { intros k k'. rewrite Sh. unfold address; simpl. intros. apply G4; auto. lia. }
  assert (Val : forall k, valid shape k ->
    value (SMem (S (sm_next m)) (upd (sm_buf m) (sm_next m)
        (tab size (fun p =>
           match find (fun kr => Z.eqb (address v (fst kr)) (Z.of_nat p)) l with
           | Some kr => snd kr | None => 0%R end)))) v k =
    match find (fun kr => Z.eqb (address v (fst kr)) (address v k)) l with
           | Some kr => snd kr | None => 0%R end).
  { intros k Hk. unfold value. simpl. rewrite upd_eq.
    pose proof (G3 k Hk) as B. change (off + addr (combine shape st) k)%Z with (address v k) in B.
    rewrite nth_tab by lia. rewrite Z2Nat.id by lia. reflexivity. }
  split; [exact Sh|]. split; [reflexivity|]. split; [reflexivity|]. split; [|split; [|split; [exact Inj|split; [|split]]]].
  - split; [simpl; lia|]. simpl. intros a Ha. rewrite upd_neq by lia. auto.
  - split; [simpl; lia|]. intros k Hk. simpl. rewrite upd_eq, length_tab. rewrite Sh in Hk. now apply G3.
  - apply snd_combine; auto.
  - intros k r H. rewrite Val by (apply (V (k, r)); auto).
    rewrite (find_unique _ l (k, r)); auto.
    + simpl. apply Z.eqb_refl.
    + intros [k' r'] H' E'. simpl in E'. apply Z.eqb_eq in E'.
      assert (k' = k) as -> by (apply Inj; auto; rewrite Sh; [apply (V (k', r'))|apply (V (k, r))]; auto).
      f_equal. clear -N H H'. induction l as [|[k0 r0] l IH]; [destruct H|].
      simpl in N. inversion N; subst.
      assert (forall r, In (k, r) l -> In k (map fst l)) as I by (intros; apply in_map_iff; eexists; split; eauto; auto).
      destruct H as [H|H], H' as [H'|H'].
      * congruence.
      * inversion H; subst. exfalso; eauto.
      * inversion H'; subst. exfalso; eauto.
      * auto.
  - intros k Hk H. rewrite Val by auto. rewrite find_none_iff; auto.
    intros [k' r'] H'. simpl. apply Z.eqb_neq. intros E. apply H.
    apply Inj in E; [|rewrite Sh; apply (V (k', r')); auto|rewrite Sh; auto].
    rewrite <- E. apply in_map_iff. exists (k', r'). auto.
Qed.

(** The contents of an array, moved by a one-to-one map of the indices. *)
Definition moved (g : list nat -> list nat) (l : content) : content :=
  map (fun kr => (g (fst kr), snd kr)) l.
Lemma in_filled sh f k r : In (k, r) (filled sh f) <-> valid sh k /\ r = f k.
Proof.
  unfold filled. rewrite in_map_iff. split.
  - intros (k' & E & H). inversion E; subst. split; auto. now apply in_all_idx.
  - intros [H ->]. exists k. split; auto. now apply in_all_idx.
Qed.
Lemma in_moved g sh f k r : In (k, r) (moved g (filled sh f)) <->
  exists k', valid sh k' /\ k = g k' /\ r = f k'.
Proof.
  unfold moved. rewrite in_map_iff. split.
  - intros ([k' r'] & E & H). apply in_filled in H. destruct H as [H ->]. simpl in E.
    inversion E; subst. eauto.
  - intros (k' & H & -> & ->). exists (k', f k'). split; auto. now apply in_filled.
Qed.
Lemma NoDup_moved g sh f :
  (forall k k', valid sh k -> valid sh k' -> g k = g k' -> k = k') ->
  NoDup (map fst (moved g (filled sh f))).
Proof.
  intros H. unfold moved, filled. rewrite !map_map. simpl. apply NoDup_map_on; [|apply NoDup_all_idx].
  intros x y Hx Hy. apply in_all_idx in Hx, Hy. auto.
Qed.
Lemma map_moved g l : map (fun kr : list nat * R => (g (fst kr), snd kr)) l = moved g l.
Proof. reflexivity. Qed.

(** [w] is a new array in [m'] that did not exist in [m]. *)
Record new (m m' : smem) (w : sview) (sh : list nat) : Prop := New {
  new_shape : sv_shape w = sh;
  new_buf : sm_next m <= sv_buf w;
  new_keeps : keeps m m';
  new_inside : inside m' w;
  new_spaced : spaced w;
  new_pos : Forall (fun a : nat * Z => (0 <= snd a)%Z) (sv_axes w) }.

Lemma alloc_moved (lays : nat -> layout) m sh shape g f w m' :
  (forall a, good_layout (lays a)) ->
  (forall k, valid sh k -> valid shape (g k)) ->
  (forall k k', valid sh k -> valid sh k' -> g k = g k' -> k = k') ->
  alloc lays m shape (moved g (filled sh f)) = (w, m') ->
  new m m' w shape /\ forall k, valid sh k -> value m' w (g k) = f k.
Proof.
  intros G V I E. apply alloc_ok in E; [| |intros [k r] H; apply in_moved in H; destruct H as (k' & H1 & -> & _); simpl; auto|now apply NoDup_moved].
  - destruct E as (A1 & A2 & A3 & A4 & A5 & A6 & A7 & A8 & A9). split; [split; auto; lia|].
    intros k Hk. apply A8. apply in_moved. eauto.
  - auto.
Qed.

Lemma alloc_filled (lays : nat -> layout) m sh f w m' :
  (forall a, good_layout (lays a)) -> alloc lays m sh (filled sh f) = (w, m') ->
  new m m' w sh /\ forall k, valid sh k -> value m' w k = f k.
Proof.
  intros G E. eapply (alloc_moved lays m sh sh (fun k => k)); eauto.
  unfold moved. rewrite (map_ext _ (fun kr => kr)), map_id; auto. now intros [].
Qed.

(** ** Views *)
(** Entry [k] of [w] is entry [f k] of [v]. *)
Record part (v w : sview) (f : list nat -> list nat) : Prop := Part {
  part_buf : sv_buf w = sv_buf v;
  part_valid : forall k, valid (sv_shape w) k -> valid (sv_shape v) (f k);
  part_addr : forall k, valid (sv_shape w) k -> address w k = address v (f k) }.
Lemma part_inside m v w f : part v w f -> inside m v -> inside m w.
Proof.
  intros [B V A] [H I]. split; [congruence|]. intros k Hk. rewrite B, A by auto. auto.
Qed.
Lemma part_value m v w f k : part v w f -> valid (sv_shape w) k -> value m w k = value m v (f k).
Proof. intros [B V A] H. unfold value. now rewrite B, A. Qed.
Lemma part_trans v w u f g : part v w f -> part w u g -> part v u (fun k => f (g k)).
Proof.
  intros [B V A] [B' V' A']. split; [congruence|auto|]. intros k Hk. rewrite A' by auto. auto.
Qed.

Lemma slice0_part v n s0 ax start stop step s c (g : nat -> nat) :
  sv_axes v = (n, s0) :: ax -> slice_range (Z.of_nat n) start stop step = (s, Z.of_nat c) ->
  (forall i, i < c -> g i < n /\ (s + Z.of_nat i * step = Z.of_nat (g i))%Z) ->
  sv_axes (slice_view 0 start stop step v) = (c, (step * s0)%Z) :: ax /\
  part v (slice_view 0 start stop step v) (set_idx 0 g).
Proof.
  intros E R G. unfold slice_view, axis. rewrite E. cbn [nth fst snd]. rewrite R. cbn [sv_axes on_axis fst snd].
  rewrite Nat2Z.id. split; auto. split; auto; unfold sv_shape; cbn [sv_axes map fst]; rewrite ?E; cbn [map fst];
    intros k Hk; apply valid_cons in Hk; destruct Hk as (i & k' & -> & Hi & Hk); destruct (G i Hi) as [G1 G2].
  - simpl. constructor; auto.
  - unfold address. cbn [sv_off sv_axes addr set_idx firstn skipn app]. rewrite E. cbn [addr]. rewrite <- G2. ring.
Qed.
Lemma slice1_part v a n s0 ax start stop step s c (g : nat -> nat) :
  sv_axes v = a :: (n, s0) :: ax -> slice_range (Z.of_nat n) start stop step = (s, Z.of_nat c) ->
  (forall i, i < c -> g i < n /\ (s + Z.of_nat i * step = Z.of_nat (g i))%Z) ->
  sv_axes (slice_view 1 start stop step v) = a :: (c, (step * s0)%Z) :: ax /\
  part v (slice_view 1 start stop step v) (set_idx 1 g).
Proof.
  intros E R G. destruct a as [na sa]. unfold slice_view, axis. rewrite E. cbn [nth fst snd]. rewrite R. cbn [sv_axes on_axis fst snd].
  rewrite Nat2Z.id. split; auto. split; auto; unfold sv_shape; cbn [sv_axes map fst]; rewrite ?E; cbn [map fst];
    intros k Hk; apply valid_cons in Hk; destruct Hk as (j & k1 & -> & Hj & Hk);
    apply valid_cons in Hk; destruct Hk as (i & k' & -> & Hi & Hk); destruct (G i Hi) as [G1 G2].
  - repeat (constructor; auto).
  - unfold address. cbn [sv_off sv_axes addr set_idx firstn skipn app]. rewrite E. cbn [addr]. rewrite <- G2. ring.
Qed.
Lemma select0_part v n s0 ax i : sv_axes v = (n, s0) :: ax -> i < n ->
  exists w, select 0 i v = Ok w /\ sv_axes w = ax /\ part v w (fun k => i :: k).
Proof.
  intros E H. unfold select, axis. rewrite E. cbn [nth fst snd]. apply Nat.ltb_lt in H. rewrite H.
  apply Nat.ltb_lt in H. eexists. split; [reflexivity|]. cbn [sv_axes drop_axis]. split; auto.
  split; auto; unfold sv_shape; cbn [sv_axes drop_axis]; intros k Hk.
  - rewrite E. simpl. constructor; auto.
  - unfold address. cbn [sv_off sv_axes]. rewrite E. cbn [addr]. ring.
Qed.
Lemma select1_part v a n s0 ax i : sv_axes v = a :: (n, s0) :: ax -> i < n ->
  exists w, select 1 i v = Ok w /\ sv_axes w = a :: ax /\
    part v w (fun k => match k with j :: k' => j :: i :: k' | [] => [] end).
Proof.
  intros E H. destruct a as [na sa]. unfold select, axis. rewrite E. cbn [nth fst snd]. apply Nat.ltb_lt in H. rewrite H.
  apply Nat.ltb_lt in H. eexists. split; [reflexivity|]. cbn [sv_axes drop_axis]. split; auto.
  split; auto; unfold sv_shape; cbn [sv_axes drop_axis map fst]; intros k Hk;
    apply valid_cons in Hk; destruct Hk as (j & k1 & -> & Hj & Hk).
  - rewrite E. repeat (constructor; auto).
  - unfold address. cbn [sv_off sv_axes]. rewrite E. cbn [addr]. ring.
Qed.
Lemma select2_part v a a' n s0 ax i : sv_axes v = a :: a' :: (n, s0) :: ax -> i < n ->
  exists w, select 2 i v = Ok w /\ sv_axes w = a :: a' :: ax /\
    part v w (fun k => match k with j :: j' :: k' => j :: j' :: i :: k' | _ => [] end).
Proof.
  intros E H. destruct a as [na sa], a' as [na' sa']. unfold select, axis. rewrite E. cbn [nth fst snd]. apply Nat.ltb_lt in H. rewrite H.
  apply Nat.ltb_lt in H. eexists. split; [reflexivity|]. cbn [sv_axes drop_axis]. split; auto.
  split; auto; unfold sv_shape; cbn [sv_axes drop_axis map fst]; intros k Hk;
    apply valid_cons in Hk; destruct Hk as (j & k1 & -> & Hj & Hk);
    apply valid_cons in Hk; destruct Hk as (j' & k2 & -> & Hj' & Hk).
  - rewrite E. repeat (constructor; auto).
  - unfold address. cbn [sv_off sv_axes]. rewrite E. cbn [addr]. ring.
Qed.

(** The slices of the code. *)
Lemma range_all_rev n : slice_range (Z.of_nat n) None None (-1) = (Z.of_nat n - 1, Z.of_nat n)%Z.
Proof.
  unfold slice_range. change (0 <? -1)%Z with false. cbv iota zeta. f_equal.
  change (- (-1))%Z with 1%Z. rewrite Z.div_1_r. destruct (Z.ltb_spec (-1) (Z.of_nat n - 1)). all: lia.
Qed.
Lemma range_tail_rev n : 0 < n ->
  slice_range (Z.of_nat n) None (Some 0%Z) (-1) = (Z.of_nat n - 1, Z.of_nat (n - 1))%Z.
Proof.
  intros H. unfold slice_range, clip. change (0 <? -1)%Z with false. change (0 <? 0)%Z with false. cbv iota zeta. f_equal.
  change (- (-1))%Z with 1%Z. rewrite Z.div_1_r.
  match goal with |- context [Z.ltb ?a ?b] => destruct (Z.ltb_spec a b) end; lia.
Qed.
Lemma range_from n a : a <= n ->
  slice_range (Z.of_nat n) (Some (Z.of_nat a)) None 1 = (Z.of_nat a, Z.of_nat (n - a))%Z.
Proof.
  intros H. unfold slice_range, clip. change (0 <? 1)%Z with true. cbv iota zeta. rewrite Z.div_1_r.
  destruct (Z.ltb_spec (Z.of_nat a) 0); [lia|].
  match goal with |- context [Z.ltb ?a ?b] => destruct (Z.ltb_spec a b) end; f_equal; lia.
Qed.
Lemma range_last n a : 0 < a -> a <= n ->
  slice_range (Z.of_nat n) (Some (- Z.of_nat a)%Z) None 1 = (Z.of_nat (n - a), Z.of_nat a)%Z.
Proof.
  intros H H'. unfold slice_range, clip. change (0 <? 1)%Z with true. cbv iota zeta. rewrite Z.div_1_r.
  destruct (Z.ltb_spec (- Z.of_nat a) 0); [|lia].
  match goal with |- context [Z.ltb ?a ?b] => destruct (Z.ltb_spec a b) end; f_equal; lia.
Qed.
Lemma range_to n a :
  slice_range (Z.of_nat n) None (Some (Z.of_nat a)) 1 = (0, Z.of_nat (Nat.min a n))%Z.
Proof.
  unfold slice_range, clip. change (0 <? 1)%Z with true. cbv iota zeta. rewrite Z.div_1_r.
  destruct (Z.ltb_spec (Z.of_nat a) 0); [lia|].
  match goal with |- context [Z.ltb ?a ?b] => destruct (Z.ltb_spec a b) end; f_equal; lia.
Qed.

Lemma axes_cons v n sh : sv_shape v = n :: sh -> exists s ax, sv_axes v = (n, s) :: ax /\ map fst ax = sh.
Proof.
  unfold sv_shape. destruct (sv_axes v) as [|[n' s] ax]; simpl; intros E; inversion E; subst. eauto.
Qed.

(** ** Copies *)
Lemma set_idx0 f i k : set_idx 0 f (i :: k) = f i :: k.
Proof. reflexivity. Qed.
Lemma set_idx1 f j i k : set_idx 1 f (j :: i :: k) = j :: f i :: k.
Proof. reflexivity. Qed.

Lemma flip0_ok lays m v n sh : (forall a, good_layout (lays a)) -> inside m v -> sv_shape v = n :: sh ->
  exists w m', flip_copy lays m 0 v = Ok (w, m') /\ new m m' w (n :: sh) /\
    forall i k, i < n -> valid sh k -> value m' w (i :: k) = value m v (n - 1 - i :: k).
Proof.
  intros G I Sh. unfold flip_copy. rewrite read_all_ok by auto. simpl bind. rewrite map_moved, Sh.
  destruct (axes_cons v n sh Sh) as (s & ax & E & _).
  assert (fst (axis 0 v) = n) as -> by (unfold axis; rewrite E; auto).
  destruct (alloc lays m (n :: sh) _) as [w m'] eqn:A. exists w, m'. split; auto.
  eapply alloc_moved in A; auto.
  - destruct A as [A1 A2]. split; auto. intros i k Hi Hk.
    rewrite <- (A2 (n - 1 - i :: k)) by (constructor; auto; lia). rewrite set_idx0. idx.
  - intros k Hk. apply valid_cons in Hk. destruct Hk as (i & k' & -> & Hi & Hk). rewrite set_idx0. constructor; auto. lia.
  - intros k k' Hk Hk'. apply valid_cons in Hk, Hk'. destruct Hk as (i & k1 & -> & Hi & Hk), Hk' as (i' & k1' & -> & Hi' & Hk').
    rewrite !set_idx0. intros E'. inversion E'. f_equal. lia.
Qed.
Lemma flip1_ok lays m v n0 n sh : (forall a, good_layout (lays a)) -> inside m v -> sv_shape v = n0 :: n :: sh ->
  exists w m', flip_copy lays m 1 v = Ok (w, m') /\ new m m' w (n0 :: n :: sh) /\
    forall j i k, j < n0 -> i < n -> valid sh k -> value m' w (j :: i :: k) = value m v (j :: n - 1 - i :: k).
Proof.
  intros G I Sh. unfold flip_copy. rewrite read_all_ok by auto. simpl bind. rewrite map_moved, Sh.
  destruct (axes_cons v _ _ Sh) as (s & ax & E & E1). destruct ax as [|[n1 s1] ax]; inversion E1; subst.
  assert (fst (axis 1 v) = n) as -> by (unfold axis; rewrite E; auto).
  destruct (alloc lays m _ _) as [w m'] eqn:A. exists w, m'. split; auto.
  eapply alloc_moved in A; auto.
  - destruct A as [A1 A2]. split; auto. intros j i k Hj Hi Hk.
    rewrite <- (A2 (j :: n - 1 - i :: k)) by (repeat (constructor; auto); lia). rewrite set_idx1. idx.
  - intros k Hk. apply valid_cons in Hk. destruct Hk as (j & k' & -> & Hj & Hk).
    apply valid_cons in Hk. destruct Hk as (i & k2 & -> & Hi & Hk). rewrite set_idx1. repeat (constructor; auto); lia.
  - intros k k' Hk Hk'. apply valid_cons in Hk, Hk'. destruct Hk as (j & k1 & -> & Hj & Hk), Hk' as (j' & k1' & -> & Hj' & Hk').
    apply valid_cons in Hk, Hk'. destruct Hk as (i & k2 & -> & Hi & Hk), Hk' as (i' & k2' & -> & Hi' & Hk').
    rewrite !set_idx1. intros E'. inversion E'. idx.
Qed.

Lemma cat_ok b lays m v w n1 n2 sh : (forall a, good_layout (lays a)) -> inside m v -> inside m w ->
  sv_shape v = n1 :: sh -> sv_shape w = n2 :: sh ->
  exists u m', cat b lays m v w = Ok (u, m') /\ new m m' u (n1 + n2 :: sh) /\
    (forall i k, i < n1 -> valid sh k -> value m' u (i :: k) = value m v (i :: k)) /\
    (forall i k, i < n2 -> valid sh k -> value m' u (n1 + i :: k) = value m w (i :: k)).
Proof.
  intros G Iv Iw Sv Sw. unfold cat. rewrite Sv, Sw. destruct (list_eq_dec Nat.eq_dec sh sh); [|congruence].
  rewrite !read_all_ok by auto. simpl bind. rewrite map_moved, Sv, Sw.
  destruct (alloc lays m _ _) as [u m'] eqn:A. exists u, m'. split; auto.
  assert (Id : filled (n1 :: sh) (value m v) = moved (fun k => k) (filled (n1 :: sh) (value m v))).
  { unfold moved. rewrite (map_ext _ (fun kr => kr)), map_id; auto. now intros []. }
  rewrite Id in A.
  assert (Keys : forall k r, In (k, r) (moved (fun k => k) (filled (n1 :: sh) (value m v)) ++
       moved (set_idx 0 (fun j => n1 + j)) (filled (n2 :: sh) (value m w))) <->
     (exists i k', k = i :: k' /\ i < n1 /\ valid sh k' /\ r = value m v k) \/
     (exists i k', k = n1 + i :: k' /\ i < n2 /\ valid sh k' /\ r = value m w (i :: k'))).
  { intros k r. rewrite in_app_iff, !in_moved. split; (intros [H|H]; [left|right]).
    - destruct H as (k' & H & -> & ->). apply valid_cons in H. destruct H as (i & k1 & -> & Hi & Hk). eauto 10.
    - destruct H as (k' & H & -> & ->). apply valid_cons in H. destruct H as (i & k1 & -> & Hi & Hk). rewrite set_idx0. exists i, k1. auto.
    - destruct H as (i & k' & -> & Hi & Hk & ->). exists (i :: k'). repeat split; auto. constructor; auto.
    - destruct H as (i & k' & -> & Hi & Hk & ->). exists (i :: k'). repeat split; auto. constructor; auto. }
  assert (VK : forall kr, In kr (moved (fun k => k) (filled (n1 :: sh) (value m v)) ++
       moved (set_idx 0 (fun j => n1 + j)) (filled (n2 :: sh) (value m w))) -> valid (n1 + n2 :: sh) (fst kr)).
  { intros [k r] H. apply Keys in H. simpl.
    destruct H as [(i & k' & -> & Hi & Hk & ->)|(i & k' & -> & Hi & Hk & ->)]; constructor; auto; lia. }
  assert (ND : NoDup (map fst (moved (fun k => k) (filled (n1 :: sh) (value m v)) ++
       moved (set_idx 0 (fun j => n1 + j)) (filled (n2 :: sh) (value m w))))).
  { rewrite map_app.
    assert (App : forall l1 l2 : list (list nat), NoDup l1 -> NoDup l2 ->
      (forall x, In x l1 -> In x l2 -> False) -> NoDup (l1 ++ l2)).
    { induction l1 as [|a l1 I1]; simpl; intros l2 N1 N2 D; auto.
      inversion N1; subst. constructor.
      - rewrite in_app_iff. intros [K|K]; auto. eapply D; eauto.
      - apply I1; auto. intros x X1 X2. eapply D; eauto. }
    apply App.
    + now apply NoDup_moved.
    + apply NoDup_moved. intros k k' Hk Hk'. apply valid_cons in Hk, Hk'.
      destruct Hk as (i & k1 & -> & Hi & Hk), Hk' as (i' & k1' & -> & Hi' & Hk').
      rewrite !set_idx0. intros E. inversion E. f_equal. lia.
    + intros x H1 H2. apply in_map_iff in H1, H2. destruct H1 as ([k r] & <- & H1), H2 as ([k' r'] & E & H2).
      simpl in E. subst k'. apply in_moved in H1, H2. destruct H1 as (k1 & V1 & -> & _), H2 as (k2 & V2 & E & _).
      apply valid_cons in V1, V2. destruct V1 as (i & ? & -> & ? & ?), V2 as (i' & ? & -> & ? & ?).
      rewrite set_idx0 in E. inversion E. lia. }
  apply alloc_ok in A; auto.
  destruct A as (A1 & A2 & A3 & A4 & A5 & A6 & A7 & A8 & A9). split; [split; auto; lia|].
    split; intros i k Hi Hk; apply A8, Keys; [left|right]; eauto 10.
Qed.

(** ** hankel_view *)
Lemma valid_max (axes : list (nat * Z)) : Forall (fun a => fst a <> 0) axes ->
  valid (map fst axes) (map (fun a => fst a - 1) axes).
Proof. induction 1; simpl; constructor; auto. lia. Qed.

Theorem hankel_ok b m v n sh n_rows :
  inside m v -> sv_shape v = n :: sh -> n_rows <= n + 1 ->
  (b = Torch -> Forall (fun a : nat * Z => (0 <= snd a)%Z) (sv_axes v)) ->
  exists w, hankel_mem b m v n_rows = Ok w /\ sv_shape w = n + 1 - n_rows :: n_rows :: sh /\
    inside m w /\ sv_buf w = sv_buf v /\
    forall j i k, j < n + 1 - n_rows -> i < n_rows -> valid sh k ->
      value m w (j :: i :: k) = value m v (i + j :: k).
Proof.
  intros I Sh H T. unfold hankel_mem. destruct (axes_cons v n sh Sh) as (s & ax & E & E1). rewrite E.
  destruct (Nat.ltb_spec (n + 1) n_rows); [lia|].
  set (w := SView _ _ _).
  assert (P : part v w (fun k => match k with j :: i :: k' => i + j :: k' | _ => [] end)).
  { split; auto; unfold sv_shape; unfold w; cbn [sv_axes map fst]; rewrite E1; intros k Hk;
      apply valid_cons in Hk; destruct Hk as (j & k1 & -> & Hj & Hk);
      apply valid_cons in Hk; destruct Hk as (i & k2 & -> & Hi & Hk).
    - rewrite E. simpl. rewrite E1. constructor; auto. lia.
    - unfold address. cbn [sv_off sv_axes]. rewrite E. cbn [addr]. rewrite Nat2Z.inj_add. ring. }
  assert (Iw : inside m w) by (eapply part_inside; eauto).
  assert (Sw : sv_shape w = n + 1 - n_rows :: n_rows :: sh) by (unfold sv_shape, w; simpl; now rewrite E1).
  exists w. split; [|split; [auto|split; [auto|split; auto]]].
  - destruct b; auto.
    assert (in_storage m w = true) as ->; auto.
    unfold in_storage. apply andb_true_iff. specialize (T eq_refl). rewrite E in T. split.
    + apply forallb_forall. intros a Ha. apply Z.leb_le. rewrite Forall_forall in T.
      unfold w in Ha. simpl in Ha. destruct Ha as [<-|[<-|Ha]]; simpl.
      * apply (T (n, s)). now left.
      * apply (T (n, s)). now left.
      * apply T. now right.
    + destruct (existsb _ _) eqn:Ex; auto. simpl. apply Z.ltb_lt. apply Iw. apply valid_max.
      apply Forall_forall. intros a Ha Z0.
      assert (existsb (fun a : nat * Z => Nat.eqb (fst a) 0) (sv_axes w) = true); [|congruence].
      apply existsb_exists. exists a. split; auto. now apply Nat.eqb_eq.
  - intros j i k Hj Hi Hk. rewrite (part_value m v w _ (j :: i :: k) P); auto.
    rewrite Sw. repeat (constructor; auto).
Qed.

(** ** Row reversal and toeplitz *)
Lemma flip_rows_ok b lays m H n0 n sh : (forall a, good_layout (lays a)) -> inside m H ->
  sv_shape H = n0 :: n :: sh ->
  exists T m', flip_rows_mem b lays m H = Ok (T, m') /\ keeps m m' /\ inside m' T /\
    sv_shape T = n0 :: n :: sh /\ (sv_buf T = sv_buf H \/ sm_next m <= sv_buf T) /\
    forall j i k, j < n0 -> i < n -> valid sh k ->
      value m' T (j :: i :: k) = value m H (j :: n - 1 - i :: k).
Proof.
  intros G I Sh. unfold flip_rows_mem. destruct b.
  - destruct (axes_cons H _ _ Sh) as (s & ax & E & E1). destruct ax as [|[n1 s1] ax]; inversion E1; subst.
    destruct (slice1_part H (n0, s) n s1 ax None None (-1) _ n (fun i => n - 1 - i) E (range_all_rev n)) as [A P].
    { intros i Hi. lia. }
    assert (Sh2 : sv_shape (slice_view 1 None None (-1) H) = n0 :: n :: map fst ax)
      by (unfold sv_shape; rewrite A; auto).
    eexists _, m. split; [reflexivity|]. split; [apply keeps_refl|]. split; [eapply part_inside; eauto|].
    split; auto. split; [left; apply P|].
    intros j i k Hj Hi Hk. rewrite (part_value m H _ _ (j :: i :: k) P); auto.
    rewrite Sh2; repeat (constructor; auto).
  - destruct (flip1_ok lays m H n0 n sh G I Sh) as (w & m' & A & [N1 N2 N3 N4 N5 N6] & V). exists w, m'.
    repeat (split; [auto|]). exact V.
Qed.

Theorem toeplitz_mem_ok b lays m x n sh : (forall a, good_layout (lays a)) -> inside m x ->
  sv_shape x = n :: sh -> 0 < n ->
  exists T m', toeplitz_mem b lays m x = Ok (T, m') /\ sv_shape T = n :: n :: sh /\
    inside m' T /\ keeps m m' /\ sm_next m <= sv_buf T /\
    forall i j k, i < n -> j < n -> valid sh k ->
      value m' T (j :: i :: k) = value m x ((i - j) + (j - i) :: k).
Proof.
  intros G I Sh Hn. unfold toeplitz_mem.
  destruct (axes_cons x n sh Sh) as (s & ax & E & E1).
  assert (exists r m1, (match b with
    | NumPy => Ok (slice_view 0 None (Some 0%Z) (-1) x, m)
    | Torch => flip_copy lays m 0 (slice_view 0 (Some 1%Z) None 1 x)
    end) = Ok (r, m1) /\ keeps m m1 /\ inside m1 r /\ sv_shape r = n - 1 :: sh /\
    forall i k, i < n - 1 -> valid sh k -> value m1 r (i :: k) = value m x (n - 1 - i :: k))
    as (r & m1 & Er & K1 & Ir & Sr & Vr).
  { destruct b.
    - destruct (slice0_part x n s ax None (Some 0%Z) (-1) _ (n - 1) (fun i => n - 1 - i) E (range_tail_rev n Hn)) as [A P].
      { intros i Hi. lia. }
      eexists _, m. split; [reflexivity|]. split; [apply keeps_refl|]. split; [eapply part_inside; eauto|].
      assert (Sr : sv_shape (slice_view 0 None (Some 0%Z) (-1) x) = n - 1 :: sh)
        by (unfold sv_shape; rewrite A; simpl; now rewrite E1).
      split; auto. intros i k Hi Hk. rewrite (part_value m x _ _ (i :: k) P); auto.
      rewrite Sr. constructor; auto.
    - destruct (slice0_part x n s ax (Some 1%Z) None 1 _ (n - 1) (fun i => 1 + i) E (range_from n 1 Hn)) as [A P].
      { intros i Hi. lia. }
      assert (Sr : sv_shape (slice_view 0 (Some 1%Z) None 1 x) = n - 1 :: sh)
        by (unfold sv_shape; rewrite A; simpl; now rewrite E1).
      destruct (flip0_ok lays m (slice_view 0 (Some 1%Z) None 1 x) (n - 1) sh G) as (w & m' & F & [N1 N2 N3 N4 N5 N6] & V);
        [eapply part_inside; eauto|auto|].
      exists w, m'. split; auto. split; auto. split; auto. split; auto.
      intros i k Hi Hk. rewrite V by auto. rewrite (part_value m x _ _ _ P).
      + rewrite set_idx0. idx.
      + rewrite Sr. constructor; auto. lia. }
  rewrite Er. cbn [bind].
  destruct (cat_ok b lays m1 r x (n - 1) n sh G Ir (keeps_inside _ _ _ K1 I) Sr Sh)
    as (two & m2 & Ec & [N1 N2 N3 N4 N5 N6] & V1 & V2).
  rewrite Ec. cbn [bind]. unfold axis. rewrite E. cbn [nth fst].
  destruct (hankel_ok b m2 two (n - 1 + n) sh n N4 N1) as (H & Eh & Sh2 & Ih & Bh & Vh); [lia|auto|].
  rewrite Eh. cbn [bind]. replace (n - 1 + n + 1 - n) with n in * by lia.
  destruct (flip_rows_ok b lays m2 H n n sh G Ih Sh2) as (T & m3 & Ef & K3 & It & St & Bt & Vt).
  exists T, m3. split; auto. split; auto. split; auto.
  assert (Kall : keeps m m2) by (eapply keeps_trans; eauto).
  split; [eapply keeps_trans; eauto|]. split.
  { destruct Kall, K1. destruct Bt as [Bt|Bt]; [rewrite Bt, Bh|]; lia. }
  intros i j k Hi Hj Hk. rewrite Vt, Vh by (auto; lia).
  destruct (le_lt_dec j i).
  - destruct (Nat.eq_dec i j) as [->|].
    + replace (n - 1 - j + j) with (n - 1 + 0) by lia. rewrite V2 by auto.
      rewrite (keeps_value m m1) by (auto; apply I). idx.
    + rewrite V1 by (auto; lia). rewrite Vr by (auto; lia). idx.
  - replace (n - 1 - i + j) with (n - 1 + (j - i)) by lia. rewrite V2 by (auto; lia).
    rewrite (keeps_value m m1) by (auto; apply I). idx.
Qed.
