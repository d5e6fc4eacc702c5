(** * Strided.v and the list model; examples *)
From Coq Require Import Reals Lra.
From Verif Require Import Prelude Slice Helpers Linalg LinalgProofs Metrics Strided StridedProofs StridedBlock.
Local Open Scope nat_scope.

(** A vector along the last axis of an array, as a list. *)
Definition row_of (m : smem) (x : sview) (n : nat) (k : list nat) : list R :=
  tab n (fun l => value m x (l :: k)).
(** The lags of one pair of channels. *)
Definition lags_of (m : smem) (x : sview) (top : nat) (k : list nat) (r c : nat) : list R :=
  tab top (fun l => value m x (c :: r :: l :: k)).

Theorem toeplitz_agrees b lays m x n sh : (forall a, good_layout (lays a)) -> inside m x ->
  sv_shape x = n :: sh -> 0 < n ->
  exists T m', toeplitz_mem b lays m x = Ok (T, m') /\
    forall k i j, valid sh k -> i < n -> j < n ->
      value m' T (j :: i :: k) = ent (toeplitz b (row_of m x n k)) i j.
Proof.
  intros G I Sh Hn. destruct (toeplitz_mem_ok b lays m x n sh G I Sh Hn) as (T & m' & E & _ & _ & _ & _ & V).
  exists T, m'. split; auto. intros k i j Hk Hi Hj. rewrite V by auto.
  rewrite toeplitz_entry by (unfold row_of; rewrite length_tab; auto).
  unfold row_of, adist. destruct (Nat.leb_spec i j).
  all: rewrite nth_tab by lia; idx.
Qed.

Theorem block_toeplitz_agrees b lays m x cols rows top sh : (forall a, good_layout (lays a)) -> inside m x ->
  sv_shape x = cols :: rows :: top :: sh -> 4 <= top ->
  exists T m', block_toeplitz_mem b lays m x = Ok (T, m') /\
    forall k, valid sh k -> exists M, block_toeplitz b top rows cols (lags_of m x top k) = Ok M /\
      forall p q, p < top / 2 * rows -> q < top / 2 * cols -> value m' T (q :: p :: k) = M p q.
Proof.
  intros G I Sh Ht. destruct (block_toeplitz_mem_ok b lays m x cols rows top sh G I Sh Ht) as (T & m' & E & _ & _ & _ & _ & V).
  exists T, m'. split; auto. intros k Hk.
  destruct (block_toeplitz_ok b top rows cols (lags_of m x top k) Ht) as (M & EM & VM).
  { intros r c _ _. apply length_tab. }
  exists M. split; auto. intros p q Hp Hq. rewrite V by auto.
  assert (R0 : 0 < rows) by nia. assert (C0 : 0 < cols) by nia.
  assert (top / 2 <= top) by (apply Nat.div_le_upper_bound; lia).
  assert (p / rows < top / 2) by (apply Nat.div_lt_upper_bound; lia).
  assert (q / cols < top / 2) by (apply Nat.div_lt_upper_bound; lia).
  assert (p mod rows < rows) by (apply Nat.mod_upper_bound; lia).
  assert (q mod cols < cols) by (apply Nat.mod_upper_bound; lia).
  replace p with (p / rows * rows + p mod rows) at 3 by (symmetry; rewrite Nat.mul_comm; apply Nat.div_mod; lia).
  replace q with (q / cols * cols + q mod cols) at 3 by (symmetry; rewrite Nat.mul_comm; apply Nat.div_mod; lia).
  rewrite VM by auto. unfold lags_of, bt_lag.
  destruct (Nat.ltb_spec (q / cols) (p / rows)), (Nat.leb_spec (p / rows) (q / cols)); try lia;
    rewrite nth_tab by lia; reflexivity.
Qed.

Theorem acf_agrees lays m L ld N sh a : (forall i, good_layout (lays i)) -> 0 < L -> 0 < N ->
  exists acf m', acf_mem lays m L ld (N :: sh) a = Ok (acf, m') /\
    forall k, valid sh k ->
      row_of m' acf (Nat.min L N) k = add_load ld (cut L (tab N (fun l => a (l :: k)))).
Proof.
  intros G HL HN. destruct (acf_ok lays m L ld N sh a G HL HN) as (acf & m' & E & _ & _ & _ & _ & V).
  exists acf, m'. split; auto. intros k Hk.
  assert (Ec : cut L (tab N (fun l => a (l :: k))) = tab (Nat.min L N) (fun l => a (l :: k))).
  { unfold cut. rewrite (slice_to _ L 0%R), length_tab. apply tab_ext. intros i Hi. rewrite nth_tab by lia. reflexivity. }
  rewrite Ec. unfold row_of. destruct (Nat.min L N) as [|n] eqn:En; [lia|].
  rewrite (tab_ext _ (fun l => value m' acf (l :: k)) (fun l => a (l :: k) +
     match ld with Some d => if Nat.eqb l 0 then d else 0 | None => 0 end)%R) by (intros; apply V; auto; lia).
  destruct ld as [d|].
  - unfold tab. simpl. f_equal. apply map_ext_in. intros l Hl. apply in_seq in Hl.
    destruct (Nat.eqb_spec l 0); [lia|lra].
  - simpl. apply tab_ext. intros; lra.
Qed.

(** ** Layouts that exist *)
Fixpoint c_strides (shape : list nat) : list Z :=
  match shape with [] => [] | n :: sh => 1%Z :: map (Z.mul (Z.of_nat n)) (c_strides sh) end.
(** Row-major order without gaps. *)
Definition c_layout : layout := fun shape => (fold_right Nat.mul 1 shape, 0%Z, c_strides shape).

Lemma c_addr n sh i k : length (c_strides sh) = length sh ->
  addr (combine (n :: sh) (c_strides (n :: sh))) (i :: k) =
  (Z.of_nat i + Z.of_nat n * addr (combine sh (c_strides sh)) k)%Z.
Proof.
  intros _. cbn [c_strides combine addr].
  assert (A : forall (sh : list nat) st k, addr (combine sh (map (Z.mul (Z.of_nat n)) st)) k = (Z.of_nat n * addr (combine sh st) k)%Z).
  { induction sh0 as [|n0 sh0 IH]; intros [|s st] [|i0 k0]; cbn [map combine addr]; try ring. rewrite IH. ring. }
  rewrite A. ring.
Qed.
Lemma c_len sh : length (c_strides sh) = length sh.
Proof. induction sh; simpl; auto. now rewrite map_length, IHsh. Qed.
Lemma c_bound sh k : valid sh k ->
  (0 <= addr (combine sh (c_strides sh)) k < Z.of_nat (fold_right Nat.mul 1%nat sh))%Z.
Proof.
  intros H. induction H as [|i n k sh Hi Hk IH]; [simpl; lia|].
  rewrite c_addr by apply c_len. cbn [fold_right]. rewrite Nat2Z.inj_mul. nia.
Qed.
Lemma c_inj sh k k' : valid sh k -> valid sh k' ->
  addr (combine sh (c_strides sh)) k = addr (combine sh (c_strides sh)) k' -> k = k'.
Proof.
  intros H. revert k'. induction H as [|i n k sh Hi Hk IH]; intros k' H' E.
  - inversion H'. reflexivity.
  - apply valid_cons in H'. destruct H' as (i' & k1 & -> & Hi' & Hk'). rewrite !c_addr in E by apply c_len.
    set (A := addr _ k) in *. set (B := addr _ k1) in *.
    assert (A = B) by nia. assert (i = i') by nia. subst. f_equal. now apply IH.
Qed.
Lemma c_layout_good : good_layout c_layout.
Proof.
  intros shape. unfold c_layout. split; [apply c_len|]. split; [|split].
  - induction shape as [|n sh IH]; simpl; constructor; [lia|]. apply Forall_forall. intros s Hs.
    apply in_map_iff in Hs. destruct Hs as (t & <- & Ht). rewrite Forall_forall in IH. specialize (IH t Ht). lia.
  - intros k Hk. now apply c_bound.
  - intros k k'. apply c_inj.
Qed.

(** ** Arrays that exist: three numbers read backwards; a (4, 2, 2) array *)
Definition ex_mem : smem := SMem 2 (fun a => if Nat.eqb a 0 then [5; 4; 3; 2; 1]%R else tab 16 INR).
Definition ex_row : sview := SView 0 4 [(3, (-1)%Z)].
Definition ex_cube : sview := SView 1 0 [(2, 1%Z); (2, 2%Z); (4, 4%Z)].
Lemma ex_row_inside : inside ex_mem ex_row.
Proof.
  split; [simpl; lia|]. intros k Hk. unfold sv_shape in Hk. simpl in Hk.
  apply valid_cons in Hk. destruct Hk as (i & k' & -> & Hi & Hk). inversion Hk; subst.
  unfold address. cbn [sv_off sv_axes ex_row addr]. change (length (sm_buf ex_mem (sv_buf ex_row))) with 5. lia.
Qed.
Lemma ex_cube_inside : inside ex_mem ex_cube.
Proof.
  split; [simpl; lia|]. intros k Hk. unfold sv_shape in Hk. simpl in Hk.
  apply valid_cons in Hk. destruct Hk as (i & k' & -> & Hi & Hk).
  apply valid_cons in Hk. destruct Hk as (j & k1 & -> & Hj & Hk).
  apply valid_cons in Hk. destruct Hk as (l & k2 & -> & Hl & Hk). inversion Hk; subst.
  unfold address. cbn [sv_off sv_axes ex_cube addr]. change (length (sm_buf ex_mem (sv_buf ex_cube))) with 16. lia.
Qed.
