(** * Python slices [l[start:stop:step]] (CPython / NumPy semantics) and reversal

    [pyslice start stop step l], with [None] for an omitted bound.  A negative bound
    counts from the end, and bounds are clipped to the array. *)
From Verif Require Import Prelude.
Local Open Scope nat_scope.

(** Clipping of a bound (PySlice_AdjustIndices). *)
Definition clip (len lo hi x : Z) : Z :=
  let x := if (x <? 0)%Z then (x + len)%Z else x in
  Z.max lo (Z.min x hi).

Definition pyslice {A} (start stop : option Z) (step : Z) (l : list A) : list A :=
  let len := Z.of_nat (length l) in
  let '(s, cnt) :=
    if (0 <? step)%Z then
      let s := match start with Some a => clip len 0 len a | None => 0%Z end in
      let e := match stop with Some a => clip len 0 len a | None => len end in
      (s, if (s <? e)%Z then ((e - s - 1) / step + 1)%Z else 0%Z)
    else
      let s := match start with Some a => clip len (-1) (len - 1) a | None => (len - 1)%Z end in
      let e := match stop with Some a => clip len (-1) (len - 1) a | None => (-1)%Z end in
      (s, if (e <? s)%Z then ((s - e - 1) / (- step) + 1)%Z else 0%Z) in
  flat_map (fun k => match nth_error l (Z.to_nat (s + Z.of_nat k * step)) with
                     | Some v => [v] | None => [] end)
           (seq 0 (Z.to_nat cnt)).

(** [x.flip(dims=(-1,))] on one axis. *)
Definition flip {A} (l : list A) : list A := rev l.

(** ** Facts *)
Lemma flat_map_tab {A} (l : list A) cnt (idx : nat -> nat) d :
  (forall k, k < cnt -> idx k < length l) ->
  flat_map (fun k => match nth_error l (idx k) with Some v => [v] | None => [] end) (seq 0 cnt)
  = tab cnt (fun k => nth (idx k) l d).
Proof.
  intros H. unfold tab. rewrite flat_map_concat_map.
  rewrite (map_ext_in _ (fun k => [nth (idx k) l d])).
  - induction (seq 0 cnt); simpl; auto. f_equal; auto.
  - intros k Hk. apply in_seq in Hk. rewrite (nth_error_nth' l d); auto. apply H. lia.
Qed.

Lemma pyslice_up {A} (l : list A) start stop s e d :
  match start with Some a => clip (Z.of_nat (length l)) 0 (Z.of_nat (length l)) a | None => 0%Z end
    = Z.of_nat s ->
  match stop with Some a => clip (Z.of_nat (length l)) 0 (Z.of_nat (length l)) a
                | None => Z.of_nat (length l) end = Z.of_nat e ->
  pyslice start stop 1 l = tab (e - s) (fun k => nth (s + k) l d).
Proof.
  intros Hs He.
  assert (Hel : e <= length l).
  { destruct stop; [unfold clip in He|]; lia. }
  unfold pyslice. change (0 <? 1)%Z with true. cbv iota zeta. rewrite Hs, He.
  destruct (Z.ltb_spec (Z.of_nat s) (Z.of_nat e)).
  - rewrite Z.div_1_r.
    replace (Z.to_nat (Z.of_nat e - Z.of_nat s - 1 + 1)) with (e - s) by lia.
    rewrite (flat_map_tab l (e - s) (fun k => Z.to_nat (Z.of_nat s + Z.of_nat k * 1)) d).
    + apply tab_ext. intros k Hk. f_equal. lia.
    + intros k Hk. lia.
  - replace (e - s) with 0 by lia. reflexivity.
Qed.

Lemma pyslice_down {A} (l : list A) start stop (s e : nat) d :
  match start with Some a => clip (Z.of_nat (length l)) (-1) (Z.of_nat (length l) - 1) a
                 | None => (Z.of_nat (length l) - 1)%Z end = (Z.of_nat s - 1)%Z ->
  match stop with Some a => clip (Z.of_nat (length l)) (-1) (Z.of_nat (length l) - 1) a
                | None => (-1)%Z end = (Z.of_nat e - 1)%Z ->
  pyslice start stop (-1) l = tab (s - e) (fun k => nth (s - 1 - k) l d).
Proof.
  intros Hs He.
  assert (Hel : s <= length l).
  { destruct start; [unfold clip in Hs|]; lia. }
  unfold pyslice. change (0 <? -1)%Z with false. cbv iota zeta. rewrite Hs, He.
  destruct (Z.ltb_spec (Z.of_nat e - 1) (Z.of_nat s - 1)).
  - change (- (-1))%Z with 1%Z. rewrite Z.div_1_r.
    replace (Z.to_nat (Z.of_nat s - 1 - (Z.of_nat e - 1) - 1 + 1)) with (s - e) by lia.
    rewrite (flat_map_tab l (s - e) (fun k => Z.to_nat (Z.of_nat s - 1 + Z.of_nat k * -1)) d).
    + apply tab_ext. intros k Hk. f_equal. lia.
    + intros k Hk. lia.
  - replace (s - e) with 0 by lia. reflexivity.
Qed.

(** l[:k] *)
Lemma slice_to {A} (l : list A) k d :
  pyslice None (Some (Z.of_nat k)) 1 l = tab (Nat.min k (length l)) (fun i => nth i l d).
Proof.
  rewrite (pyslice_up l _ _ 0 (Nat.min k (length l)) d); auto.
  - rewrite Nat.sub_0_r. reflexivity.
  - unfold clip. destruct (Z.ltb_spec (Z.of_nat k) 0); lia.
Qed.
(** l[k:] *)
Lemma slice_from {A} (l : list A) k d :
  pyslice (Some (Z.of_nat k)) None 1 l = tab (length l - k) (fun i => nth (k + i) l d).
Proof.
  rewrite (pyslice_up l _ _ (Nat.min k (length l)) (length l) d); auto.
  - destruct (Nat.le_ge_cases k (length l)).
    + rewrite Nat.min_l by auto. auto.
    + rewrite Nat.min_r by auto. replace (length l - k) with 0 by lia.
      rewrite Nat.sub_diag. reflexivity.
  - unfold clip. destruct (Z.ltb_spec (Z.of_nat k) 0); lia.
Qed.
(** l[a:b] *)
Lemma slice_range {A} (l : list A) a b d : b <= length l ->
  pyslice (Some (Z.of_nat a)) (Some (Z.of_nat b)) 1 l = tab (b - a) (fun i => nth (a + i) l d).
Proof.
  intros Hb. rewrite (pyslice_up l _ _ (Nat.min a (length l)) b d); auto.
  - destruct (Nat.le_ge_cases a (length l)).
    + rewrite Nat.min_l by auto. auto.
    + replace (b - a) with 0 by lia. replace (b - Nat.min a (length l)) with 0 by lia. auto.
  - unfold clip. destruct (Z.ltb_spec (Z.of_nat a) 0); lia.
  - unfold clip. destruct (Z.ltb_spec (Z.of_nat b) 0); lia.
Qed.
(** l[-k:], k >= 1 *)
Lemma slice_last {A} (l : list A) k d : 0 < k ->
  pyslice (Some (- Z.of_nat k)%Z) None 1 l
  = tab (Nat.min k (length l)) (fun i => nth (length l - k + i) l d).
Proof.
  intros Hk. rewrite (pyslice_up l _ _ (length l - k) (length l) d); auto.
  - f_equal. lia.
  - unfold clip. destruct (Z.ltb_spec (- Z.of_nat k) 0); lia.
Qed.
(** l[0:] (which is what l[-k:] becomes for k = 0) *)
Lemma slice_all {A} (l : list A) : pyslice (Some 0%Z) None 1 l = l.
Proof.
  destruct l as [|d l']; [reflexivity|]. set (l := d :: l').
  change 0%Z with (Z.of_nat 0). rewrite (slice_from l 0 d). rewrite Nat.sub_0_r.
  rewrite <- (tab_nth l d) at 2. reflexivity.
Qed.
(** l[:0:-1]: everything but the first, reversed *)
Lemma slice_tail_rev {A} (l : list A) : pyslice None (Some 0%Z) (-1) l = rev (tl l).
Proof.
  destruct l as [|d l']; [reflexivity|]. set (l := d :: l').
  rewrite (pyslice_down l None (Some 0%Z) (length l) 1 d).
  - symmetry. apply list_eq_tab with (d := d).
    + rewrite rev_length. simpl. lia.
    + intros i Hi. simpl in Hi. simpl tl.
      rewrite rev_nth by lia. simpl length.
      replace (S (length l') - 1 - i) with (S (length l' - S i)) by lia. reflexivity.
  - lia.
  - unfold clip. simpl length. destruct (Z.ltb_spec 0 0); lia.
Qed.
(** l[::-1] *)
Lemma slice_rev {A} (l : list A) : pyslice None None (-1) l = rev l.
Proof.
  destruct l as [|d l']; [reflexivity|]. set (l := d :: l').
  rewrite (pyslice_down l None None (length l) 0 d) by lia.
  symmetry. apply list_eq_tab with (d := d).
  - rewrite rev_length. lia.
  - intros i Hi. rewrite rev_nth by lia. f_equal. lia.
Qed.
(** l[a:0:-1] *)
Lemma slice_down0 {A} (l : list A) a d : 0 < length l -> a < length l ->
  pyslice (Some (Z.of_nat a)) (Some 0%Z) (-1) l = tab a (fun i => nth (a - i) l d).
Proof.
  intros H0 Ha. rewrite (pyslice_down l _ _ (S a) 1 d).
  - replace (S a - 1) with a by lia. reflexivity.
  - unfold clip. destruct (Z.ltb_spec (Z.of_nat a) 0); lia.
  - unfold clip. destruct (Z.ltb_spec 0 0); lia.
Qed.
(** l[:-a:-1], a >= 1: the last a-1 entries, reversed *)
Lemma slice_last_rev {A} (l : list A) a d : 0 < a -> a <= length l ->
  pyslice None (Some (- Z.of_nat a)%Z) (-1) l = tab (a - 1) (fun i => nth (length l - 1 - i) l d).
Proof.
  intros H0 Ha. rewrite (pyslice_down l _ _ (length l) (length l - a + 1) d).
  - f_equal. lia.
  - lia.
  - unfold clip. destruct (Z.ltb_spec (- Z.of_nat a) 0); lia.
Qed.

Example slice_ex1 : pyslice None (Some 0%Z) (-1) [0;1;2;3] = [3;2;1].
Proof. reflexivity. Qed.
Example slice_ex2 : pyslice (Some (-1 + 1)%Z) None 1 [0;1;2;3] = [0;1;2;3].
Proof. reflexivity. Qed.
Example slice_ex3 : pyslice None (Some (-3)%Z) (-1) [0;1;2;3;4;5] = [5;4].
Proof. reflexivity. Qed.
Example slice_ex4 : pyslice (Some 2%Z) (Some 0%Z) (-1) [0;1;2;3;4;5] = [2;1].
Proof. reflexivity. Qed.
