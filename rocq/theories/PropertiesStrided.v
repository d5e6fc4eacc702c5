(** * Properties: Toeplitz matrices as views of memory (C88) *)
From Coq Require Import Reals Lra.
From Verif Require Import Prelude Slice Helpers Linalg Metrics Strided StridedProofs StridedBlock StridedExamples.
Local Open Scope nat_scope.

(** C88: hankel_view makes no copy and never points outside the array it is given, with any strides
    (torch tensors have none that are negative); its entry (i, j) is entry i + j. *)
Theorem C88_hankel b m v n sh n_rows :
  inside m v -> sv_shape v = n :: sh -> n_rows <= n + 1 ->
  (b = Torch -> Forall (fun a : nat * Z => (0 <= snd a)%Z) (sv_axes v)) ->
  exists w, hankel_mem b m v n_rows = Ok w /\ sv_shape w = n + 1 - n_rows :: n_rows :: sh /\
    inside m w /\ sv_buf w = sv_buf v /\
    forall j i k, j < n + 1 - n_rows -> i < n_rows -> valid sh k ->
      value m w (j :: i :: k) = value m v (i + j :: k).
Proof. exact (hankel_ok b m v n sh n_rows). Qed.
Print Assumptions C88_hankel.
(** Three numbers with stride -1, as two rows. *)
Example C88_hankel_example : exists w, hankel_mem NumPy ex_mem ex_row 2 = Ok w /\ sv_shape w = [2; 2] /\
  value ex_mem w [0; 0] = 1%R /\ value ex_mem w [1; 0] = 2%R /\ value ex_mem w [0; 1] = 2%R /\ value ex_mem w [1; 1] = 3%R.
Proof.
  destruct (C88_hankel NumPy ex_mem ex_row 3 [] 2 ex_row_inside eq_refl ltac:(lia) ltac:(discriminate))
    as (w & E & Sh & _ & _ & V). exists w. split; [exact E|]. split; [exact Sh|].
  assert (N : valid [] []) by constructor.
  rewrite !V by (auto; lia). repeat split; reflexivity.
Qed.

(** C88: the result of toeplitz lies in memory allocated by the call, the arrays that existed keep their
    contents, and entry (i, j) is the entry |i - j| of the input. *)
Theorem C88_toeplitz b lays m x n sh : (forall a, good_layout (lays a)) -> inside m x ->
  sv_shape x = n :: sh -> 0 < n ->
  exists T m', toeplitz_mem b lays m x = Ok (T, m') /\ sv_shape T = n :: n :: sh /\
    inside m' T /\ keeps m m' /\ sm_next m <= sv_buf T /\
    forall i j k, i < n -> j < n -> valid sh k ->
      value m' T (j :: i :: k) = value m x ((i - j) + (j - i) :: k).
Proof. exact (toeplitz_mem_ok b lays m x n sh). Qed.
Print Assumptions C88_toeplitz.
Example C88_toeplitz_example b : exists T m', toeplitz_mem b (fun _ => c_layout) ex_mem ex_row = Ok (T, m') /\
  value m' T [0; 0] = 1%R /\ value m' T [2; 0] = 3%R /\ value m' T [1; 2] = 2%R.
Proof.
  destruct (C88_toeplitz b (fun _ => c_layout) ex_mem ex_row 3 [] (fun _ => c_layout_good) ex_row_inside eq_refl ltac:(lia))
    as (T & m' & E & _ & _ & _ & _ & V). exists T, m'. split; [exact E|].
  assert (N : valid [] []) by constructor.
  rewrite !V by (auto; lia). repeat split; reflexivity.
Qed.
(** C88: the block matrix, likewise; the blocks hold the lags in the order 0, 1, ... above the diagonal and
    from the last one backwards below. *)
Theorem C88_block_toeplitz b lays m x cols rows top sh : (forall a, good_layout (lays a)) -> inside m x ->
  sv_shape x = cols :: rows :: top :: sh -> 4 <= top ->
  exists T m', block_toeplitz_mem b lays m x = Ok (T, m') /\
    sv_shape T = top / 2 * cols :: top / 2 * rows :: sh /\ inside m' T /\ keeps m m' /\ sm_next m <= sv_buf T /\
    forall p q k, p < top / 2 * rows -> q < top / 2 * cols -> valid sh k ->
      value m' T (q :: p :: k) =
      value m x (q mod cols :: p mod rows ::
                 (if p / rows <=? q / cols then q / cols - p / rows else top - (p / rows - q / cols)) :: k).
Proof. exact (block_toeplitz_mem_ok b lays m x cols rows top sh). Qed.
Print Assumptions C88_block_toeplitz.
Example C88_block_toeplitz_example b : exists T m', block_toeplitz_mem b (fun _ => c_layout) ex_mem ex_cube = Ok (T, m') /\
  sv_shape T = [4; 4] /\ value m' T [3; 0] = 5%R /\ value m' T [0; 3] = 14%R.
Proof.
  destruct (C88_block_toeplitz b (fun _ => c_layout) ex_mem ex_cube 2 2 4 [] (fun _ => c_layout_good) ex_cube_inside eq_refl ltac:(lia))
    as (T & m' & E & Sh & _ & _ & _ & V). exists T, m'. split; [exact E|]. split; [exact Sh|].
  assert (N : valid [] []) by constructor.
  rewrite !V by (auto; simpl; lia).
  split; [change (INR 5 = 5)%R|change (INR 14 = 14)%R]; simpl; lra.
Qed.

(** C88: load_diag is added in place, to the lag 0 only, and to no array that existed before. *)
Theorem C88_load_diag lays m L ld N sh a : (forall i, good_layout (lays i)) -> 0 < L -> 0 < N ->
  exists acf m', acf_mem lays m L ld (N :: sh) a = Ok (acf, m') /\ sv_shape acf = Nat.min L N :: sh /\
    inside m' acf /\ keeps m m' /\ sm_next m <= sv_buf acf /\
    forall l k, l < Nat.min L N -> valid sh k ->
      value m' acf (l :: k) =
      (a (l :: k) + match ld with Some d => if Nat.eqb l 0 then d else 0 | None => 0 end)%R.
Proof. exact (acf_ok lays m L ld N sh a). Qed.
Print Assumptions C88_load_diag.
(** C88: with several channels, to lag 0 of the equal channels only. *)
Theorem C88_load_diag_block lays m ld c N sh a : (forall i, good_layout (lays i)) -> 0 < N ->
  exists acf m', acf2_mem lays m ld (c :: c :: N :: sh) a = Ok (acf, m') /\ sv_shape acf = c :: c :: N :: sh /\
    inside m' acf /\ keeps m m' /\ sm_next m <= sv_buf acf /\
    forall i j l k, i < c -> j < c -> l < N -> valid sh k ->
      value m' acf (i :: j :: l :: k) =
      (a (i :: j :: l :: k) + match ld with Some d => if Nat.eqb l 0 && Nat.eqb i j then d else 0 | None => 0 end)%R.
Proof. exact (acf2_ok lays m ld c N sh a). Qed.
Print Assumptions C88_load_diag_block.
Example C88_load_diag_example : exists acf m',
  acf2_mem (fun _ => c_layout) ex_mem (Some 1%R) [2; 2; 4] (fun _ => 7%R) = Ok (acf, m') /\
  value m' acf [1; 1; 0] = 8%R /\ value m' acf [0; 1; 0] = 7%R /\ value m' acf [1; 1; 2] = 7%R.
Proof.
  destruct (C88_load_diag_block (fun _ => c_layout) ex_mem (Some 1%R) 2 4 [] (fun _ => 7%R) (fun _ => c_layout_good) ltac:(lia))
    as (acf & m' & E & _ & _ & _ & _ & V). exists acf, m'. split; [exact E|].
  assert (N : valid [] []) by constructor.
  rewrite !V by (auto; lia). simpl. lra.
Qed.

(** C88: so the memory holds what the definitions on lists say, which the metrics are modelled with. *)
Theorem C88_model_toeplitz b lays m x n sh : (forall a, good_layout (lays a)) -> inside m x ->
  sv_shape x = n :: sh -> 0 < n ->
  exists T m', toeplitz_mem b lays m x = Ok (T, m') /\
    forall k i j, valid sh k -> i < n -> j < n ->
      value m' T (j :: i :: k) = ent (toeplitz b (row_of m x n k)) i j.
Proof. exact (toeplitz_agrees b lays m x n sh). Qed.
Print Assumptions C88_model_toeplitz.
Theorem C88_model_block b lays m x cols rows top sh : (forall a, good_layout (lays a)) -> inside m x ->
  sv_shape x = cols :: rows :: top :: sh -> 4 <= top ->
  exists T m', block_toeplitz_mem b lays m x = Ok (T, m') /\
    forall k, valid sh k -> exists M, block_toeplitz b top rows cols (lags_of m x top k) = Ok M /\
      forall p q, p < top / 2 * rows -> q < top / 2 * cols -> value m' T (q :: p :: k) = M p q.
Proof. exact (block_toeplitz_agrees b lays m x cols rows top sh). Qed.
Print Assumptions C88_model_block.
Theorem C88_model_load lays m L ld N sh a : (forall i, good_layout (lays i)) -> 0 < L -> 0 < N ->
  exists acf m', acf_mem lays m L ld (N :: sh) a = Ok (acf, m') /\
    forall k, valid sh k ->
      row_of m' acf (Nat.min L N) k = add_load ld (cut L (tab N (fun l => a (l :: k)))).
Proof. exact (acf_agrees lays m L ld N sh a). Qed.
Print Assumptions C88_model_load.
Example C88_model_load_example : exists acf m',
  acf_mem (fun _ => c_layout) ex_mem 2 (Some 1%R) [3] (fun k => INR (hd 0 k)) = Ok (acf, m') /\
  row_of m' acf 2 [] = [0 + 1; 1]%R.
Proof.
  destruct (C88_model_load (fun _ => c_layout) ex_mem 2 (Some 1%R) 3 [] (fun k => INR (hd 0 k)) (fun _ => c_layout_good) ltac:(lia) ltac:(lia))
    as (acf & m' & E & V). exists acf, m'. split; [exact E|]. exact (V [] ltac:(constructor)).
Qed.
