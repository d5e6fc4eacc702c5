(** * Properties: conjugate_gradient called on its own (C79) *)
From Coq Require Import Reals Lra.
From Verif Require Import Prelude Sums Helpers Linalg LinalgProofs Cgd Metrics CgProofs CgApi CgApiProofs CgApiTheorems CgApiExamples CgBroadcast.
Local Open Scope nat_scope.

(** C79: the columns of the right-hand side are solved independently, but without n_iter their number is
    the number of iterations of every one of them. *)
Theorem C79_columns bk A n p bb it : keeps n A -> keeps n (precond_of p) -> (forall v, In v bb -> length v = n) ->
  exists X, cg_call bk A (Mat n bb) None it p None = Ok (Mat n X, None) /\ length X = length bb /\
    forall j, j < length bb ->
      cg_call bk A (Vec (nth j bb [])) None (Some (match it with Some k => k | None => length bb end)) p None
      = Ok (Vec (nth j X []), None).
Proof. exact (columns bk A n p bb it). Qed.
Print Assumptions C79_columns.
Example C79_columns_example bk : exists X,
  cg_call bk (dense_op bk 2 ex_M) (Mat 2 [ex_b; ex_b]) None None None None = Ok (Mat 2 X, None) /\
  cg_call bk (dense_op bk 2 ex_M) (Vec ex_b) None (Some 2) None None = Ok (Vec (nth 1 X []), None).
Proof.
  destruct (C79_columns bk (dense_op bk 2 ex_M) 2 None [ex_b; ex_b] None (dense_keeps bk 2 ex_M) (identity_keeps 2) ex_len)
    as (X & E & _ & H). exists X. split; [exact E|]. exact (H 1 ltac:(simpl; lia)).
Qed.

(** C79: a vector gets one iteration without n_iter: the step of steepest descent, not the solution. *)
Theorem C79_vector_default bk A n p v : keeps n A -> keeps n (precond_of p) -> length v = n ->
  (forall w, (forall i, i < n -> nth i w 0%R = 0%R) -> forall i, i < n -> nth i (op_fun A w) 0%R = 0%R) ->
  let z := op_fun (precond_of p) v in
  cg_call bk A (Vec v) None None p None =
  Ok (Vec (tab n (fun i => dotl n v z / Rmax (dotl n z (op_fun A z)) cg_eps * nth i z 0))%R, None).
Proof. exact (vector_default bk A n p v). Qed.
Print Assumptions C79_vector_default.
Example C79_vector_default_example bk :
  cg_call bk (dense_op bk 2 ex_M) (Vec ex_b) None None None None = Ok (Vec [4 / 3; 4 / 3]%R, None).
Proof. exact (ex_1 bk). Qed.
(** So the default number of iterations does not solve the system, and the result for a vector changes when it
    is passed twice. *)
Theorem C79_default_iterations_refuted bk :
  ~ (forall n M mu b x, spd n M mu -> length b = n ->
       cg_call bk (dense_op bk n M) (Vec b) None None None None = Ok (Vec x, None) ->
       forall i, i < n -> Rsum n (fun j => M i j * nth j x 0)%R = nth i b 0%R) /\
  ~ (forall n M mu b x X, spd n M mu -> length b = n ->
       cg_call bk (dense_op bk n M) (Vec b) None None None None = Ok (Vec x, None) ->
       cg_call bk (dense_op bk n M) (Mat n [b; b]) None None None None = Ok (Mat n X, None) -> nth 0 X [] = x).
Proof.
  split; intros H.
  - specialize (H 2 ex_M 1%R ex_b _ ex_spd eq_refl (ex_1 bk) 0 ltac:(lia)). unfold ex_M, ex_b in H. simpl in H. lra.
  - specialize (H 2 ex_M 1%R ex_b _ _ ex_spd eq_refl (ex_1 bk) (ex_solved bk)). unfold ex_t in H. simpl in H.
    injection H as H1 H2. lra.
Qed.
Print Assumptions C79_default_iterations_refuted.

(** C79: n iterations, or n columns without n_iter, solve a positive definite system of n equations, if no
    iterate has a residual that is small but not zero. *)
Theorem C79_exact bk n M mu bb : spd n M mu -> (forall v, In v bb -> length v = n) ->
  (forall k X, k < n -> cg_call bk (dense_op bk n M) (Mat n bb) None (Some k) None None = Ok (Mat n X, None) ->
     forall j, j < length bb -> resid n M (nth j bb []) (nth j X []) = 0%R \/ large mu (resid n M (nth j bb []) (nth j X []))) ->
  forall it, n <= match it with Some k => k | None => length bb end ->
  exists X, cg_call bk (dense_op bk n M) (Mat n bb) None it None None = Ok (Mat n X, None) /\ length X = length bb /\
    forall j, j < length bb -> length (nth j X []) = n /\
      forall i, i < n -> Rsum n (fun l => M i l * nth l (nth j X []) 0)%R = nth i (nth j bb []) 0%R.
Proof. exact (dense_exact bk n M mu bb). Qed.
Print Assumptions C79_exact.
Example C79_exact_example bk :
  cg_call bk (dense_op bk 2 ex_M) (Mat 2 [ex_b; ex_b]) None None None None = Ok (Mat 2 [ex_t; ex_t], None).
Proof. exact (ex_solved bk). Qed.

(** C79: x_true adds the list of mean distances to the result and changes nothing else; entry i belongs to the
    result of i iterations. *)
Theorem C79_errors bk A n p bb it ts : keeps n A -> keeps n (precond_of p) -> (forall v, In v bb -> length v = n) ->
  length ts = length bb -> (forall v, In v ts -> length v = n) ->
  let k := match it with Some k => k | None => length bb end in
  exists X errs, cg_call bk A (Mat n bb) None it p (Some (Mat n ts)) = Ok (Mat n X, Some errs) /\
    cg_call bk A (Mat n bb) None it p None = Ok (Mat n X, None) /\ length errs = S k /\
    forall i, i <= k -> exists Y, cg_call bk A (Mat n bb) None (Some i) p None = Ok (Mat n Y, None) /\
      nth i errs 0%R = (Rsum (length bb) (fun j => sqrt (Rsum n (fun l => (nth l (nth j Y []) 0 - nth l (nth j ts []) 0) ^ 2)))
                        / INR (length bb))%R.
Proof. exact (errors_mat bk A n p bb it ts). Qed.
Print Assumptions C79_errors.
(** The same for a vector right-hand side and a vector x_true. *)
Theorem C79_errors_vector bk A n p v it t : keeps n A -> keeps n (precond_of p) -> length v = n -> length t = n ->
  let k := match it with Some k => k | None => 1 end in
  exists x errs, cg_call bk A (Vec v) None it p (Some (Vec t)) = Ok (Vec x, Some errs) /\
    cg_call bk A (Vec v) None it p None = Ok (Vec x, None) /\ length errs = S k /\
    forall i, i <= k -> exists y, cg_call bk A (Vec v) None (Some i) p None = Ok (Vec y, None) /\
      nth i errs 0%R = sqrt (Rsum n (fun l => (nth l y 0 - nth l t 0) ^ 2))%R.
Proof. exact (errors_vec bk A n p v it t). Qed.
Print Assumptions C79_errors_vector.
Example C79_errors_vector_example bk : exists x errs,
  cg_call bk (dense_op bk 2 ex_M) (Vec ex_b) None (Some 2) None (Some (Vec ex_t)) = Ok (Vec x, Some errs) /\ length errs = 3.
Proof.
  destruct (C79_errors_vector bk (dense_op bk 2 ex_M) 2 None ex_b (Some 2) ex_t (dense_keeps _ _ _) (identity_keeps 2) eq_refl eq_refl)
    as (x & errs & E & _ & L & _). exists x, errs. split; [exact E|exact L].
Qed.
(** C79: without preconditioner, the distances to the solution never grow, and vanish after n iterations. *)
Theorem C79_errors_decrease bk n M mu bb : spd n M mu -> (forall v, In v bb -> length v = n) ->
  (forall k X, k < n -> cg_call bk (dense_op bk n M) (Mat n bb) None (Some k) None None = Ok (Mat n X, None) ->
     forall j, j < length bb -> resid n M (nth j bb []) (nth j X []) = 0%R \/ large mu (resid n M (nth j bb []) (nth j X []))) ->
  forall it ts, length ts = length bb -> (forall v, In v ts -> length v = n) ->
  (forall j i, j < length bb -> i < n -> Rsum n (fun l => M i l * nth l (nth j ts []) 0)%R = nth i (nth j bb []) 0%R) ->
  let k := match it with Some k => k | None => length bb end in
  exists X errs, cg_call bk (dense_op bk n M) (Mat n bb) None it None (Some (Mat n ts)) = Ok (Mat n X, Some errs) /\
    length errs = S k /\
    (forall i, i < k -> (nth (S i) errs 0 <= nth i errs 0)%R) /\
    (forall i, n <= i -> i <= k -> nth i errs 0%R = 0%R).
Proof. exact (dense_errors bk n M mu bb). Qed.
Print Assumptions C79_errors_decrease.
Example C79_errors_decrease_example bk : exists e0 e1,
  cg_call bk (dense_op bk 2 ex_M) (Mat 2 [ex_b; ex_b]) None None None (Some (Mat 2 [ex_t; ex_t]))
    = Ok (Mat 2 [ex_t; ex_t], Some [e0; e1; 0%R]) /\ (e1 <= e0)%R.
Proof.
  assert (Lt : forall v, In v [ex_t; ex_t] -> length v = 2) by (intros v [<-|[<-|[]]]; reflexivity).
  destruct (C79_errors_decrease bk 2 ex_M 1 [ex_b; ex_b] ex_spd ex_len (ex_res bk) None [ex_t; ex_t] eq_refl Lt)
    as (X & errs & E & L & D & Z).
  { intros [|[|j]] [|[|i]] Hj Hi; try (simpl in Hj; lia); unfold ex_M, ex_t, ex_b; simpl; lra. }
  destruct (C79_errors bk (dense_op bk 2 ex_M) 2 None [ex_b; ex_b] None [ex_t; ex_t] (dense_keeps _ _ _) (identity_keeps 2)
    ex_len eq_refl Lt) as (X' & errs' & E1 & E2 & _).
  rewrite E in E1. injection E1 as <- <-. rewrite ex_solved in E2. injection E2 as <-.
  destruct errs as [|e0 [|e1 [|e2 [|? ?]]]]; try discriminate.
  exists e0, e1. specialize (Z 2 (le_n 2) (le_n 2)). simpl in Z. rewrite Z in E. split; [exact E|].
  exact (D 0 ltac:(simpl; lia)).
Qed.

(** C79: as long as the residuals are not small, more iterations give a result of larger norm. *)
Theorem C79_norm_grows bk n M mu b k : spd n M mu -> length b = n ->
  (forall i x, i < k -> cg_call bk (dense_op bk n M) (Vec b) None (Some i) None None = Ok (Vec x, None) ->
     large mu (resid n M b x)) ->
  exists x y, cg_call bk (dense_op bk n M) (Vec b) None (Some k) None None = Ok (Vec x, None) /\
    cg_call bk (dense_op bk n M) (Vec b) None (Some (S k)) None None = Ok (Vec y, None) /\
    (Rsum n (fun i => nth i x 0 ^ 2) <= Rsum n (fun i => nth i y 0 ^ 2))%R.
Proof. exact (dense_norm_grows bk n M mu b k). Qed.
Print Assumptions C79_norm_grows.
Example C79_norm_grows_example bk : exists x y,
  cg_call bk (dense_op bk 2 ex_M) (Vec ex_b) None (Some 1) None None = Ok (Vec x, None) /\
  cg_call bk (dense_op bk 2 ex_M) (Vec ex_b) None (Some 2) None None = Ok (Vec y, None) /\
  (Rsum 2 (fun i => nth i x 0 ^ 2) <= Rsum 2 (fun i => nth i y 0 ^ 2))%R.
Proof.
  apply (C79_norm_grows bk 2 ex_M 1 ex_b 1 ex_spd eq_refl). intros i x Hi E. assert (i = 0) as -> by lia.
  rewrite ex_0 in E. injection E as <-. apply ex_large. unfold resid, ex_b, ex_M. simpl. lra.
Qed.

(** C79: a start matrix that solves the system is returned, with any preconditioner and number of iterations. *)
Theorem C79_start_kept bk A n M p bb xs it : keeps n A -> keeps n (precond_of p) -> acts_as n (op_fun A) M ->
  (forall v, length v = n -> (forall i, i < n -> nth i v 0%R = 0%R) -> forall i, i < n -> nth i (op_fun (precond_of p) v) 0%R = 0%R) ->
  length xs = length bb -> (forall v, In v bb -> length v = n) -> (forall v, In v xs -> length v = n) ->
  (forall j i, j < length bb -> i < n -> Rsum n (fun l => M i l * nth l (nth j xs []) 0)%R = nth i (nth j bb []) 0%R) ->
  cg_call bk A (Mat n bb) (Some (Mat n xs)) it p None = Ok (Mat n xs, None).
Proof. exact (start_kept bk A n M p bb xs it). Qed.
Print Assumptions C79_start_kept.
Example C79_start_kept_example bk :
  cg_call bk (dense_op bk 2 ex_M) (Mat 2 [ex_b]) (Some (Mat 2 [ex_t])) (Some 5) None None = Ok (Mat 2 [ex_t], None).
Proof.
  apply (C79_start_kept bk (dense_op bk 2 ex_M) 2 ex_M None); auto using dense_keeps, identity_keeps, dense_acts.
  - intros v [<-|[]]; reflexivity.
  - intros v [<-|[]]; reflexivity.
  - intros [|j] [|[|i]] Hj Hi; try (simpl in Hj; lia); unfold ex_M, ex_t, ex_b; simpl; lra.
Qed.
(** C79: a start vector beside a vector right-hand side does not get the extra axis of the latter.  The fast
    operators raise; with a matrix the arrays are broadcast against each other and the solution, given as start
    vector, is not returned. *)
Theorem C79_vector_start_raises bk acf v x it t : length v = length acf ->
  toeplitz_cg_call bk acf (Vec v) (Some (Vec x)) it t = Raise ValueError.
Proof. exact (vector_start_raises bk acf v x it t). Qed.
Print Assumptions C79_vector_start_raises.
Theorem C79_vector_start_raises_block bk top k acf v x it p t : length v = top / 2 * k ->
  cg_call bk (block_operator bk top k acf) (Vec v) (Some (Vec x)) it p t = Raise IndexError.
Proof. exact (vector_start_raises_block bk top k acf v x it p t). Qed.
Print Assumptions C79_vector_start_raises_block.
Example C79_vector_start_raises_example bk :
  toeplitz_cg_call bk [3; 1]%R (Vec [4; 4]%R) (Some (Vec [1; 1]%R)) None None = Raise ValueError.
Proof. exact (C79_vector_start_raises bk [3; 1]%R [4; 4]%R [1; 1]%R None None eq_refl). Qed.
Theorem C79_vector_start_refuted bk :
  ~ (forall n M mu b x it y, spd n M mu -> length b = n -> length x = n ->
       (forall i, i < n -> Rsum n (fun j => M i j * nth j x 0)%R = nth i b 0%R) ->
       cg_call bk (dense_op bk n M) (Vec b) (Some (Vec x)) (Some it) None None = Ok (Vec y, None) -> y = x).
Proof.
  intros H. assert (E : [1; 1]%R = ex_t).
  { apply (H 2 ex_M 1%R ex_b ex_t 1 [1; 1]%R ex_spd eq_refl eq_refl); [|exact (ex_start bk)]. intros [|[|i]] Hi; try lia; unfold ex_M, ex_t, ex_b; simpl; lra. }
  unfold ex_t in E. injection E as E. lra.
Qed.
Print Assumptions C79_vector_start_refuted.

(** C79: called with several columns, as by the metrics, toeplitz_conjugate_gradient computes for every column
    what the model of the metrics uses. *)
Theorem C79_toeplitz_columns bk acf bb k : 0 < length acf -> (forall v, In v bb -> length v = length acf) ->
  exists X, toeplitz_cg_call bk acf (Mat (length acf) bb) None (Some k) None = Ok (Mat (length acf) X, None) /\
    length X = length bb /\ forall j, j < length bb -> toeplitz_cg bk acf (nth j bb []) k = Ok (nth j X []).
Proof. exact (toeplitz_columns bk acf bb k). Qed.
Print Assumptions C79_toeplitz_columns.
Example C79_toeplitz_columns_example bk : exists X,
  toeplitz_cg_call bk [3; 1]%R (Mat 2 [[4; 4]%R; [3; 1]%R]) None (Some 1) None = Ok (Mat 2 X, None) /\ length X = 2.
Proof.
  destruct (C79_toeplitz_columns bk [3; 1]%R [[4; 4]%R; [3; 1]%R] 1 ltac:(simpl; lia)) as (X & E & L & _).
  { intros v [<-|[<-|[]]]; reflexivity. }
  exists X. split; [exact E|exact L].
Qed.

(** C79: one column of b, of the start or of x_true stands for as many as the other arrays have. *)
Theorem C79_one_rhs bk A n p b xs it t : fits A n = true -> fits (precond_of p) n = true ->
  cg_call bk A (Mat n [b]) (Some (Mat n xs)) (Some it) p t =
  cg_call bk A (Mat n (repeat b (length xs))) (Some (Mat n xs)) (Some it) p t.
Proof. exact (one_rhs bk A n p b xs it t). Qed.
Print Assumptions C79_one_rhs.
Theorem C79_one_start bk A n p bb x it ts : fits A n = true -> fits (precond_of p) n = true ->
  match ts with Some (Mat m t) => m = n /\ length t = length bb | None => True | _ => False end ->
  0 < match it with Some k => k | None => length bb end ->
  cg_call bk A (Mat n bb) (Some (Mat n [x])) it p ts =
  cg_call bk A (Mat n bb) (Some (Mat n (repeat x (length bb)))) it p ts.
Proof. exact (one_start bk A n p bb x it ts). Qed.
Print Assumptions C79_one_start.
Theorem C79_one_true bk A n p bb x it t : fits A n = true -> fits (precond_of p) n = true ->
  match x with Some (Mat m xs) => m = n /\ length xs = length bb | None => True | _ => False end ->
  cg_call bk A (Mat n bb) x it p (Some (Mat n [t])) =
  cg_call bk A (Mat n bb) x it p (Some (Mat n (repeat t (length bb)))).
Proof. exact (one_true bk A n p bb x it t). Qed.
Print Assumptions C79_one_true.
Example C79_one_start_example bk :
  cg_call bk (dense_op bk 2 ex_M) (Mat 2 [ex_b; ex_b]) (Some (Mat 2 [ex_t])) (Some 5) None None = Ok (Mat 2 [ex_t; ex_t], None).
Proof.
  rewrite C79_one_start; [|apply dense_keeps|reflexivity|exact I|lia]. cbn [length repeat].
  apply (C79_start_kept bk (dense_op bk 2 ex_M) 2 ex_M None); auto using dense_keeps, identity_keeps, dense_acts.
  - intros v [<-|[<-|[]]]; reflexivity.
  - intros v [<-|[<-|[]]]; reflexivity.
  - intros [|[|j]] [|[|i]] Hj Hi; try (simpl in Hj; lia); unfold ex_M, ex_t, ex_b; simpl; lra.
Qed.
Example C79_one_true_example bk : exists e0 e1,
  cg_call bk (dense_op bk 2 ex_M) (Mat 2 [ex_b; ex_b]) None None None (Some (Mat 2 [ex_t]))
    = Ok (Mat 2 [ex_t; ex_t], Some [e0; e1; 0%R]) /\ (e1 <= e0)%R.
Proof.
  rewrite C79_one_true; [|apply dense_keeps|reflexivity|exact I]. exact (C79_errors_decrease_example bk).
Qed.
