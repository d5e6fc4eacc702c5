(** * Property C72: arrays with batch axes give, item by item, what Metrics.v says

    Shapes are written with the last axis first: [lx :: nr :: br] is an array
    (br..., nr, lx).  [t_item x m] is the item of a batch at index [m]; [bix br m] is the
    index of the item of an array with batch axes br that broadcasting uses for [m]. *)
From Coq Require Import Reals Lra.
From Verif Require Import Prelude ExtReal Sums Spec Helpers HelpersProofs PermProofs Linalg Cgd Metrics Shapes StatsProofs
  Witness SigExamples Tensor TensorOps TensorSdr TensorDiag TensorBss TensorEval TensorExamples.
Local Open Scope nat_scope.

(** pairwise losses *)
Theorem C72_pairwise_loss l o lx ly nr ne br be e ref est :
  tsh ref = lx :: nr :: br -> tsh est = ly :: ne :: be -> 0 < lx -> 0 < ly -> bc br be = Some e ->
  1 <= filter_length o -> (use_cg_iter o <> None -> filter_length o <> 1 -> length be <= length br) ->
  match t_sdr_loss l true o est ref with
  | Ok z => tsh z = ne :: nr :: e /\
      forall m, Forall2 lt m e ->
        pairwise_sdr_loss (bk l) o (t_item est (bix be m)) (t_item ref (bix br m)) = Ok (t_mat z m)
  | Raise _ => Forall (lt 0) e -> exists m, Forall2 lt m e /\
      raises (pairwise_sdr_loss (bk l) o (t_item est (bix be m)) (t_item ref (bix br m)))
  end.
Proof. exact (fun H1 H2 H3 H4 H5 H6 H7 => t_sdr_loss_items l o lx ly nr ne br be e ref est H1 H2 H3 H4 H5 H6 H7). Qed.
Print Assumptions C72_pairwise_loss.
Example C72_pairwise_example l : exists z,
  t_sdr_loss l true (plain_opts 2) ex_test ex_tref = Ok z /\ tsh z = [2; 2; 2] /\
  forall m, m < 2 -> pairwise_sdr_loss (bk l) (plain_opts 2) ex_est ex_ref = Ok (t_mat z [m]).
Proof. exact (ex_t_pairwise l). Qed.

(** losses channel by channel: the direct solver must recognise its right-hand side as a
    stack of vectors *)
Theorem C72_loss l o lx ly k br be e ref est :
  tsh ref = lx :: k :: br -> tsh est = ly :: k :: be -> 0 < lx -> 0 < ly -> bc br be = Some e ->
  1 <= filter_length o -> (use_cg_iter o <> None -> filter_length o <> 1 -> length be <= length br) ->
  (use_cg_iter o = None -> filter_length o <> 1 ->
     match l with Np1 | Th1 => length br = length e | Np2 => False | Th2 => br = e end) ->
  match t_sdr_loss l false o est ref with
  | Ok z => tsh z = k :: e /\
      forall m, Forall2 lt m e -> sdr_loss (bk l) o (t_item est (bix be m)) (t_item ref (bix br m)) = Ok (t_vec z m)
  | Raise _ => Forall (lt 0) e -> exists m, Forall2 lt m e /\
      raises (sdr_loss (bk l) o (t_item est (bix be m)) (t_item ref (bix br m)))
  end.
Proof. exact (fun H1 H2 H3 H4 H5 H6 H7 H8 => t_sdr_loss_diag_items l o lx ly k br be e ref est H1 H2 H3 H4 H5 H6 H7 H8). Qed.
Print Assumptions C72_loss.
Example C72_loss_example : exists z,
  t_sdr_loss Np1 false (plain_opts 2) ex_test ex_tref = Ok z /\ tsh z = [2; 2] /\
  forall m, m < 2 -> sdr_loss NumPy (plain_opts 2) ex_est ex_ref = Ok (t_vec z [m]).
Proof. exact ex_t_loss. Qed.

Theorem C72_sdr l sp cs o lx ly nr ne br be e ref est : lsa_contract sp ->
  tsh ref = lx :: nr :: br -> tsh est = ly :: ne :: be -> 0 < lx -> 0 < ly -> bc br be = Some e ->
  1 <= filter_length o -> (use_cg_iter o <> None -> filter_length o <> 1 -> length be <= length br) ->
  match t_sdr l sp o cs ref est with
  | Ok (v, p) => tsh v = Nat.min nr ne :: e /\ tsh p = Nat.min nr ne :: e /\
      forall m, Forall2 lt m e ->
        sdr (bk l) sp o cs (t_item ref (bix br m)) (t_item est (bix be m)) = Ok (t_vec v m, t_vec p m)
  | Raise _ => Forall (lt 0) e -> exists m, Forall2 lt m e /\
      raises (sdr (bk l) sp o cs (t_item ref (bix br m)) (t_item est (bix be m)))
  end.
Proof. exact (fun H H1 H2 H3 H4 H5 H6 H7 => t_sdr_items l o lx ly nr ne br be e ref est H1 H2 H3 H4 H5 H6 H7 sp cs H). Qed.
Print Assumptions C72_sdr.
Example C72_sdr_example l sp : lsa_contract sp -> exists v p,
  t_sdr l sp (plain_opts 2) false ex_tref ex_test = Ok (v, p) /\ tsh v = [2; 2] /\
  forall m, m < 2 -> t_vec v [m] = [Fin (- (10 * log10 (3 / 5))); Fin (- (10 * log10 (2 / 5)))] /\ t_vec p [m] = [0; 1].
Proof. exact (ex_t_sdr l sp). Qed.

Theorem C72_bss_eval_sources l sp o lx ly nr ne br be e ref est : lsa_contract sp ->
  tsh ref = lx :: nr :: br -> tsh est = ly :: ne :: be -> 0 < lx -> 0 < ly -> 0 < nr -> bc br be = Some e ->
  1 <= filter_length o -> (use_cg_iter o <> None -> filter_length o <> 1 -> length be <= length br) ->
  match t_bss l sp o ref est with
  | Ok (sdr_, sir, sar, p) =>
      Forall (fun t => tsh t = Nat.min nr ne :: e) [sdr_; sir; sar] /\ tsh p = Nat.min nr ne :: e /\
      forall m, Forall2 lt m e ->
        bss_eval_sources (bk l) sp o (t_item ref (bix br m)) (t_item est (bix be m)) =
        Ok (t_vec sdr_ m, t_vec sir m, t_vec sar m, t_vec p m)
  | Raise _ => Forall (lt 0) e -> exists m, Forall2 lt m e /\
      raises (bss_eval_sources (bk l) sp o (t_item ref (bix br m)) (t_item est (bix be m)))
  end.
Proof. exact (fun H H1 H2 H3 H4 H5 H6 H7 H8 => t_bss_items l o lx ly nr ne br be e ref est H1 H2 H3 H4 H5 H6 H7 H8 sp H). Qed.
Print Assumptions C72_bss_eval_sources.
Example C72_bss_example l sp : lsa_contract sp -> exists s i a p,
  t_bss l sp (plain_opts 2) ex_tref ex_test = Ok (s, i, a, p) /\ tsh s = [2; 2] /\
  forall m, m < 2 -> bss_eval_sources (bk l) sp (plain_opts 2) ex_ref ex_est = Ok (t_vec s [m], t_vec i [m], t_vec a [m], t_vec p [m]).
Proof. exact (ex_t_bss l sp). Qed.

Theorem C72_bss_noperm l o lx ly k br be e ref est :
  tsh ref = lx :: k :: br -> tsh est = ly :: k :: be -> 0 < lx -> 0 < ly -> 0 < k -> bc br be = Some e ->
  1 <= filter_length o -> (use_cg_iter o <> None -> filter_length o <> 1 -> length be <= length br) ->
  (use_cg_iter o = None -> filter_length o <> 1 ->
     match l with Np1 | Th1 => length br = length e | Np2 => False | Th2 => br = e end) ->
  (use_cg_iter o = None -> l = Th2 ->
     filter_length o <= n_fft lx ly \/ k <> Nat.min (filter_length o) (2 * n_fft lx ly)) ->
  match t_bss_noperm l o ref est with
  | Ok (sdr_, sir, sar) => Forall (fun t => tsh t = k :: e) [sdr_; sir; sar] /\
      forall m, Forall2 lt m e ->
        bss_eval_sources_noperm (bk l) o (t_item ref (bix br m)) (t_item est (bix be m)) =
        Ok (t_vec sdr_ m, t_vec sir m, t_vec sar m)
  | Raise _ => Forall (lt 0) e -> exists m, Forall2 lt m e /\
      raises (bss_eval_sources_noperm (bk l) o (t_item ref (bix br m)) (t_item est (bix be m)))
  end.
Proof.
  exact (fun H1 H2 H3 H4 H5 H6 H7 H8 H9 H10 =>
    t_bss_noperm_items l o lx ly k br be e ref est H1 H2 H3 H4 H5 H6 H7 H8 H9 H10).
Qed.
Print Assumptions C72_bss_noperm.
Example C72_bss_noperm_example : exists s i a,
  t_bss_noperm Np1 (plain_opts 2) ex_tref ex_test = Ok (s, i, a) /\ tsh s = [2; 2] /\
  forall m, m < 2 -> bss_eval_sources_noperm NumPy (plain_opts 2) ex_ref ex_est = Ok (t_vec s [m], t_vec i [m], t_vec a [m]).
Proof. exact ex_t_noperm. Qed.
(** Without the last hypothesis: torch >= 1.8 does not reject filter_length > n_fft when
    there are filter_length channels, and gives square arrays *)
Theorem C72_long_filter_refuted T L : 2 <= T -> n_fft T T < L -> L <= 2 * n_fft T T ->
  sh_bss Th2 false L None [T; L] [T; L] = Ok ([L; L], [L; L], [L]).
Proof. exact (long_filter T L). Qed.
Print Assumptions C72_long_filter_refuted.
Example C72_long_filter_example : n_fft 2 2 < 5 /\ 5 <= 2 * n_fft 2 2.
Proof. split; cbn; lia. Qed.
