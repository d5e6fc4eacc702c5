(** * One column stands for several (C79) *)
From Coq Require Import Reals Lra.
From Verif Require Import Prelude ExtReal Slice Sums SpecSig Helpers Linalg LinalgProofs Cgd Metrics StatsProofs LeastSq CgdOps
  CgdPrecond CgProofs CgApi CgApiProofs.
Local Open Scope nat_scope.

Lemma zip_repeat_l {A B D} (f : A -> B -> D) c (d : list B) : zip_with f (repeat c (length d)) d = map (f c) d.
Proof. unfold zip_with. induction d as [|v d IH]; [reflexivity|]. simpl. f_equal. exact IH. Qed.
Lemma zip_repeat_r {A B D} (f : A -> B -> D) (c : list A) d : zip_with f c (repeat d (length c)) = map (fun u => f u d) c.
Proof. unfold zip_with. induction c as [|v c IH]; [reflexivity|]. simpl. f_equal. exact IH. Qed.
Lemma length_zip {A B D} (f : A -> B -> D) m c d : length c = m -> length d = m -> length (zip_with f c d) = m.
Proof. intros Hc Hd. unfold zip_with. rewrite map_length, combine_length. lia. Qed.

Lemma on_cols_one_l b f c d : on_cols b f [c] d = on_cols b f (repeat c (length d)) d.
Proof.
  unfold on_cols. rewrite repeat_length, Nat.eqb_refl, zip_repeat_l. simpl length. rewrite Nat.eqb_refl. cbn [nth].
  destruct (Nat.eqb 1 (length d)) eqn:E; [|reflexivity]. apply Nat.eqb_eq in E.
  destruct d as [|v [|w d]]; try discriminate. reflexivity.
Qed.
Lemma on_cols_one_r b f c d : on_cols b f c [d] = on_cols b f c (repeat d (length c)).
Proof.
  unfold on_cols. rewrite repeat_length, Nat.eqb_refl, zip_repeat_r. simpl length.
  destruct (Nat.eqb (length c) 1) eqn:E.
  - apply Nat.eqb_eq in E. destruct c as [|v [|w c]]; try discriminate. reflexivity.
  - rewrite Nat.eqb_refl. reflexivity.
Qed.
Lemma bcast_one_l b n f c d : bcast b n f (Mat n [c]) (Mat n d) = bcast b n f (Mat n (repeat c (length d))) (Mat n d).
Proof. unfold bcast, cols_of. rewrite Nat.eqb_refl. cbn [bind]. apply on_cols_one_l. Qed.
Lemma bcast_one_r b n f c d : bcast b n f (Mat n c) (Mat n [d]) = bcast b n f (Mat n c) (Mat n (repeat d (length c))).
Proof. unfold bcast, cols_of. rewrite Nat.eqb_refl. cbn [bind]. apply on_cols_one_r. Qed.
Lemma bcast_same b n f c d : length c = length d -> bcast b n f (Mat n c) (Mat n d) = Ok (zip_with (zip_with f) c d).
Proof. intros H. unfold bcast, cols_of, on_cols. rewrite Nat.eqb_refl. cbn [bind]. rewrite H, Nat.eqb_refl. reflexivity. Qed.
Lemma map_repeat' {A B} (f : A -> B) a k : map f (repeat a k) = repeat (f a) k.
Proof. induction k as [|k IH]; [reflexivity|]. simpl. f_equal. exact IH. Qed.
Lemma matmul_mat op n c : fits op n = true -> matmul op (Mat n c) = Ok (Mat n (map (op_fun op) c)).
Proof. intros H. unfold matmul. rewrite H. reflexivity. Qed.

Section One.
Variables (bk : backend) (A P : operator) (n m : nat).
Hypothesis FA : fits A n = true.
Hypothesis FP : fits P n = true.

(** Everything but the solution has m columns. *)
Definition state_cols (s : cgm) : Prop := length (m_r s) = m /\ length (m_p s) = m /\ length (m_rs s) = m.
Definition sol_cols (s : cgm) : Prop := exists c, m_x s = Mat n c /\ length c = m.

(** The pieces of one iteration. *)
Definition step_al (s : cgm) : list R :=
  zip_with (fun u v => u / Rmax v cg_eps)%R (m_rs s) (inner_prod n (m_p s) (map (op_fun A) (m_p s))).
Definition step_r (s : cgm) : list (list R) :=
  zip_with (zip_with Rminus) (m_r s) (scale_cols (step_al s) (map (op_fun A) (m_p s))).
Definition step_z (s : cgm) := map (op_fun P) (step_r s).
Definition step_rs (s : cgm) := inner_prod n (step_r s) (step_z s).
Definition step_p (s : cgm) :=
  zip_with (zip_with Rplus) (step_z s)
    (scale_cols (zip_with (fun u v => u / Rmax v cg_eps)%R (step_rs s) (m_rs s)) (m_p s)).

Lemma al_len s : state_cols s -> length (step_al s) = m.
Proof. intros (H1 & H2 & H3). unfold step_al, inner_prod. repeat apply length_zip; rewrite ?map_length; auto. Qed.
Lemma dx_len s : state_cols s -> length (scale_cols (step_al s) (m_p s)) = m.
Proof. intros H. pose proof (al_len s H). destruct H as (H1 & H2 & H3). apply length_zip; auto. Qed.
Lemma r_len s : state_cols s -> length (step_r s) = m.
Proof.
  intros H. pose proof (al_len s H). destruct H as (H1 & H2 & H3).
  apply length_zip; auto. apply length_zip; rewrite ?map_length; auto.
Qed.
Lemma p_len s : state_cols s -> length (step_p s) = m /\ length (step_rs s) = m.
Proof.
  intros H. pose proof (r_len s H) as R. destruct H as (H1 & H2 & H3).
  assert (Z : length (step_z s) = m) by (unfold step_z; rewrite map_length; auto).
  assert (Rs : length (step_rs s) = m) by (apply length_zip; auto).
  split; auto. apply length_zip; auto. apply length_zip; auto. apply length_zip; auto.
Qed.

Lemma step_form bb t e s : state_cols s ->
  cgm_step bk A P n bb t e s =
  (do x <- bcast bk n Rplus (m_x s) (Mat n (scale_cols (step_al s) (m_p s)));
   do er <- error_of bk n (Mat n x) t;
   Ok (CGM (Mat n x) (step_r s) (step_p s) (step_rs s) (m_err s ++ er))).
Proof.
  intros H. pose proof (al_len s H) as La. pose proof (r_len s H) as Lr. pose proof H as (H1 & H2 & H3).
  unfold cgm_step. rewrite matmul_mat by auto. cbn [bind mat_cols]. cbv zeta. rewrite never_recompute.
  fold (step_al s).
  assert (E1 : bcast bk n Rminus (Mat n (m_r s)) (Mat n (scale_cols (step_al s) (map (op_fun A) (m_p s)))) = Ok (step_r s)).
  { apply bcast_same. rewrite H1. symmetry. apply length_zip; rewrite ?map_length; auto. }
  destruct (bcast bk n Rplus (m_x s) (Mat n (scale_cols (step_al s) (m_p s)))) as [x|ex]; [|reflexivity]. cbn [bind].
  rewrite E1. cbn [bind]. rewrite matmul_mat by auto. cbn [bind mat_cols]. fold (step_z s). fold (step_rs s).
  rewrite bcast_same.
  - cbn [bind]. reflexivity.
  - unfold step_z. rewrite map_length, Lr. symmetry. apply length_zip; auto. apply length_zip; auto.
    destruct (p_len s H) as (_ & R). exact R.
Qed.
Lemma step_state bb t e s s' : state_cols s -> cgm_step bk A P n bb t e s = Ok s' -> state_cols s'.
Proof.
  intros H E. rewrite step_form in E by auto.
  destruct (bcast _ _ _ _ _) as [x|ex]; [|discriminate]. cbn [bind] in E.
  destruct (error_of _ _ _ _) as [er|ex]; [|discriminate]. injection E as <-.
  unfold state_cols. cbn [m_r m_p m_rs]. destruct (p_len s H). split; [apply r_len; auto|split; auto].
Qed.
Lemma step_sol bb t e s s' : state_cols s -> sol_cols s -> cgm_step bk A P n bb t e s = Ok s' -> sol_cols s'.
Proof.
  intros H (c & Ec & Lc) E. rewrite step_form in E by auto. rewrite Ec in E.
  rewrite bcast_same in E by (rewrite dx_len by auto; auto). cbn [bind] in E.
  destruct (error_of _ _ _ _) as [er|ex]; [|discriminate]. injection E as <-.
  eexists. split; [reflexivity|]. apply length_zip; auto. apply dx_len. auto.
Qed.

(** The columns of b are not read inside the loop. *)
Lemma loop_rhs bb bb' t k : forall e s, state_cols s ->
  cgm_loop bk A P n bb t k e s = cgm_loop bk A P n bb' t k e s.
Proof.
  induction k as [|k IH]; intros e s H; [reflexivity|]. cbn [cgm_loop].
  assert (E : cgm_step bk A P n bb t e s = cgm_step bk A P n bb' t e s) by (rewrite !step_form by auto; reflexivity).
  rewrite E. destruct (cgm_step bk A P n bb' t e s) as [s'|x] eqn:Es; [|reflexivity]. cbn [bind].
  apply IH. exact (step_state _ _ _ _ _ H Es).
Qed.
Lemma error_one x t : length x = m -> error_of bk n (Mat n x) (Some (Mat n [t])) = error_of bk n (Mat n x) (Some (Mat n (repeat t m))).
Proof. intros <-. unfold error_of, mean_error. rewrite bcast_one_r. reflexivity. Qed.
Lemma loop_true bb t k : forall e s, state_cols s -> sol_cols s ->
  cgm_loop bk A P n bb (Some (Mat n [t])) k e s = cgm_loop bk A P n bb (Some (Mat n (repeat t m))) k e s.
Proof.
  induction k as [|k IH]; intros e s H HS; [reflexivity|]. cbn [cgm_loop].
  assert (E : cgm_step bk A P n bb (Some (Mat n [t])) e s = cgm_step bk A P n bb (Some (Mat n (repeat t m))) e s).
  { rewrite !step_form by auto. destruct HS as (c & Ec & Lc). rewrite Ec.
    rewrite bcast_same by (rewrite dx_len by auto; auto). cbn [bind]. rewrite error_one; [reflexivity|].
    apply length_zip; auto. apply dx_len. auto. }
  rewrite E. destruct (cgm_step bk A P n bb (Some (Mat n (repeat t m))) e s) as [s'|x] eqn:Es; [|reflexivity]. cbn [bind].
  apply IH; [exact (step_state _ _ _ _ _ H Es)|exact (step_sol _ _ _ _ _ H HS Es)].
Qed.

(** The start of the loop from m columns on both sides. *)
Lemma init_state bb x t s : length bb = m -> length x = m -> cgm_init bk A P n bb (Mat n x) t = Ok s -> state_cols s /\ sol_cols s.
Proof.
  intros Hb Hx E. unfold cgm_init in E. rewrite matmul_mat in E by auto. cbn [bind] in E.
  rewrite bcast_same in E by (rewrite map_length; congruence). cbn [bind] in E. rewrite matmul_mat in E by auto. cbn [bind mat_cols] in E.
  destruct (error_of _ _ _ _) as [er|ex]; [|discriminate]. injection E as <-.
  set (r := zip_with _ _ _). assert (Lr : length r = m) by (apply length_zip; rewrite ?map_length; auto).
  unfold state_cols, inner_prod. cbn [m_r m_p m_rs]. split; [|exists x; auto].
  split; [auto|]. split; [rewrite map_length; auto|]. apply length_zip; rewrite ?map_length; auto.
Qed.
Lemma init_rhs b x t : length x = m ->
  cgm_init bk A P n [b] (Mat n x) t = cgm_init bk A P n (repeat b m) (Mat n x) t.
Proof.
  intros Hx. unfold cgm_init. rewrite matmul_mat by auto. cbn [bind]. rewrite bcast_one_l, map_length, Hx. reflexivity.
Qed.
Lemma init_true bb x t : length x = m ->
  cgm_init bk A P n bb (Mat n x) (Some (Mat n [t])) = cgm_init bk A P n bb (Mat n x) (Some (Mat n (repeat t m))).
Proof. intros Hx. unfold cgm_init. rewrite error_one by auto. reflexivity. Qed.
End One.

(** What the caller sees. *)
Lemma one_rhs bk A n p b xs it t : fits A n = true -> fits (match p with Some q => q | None => identity_op end) n = true ->
  cg_call bk A (Mat n [b]) (Some (Mat n xs)) (Some it) p t =
  cg_call bk A (Mat n (repeat b (length xs))) (Some (Mat n xs)) (Some it) p t.
Proof.
  intros FA FP. unfold cg_call. cbv zeta. cbn [add_axis]. rewrite FA.
  rewrite (init_rhs bk A _ n (length xs) FA b xs _ eq_refl).
  destruct (cgm_init bk A _ n (repeat b (length xs)) (Mat n xs) _) as [s|ex] eqn:E; [|reflexivity]. cbn [bind].
  destruct (init_state bk A _ n (length xs) FA FP _ _ _ _ (repeat_length _ _) eq_refl E) as (S1 & S2).
  rewrite (loop_rhs bk A _ n (length xs) FA FP [b] (repeat b (length xs)) _ _ _ _ S1). reflexivity.
Qed.
Lemma one_true bk A n p bb x it t : fits A n = true -> fits (match p with Some q => q | None => identity_op end) n = true ->
  match x with Some (Mat m xs) => m = n /\ length xs = length bb | None => True | _ => False end ->
  cg_call bk A (Mat n bb) x it p (Some (Mat n [t])) =
  cg_call bk A (Mat n bb) x it p (Some (Mat n (repeat t (length bb)))).
Proof.
  intros FA FP HX. unfold cg_call. cbv zeta. cbn [add_axis]. rewrite FA.
  assert (EX : exists xs, match x with Some v => v | None => Mat n (map (fun _ => repeat 0%R n) bb) end = Mat n xs /\
                          length xs = length bb).
  { destruct x as [[| |k xs]|]; try contradiction.
    - destruct HX as (-> & HX). exists xs. auto.
    - eexists. split; [reflexivity|]. apply map_length. }
  destruct EX as (xs & EX & LX). rewrite EX.
  rewrite (init_true bk A _ n (length bb) bb xs t LX).
  destruct (cgm_init bk A _ n bb (Mat n xs) _) as [s|ex] eqn:E; [|reflexivity]. cbn [bind].
  destruct (init_state bk A _ n (length bb) FA FP _ _ _ _ eq_refl LX E) as (S1 & S2).
  rewrite (loop_true bk A _ n (length bb) FA FP bb t _ _ _ S1 S2). reflexivity.
Qed.
(** The first iteration gives the solution all its columns. *)
Definition with_x (x : nd) (s : cgm) : cgm := CGM x (m_r s) (m_p s) (m_rs s) (m_err s).
Lemma init_start bk A P n bb x ts : fits A n = true ->
  match ts with Some (Mat m t) => m = n /\ length t = length bb | None => True | _ => False end ->
  cgm_init bk A P n bb (Mat n [x]) ts =
  do s <- cgm_init bk A P n bb (Mat n (repeat x (length bb))) ts; Ok (with_x (Mat n [x]) s).
Proof.
  intros FA HT. unfold cgm_init. rewrite !matmul_mat by auto. cbn [bind map]. rewrite map_repeat', bcast_one_r.
  destruct (bcast bk n Rminus (Mat n bb) _) as [r|ex]; [|reflexivity]. cbn [bind].
  destruct (matmul P (Mat n r)) as [z'|ex]; [|reflexivity]. cbn [bind].
  destruct (mat_cols z') as [z|ex]; [|reflexivity]. cbn [bind].
  assert (E : error_of bk n (Mat n [x]) ts = error_of bk n (Mat n (repeat x (length bb))) ts).
  { destruct ts as [[| |k t]|]; try contradiction; [|reflexivity]. destruct HT as (-> & HT).
    unfold error_of, mean_error. rewrite bcast_one_l, HT. reflexivity. }
  rewrite E. destruct (error_of bk n (Mat n (repeat x (length bb))) ts); reflexivity.
Qed.
Lemma one_start bk A n p bb x it ts : fits A n = true -> fits (match p with Some q => q | None => identity_op end) n = true ->
  match ts with Some (Mat m t) => m = n /\ length t = length bb | None => True | _ => False end ->
  0 < match it with Some k => k | None => length bb end ->
  cg_call bk A (Mat n bb) (Some (Mat n [x])) it p ts =
  cg_call bk A (Mat n bb) (Some (Mat n (repeat x (length bb)))) it p ts.
Proof.
  intros FA FP HT HI. unfold cg_call. cbv zeta. cbn [add_axis]. rewrite FA.
  set (P := match p with Some q => q | None => identity_op end) in *.
  set (t := match ts with Some t => Some t | None => None end).
  assert (ET : t = ts) by (unfold t; destruct ts; reflexivity). rewrite ET. clear t ET.
  rewrite (init_start bk A P n bb x ts FA HT).
  destruct (cgm_init bk A P n bb (Mat n (repeat x (length bb))) ts) as [s|ex] eqn:E; [|reflexivity]. cbn [bind].
  destruct (init_state bk A P n (length bb) FA FP _ _ _ _ eq_refl (repeat_length _ _) E) as (S1 & S2).
  assert (S1' : state_cols (length bb) (with_x (Mat n [x]) s)) by exact S1.
  assert (EX : m_x s = Mat n (repeat x (length bb))).
  { unfold cgm_init in E. destruct (matmul A _) as [v|]; [|discriminate]. cbn [bind] in E.
    destruct (bcast _ _ _ _ _) as [r|]; [|discriminate]. cbn [bind] in E.
    destruct (matmul P _) as [z'|]; [|discriminate]. cbn [bind] in E.
    destruct (mat_cols _) as [z|]; [|discriminate]. cbn [bind] in E.
    destruct (error_of _ _ _ _) as [er|]; [|discriminate]. cbn [bind] in E. injection E as <-. reflexivity. }
  destruct (match it with Some k => k | None => length bb end) as [|k]; [lia|]. cbn [cgm_loop].
  rewrite !(step_form bk A P n (length bb) FA FP bb ts 0) by assumption. cbn [with_x m_x]. rewrite EX.
  rewrite bcast_one_l.
  replace (length (scale_cols (step_al A n (with_x (Mat n [x]) s)) (m_p (with_x (Mat n [x]) s)))) with (length bb)
    by (symmetry; apply (dx_len A n (length bb)); exact S1').
  reflexivity.
Qed.
