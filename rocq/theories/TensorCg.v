(** * The iterative solver on arrays with batch axes *)
From Coq Require Import Reals Lra.
From Coquelicot Require Import Complex.
From Verif Require Import Prelude ExtReal Slice Sums Fft FftProofs Helpers Linalg LinalgProofs Cgd Metrics Shapes ShapesProofs Tensor TensorOps.
Local Open Scope nat_scope.

Lemma tzip_full {A B D} l (f : A -> B -> D) c1 c2 c bs e x y v w :
  rep c1 e e x v -> rep c2 bs e y w -> length c1 = length c2 -> bc c1 c2 = Some c ->
  exists z, tzip l f x y = Ok z /\ rep c e e z (fun m ci => f (v m (bix c1 ci)) (w m (bix c2 ci))).
Proof.
  intros Hx Hy HL Hc. destruct (tzip_rep l f c1 c2 c e bs e x y v w Hx Hy HL Hc) as (z & u & E & S1 & S2 & S3 & Hz).
  exists z. split; auto. assert (u = e) as ->; auto.
  pose proof (rep_le _ _ _ _ _ Hy) as Hb. apply bc_absorb in Hb. destruct Hb as (_ & _ & Hb & _). congruence.
Qed.
Lemma tzip_full_same {A B D} l (f : A -> B -> D) c bs e x y v w :
  rep c e e x v -> rep c bs e y w ->
  exists z, tzip l f x y = Ok z /\ rep c e e z (fun m ci => f (v m ci) (w m ci)).
Proof.
  intros Hx Hy. destruct (tzip_full l f c c c bs e x y v w Hx Hy eq_refl (bc_refl c)) as (z & E & H).
  exists z. split; auto. eapply rep_eq; [exact H|]. intros m ci Hm Hc. cbv beta. rewrite bix_self; auto.
Qed.
(** The second operand carries the full batch axes. *)
Lemma tzip_full_r {A B D} l (f : A -> B -> D) c1 c2 c bs e x y v w :
  rep c1 bs e x v -> rep c2 e e y w -> length c1 = length c2 -> bc c1 c2 = Some c ->
  exists z, tzip l f x y = Ok z /\ rep c e e z (fun m ci => f (v m (bix c1 ci)) (w m (bix c2 ci))).
Proof.
  intros Hx Hy HL Hc. destruct (tzip_rep l f c1 c2 c bs e e x y v w Hx Hy HL Hc) as (z & u & E & S1 & S2 & S3 & Hz).
  exists z. split; auto. assert (u = e) as ->; auto.
  pose proof (rep_le _ _ _ _ _ Hx) as Hb. unfold sle in Hb. congruence.
Qed.
Lemma ein_lc_full l n c e x y v w : rep [c; n] e e x v -> rep [c; n] e e y w ->
  exists z, t_ein_lc l x y = Ok z /\
    rep [c] e e z (fun m ci => Rsum n (fun t => Rmult (v m [nth 0 ci 0; t]) (w m [nth 0 ci 0; t]))).
Proof.
  intros Hx Hy. destruct (ein_lc_rep l n c e e e x y v w Hx Hy) as (z & u & E & S & Hz).
  exists z. split; auto. rewrite bc_refl in S. injection S as <-. exact Hz.
Qed.

Section Cg.
  Context (l : lib) (n k : nat) (e : shape).
  Context (app pre : tensor R -> res (tensor R)) (Am Pm : idx -> list R -> list R).
  (** list form of a two-dimensional core: column c, entry i *)
  Definition cols (t : tensor R) (G : idx -> nat -> list R) : Prop :=
    rep [k; n] e e t (fun m ci => nth (nth 1 ci 0) (G m (nth 0 ci 0)) 0%R).
  Hypothesis Happ : forall x G, cols x G -> (forall m c, inr e m -> c < k -> length (G m c) = n) ->
    exists y, app x = Ok y /\ cols y (fun m c => Am m (G m c)).
  Hypothesis Hpre : forall x G, cols x G -> (forall m c, inr e m -> c < k -> length (G m c) = n) ->
    exists y, pre x = Ok y /\ cols y (fun m c => Pm m (G m c)).
  Hypothesis HPl : forall m v, inr e m -> length v = n -> length (Pm m v) = n.
  Context (b : tensor R) (B : idx -> nat -> list R).
  Hypothesis Hb : cols b B.

  Definition scal (t : tensor R) (s : idx -> nat -> R) : Prop := rep [k] e e t (fun m ci => s m (nth 0 ci 0)).

  Lemma cols_dot x y G H : cols x G -> cols y H ->
    exists z, t_ein_lc l x y = Ok z /\ scal z (fun m c => dotl n (G m c) (H m c)).
  Proof.
    intros Hx Hy. destruct (ein_lc_full l n k e x y _ _ Hx Hy) as (z & E & Hz). exists z. split; auto.
  Qed.
  Lemma cols_axpy sg x a p G s H : cols x G -> scal a s -> cols p H ->
    exists z, t_axpy l sg x a p = Ok z /\ cols z (fun m c => axpy n (G m c) (sg * s m c) (H m c)).
  Proof.
    intros Hx Ha Hp. unfold t_axpy.
    assert (Hbc : bc [k; 1] [k; n] = Some [k; n]).
    { cbn [bc]. rewrite bc1_refl. rewrite (proj2 (bc1_le 1 n) (or_intror eq_refl)). reflexivity. }
    destruct (tzip_full l Rmult [k; 1] [k; n] [k; n] e e (new2 a) p _ _ (new2_rep _ _ _ _ _ Ha) Hp eq_refl Hbc)
      as (q & -> & Hq). cbn [bind].
    destruct (tzip_full_same l (fun u v => u + sg * v)%R [k; n] e e x q _ _ Hx Hq) as (z & Ez & Hz).
    exists z. split; auto. eapply rep_eq; [exact Hz|]. intros m ci Hm Hc.
    apply inr2 in Hc. destruct Hc as (c & i & -> & Hc & Hi).
    rewrite (bix_self [k; n] [c; i]) by (apply inr2'; auto). cbn [bix nth tl].
    replace (if Nat.eqb k 1 then 0 else c) with c by (destruct (Nat.eqb_spec k 1); lia).
    unfold axpy. rewrite nth_tab by auto. ring.
  Qed.

  (** The tensors of the loop hold the states of the columns. *)
  Definition holds (s : t_cg_state) (S : idx -> nat -> cg_state) : Prop :=
    cols (t_x s) (fun m c => cg_x (S m c)) /\ cols (t_r s) (fun m c => cg_r (S m c)) /\
    cols (t_p s) (fun m c => cg_p (S m c)) /\ scal (t_rs s) (fun m c => cg_rs (S m c)) /\
    forall m c, inr e m -> c < k -> length (cg_x (S m c)) = n /\ length (cg_r (S m c)) = n /\ length (cg_p (S m c)) = n.

  Lemma scal_div a d s u : scal a s -> scal d u ->
    exists z, tzip l Rdiv a (tmap (fun v => Rmax v cg_eps) d) = Ok z /\
      scal z (fun m c => (s m c / Rmax (u m c) cg_eps)%R).
  Proof.
    intros Ha Hd. destruct (tzip_full_same l Rdiv [k] e e a _ _ _ Ha (tmap_rep _ _ _ _ _ (fun v => Rmax v cg_eps) Hd))
      as (z & E & Hz). exists z. auto.
  Qed.
  Lemma cols_sub y G : cols y G -> exists z, tzip l Rminus b y = Ok z /\ cols z (fun m c => axpy n (B m c) (-1) (G m c)).
  Proof.
    intros Hy. destruct (tzip_full_same l Rminus [k; n] e e b y _ _ Hb Hy) as (z & E & Hz). exists z. split; auto.
    eapply rep_eq; [exact Hz|]. intros m ci Hm Hc. apply inr2 in Hc. destruct Hc as (c & i & -> & Hc & Hi).
    cbn [nth]. unfold axpy. rewrite nth_tab by auto. ring.
  Qed.

  Lemma cols_eq x G H : cols x G -> (forall m c, inr e m -> c < k -> G m c = H m c) -> cols x H.
  Proof.
    intros Hx E. eapply rep_eq; [exact Hx|]. intros m ci Hm Hc. apply inr2 in Hc. destruct Hc as (c & i & -> & Hc & Hi).
    cbn [nth]. rewrite E; auto.
  Qed.

  Lemma step_holds epoch s S : holds s S -> exists s', t_cg_step l app pre b epoch s = Ok s' /\
    holds s' (fun m c => cg_step n (Am m) (Pm m) (B m c) epoch (S m c)).
  Proof.
    intros (Hx & Hr & Hp & Hs & HL). unfold t_cg_step.
    destruct (Happ _ _ Hp ltac:(intros m c Hm Hc; apply (HL m c Hm Hc))) as (Ap & -> & HAp). cbn [bind].
    destruct (cols_dot _ _ _ _ Hp HAp) as (pAp & -> & HpAp). cbn [bind].
    destruct (scal_div _ _ _ _ Hs HpAp) as (alpha & -> & Halpha). cbn [bind].
    destruct (cols_axpy 1 _ _ _ _ _ _ Hx Halpha Hp) as (x & -> & Hx'). cbn [bind].
    assert (HR : exists r, (if Nat.eqb (epoch + 1 mod 5) 0 then do Ax <- app x; tzip l Rminus b Ax
           else t_axpy l (-1) (t_r s) alpha Ap) = Ok r /\
        cols r (fun m c => cg_r (cg_step n (Am m) (Pm m) (B m c) epoch (S m c)))).
    { unfold cg_step. destruct (Nat.eqb (epoch + 1 mod 5) 0); cbn [cg_r].
      - destruct (Happ _ _ Hx' ltac:(intros; apply length_tab)) as (Ax & -> & HAx). cbn [bind].
        destruct (cols_sub _ _ HAx) as (r & -> & Hr'). exists r. split; auto. eapply cols_eq; [exact Hr'|].
        intros m c _ _. cbv beta. rewrite Rmult_1_l. reflexivity.
      - destruct (cols_axpy (-1) _ _ _ _ _ _ Hr Halpha HAp) as (r & -> & Hr'). exists r. split; auto.
        eapply cols_eq; [exact Hr'|]. intros m c _ _. cbv beta. f_equal. ring. }
    destruct HR as (r & -> & Hr'). cbn [bind].
    destruct (Hpre _ _ Hr') as (z & -> & Hz).
    { intros m c _ _. cbv beta. unfold cg_step. cbn [cg_r]. destruct (Nat.eqb (epoch + 1 mod 5) 0); apply length_tab. }
    cbn [bind].
    destruct (cols_dot _ _ _ _ Hr' Hz) as (rsn & -> & Hrsn). cbn [bind].
    destruct (scal_div _ _ _ _ Hrsn Hs) as (beta & -> & Hbeta). cbn [bind].
    destruct (cols_axpy 1 _ _ _ _ _ _ Hz Hbeta Hp) as (p & -> & Hp'). cbn [bind].
    eexists. split; [reflexivity|]. split; [|split; [|split; [|split]]].
    - cbn [t_x]. eapply cols_eq; [exact Hx'|]. intros m c _ _. cbv beta. unfold cg_step. cbn [cg_x].
      rewrite Rmult_1_l. reflexivity.
    - exact Hr'.
    - cbn [t_p]. eapply cols_eq; [exact Hp'|]. intros m c _ _. cbv beta. unfold cg_step at 3. cbn [cg_p].
      rewrite Rmult_1_l. reflexivity.
    - exact Hrsn.
    - intros m c Hm Hc. unfold cg_step. cbn [cg_x cg_r cg_p]. repeat split; try apply length_tab.
      destruct (Nat.eqb (epoch + 1 mod 5) 0); apply length_tab.
  Qed.
  Lemma loop_holds epochs : forall s S, holds s S -> exists s', t_cg_loop l app pre b epochs s = Ok s' /\
    holds s' (fun m c => fold_left (fun st ep => cg_step n (Am m) (Pm m) (B m c) ep st) epochs (S m c)).
  Proof.
    induction epochs as [|ep es IH]; intros s S H; cbn [t_cg_loop fold_left]; [eauto|].
    destruct (step_holds ep s S H) as (s1 & -> & H1). cbn [bind].
    destruct (IH s1 _ H1) as (s2 & -> & H2). exists s2. split; auto.
  Qed.

  Hypothesis HBl : forall m c, inr e m -> c < k -> length (B m c) = n.
  Lemma cg_holds A x0 X0 n_iter : length A = 2 + length e -> nth 0 A 0 = n ->
    match x0 with
    | Some x => cols x X0 /\ forall m c, inr e m -> c < k -> length (X0 m c) = n
    | None => forall m c, X0 m c = repeat 0%R n
    end ->
    exists z, t_cg l A app pre n_iter b x0 = Ok z /\
      cols z (fun m c => conjugate_gradient n (Am m) (Pm m) (B m c) (X0 m c) n_iter).
  Proof.
    intros HA1 HA2 Hx0.
    assert (Hx : exists x, match x0 with Some x => x | None => Tn (tsh b) (fun _ => 0%R) end = x /\ cols x X0 /\
              forall m c, inr e m -> c < k -> length (X0 m c) = n).
    { destruct x0 as [x|]; [exists x; tauto|]. eexists. split; [reflexivity|]. split.
      - split; [exact (rep_sh _ _ _ _ _ Hb)|apply sle_refl|]. intros m ci Hm Hc. cbn. rewrite Hx0.
        symmetry. apply nth_repeat.
      - intros m c _ _. rewrite Hx0. apply repeat_length. }
    destruct Hx as (x & Ex & Hx & HxL).
    unfold t_cg. pose proof (rep_sh _ _ _ _ _ Hb) as Hsb. rewrite Hsb. cbn [List.app].
    replace (Nat.eqb (length A) (length (k :: n :: e) + 1)) with false
      by (symmetry; apply Nat.eqb_neq; cbn; lia).
    rewrite Hsb. cbn [List.app nth length]. rewrite HA1, HA2, !Nat.eqb_refl.
    rewrite Hsb in Ex. cbn [List.app] in Ex. rewrite Ex. cbn [andb].
    destruct (Happ _ _ Hx HxL) as (Ax & -> & HAx). cbn [bind].
    destruct (cols_sub _ _ HAx) as (r & -> & Hr). cbn [bind].
    destruct (Hpre _ _ Hr ltac:(intros; apply length_tab)) as (z & -> & Hz). cbn [bind].
    destruct (cols_dot _ _ _ _ Hr Hz) as (rs & -> & Hrs). cbn [bind].
    destruct (loop_holds (seq 0 n_iter) (TCG x r z rs) (fun m c => cg_init n (Am m) (Pm m) (B m c) (X0 m c)))
      as (s & -> & Hs).
    { repeat split; auto.
      - apply Hx.
      - apply sle_refl.
      - apply Hx.
      - apply Hr.
      - apply sle_refl.
      - apply Hr.
      - apply Hz.
      - apply sle_refl.
      - apply Hz.
      - apply Hrs.
      - apply sle_refl.
      - apply Hrs.
      - apply HxL; auto.
      - apply length_tab.
      - apply HPl; auto. apply length_tab. }
    cbn [bind]. eexists. split; [reflexivity|]. destruct Hs as (Hs & _). exact Hs.
  Qed.
End Cg.
