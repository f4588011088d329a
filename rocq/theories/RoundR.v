(** Proofs about the registered operators in double precision. *)
From Coq Require Import Reals Lra Lia Psatz.
From Flocq Require Import Core Relative Mult_error Plus_error.
From Verif Require Import Prelude WindowM GhostM FieldM FieldS MaskM NeboM NeboS NeboF StencilM StencilS StencilP StencilQ RoundM RoundS RoundP RoundQ.
Open Scope R_scope.

(** ** The registered operators *)
Inductive kind64 {V} (c : stencil_coefs V) : optag -> loc -> loc -> builder V -> Prop :=
| r_two s d : differ (offset s) (offset d) = 1%Z ->
    kind64 c Interpolant s d (StencilOp (stencil2 (offset s) (offset d)) (coefHalf c))
| r_four s d : differ (offset s) (offset d) = 2%Z ->
    kind64 c Interpolant s d (StencilOp (stencil4 (offset s) (offset d)) (coefQuarter c))
| r_null s d : differ (offset s) (offset d) = 0%Z -> kind64 c Interpolant s d (SumOp null_stencil)
| r_grad t s d e : t = Gradient \/ t = Divergence -> differ (offset s) (offset d) = 1%Z ->
    comp e (offset s) <> comp e (offset d) ->
    kind64 c t s d (StencilOp (stencil2 (offset s) (offset d)) (coefD c e))
| r_filter s : kind64 c Filter s s (AverageOp box3d)
| r_interp_d s e : kind64 c (InterpolantD e) s s (StencilOp (fd_stencil e) (coefHalf c))
| r_grad_d s e : kind64 c (GradientD e) s s (StencilOp (fd_stencil e) (coefHalfD c e)).

Definition reg_ok64 {V} (c : stencil_coefs V) (r : optag * loc * loc * args V) : Prop :=
  let '(t, s, d, a) := r in exists b, new_operator t s d a = Some b /\ kind64 c t s d b.
Ltac reg64 :=
  unfold reg_ok64, new_operator;
  match goal with |- context [find_optype ?t ?s ?d] =>
    let v := eval vm_compute in (find_optype t s d) in change (find_optype t s d) with v end;
  cbv iota beta; eexists; split; [reflexivity|];
  first [ apply r_two; reflexivity | apply r_four; reflexivity | apply r_null; reflexivity
        | apply r_grad; [first [left; reflexivity|right; reflexivity]|reflexivity|cbn; discriminate]
        | apply r_filter | apply r_interp_d | apply r_grad_d ].
Lemma all_registered64 {V} (c : stencil_coefs V) : Forall (reg_ok64 c) (registrations c).
Proof.
  cbv [registrations reg_basic reg_fd x_face y_face z_face app map fst snd].
  repeat (apply Forall_cons; [reg64|]). apply Forall_nil.
Qed.
Lemma registered_kind {V} (c : stencil_coefs V) t s d b : In (t, s, d, b) (registered c) -> kind64 c t s d b.
Proof.
  intros H. apply in_flat_map in H. destruct H as ((((t' & s') & d') & a) & I & J).
  pose proof (proj1 (Forall_forall _ _) (all_registered64 c) _ I) as (b' & E & K).
  rewrite E in J. destruct J as [[= <- <- <- <-]|[]]. exact K.
Qed.

(** ** What they compute *)
Lemma two_value h a s d c0 c1 p : differ (offset s) (offset d) = 1%Z -> exists e lo hi,
  cells_read (stencil2 (offset s) (offset d)) p = [lo; hi] /\ near p lo /\ near p hi /\
  comp e (offset s) <> comp e (offset d) /\ comp e hi = (comp e lo + 1)%Z /\ (forall g, g <> e -> comp g lo = comp g p /\ comp g hi = comp g p) /\
  adjacent (offset s) (offset d) p lo /\ adjacent (offset s) (offset d) p hi /\
  (forall q, adjacent (offset s) (offset d) p q -> q = lo \/ q = hi) /\
  den64 h (apply_op64 (StencilOp (stencil2 (offset s) (offset d)) (c0, [c1])) a) p = dadd (dmul (den64 h a lo) c0) (dmul (den64 h a hi) c1).
Proof.
  intros D. destruct (two_points (offset s) (offset d) (offset_staggered s) (offset_staggered d) D p) as (_ & _ & Adj & e & lo & hi & E & Hl & Hh & O).
  assert (Pl : forall g q, comp g (place (offset s) q) = (2 * comp g q + 1 + comp g (offset s))%Z) by (intros [] q; reflexivity).
  assert (Pd : forall g q, comp g (place (offset d) q) = (2 * comp g q + 1 + comp g (offset d))%Z) by (intros [] q; reflexivity).
  rewrite Pl, Pd in Hl, Hh.
  assert (Ss : forall g, (comp g (offset s) = 0 \/ comp g (offset s) = -1)%Z) by (apply offset_staggered).
  assert (Sd : forall g, (comp g (offset d) = 0 \/ comp g (offset d) = -1)%Z) by (apply offset_staggered).
  assert (O' : forall g, g <> e -> (comp g lo = comp g p /\ comp g hi = comp g p)%Z).
  { intros g Ng. destruct (O g Ng) as [A B]. rewrite Pl, Pd in A, B. specialize (Ss g). specialize (Sd g). lia. }
  assert (De : (comp e (offset s) <> comp e (offset d))%Z) by lia.
  assert (N1 : (Z.abs (comp e lo - comp e p) <= 1 /\ Z.abs (comp e hi - comp e p) <= 1)%Z).
  { specialize (Ss e). specialize (Sd e). lia. }
  assert (De' : forall g : dir, g = e \/ g <> e) by (intros g; destruct g, e; (left; reflexivity) || (right; discriminate)).
  exists e, lo, hi. repeat split; try assumption; try (apply O'; assumption); try lia.
  - intros g. destruct (De' g) as [->|Ng]; [lia|]. destruct (O' g Ng). lia.
  - intros g. destruct (De' g) as [->|Ng]; [lia|]. destruct (O' g Ng). lia.
  - apply Adj. rewrite E. left. reflexivity.
  - apply Adj. rewrite E. right. left. reflexivity.
  - intros q Aq. apply Adj in Aq. rewrite E in Aq. cbn in Aq. intuition congruence.
  - unfold cells_read in E. destruct (stencil2 (offset s) (offset d)) as [p0 ps] eqn:Es. assert (ps = [less_than (offset s) (offset d)]) as -> by (unfold stencil2 in Es; congruence).
    cbn [map fst snd] in E. injection E as <- <-. reflexivity.
Qed.
Lemma fd_value h a e c0 c1 p : den64 h (apply_op64 (StencilOp (fd_stencil e) (c0, [c1])) a) p =
  dadd (dmul (den64 h a (step e (-1) p)) c0) (dmul (den64 h a (step e 1 p)) c1).
Proof.
  cbn [fd_stencil apply_op64 combine denote fold_left fst snd].
  replace (iv_add p (it_negate (unit_triplet e))) with (step e (-1) p) by (destruct p, e; unfold iv_add; cbn; f_equal; lia).
  replace (iv_add p (unit_triplet e)) with (step e 1 p) by (destruct p, e; unfold iv_add; cbn; f_equal; lia). reflexivity.
Qed.
Lemma near_step e k p : (Z.abs k <= 1)%Z -> near p (step e k p).
Proof. intros H g. destruct p, e, g; cbn; lia. Qed.
Lemma adjacent_near s d p q : adjacent (offset s) (offset d) p q -> near p q.
Proof.
  intros A g. specialize (A g). pose proof (offset_staggered s g) as Ss. pose proof (offset_staggered d g) as Sd.
  destruct g; unfold place, comp in *; cbn [ix iy iz] in *; lia.
Qed.
Lemma four_value h a s d c1 c2 c3 c4 p : differ (offset s) (offset d) = 2%Z -> exists q1 q2 q3 q4,
  (adjacent (offset s) (offset d) p q1 /\ adjacent (offset s) (offset d) p q2 /\ adjacent (offset s) (offset d) p q3 /\ adjacent (offset s) (offset d) p q4) /\
  ((forall q, adjacent (offset s) (offset d) p q -> q = q1 \/ q = q2 \/ q = q3 \/ q = q4) /\ NoDup [q1; q2; q3; q4]) /\
  den64 h (apply_op64 (StencilOp (stencil4 (offset s) (offset d)) (c1, [c2; c3; c4])) a) p =
    dadd (dadd (dadd (dmul (den64 h a q1) c1) (dmul (den64 h a q2) c2)) (dmul (den64 h a q3) c3)) (dmul (den64 h a q4) c4).
Proof.
  intros D. destruct (four_points (offset s) (offset d) (offset_staggered s) (offset_staggered d) D p) as (_ & Nd & Adj & _).
  unfold cells_read in Adj, Nd. destruct (stencil4 (offset s) (offset d)) as [p1 ps] eqn:Es.
  assert (exists p2 p3 p4, ps = [p2; p3; p4]) as (p2 & p3 & p4 & ->) by (unfold stencil4 in Es; injection Es as _ <-; eauto).
  cbn [map fst snd] in Adj, Nd. exists (iv_add p p1), (iv_add p p2), (iv_add p p3), (iv_add p p4).
  split; [repeat split; apply Adj; cbn; tauto|].
  split; [split; [|exact Nd]|reflexivity]. intros q Aq. apply Adj in Aq. cbn in Aq. intuition congruence.
Qed.
Lemma null_value h a p : den64 h (apply_op64 (SumOp null_stencil) a) p = den64 h a p.
Proof.
  cbn [null_stencil apply_op64 denote fold_left]. replace (iv_add p (IV 0 0 0)) with p by (destruct p; unfold iv_add; cbn; f_equal; lia). reflexivity.
Qed.
Lemma null_adjacent s d p : differ (offset s) (offset d) = 0%Z -> adjacent (offset s) (offset d) p p.
Proof.
  intros D g. assert (E : comp g (offset s) = comp g (offset d)) by (destruct s, d; try discriminate D; reflexivity).
  destruct g; unfold place, comp in *; cbn [ix iy iz] in *; lia.
Qed.

(** ** Interpolation *)
Section Ops.
Variables (n : ivec) (Lx Ly Lz : dbl).
Notation reg t s d b := (In (t, s, d, b) (build_stencils64 n Lx Ly Lz)).
Lemma build_kind64 t s d b : reg t s d b -> kind64 (make_coefs64 (spacing64 n Lx Ly Lz)) t s d b.
Proof. apply registered_kind. Qed.

Lemma interp_bounds t s d b h a p lo hi : reg t s d b -> interpolates t ->
  (forall q, read_cell t s d p q -> finite (den64 h a q) /\ not_tiny (val (den64 h a q)) /\ lo <= val (den64 h a q) <= hi) ->
  finite (den64 h (apply_op64 b a) p) /\ lo <= val (den64 h (apply_op64 b a) p) <= hi.
Proof.
  intros R It H. apply build_kind64 in R. destruct R as [s d D|s d D|s d D|t s d e T D N|s|s e|s e]; try contradiction It.
  - destruct (two_value h a s d d_half d_half p D) as (e & q1 & q2 & _ & _ & _ & _ & _ & _ & N1 & N2 & _ & E).
    cbn [make_coefs64 coefHalf]; unfold two_point_coefs. rewrite E. destruct (H q1 N1) as (F1 & T1 & B1), (H q2 N2) as (F2 & T2 & B2).
    destruct (average2 _ _ F1 F2 T1 T2) as (F & _ & B). split; [exact F|].
    assert (Rmax (val (den64 h a q1)) (val (den64 h a q2)) <= hi) by (apply Rmax_lub; lra).
    assert (lo <= Rmin (val (den64 h a q1)) (val (den64 h a q2))) by (apply Rmin_glb; lra). lra.
  - destruct (four_value h a s d d_quarter d_quarter d_quarter d_quarter p D) as (q1 & q2 & q3 & q4 & (N1 & N2 & N3 & N4) & _ & E).
    cbn [make_coefs64 coefQuarter]; unfold four_point_coefs. rewrite E. destruct (H q1 N1) as (F1 & T1 & B1), (H q2 N2) as (F2 & T2 & B2).
    destruct (H q3 N3) as (F3 & T3 & B3), (H q4 N4) as (F4 & T4 & B4).
    destruct (average4 _ _ _ _ F1 F2 F3 F4 T1 T2 T3 T4) as (F & B). split; [exact F|]. apply B; assumption.
  - rewrite null_value. destruct (H p (null_adjacent s d p D)) as (F & _ & B). auto.
  - destruct T as [-> | ->]; contradiction.
  - cbn [make_coefs64 coefHalf]; unfold two_point_coefs. rewrite fd_value. set (q1 := step e (-1) p). set (q2 := step e 1 p).
    destruct (H q1 (or_introl eq_refl)) as (F1 & T1 & B1), (H q2 (or_intror eq_refl)) as (F2 & T2 & B2).
    destruct (average2 _ _ F1 F2 T1 T2) as (F & _ & B). split; [exact F|].
    assert (Rmax (val (den64 h a q1)) (val (den64 h a q2)) <= hi) by (apply Rmax_lub; lra).
    assert (lo <= Rmin (val (den64 h a q1)) (val (den64 h a q2))) by (apply Rmin_glb; lra). lra.
Qed.

Lemma interp_constant t s d b h a p k : reg t s d b -> interpolates t -> (finite k -> not_tiny (val k)) ->
  (forall q, read_cell t s d p q -> den64 h a q = k) -> den64 h (apply_op64 b a) p = k.
Proof.
  intros R It T H. apply build_kind64 in R. destruct R as [s d D|s d D|s d D|t s d e U D N|s|s e|s e]; try contradiction It.
  - destruct (two_value h a s d d_half d_half p D) as (e & q1 & q2 & _ & _ & _ & _ & _ & _ & N1 & N2 & _ & E).
    cbn [make_coefs64 coefHalf]; unfold two_point_coefs. rewrite E, (H q1 N1), (H q2 N2). apply constant2. exact T.
  - destruct (four_value h a s d d_quarter d_quarter d_quarter d_quarter p D) as (q1 & q2 & q3 & q4 & (N1 & N2 & N3 & N4) & _ & E).
    cbn [make_coefs64 coefQuarter]; unfold four_point_coefs. rewrite E, (H q1 N1), (H q2 N2), (H q3 N3), (H q4 N4). apply constant4. exact T.
  - rewrite null_value. apply H, null_adjacent, D.
  - destruct U as [-> | ->]; contradiction.
  - cbn [make_coefs64 coefHalf]; unfold two_point_coefs. rewrite fd_value, !H by (cbn; tauto). apply constant2. exact T.
Qed.

Lemma two_cells_value t s d b h a p q1 q2 : reg t s d b -> two_cells t s d p q1 q2 -> exists c0 c1,
  den64 h (apply_op64 b a) p = dadd (dmul (den64 h a q1) c0) (dmul (den64 h a q2) c1) /\
  (interpolates t -> c0 = d_half /\ c1 = d_half) /\
  (forall e, differentiates t s d e -> c1 = reciprocal n Lx Ly Lz t e /\ c0 = dopp c1).
Proof.
  intros R C. apply build_kind64 in R. destruct R as [s d D|s d D|s d D|t s d e T D N|s|s e|s e]; cbn [two_cells] in C.
  1-3: destruct C as (D' & A1 & A2 & g & Lg); rewrite D in D'; try discriminate D'.
  - destruct (two_value h a s d d_half d_half p D) as (e & lo & hi & _ & N1 & N2 & De & Eq & O & A1' & A2' & On & E).
    exists d_half, d_half. cbn [make_coefs64 coefHalf]; unfold two_point_coefs. split; [|split; [auto|intros ? []]].
    destruct (On q1 A1) as [-> | ->], (On q2 A2) as [-> | ->]; try lia; [exact E|].
    exfalso. assert (De' : g = e \/ g <> e) by (destruct g, e; (left; reflexivity) || (right; discriminate)).
    destruct De' as [->|Ng]; [lia|]. destruct (O g Ng). lia.
  - exists (ddiv (dopp d_one) (spacing64 n Lx Ly Lz e)), (ddiv d_one (spacing64 n Lx Ly Lz e)).
    destruct (two_value h a s d (ddiv (dopp d_one) (spacing64 n Lx Ly Lz e)) (ddiv d_one (spacing64 n Lx Ly Lz e)) p D)
      as (e' & lo & hi & _ & N1 & N2 & De & Eq & O & A1' & A2' & On & E).
    assert (C' : differ (offset s) (offset d) = 1%Z /\ adjacent (offset s) (offset d) p q1 /\ adjacent (offset s) (offset d) p q2 /\
         exists e, (comp e q1 < comp e q2)%Z) by (destruct T as [-> | ->]; exact C).
    destruct C' as (_ & A1 & A2 & g & Lg).
    cbn [make_coefs64 coefD]; unfold two_point_coefs. split; [|split].
    + destruct (On q1 A1) as [-> | ->], (On q2 A2) as [-> | ->]; try lia; [exact E|].
      exfalso. assert (De' : g = e' \/ g <> e') by (destruct g, e'; (left; reflexivity) || (right; discriminate)).
      destruct De' as [->|Ng]; [lia|]. destruct (O g Ng). lia.
    + destruct T as [-> | ->]; contradiction.
    + intros e0 Df. assert (e0 = e) as ->.
      { assert (Df' : comp e0 (offset s) <> comp e0 (offset d)) by (destruct T as [-> | ->]; exact Df).
        clear - D N Df'. destruct s, d; try discriminate D; destruct e0, e; try reflexivity; exfalso; (apply N; reflexivity) || (apply Df'; reflexivity). }
      split.
      * unfold reciprocal. destruct T as [-> | ->]; reflexivity.
      * destruct one_val as [F1 V1]. apply ddiv_opp_l; [exact F1|rewrite V1; lra].
  - exfalso. destruct C as (D' & _). clear - D'. destruct s; discriminate D'.
  - destruct C as [-> ->]. exists d_half, d_half. cbn [make_coefs64 coefHalf]; unfold two_point_coefs. split; [apply fd_value|]. split; [auto|intros ? []].
  - destruct C as [-> ->]. exists (ddiv (dopp d_half) (spacing64 n Lx Ly Lz e)), (ddiv d_half (spacing64 n Lx Ly Lz e)).
    cbn [make_coefs64 coefHalfD]; unfold two_point_coefs. split; [apply fd_value|]. split; [intros []|]. cbn [differentiates]. intros e0 ->. split; [reflexivity|].
    destruct half_val as [F1 V1]. apply ddiv_opp_l; [exact F1|rewrite V1; cbn; lra].
Qed.
Lemma two_cells_ex t s d b p : reg t s d b -> (forall e, differentiates t s d e -> exists q1 q2, two_cells t s d p q1 q2 /\ read_cell t s d p q1 /\ read_cell t s d p q2 /\
   (comp e q1 < comp e q2)%Z).
Proof.
  intros R e0 Df. apply build_kind64 in R. destruct R as [s d D|s d D|s d D|t s d e T D N|s|s e|s e]; try contradiction Df.
  - destruct (two_value (fun _ => Block (fun _ => false) (fun _ => d_one)) (EScalar dbl d_one) s d d_one d_one p D) as (e' & lo & hi & _ & N1 & N2 & De & Eq & O & A1' & A2' & On & _).
    exists lo, hi. assert (e0 = e') as ->.
    { assert (Df' : comp e0 (offset s) <> comp e0 (offset d)) by (destruct T as [-> | ->]; exact Df).
      clear - D De Df'. destruct s, d; try discriminate D; destruct e0, e'; try reflexivity; exfalso; (apply De; reflexivity) || (apply Df'; reflexivity). }
    split; [|split; [destruct T as [-> | ->]; exact A1'|split; [destruct T as [-> | ->]; exact A2'|lia]]].
    assert (Q : differ (offset s) (offset d) = 1%Z /\ adjacent (offset s) (offset d) p lo /\ adjacent (offset s) (offset d) p hi /\
         exists e, (comp e lo < comp e hi)%Z) by (repeat split; auto; exists e'; lia).
    destruct T as [-> | ->]; exact Q.
  - cbn in Df. subst e0. exists (step e (-1) p), (step e 1 p). split; [split; reflexivity|]. split; [left; reflexivity|]. split; [right; reflexivity|].
    destruct p, e; cbn; lia.
Qed.
End Ops.
