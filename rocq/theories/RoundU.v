(** The registered operators in double precision: the theorems about differences,
    accuracy, NaN and fields in memory. *)
From Coq Require Import Reals Lra Lia Psatz Permutation.
From Flocq Require Import Core Relative Mult_error Plus_error.
From Verif Require Import Prelude WindowM GhostM FieldM FieldS MaskM NeboM NeboS NeboP NeboQ NeboA NeboB NeboC NeboD NeboE NeboF StencilM StencilS StencilP StencilQ RoundM RoundS RoundP RoundQ RoundR RoundT.
Open Scope R_scope.

Section Ops.
Variables (n : ivec) (Lx Ly Lz : dbl).
Notation reg t s d b := (In (t, s, d, b) (build_stencils64 n Lx Ly Lz)).
Notation rc t e := (reciprocal n Lx Ly Lz t e).

Lemma two_cells_read t s d b p q1 q2 : reg t s d b -> two_cells t s d p q1 q2 -> read_cell t s d p q1 /\ read_cell t s d p q2.
Proof.
  intros R C. assert (F : t = Filter -> s = d).
  { intros E. apply build_kind64 in R. destruct R as [s d D|s d D|s d D|t s d e T D N|s|s e|s e]; try reflexivity; try discriminate E.
    destruct T as [-> | ->]; discriminate E. }
  clear R. destruct t; cbn [two_cells read_cell] in *; try tauto.
  - destruct C as (D & _). rewrite F in D by reflexivity. destruct d; discriminate D.
Qed.
Lemma interp_nearest t s d b h a p q1 q2 : reg t s d b -> interpolates t -> two_cells t s d p q1 q2 ->
  (forall q, read_cell t s d p q -> finite (den64 h a q) /\ not_tiny (val (den64 h a q))) ->
  nearest (den64 h (apply_op64 b a) p) ((val (den64 h a q1) + val (den64 h a q2)) / 2).
Proof.
  intros R It C H. destruct (two_cells_value n Lx Ly Lz t s d b h a p q1 q2 R C) as (c0 & c1 & E & Ci & _).
  destruct (Ci It) as [-> ->]. rewrite E.
  assert (N : read_cell t s d p q1 /\ read_cell t s d p q2) by (eapply two_cells_read; eassumption).
  destruct (H q1 (proj1 N)) as [F1 T1], (H q2 (proj2 N)) as [F2 T2]. destruct (average2 _ _ F1 F2 T1 T2) as (_ & V & _).
  intros z _. rewrite V. destruct (round_N_pt radix2 fexp (fun z => negb (Z.even z)) ((val (den64 h a q1) + val (den64 h a q2)) / 2)) as [_ Q].
  apply Q. apply fmt_val.
Qed.

Lemma diff_constant t s d b e h a p k : reg t s d b -> differentiates t s d e -> finite (dmul k (rc t e)) ->
  (forall q, read_cell t s d p q -> den64 h a q = k) -> den64 h (apply_op64 b a) p = zero.
Proof.
  intros R Df F H. destruct (two_cells_ex n Lx Ly Lz t s d b p R e Df) as (q1 & q2 & C & N1 & N2 & _).
  destruct (two_cells_value n Lx Ly Lz t s d b h a p q1 q2 R C) as (c0 & c1 & E & _ & Cd). destruct (Cd e Df) as [-> ->].
  rewrite E, (H q1 N1), (H q2 N2), dmul_opp_r. apply cancel. exact F.
Qed.

Lemma diff_sign t s d b e h a p : reg t s d b -> differentiates t s d e -> counts_ok n ->
  finite Lx -> finite Ly -> finite Lz -> 0 < val Lx -> 0 < val Ly -> 0 < val Lz ->
  (forall q, read_cell t s d p q -> finite (dmul (den64 h a q) (rc t e))) ->
  ((forall q q', read_cell t s d p q -> read_cell t s d p q' -> (comp e q < comp e q')%Z -> val (den64 h a q) <= val (den64 h a q')) ->
   dle zero (den64 h (apply_op64 b a) p)) /\
  ((forall q q', read_cell t s d p q -> read_cell t s d p q' -> (comp e q < comp e q')%Z -> val (den64 h a q') <= val (den64 h a q)) ->
   dle (den64 h (apply_op64 b a) p) zero).
Proof.
  intros R Df Cn Fx Fy Fz Px Py Pz H. destruct (two_cells_ex n Lx Ly Lz t s d b p R e Df) as (q1 & q2 & C & N1 & N2 & L).
  destruct (two_cells_value n Lx Ly Lz t s d b h a p q1 q2 R C) as (c0 & c1 & E & _ & Cd). destruct (Cd e Df) as [-> ->].
  rewrite E, dmul_opp_r. pose proof (H q1 N1) as G1. pose proof (H q2 N2) as G2.
  destruct (dmul_fin _ _ G1) as (_ & Fc & V1). destruct (dmul_fin _ _ G2) as (_ & _ & V2).
  pose proof (reciprocal_nonneg n Lx Ly Lz t e Cn Fx Fy Fz Px Py Pz Fc) as Pc. split; intros Mo; specialize (Mo q1 q2 N1 N2 L).
  - apply sum_nonneg; [exact G1|exact G2|]. rewrite V1, V2. apply rnd_mono. apply Rmult_le_compat_r; assumption.
  - apply sum_nonpos; [exact G1|exact G2|]. rewrite V1, V2. apply rnd_mono. apply Rmult_le_compat_r; assumption.
Qed.

Lemma not_tiny_prod x c : finite (dmul x c) -> val x = 0 \/ powerRZ 2 (-1020) <= Rabs (val (dmul x c)) ->
  exists e, Rabs e <= u /\ val (dmul x c) = val x * val c * (1 + e).
Proof.
  intros F T. destruct (dmul_fin _ _ F) as (_ & _ & V). rewrite V in *. destruct T as [Z|L].
  - exists 0. rewrite Rabs_R0. split; [left; apply u_pos|]. rewrite Z, Rmult_0_l, round_0 by apply valid_rnd_N. ring.
  - rewrite p2 in L. apply rel_eps. destruct (Rle_lt_dec (bpow radix2 (-1022)) (Rabs (val x * val c))) as [G|G]; [exact G|]. exfalso.
    assert (Q : Rabs (rnd (val x * val c)) <= bpow radix2 (-1022)) by (apply rnd_abs_le; [apply fmt_bpow; lia|lra]).
    assert (bpow radix2 (-1022) < bpow radix2 (-1020)) by (apply bpow_lt; lia). lra.
Qed.

Lemma diff_accuracy t s d b e h a p q1 q2 : reg t s d b -> differentiates t s d e -> two_cells t s d p q1 q2 ->
  finite (spacing64 n Lx Ly Lz e) -> 0 < Rabs (val (spacing64 n Lx Ly Lz e)) <= powerRZ 2 1020 ->
  (forall q, read_cell t s d p q -> finite (dmul (den64 h a q) (rc t e)) /\
     (val (den64 h a q) = 0 \/ powerRZ 2 (-1020) <= Rabs (val (dmul (den64 h a q) (rc t e))))) ->
  finite (den64 h (apply_op64 b a) p) ->
  Rabs (val (den64 h (apply_op64 b a) p) - (val (den64 h a q2) - val (den64 h a q1)) * factor t / val (spacing64 n Lx Ly Lz e))
    <= powerRZ 2 (-51) * (Rabs (val (den64 h a q1)) + Rabs (val (den64 h a q2))) * factor t / Rabs (val (spacing64 n Lx Ly Lz e)).
Proof.
  intros R Df C Fs [S0 S1] H Fr. destruct (two_cells_value n Lx Ly Lz t s d b h a p q1 q2 R C) as (c0 & c1 & E & _ & Cd). destruct (Cd e Df) as [-> ->].
  rewrite E in *. rewrite dmul_opp_r in *. destruct (two_cells_read _ _ _ _ _ _ _ R C) as [N1 N2].
  destruct (H q1 N1) as [G1 T1], (H q2 N2) as [G2 T2]. destruct (dmul_fin _ _ G1) as (_ & Fc & _).
  destruct (not_tiny_prod _ _ G1 T1) as (e1 & B1 & V1). destruct (not_tiny_prod _ _ G2 T2) as (e2 & B2 & V2).
  set (x := val (den64 h a q1)) in *. set (y := val (den64 h a q2)) in *. set (D := val (spacing64 n Lx Ly Lz e)) in *.
  assert (ND : D <> 0). { intros Z. rewrite Z, Rabs_R0 in S0. lra. }
  assert (W : exists w, finite w /\ val w = factor t /\ rc t e = ddiv w (spacing64 n Lx Ly Lz e)).
  { destruct one_val as [A1 A2], half_val as [A3 A4]. unfold reciprocal, factor. destruct t; eexists; (split; [|split; [|reflexivity]]); try eassumption; rewrite A4; cbn; lra. }
  destruct W as (w & Fw & Vw & Ew). assert (Pw : / 2 <= factor t <= 1) by (unfold factor; destruct t; lra).
  assert (Vc : val (rc t e) = rnd (factor t / D)). { rewrite Ew in *. rewrite <- Vw. apply ddiv_fin; [exact Fw|exact ND|exact Fc]. }
  destruct (rel_eps (factor t / D)) as (e4 & B4 & V4).
  { unfold Rdiv. rewrite Rabs_mult, (Rabs_pos_eq (factor t)) by lra. rewrite Rabs_inv by exact ND.
    rewrite p2 in S1. apply (Rmult_le_reg_r (Rabs D)); [exact S0|]. rewrite Rmult_assoc, Rinv_l, Rmult_1_r by lra.
    apply Rle_trans with (bpow radix2 (-1022) * bpow radix2 1020); [apply Rmult_le_compat_l; [apply bpow_ge_0|exact S1]|].
    rewrite <- bpow_plus. cbn. lra. }
  rewrite V4 in Vc.
  pose proof (dadd_fin _ _ (proj2 (fin_opp _) G1) G2 Fr) as V. rewrite val_opp in V.
  destruct (plus_eps (- val (dmul (den64 h a q1) (rc t e))) (val (dmul (den64 h a q2) (rc t e)))) as (e3 & B3 & V3).
  { apply generic_format_opp. apply fmt_val. } { apply fmt_val. }
  rewrite V3, V1, V2, Vc in V. rewrite V. set (k := factor t / D) in *. unfold Rdiv in k.
  replace ((y - x) * factor t / D) with ((y - x) * k) by (unfold k; field; exact ND).
  replace ((- (x * (k * (1 + e4)) * (1 + e1)) + y * (k * (1 + e4)) * (1 + e2)) * (1 + e3) - (y - x) * k)
    with (k * (y * ((1 + e4) * (1 + e2) * (1 + e3) - 1) - x * ((1 + e4) * (1 + e1) * (1 + e3) - 1))) by ring.
  assert (Th : forall f g z, Rabs f <= u -> Rabs g <= u -> Rabs z <= u -> Rabs ((1 + f) * (1 + g) * (1 + z) - 1) <= powerRZ 2 (-51)).
  { clear. intros f g z Hf Hg Hz. pose proof u_pos as Up. pose proof u_small as Us.
    replace (powerRZ 2 (-51)) with (4 * u) by (rewrite p2; unfold u; change (-51)%Z with (2 + -53)%Z; rewrite bpow_plus; reflexivity).
    apply Rabs_le_inv in Hf, Hg, Hz. apply Rabs_le.
    replace ((1 + f) * (1 + g) * (1 + z) - 1) with (f + g + z + (f * g + f * z + g * z) + f * g * z) by ring.
    assert (A : Rabs (f * g) <= u * u) by (rewrite Rabs_mult; apply Rmult_le_compat; try apply Rabs_pos; apply Rabs_le; lra).
    assert (B : Rabs (f * z) <= u * u) by (rewrite Rabs_mult; apply Rmult_le_compat; try apply Rabs_pos; apply Rabs_le; lra).
    assert (C : Rabs (g * z) <= u * u) by (rewrite Rabs_mult; apply Rmult_le_compat; try apply Rabs_pos; apply Rabs_le; lra).
    assert (D : Rabs (f * g * z) <= u * u * u) by (rewrite Rabs_mult; apply Rmult_le_compat; try apply Rabs_pos; [exact A|apply Rabs_le; lra]).
    apply Rabs_le_inv in A, B, C, D. assert (u * u <= u * / 1000000) by (apply Rmult_le_compat_l; lra).
    assert (u * u * u <= u * u) by nra. lra. }
  assert (Tx : Rabs ((1 + e4) * (1 + e1) * (1 + e3) - 1) <= powerRZ 2 (-51)) by (apply Th; assumption).
  assert (Ty : Rabs ((1 + e4) * (1 + e2) * (1 + e3) - 1) <= powerRZ 2 (-51)) by (apply Th; assumption).
  set (tx := (1 + e4) * (1 + e1) * (1 + e3) - 1) in *. set (ty := (1 + e4) * (1 + e2) * (1 + e3) - 1) in *. set (eps := powerRZ 2 (-51)) in *.
  rewrite Rabs_mult. replace (eps * (Rabs x + Rabs y) * factor t / Rabs D) with (Rabs k * (eps * (Rabs x + Rabs y))).
  - apply Rmult_le_compat_l; [apply Rabs_pos|]. unfold Rminus. eapply Rle_trans; [apply Rabs_triang|]. rewrite Rabs_Ropp, !Rabs_mult.
    pose proof (Rabs_pos x). pose proof (Rabs_pos y). pose proof (Rabs_pos tx). pose proof (Rabs_pos ty). nra.
  - unfold k. rewrite Rabs_mult, Rabs_inv, (Rabs_pos_eq (factor t)) by (try exact ND; lra). field. lra.
Qed.

(** ** NaN *)
Lemma nan_mul_l c : dmul NaN c = NaN. Proof. destruct c; reflexivity. Qed.
Lemma nan_add_l c : dadd NaN c = NaN. Proof. destruct c; reflexivity. Qed.
Lemma nan_add_r c : dadd c NaN = NaN. Proof. destruct c; reflexivity. Qed.
Lemma average_value pts h a p : den64 h (apply_op64 (AverageOp pts) a) p =
  dmul (fold_left dadd (map (fun q => den64 h a q) (tl (cells_read pts p))) (den64 h a (iv_add p (fst pts))))
       (ddiv d_one (dlit (points_length pts) 0)).
Proof.
  destruct pts as [p0 ps]. cbn [apply_op64 denote]. f_equal. unfold cells_read. cbn [fst snd map tl].
  generalize (den64 h a (iv_add p p0)). induction ps as [|v ps IH]; intros acc; cbn [fold_left map]; [reflexivity|apply IH].
Qed.
Lemma nan_sum pts h a p q : In q (cells_read pts p) -> den64 h a q = NaN ->
  fold_left dadd (map (fun q => den64 h a q) (tl (cells_read pts p))) (den64 h a (iv_add p (fst pts))) = NaN.
Proof.
  intros I E. destruct pts as [p0 ps]. unfold cells_read in *. cbn [fst snd map tl In] in *.
  assert (G : forall l acc, (acc = NaN \/ In NaN l) -> fold_left dadd l acc = NaN).
  { clear. induction l as [|x l IH]; intros acc [->|I]; cbn [fold_left]; try reflexivity; try contradiction.
    - apply IH. left. apply nan_add_l.
    - destruct I as [->|I]; apply IH; [left; apply nan_add_r|right; exact I]. }
  apply G. destruct I as [<-|I]; [left; exact E|right]. rewrite <- E. apply (in_map (fun q => den64 h a q)). exact I.
Qed.
Lemma op_nan t s d b h a p q : reg t s d b -> read_cell t s d p q -> den64 h a q = NaN -> den64 h (apply_op64 b a) p = NaN.
Proof.
  intros R C E. apply build_kind64 in R. destruct R as [s d D|s d D|s d D|t s d e T D N|s|s e|s e]; cbn [read_cell] in C.
  - destruct (two_value h a s d d_half d_half p D) as (e & lo & hi & _ & _ & _ & _ & _ & _ & _ & _ & On & Ev).
    cbn [make_coefs64 coefHalf]; unfold two_point_coefs. rewrite Ev. destruct (On q C) as [<- | <-]; rewrite E, nan_mul_l; [apply nan_add_l|apply nan_add_r].
  - destruct (four_value h a s d d_quarter d_quarter d_quarter d_quarter p D) as (q1 & q2 & q3 & q4 & _ & (On & _) & Ev).
    cbn [make_coefs64 coefQuarter]; unfold four_point_coefs. rewrite Ev.
    destruct (On q C) as [<-|[<-|[<-|<-]]]; rewrite E, nan_mul_l, ?nan_add_l, ?nan_add_r, ?nan_add_l; reflexivity.
  - rewrite null_value. rewrite <- E. f_equal. clear - C D. 
    assert (forall g, comp g q = comp g p).
    { intros g. specialize (C g). assert (comp g (offset s) = comp g (offset d)) by (destruct s, d; try discriminate D; reflexivity).
      destruct g; unfold place, comp in *; cbn [ix iy iz] in *; lia. }
    pose proof (H XDIR). pose proof (H YDIR). pose proof (H ZDIR). destruct p, q. cbn in *. congruence.
  - destruct (two_value h a s d (ddiv (dopp d_one) (spacing64 n Lx Ly Lz e)) (ddiv d_one (spacing64 n Lx Ly Lz e)) p D) as (e' & lo & hi & _ & _ & _ & _ & _ & _ & _ & _ & On & Ev).
    cbn [make_coefs64 coefD]; unfold two_point_coefs. rewrite Ev. assert (C' : adjacent (offset s) (offset d) p q) by (destruct T as [-> | ->]; exact C).
    destruct (On q C') as [<- | <-]; rewrite E, nan_mul_l; [apply nan_add_l|apply nan_add_r].
  - apply box3d_near in C. rewrite average_value. rewrite (nan_sum _ _ _ _ _ C E). apply nan_mul_l.
  - cbn [make_coefs64 coefHalf]; unfold two_point_coefs. rewrite fd_value. destruct C as [<- | <-]; rewrite E, nan_mul_l; [apply nan_add_l|apply nan_add_r].
  - cbn [make_coefs64 coefHalfD]; unfold two_point_coefs. rewrite fd_value. destruct C as [<- | <-]; rewrite E, nan_mul_l; [apply nan_add_l|apply nan_add_r].
Qed.
End Ops.
