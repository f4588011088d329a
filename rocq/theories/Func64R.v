(** Inequalities between real functions. *)
From Coq Require Import Reals Lra Lia.
Open Scope R_scope.

Lemma mvt_abs (f f' : R -> R) a b m : (forall c, derivable_pt_lim f c (f' c)) -> (forall c, Rmin a b <= c <= Rmax a b -> Rabs (f' c) <= m) ->
  Rabs (f a - f b) <= m * Rabs (a - b).
Proof.
  intros D B. destruct (Rtotal_order a b) as [L|[E|L]].
  - destruct (MVT_cor2 f f' a b L (fun c _ => D c)) as (c & E & C). rewrite Rmin_left, Rmax_right in B by lra.
    rewrite (Rabs_minus_sym a b), (Rabs_minus_sym (f a)), E, Rabs_mult. apply Rmult_le_compat_r; [apply Rabs_pos|]. apply B. lra.
  - rewrite E. unfold Rminus. rewrite !Rplus_opp_r, Rabs_R0. lra.
  - destruct (MVT_cor2 f f' b a L (fun c _ => D c)) as (c & E & C). rewrite Rmin_right, Rmax_left in B by lra.
    rewrite E, Rabs_mult. apply Rmult_le_compat_r; [apply Rabs_pos|]. apply B. lra.
Qed.

Lemma sin_lip a b : Rabs (sin a - sin b) <= Rabs (a - b).
Proof.
  rewrite <- (Rmult_1_l (Rabs (a - b))). apply (mvt_abs sin cos); [exact derivable_pt_lim_sin|].
  intros c _. pose proof (COS_bound c). apply Rabs_le. lra.
Qed.
Lemma cos_lip a b : Rabs (cos a - cos b) <= Rabs (a - b).
Proof.
  rewrite <- (Rmult_1_l (Rabs (a - b))). apply (mvt_abs cos (fun c => - sin c)); [exact derivable_pt_lim_cos|].
  intros c _. pose proof (SIN_bound c). rewrite Rabs_Ropp. apply Rabs_le. lra.
Qed.

Lemma exp_twice y : 0 <= y -> 2 * y <= exp y.
Proof.
  intros H. replace y with (y / 2 + y / 2) at 2 by field. rewrite exp_plus.
  assert (E : 1 + y / 2 <= exp (y / 2)).
  { destruct (Req_dec y 0) as [->|N]; [unfold Rdiv; rewrite Rmult_0_l, exp_0; lra|]. pose proof (exp_ineq1 (y / 2)). lra. }
  assert (Q : 0 <= (1 - y / 2) * (1 - y / 2)) by apply Rle_0_sqr. nra.
Qed.

Lemma near_scaled z e c : Rabs e <= / 2 -> Rmin (z * (1 + e)) z <= c <= Rmax (z * (1 + e)) z -> Rabs z * (1 - Rabs e) <= Rabs c.
Proof.
  intros He B. pose proof (Rabs_def2 e (Rabs e + 1) ltac:(lra)) as E0. clear E0.
  pose proof (Rle_abs e). pose proof (Rle_abs (- e)). rewrite Rabs_Ropp in *.
  destruct (Rle_or_lt 0 z) as [Z|Z].
  - rewrite (Rabs_pos_eq z Z). assert (z * (1 - Rabs e) <= c).
    { destruct B as [B _]. apply Rle_trans with (2 := B). apply Rmin_glb; nra. }
    rewrite (Rabs_pos_eq c); nra.
  - rewrite (Rabs_left z Z). assert (c <= z * (1 - Rabs e)).
    { destruct B as [_ B]. apply Rle_trans with (1 := B). apply Rmax_lub; nra. }
    rewrite (Rabs_left1 c); nra.
Qed.

(** exp of a scaled non-positive argument *)
Lemma exp_rel z e : z <= 0 -> Rabs e <= / 2 -> Rabs (exp (z * (1 + e)) - exp z) <= Rabs e.
Proof.
  intros Hz He. pose proof (Rabs_pos e) as P.
  destruct (Req_dec z 0) as [->|N]; [rewrite Rmult_0_l; unfold Rminus; rewrite Rplus_opp_r, Rabs_R0; exact P|].
  set (w := Rabs z * (1 - Rabs e)).
  assert (W : 0 < w) by (unfold w; pose proof (Rabs_pos_lt z N); nra).
  apply Rle_trans with (exp (- w) * Rabs (z * (1 + e) - z)).
  - apply (mvt_abs exp exp); [exact derivable_pt_lim_exp|]. intros c B.
    pose proof (near_scaled z e c He B) as K. fold w in K.
    assert (c <= 0).
    { destruct B as [_ B]. apply Rle_trans with (1 := B). pose proof (Rle_abs (- e)). rewrite Rabs_Ropp in *. apply Rmax_lub; nra. }
    rewrite Rabs_pos_eq by (apply Rlt_le, exp_pos). rewrite Rabs_left1 in K by assumption.
    destruct (Req_dec c (- w)) as [->|M]; [lra|]. apply Rlt_le, exp_increasing. lra.
  - replace (z * (1 + e) - z) with (z * e) by ring. rewrite Rabs_mult.
    pose proof (exp_twice w (Rlt_le _ _ W)) as T. pose proof (exp_pos w) as Q. rewrite exp_Ropp.
    apply Rmult_le_reg_l with (exp w); [exact Q|]. rewrite <- Rmult_assoc, Rinv_r, Rmult_1_l by lra.
    apply Rmult_le_compat_r; [exact P|]. unfold w in T at 1. pose proof (Rabs_pos z). nra.
Qed.

Lemma cosh_pos x : 0 < cosh x.
Proof. unfold cosh. pose proof (exp_pos x). pose proof (exp_pos (- x)). lra. Qed.
Lemma tanh_der x : derivable_pt_lim tanh x (/ (cosh x * cosh x)).
Proof.
  pose proof (cosh_pos x) as C.
  assert (D : derivable_pt_lim (sinh / cosh)%F x ((cosh x * cosh x - sinh x * sinh x) / Rsqr (cosh x))).
  { apply (derivable_pt_lim_div sinh cosh x (cosh x) (sinh x)); [apply derivable_pt_lim_sinh|apply derivable_pt_lim_cosh|lra]. }
  replace (/ (cosh x * cosh x)) with ((cosh x * cosh x - sinh x * sinh x) / Rsqr (cosh x)); [exact D|].
  assert (E : cosh x * cosh x - sinh x * sinh x = 1).
  { unfold cosh, sinh. pose proof (exp_pos x). rewrite exp_Ropp. field. lra. }
  rewrite E. unfold Rsqr. field. lra.
Qed.
Lemma cosh_big x : Rabs x + / 2 <= cosh x * cosh x.
Proof.
  assert (G : forall y, 0 <= y -> y + / 2 <= cosh y * cosh y).
  { intros y H. replace (cosh y * cosh y) with (/ 4 * (exp (2 * y) + exp (- (2 * y)) + 2)).
    - pose proof (exp_twice (2 * y) ltac:(lra)). pose proof (exp_pos (- (2 * y))). lra.
    - unfold cosh. replace (2 * y) with (y + y) by ring. rewrite Ropp_plus_distr, !exp_plus.
      pose proof (exp_pos y). rewrite exp_Ropp. field. lra. }
  destruct (Rle_or_lt 0 x) as [H|H]; [rewrite Rabs_pos_eq by exact H; apply G, H|].
  rewrite Rabs_left by exact H. replace (cosh x) with (cosh (- x)); [apply G; lra|].
  unfold cosh. rewrite Ropp_involutive. f_equal. apply Rplus_comm.
Qed.
Lemma tanh_rel z e : Rabs e <= / 2 -> Rabs (tanh (z * (1 + e)) - tanh z) <= 2 * Rabs e.
Proof.
  intros He. pose proof (Rabs_pos e) as P. pose proof (Rabs_pos z) as Pz. set (w := Rabs z * (1 - Rabs e)).
  assert (W : 0 <= w) by (unfold w; nra).
  apply Rle_trans with (/ (w + / 2) * Rabs (z * (1 + e) - z)).
  - apply (mvt_abs tanh (fun x => / (cosh x * cosh x))); [exact tanh_der|]. intros c B.
    pose proof (near_scaled z e c He B) as K. fold w in K. pose proof (cosh_big c) as Q. pose proof (cosh_pos c).
    rewrite Rabs_pos_eq by (apply Rlt_le, Rinv_0_lt_compat; nra). apply Rinv_le_contravar; lra.
  - replace (z * (1 + e) - z) with (z * e) by ring. rewrite Rabs_mult.
    apply Rmult_le_reg_l with (w + / 2); [lra|]. rewrite <- Rmult_assoc, Rinv_r, Rmult_1_l by lra.
    unfold w. assert (Rabs z <= (Rabs z * (1 - Rabs e) + / 2) * 2) by nra. nra.
Qed.
Lemma tanh_bound x : Rabs (tanh x) <= 1.
Proof.
  unfold tanh, sinh, cosh. pose proof (exp_pos x). pose proof (exp_pos (- x)).
  replace ((exp x - exp (- x)) / 2 / ((exp x + exp (- x)) / 2)) with ((exp x - exp (- x)) / (exp x + exp (- x))) by (field; lra).
  unfold Rdiv. rewrite Rabs_mult, (Rabs_pos_eq (/ _)) by (apply Rlt_le, Rinv_0_lt_compat; lra).
  apply Rmult_le_reg_r with (exp x + exp (- x)); [lra|]. rewrite Rmult_assoc, Rinv_l, Rmult_1_r, Rmult_1_l by lra.
  apply Rabs_le. lra.
Qed.
