(** Analytic field functions in double precision: the second derivative of the bell. *)
From Coq Require Import Reals Lra Lia Psatz.
From Flocq Require Import Core.
From Verif Require Import Prelude WindowM WindowS GhostM FieldM FieldS MaskM NeboM NeboS NeboE StencilM StencilS RoundM RoundS RoundP RoundQ RoundT HeatM Cmp64P Part64Q BCM BCS BC64S BC64R Grid64Q FuncM FuncS FuncP Func64M Func64S Func64R Func64Q Func64T Func64P.
Open Scope R_scope.

Definition curve_q (sg x0 t : dbl) : dbl := dmul (dmul (ddiv f_two (bell_b sg)) (dsub t x0)) (dsub t x0).
Definition curve_p (M : libm) (a sg x0 t : dbl) : dbl := dmul (ddiv f_m2 (bell_b sg)) (dmul a (l_exp M (bell_arg sg x0 t))).
Definition curve64 (M : libm) (a sg x0 t : dbl) : dbl := dmul (curve_p M a sg x0 t) (dsub d_one (curve_q sg x0 t)).

Lemma fm2_val : finite f_m2 /\ val f_m2 = -2.
Proof. split; [reflexivity|]. unfold val. vm_compute B2R. unfold F2R. cbn. lra. Qed.
Lemma sz_m2 : sz 1 1 (-2). Proof. right. rewrite Rabs_left by lra. cbn. lra. Qed.

(** 2/b and -2/b *)
Lemma coef_b c sg : finite c -> sz 1 1 (val c) -> usual sg -> val sg <> 0 ->
  finite (ddiv c (bell_b sg)) /\ sz (-400) 400 (val (ddiv c (bell_b sg))) /\
  exists e, Rabs (e - 1) <= 31 / 10 * u /\ val (ddiv c (bell_b sg)) = val c / (2 * val sg ^ 2) * e.
Proof.
  intros Fc Sc Hs N. destruct (bell_b_val sg Hs N) as (Fb & Sb & Nb & Pb & e1 & e2 & H1 & H2 & Eb).
  assert (SK : sz (-400) 400 (val c / val (bell_b sg))) by exact (sz_mul _ _ _ _ _ _ Sc (sz_inv _ _ _ Nb Sb)).
  destruct (div_step c (bell_b sg) (-400) 400 Fc Nb SK ltac:(lia) ltac:(lia)) as (FK & SK' & _ & e3 & H3 & E3).
  split; [exact FK|]. split; [exact SK'|]. exists ((1 + e3) / (1 + e1) / (1 + e2)).
  pose proof u_pos. pose proof u_small. pose proof (Rabs_def2 e1 (2 * u) ltac:(lra)). pose proof (Rabs_def2 e2 (2 * u) ltac:(lra)). split.
  - assert (A0 : Rabs ((1 + e3) - 1) <= 1 * u) by (replace (1 + e3 - 1) with e3 by ring; lra).
    pose proof (shrink _ _ e1 A0 ltac:(lra) H1) as A5. pose proof (shrink _ _ e2 A5 ltac:(lra) H2) as A6. lra.
  - rewrite E3, Eb. field. repeat split; try lra.
Qed.

Lemma curve_q_val sg x0 t : usual sg -> val sg <> 0 -> usual x0 -> usual t ->
  finite (curve_q sg x0 t) /\ exists e, Rabs e <= 8 * u /\ val (curve_q sg x0 t) = (val t - val x0) ^ 2 / val sg ^ 2 * (1 + e).
Proof.
  intros Hs N Hx Ht. destruct ftwo_val as (F2 & V2). assert (S2 : sz 1 1 (val f_two)) by (rewrite V2; exact sz_two).
  destruct (coef_b f_two sg F2 S2 Hs N) as (FK & SK & e3 & H3 & E3). set (K := ddiv f_two (bell_b sg)) in *.
  destruct (sub_step t x0 Ht Hx) as (Fd & Sd & _ & e4 & H4 & E4).
  assert (Sp : sz (-653) 601 (val K * val (dsub t x0))) by exact (sz_mul _ _ _ _ _ _ SK Sd).
  destruct (mul_step K (dsub t x0) (-653) 601 FK Fd Sp ltac:(lia) ltac:(lia)) as (Fp & Sp' & _ & e5 & H5 & E5).
  assert (Sq : sz (-906) 802 (val (dmul K (dsub t x0)) * val (dsub t x0))) by exact (sz_mul _ _ _ _ _ _ Sp' Sd).
  destruct (mul_step _ (dsub t x0) (-906) 802 Fp Fd Sq ltac:(lia) ltac:(lia)) as (Fq & _ & _ & e6 & H6 & E6).
  change (dmul (dmul K (dsub t x0)) (dsub t x0)) with (curve_q sg x0 t) in *. split; [exact Fq|].
  exists (e3 * (1 + e4) * (1 + e4) * (1 + e5) * (1 + e6) - 1). pose proof u_pos. split.
  - pose proof (grow _ _ e4 H3 ltac:(lra) H4) as A1. pose proof (grow _ _ e4 A1 ltac:(lra) H4) as A2.
    pose proof (grow _ _ e5 A2 ltac:(lra) H5) as A3. pose proof (grow _ _ e6 A3 ltac:(lra) H6) as A4.
    eapply Rle_trans; [exact A4|]. apply Rmult_le_compat_r; lra.
  - rewrite E6, E5, E4, E3, V2. field. exact N.
Qed.

Lemma curve_w_val sg x0 t : usual sg -> val sg <> 0 -> usual x0 -> usual t -> Rabs (val t - val x0) <= b2 200 * Rabs (val sg) ->
  let q := (val t - val x0) ^ 2 / val sg ^ 2 in
  finite (dsub d_one (curve_q sg x0 t)) /\ 0 <= q /\ Rabs (val (dsub d_one (curve_q sg x0 t))) <= b2 402 /\
  Rabs (val (dsub d_one (curve_q sg x0 t)) - (1 - q)) <= 91 / 10 * u * (1 + q).
Proof.
  intros Hs N Hx Ht L q. destruct (curve_q_val sg x0 t Hs N Hx Ht) as (Fq & e & He & E). fold q in E. destruct one_val as (F1 & V1).
  assert (S2 : 0 < val sg ^ 2) by (apply sq_pos, N). pose proof u_pos as U. pose proof u_small as Us.
  assert (Q0 : 0 <= q) by (apply Rmult_le_pos; [apply pow2_ge_0|apply Rlt_le, Rinv_0_lt_compat, S2]).
  assert (Q1 : q <= b2 400).
  { unfold q. apply Rmult_le_reg_r with (val sg ^ 2); [exact S2|]. unfold Rdiv. rewrite Rmult_assoc, Rinv_l, Rmult_1_r by lra.
    rewrite <- (pow2_abs (val t - val x0)), <- (pow2_abs (val sg)).
    change 400%Z with (200 + 200)%Z. rewrite (bpow_plus radix2 200 200).
    replace (b2 200 * b2 200 * Rabs (val sg) ^ 2) with ((b2 200 * Rabs (val sg)) ^ 2) by ring. apply pow_incr. split; [apply Rabs_pos|exact L]. }
  set (Q := val (curve_q sg x0 t)) in *. pose proof (Rabs_def2 e (9 * u) ltac:(lra)) as De.
  assert (QQ : 0 <= Q <= q * (1 + 9 * u)) by (rewrite E; split; [apply Rmult_le_pos; lra|apply Rmult_le_compat_l; lra]).
  assert (B : Rabs (1 - Q) <= 1 + Q) by (apply Rabs_le; lra).
  assert (B4 : 1 + Q <= b2 402).
  { change 402%Z with (401 + 1)%Z; rewrite <- (double_b2 401). change 401%Z with (400 + 1)%Z; rewrite <- (double_b2 400).
    assert (1 <= b2 400) by (change 1 with (b2 0); apply bpow_le; lia). nra. }
  destruct (sub_val d_one (curve_q sg x0 t) F1 Fq) as [F V].
  { rewrite V1. fold Q. eapply Rle_trans; [exact B|]. eapply Rle_trans; [exact B4|]. apply bpow_le. lia. }
  split; [exact F|]. split; [exact Q0|]. rewrite V, V1. fold Q. split.
  - apply rnd_abs_le; [apply fmt_bpow; lia|]. lra.
  - assert (M : Rabs (rnd (1 - Q) - (1 - Q)) <= u * Rabs (1 - Q)).
    { apply minus_err; [apply (fmt_bpow 0); lia|apply fmt_val]. }
    replace (rnd (1 - Q) - (1 - q)) with ((rnd (1 - Q) - (1 - Q)) + - (q * e)) by (rewrite E; ring).
    pose proof (Rabs_triang (rnd (1 - Q) - (1 - Q)) (- (q * e))) as T. rewrite Rabs_Ropp, (Rabs_mult q e), (Rabs_pos_eq q Q0) in T.
    assert (q * Rabs e <= q * (8 * u)) by (apply Rmult_le_compat_l; lra).
    assert (u * Rabs (1 - Q) <= u * (1 + q * (1 + 9 * u))) by (apply Rmult_le_compat_l; lra).
    assert (q * u * u <= q * u * / 1000000) by (apply Rmult_le_compat_l; [apply Rmult_le_pos; lra|lra]).
    assert (0 <= q * u) by (apply Rmult_le_pos; lra). lra.
Qed.

(** |a|/sg^2 is far above the underflow threshold *)
Lemma curve_tiny a sg : usual a -> usual sg -> val sg <> 0 -> val a <> 0 -> b2 (-1075) <= u * (Rabs (val a) / val sg ^ 2).
Proof.
  intros Ha Hs N Na. destruct (sz_usual a Ha) as (_ & Sa), (sz_usual sg Hs) as (_ & Ss).
  pose proof (sz_nz _ _ _ Sa Na) as La. assert (N2 : val sg * val sg <> 0) by (apply Rmult_integral_contrapositive; auto).
  pose proof (sz_mul _ _ _ _ _ _ Ss Ss) as S2. pose proof (sz_inv _ _ _ N2 S2) as S3.
  assert (N3 : / (val sg * val sg) <> 0) by (apply Rinv_neq_0_compat, N2). pose proof (sz_nz _ _ _ S3 N3) as L3. change (- (200 + 200))%Z with (-400)%Z in L3.
  assert (P : 0 < / (val sg * val sg)) by (apply Rinv_0_lt_compat; replace (val sg * val sg) with (val sg ^ 2) by ring; apply sq_pos, N).
  rewrite (Rabs_pos_eq (/ (val sg * val sg))) in L3 by lra. unfold u, Rdiv. replace (val sg ^ 2) with (val sg * val sg) by ring.
  apply Rle_trans with (b2 (-53) * (b2 (-200) * b2 (-400))).
  - rewrite <- !bpow_plus. apply bpow_le. lia.
  - apply Rmult_le_compat_l; [apply bpow_ge_0|]. apply Rmult_le_compat; try apply bpow_ge_0; assumption.
Qed.

(** -2/b * (a * exp), against -a/sg^2 * X *)
Lemma curve_p_real s2 a c p1 p s X D : 0 < s2 -> Rabs (c - 1) <= 31 / 10 * u -> 0 <= s <= 1 -> Rabs (s - X) <= D -> Rabs p1 <= Rabs a ->
  Rabs (p1 - a * s) <= 2 * u * Rabs a -> Rabs (p - - / s2 * c * p1) <= 21 / 10 * u * (Rabs a / s2) ->
  Rabs p <= Rabs a / s2 * (1 + 6 * u) /\ Rabs (p - - (a / s2) * X) <= Rabs a / s2 * (D + 73 / 10 * u).
Proof.
  intros S2 C Hs HD P1 E1 E. pose proof u_pos as U. pose proof u_small as Us. pose proof (Rabs_pos a) as Pa.
  assert (I : 0 < / s2) by (apply Rinv_0_lt_compat, S2). unfold Rdiv in E |- *. set (i := / s2) in *.
  set (A := Rabs a * i) in *. assert (PA : 0 <= A) by (apply Rmult_le_pos; lra).
  assert (Bc : Rabs c <= 1 + 31 / 10 * u) by (replace c with ((c - 1) + 1) by ring; pose proof (Rabs_triang (c - 1) 1) as T; rewrite Rabs_R1 in T; lra).
  assert (X1 : Rabs (- i * c * p1) <= A * (1 + 31 / 10 * u)).
  { rewrite !Rabs_mult, Rabs_Ropp, (Rabs_pos_eq i) by lra. unfold A. replace (i * Rabs c * Rabs p1) with (Rabs p1 * i * Rabs c) by ring.
    apply Rmult_le_compat; [apply Rmult_le_pos; [apply Rabs_pos|lra]|apply Rabs_pos| |exact Bc]. apply Rmult_le_compat_r; lra. }
  split.
  - replace p with ((p - - i * c * p1) + (- i * c * p1)) by ring. pose proof (Rabs_triang (p - - i * c * p1) (- i * c * p1)).
    assert (0 <= A * u) by (apply Rmult_le_pos; lra). lra.
  - replace (p - - (a * i) * X) with ((p - - i * c * p1) + ((- i * c * (p1 - a * s)) + ((- (a * i) * s * (c - 1)) + (- (a * i) * (s - X))))) by ring.
    pose proof (Rabs_triang (p - - i * c * p1) ((- i * c * (p1 - a * s)) + ((- (a * i) * s * (c - 1)) + (- (a * i) * (s - X))))) as T1.
    pose proof (Rabs_triang (- i * c * (p1 - a * s)) ((- (a * i) * s * (c - 1)) + (- (a * i) * (s - X)))) as T2.
    pose proof (Rabs_triang (- (a * i) * s * (c - 1)) (- (a * i) * (s - X))) as T3.
    assert (Y1 : Rabs (- i * c * (p1 - a * s)) <= 2 * u * A * (1 + 31 / 10 * u)).
    { rewrite !Rabs_mult, Rabs_Ropp, (Rabs_pos_eq i) by lra. unfold A. replace (i * Rabs c * Rabs (p1 - a * s)) with (Rabs (p1 - a * s) * i * Rabs c) by ring.
      replace (2 * u * (Rabs a * i)) with (2 * u * Rabs a * i) by ring.
      apply Rmult_le_compat; [apply Rmult_le_pos; [apply Rabs_pos|lra]|apply Rabs_pos| |exact Bc]. apply Rmult_le_compat_r; lra. }
    assert (Y2 : Rabs (- (a * i) * s * (c - 1)) <= A * (31 / 10 * u)).
    { rewrite !Rabs_mult, Rabs_Ropp, (Rabs_mult a i), (Rabs_pos_eq i), (Rabs_pos_eq s) by lra. fold A.
      apply Rmult_le_compat; [apply Rmult_le_pos; lra|apply Rabs_pos| |exact C]. rewrite <- (Rmult_1_r A) at 2. apply Rmult_le_compat_l; lra. }
    assert (Y3 : Rabs (- (a * i) * (s - X)) <= A * D).
    { rewrite !Rabs_mult, Rabs_Ropp, (Rabs_mult a i), (Rabs_pos_eq i) by lra. fold A. apply Rmult_le_compat_l; assumption. }
    assert (Z : A * u * u <= A * u * / 1000000) by (apply Rmult_le_compat_l; [apply Rmult_le_pos; lra|lra]).
    assert (0 <= A * u) by (apply Rmult_le_pos; lra). lra.
Qed.
Lemma curve_real K A p w r X q D : 0 <= A -> Rabs p <= A * (1 + 6 * u) -> Rabs (p - K * X) <= A * (D + 73 / 10 * u) -> 0 <= q ->
  Rabs (w - (1 - q)) <= 91 / 10 * u * (1 + q) -> Rabs (r - p * w) <= u * Rabs (p * w) + u * A ->
  Rabs (r - K * X * (1 - q)) <= A * (1 + q) * (D + 19 * u).
Proof.
  intros HA Hp HK Hq Hw Hr. pose proof u_pos as U. pose proof u_small as Us.
  assert (Bq : Rabs (1 - q) <= 1 + q) by (apply Rabs_le; lra).
  assert (Bw : Rabs w <= (1 + q) * (1 + 10 * u)).
  { replace w with ((w - (1 - q)) + (1 - q)) by ring. pose proof (Rabs_triang (w - (1 - q)) (1 - q)). assert (0 <= u * (1 + q)) by (apply Rmult_le_pos; lra). lra. }
  set (G := A * (1 + q)). assert (PG : 0 <= G) by (apply Rmult_le_pos; lra). assert (AG : A <= G) by (unfold G; nra).
  assert (Y0 : Rabs (p * w) <= G * ((1 + 6 * u) * (1 + 10 * u))).
  { rewrite Rabs_mult. unfold G. replace (A * (1 + q) * ((1 + 6 * u) * (1 + 10 * u))) with (A * (1 + 6 * u) * ((1 + q) * (1 + 10 * u))) by ring.
    apply Rmult_le_compat; try apply Rabs_pos; assumption. }
  assert (Y1 : Rabs (p * (w - (1 - q))) <= G * (91 / 10 * u * (1 + 6 * u))).
  { rewrite Rabs_mult. unfold G. replace (A * (1 + q) * (91 / 10 * u * (1 + 6 * u))) with (A * (1 + 6 * u) * (91 / 10 * u * (1 + q))) by ring.
    apply Rmult_le_compat; try apply Rabs_pos; assumption. }
  assert (Y2 : Rabs ((p - K * X) * (1 - q)) <= G * (D + 73 / 10 * u)).
  { rewrite Rabs_mult. unfold G. replace (A * (1 + q) * (D + 73 / 10 * u)) with (A * (D + 73 / 10 * u) * (1 + q)) by ring.
    apply Rmult_le_compat; try apply Rabs_pos; assumption. }
  replace (r - K * X * (1 - q)) with ((r - p * w) + (p * (w - (1 - q)) + (p - K * X) * (1 - q))) by ring.
  pose proof (Rabs_triang (r - p * w) (p * (w - (1 - q)) + (p - K * X) * (1 - q))) as T1.
  pose proof (Rabs_triang (p * (w - (1 - q))) ((p - K * X) * (1 - q))) as T2.
  assert (Z0 : (1 + 6 * u) * (1 + 10 * u) <= 1 + 1 / 10) by nra.
  assert (Y3 : u * Rabs (p * w) <= u * (G * (1 + 1 / 10))).
  { apply Rmult_le_compat_l; [lra|]. eapply Rle_trans; [exact Y0|]. apply Rmult_le_compat_l; lra. }
  assert (Y4 : u * A <= u * G) by (apply Rmult_le_compat_l; lra).
  assert (Z : G * u * u <= G * u * / 1000000) by (apply Rmult_le_compat_l; [apply Rmult_le_pos; lra|lra]).
  assert (0 <= G * u) by (apply Rmult_le_pos; lra). lra.
Qed.

Lemma curve64_err M eps a sg x0 t : good_libm M eps -> usual a -> usual sg -> val sg <> 0 -> usual x0 -> usual t ->
  Rabs (val t - val x0) <= powerRZ 2 200 * Rabs (val sg) ->
  finite (curve64 M a sg x0 t) /\
  Rabs (val (curve64 M a sg x0 t) - bell2 (val a) (2 * val sg * val sg) (val x0) (val t)) <=
    Rabs (val a) / val sg ^ 2 * (1 + ((val t - val x0) / val sg) ^ 2) * (eps + 27 * ur).
Proof.
  intros G Ha Hs N Hx Ht L. rewrite p2 in L. rewrite ur_u.
  destruct (bell_arg_val sg x0 t Hs N Hx Ht) as (F & NP & _ & _ & _ & e & He & E).
  destruct (g_exp _ _ G _ F NP) as (FE & BE & EE). assert (A1 : Rabs (val (l_exp M (bell_arg sg x0 t))) <= 1) by (apply Rabs_le; lra).
  destruct (times_unit a _ Ha FE A1) as (Fm & _ & Bm & Em). destruct (usual_or a Ha) as (_ & _ & La).
  destruct fm2_val as (F2 & V2). assert (S2 : sz 1 1 (val f_m2)) by (rewrite V2; exact sz_m2).
  destruct (coef_b f_m2 sg F2 S2 Hs N) as (FK & SK & c & Hc & Ec).
  destruct (curve_w_val sg x0 t Hs N Hx Ht L) as (Fw & Q0 & Bw & Ew).
  assert (P2 : 0 < val sg ^ 2) by (apply sq_pos, N).
  replace (((val t - val x0) / val sg) ^ 2) with ((val t - val x0) ^ 2 / val sg ^ 2) by (field; exact N).
  set (q := (val t - val x0) ^ 2 / val sg ^ 2) in *.
  set (z := - ((val t - val x0) ^ 2 / (2 * val sg ^ 2))) in *. set (s := val (l_exp M (bell_arg sg x0 t))) in *.
  set (p1 := val (dmul a (l_exp M (bell_arg sg x0 t)))) in *.
  pose proof u_pos as U. pose proof u_small as Us.
  assert (Z : z <= 0).
  { unfold z. assert (0 <= (val t - val x0) ^ 2 / (2 * val sg ^ 2)); [|lra]. apply Rmult_le_pos; [apply pow2_ge_0|]. apply Rlt_le, Rinv_0_lt_compat. lra. }
  pose proof (exp_rel z e Z ltac:(lra)) as X. rewrite E in EE.
  assert (D : Rabs (s - exp z) <= eps + 8 * u).
  { replace (s - exp z) with ((s - exp (z * (1 + e))) + (exp (z * (1 + e)) - exp z)) by ring.
    pose proof (Rabs_triang (s - exp (z * (1 + e))) (exp (z * (1 + e)) - exp z)). lra. }
  assert (EC : val (ddiv f_m2 (bell_b sg)) = - / val sg ^ 2 * c) by (rewrite Ec, V2; field; lra).
  (* the product -2/b * (a * exp) *)
  pose proof (sz_le _ _ _ SK) as LK.
  assert (B6 : Rabs (val (ddiv f_m2 (bell_b sg)) * p1) <= b2 600).
  { rewrite Rabs_mult. change 600%Z with (400 + 200)%Z. rewrite (bpow_plus radix2 400 200). apply Rmult_le_compat; try apply Rabs_pos; [exact LK|lra]. }
  destruct (mul_val (ddiv f_m2 (bell_b sg)) _ FK Fm) as (Fp & Vp); [fold p1; eapply Rle_trans; [exact B6|apply bpow_le; lia]|].
  fold (curve_p M a sg x0 t) in Fp, Vp. fold p1 in Vp.
  assert (Bp : Rabs (val (curve_p M a sg x0 t)) <= b2 600) by (rewrite Vp; apply rnd_abs_le; [apply fmt_bpow; lia|exact B6]).
  set (w := val (dsub d_one (curve_q sg x0 t))) in *. set (p := val (curve_p M a sg x0 t)) in *.
  assert (B9 : Rabs (p * w) <= b2 1002).
  { rewrite Rabs_mult. change 1002%Z with (600 + 402)%Z. rewrite (bpow_plus radix2 600 402). apply Rmult_le_compat; try apply Rabs_pos; assumption. }
  destruct (mul_val (curve_p M a sg x0 t) (dsub d_one (curve_q sg x0 t)) Fp Fw) as (Fr & Vr); [fold w p; eapply Rle_trans; [exact B9|apply bpow_le; lia]|].
  fold (curve64 M a sg x0 t) in Fr, Vr. fold w p in Vr. split; [exact Fr|].
  assert (PA : 0 <= Rabs (val a) / val sg ^ 2) by (apply Rmult_le_pos; [apply Rabs_pos|apply Rlt_le, Rinv_0_lt_compat, P2]).
  assert (TG : bell2 (val a) (2 * val sg * val sg) (val x0) (val t) = - (val a / val sg ^ 2) * exp z * (1 - q)).
  { unfold bell2, ex, z, q. replace (-1 / (2 * val sg * val sg) * (val t - val x0) * (val t - val x0)) with (- ((val t - val x0) ^ 2 / (2 * val sg ^ 2))) by (field; lra). field. lra. }
  rewrite TG. replace (eps + 27 * u) with ((eps + 8 * u) + 19 * u) by ring.
  destruct (Req_dec (val a) 0) as [Za|Na].
  { assert (P10 : p1 = 0) by (apply Rabs_eq_R0; rewrite Za, Rabs_R0 in Bm; pose proof (Rabs_pos p1); lra).
    assert (P0 : p = 0) by (rewrite Vp, P10, Rmult_0_r; apply rnd0).
    rewrite Vr, P0, Za, Rmult_0_l, rnd0. unfold Rdiv. rewrite Rabs_R0, !Rmult_0_l, Ropp_0, !Rmult_0_l. unfold Rminus. rewrite Ropp_0, Rplus_0_r, Rabs_R0. lra. }
  pose proof (curve_tiny a sg Ha Hs N Na) as TI.
  assert (EP : Rabs (p - - / val sg ^ 2 * c * p1) <= 21 / 10 * u * (Rabs (val a) / val sg ^ 2)).
  { rewrite Vp, EC. pose proof (abs_eps (- / val sg ^ 2 * c * p1)) as AE.
    assert (Bc : Rabs c <= 1 + 31 / 10 * u) by (replace c with ((c - 1) + 1) by ring; pose proof (Rabs_triang (c - 1) 1) as T; rewrite Rabs_R1 in T; lra).
    assert (X1 : Rabs (- / val sg ^ 2 * c * p1) <= Rabs (val a) / val sg ^ 2 * (1 + 31 / 10 * u)).
    { assert (I : 0 < / val sg ^ 2) by (apply Rinv_0_lt_compat, P2). rewrite !Rabs_mult, Rabs_Ropp, (Rabs_pos_eq (/ val sg ^ 2)) by lra. unfold Rdiv.
      replace (/ val sg ^ 2 * Rabs c * Rabs p1) with (Rabs p1 * / val sg ^ 2 * Rabs c) by ring.
      apply Rmult_le_compat; [apply Rmult_le_pos; [apply Rabs_pos|lra]|apply Rabs_pos| |exact Bc]. apply Rmult_le_compat_r; lra. }
    set (A := Rabs (val a) / val sg ^ 2) in *.
    assert (u * Rabs (- / val sg ^ 2 * c * p1) <= u * (A * (1 + 31 / 10 * u))) by (apply Rmult_le_compat_l; lra).
    assert (A * u * u <= A * u * / 1000000) by (apply Rmult_le_compat_l; [apply Rmult_le_pos; lra|lra]).
    assert (0 <= A * u) by (apply Rmult_le_pos; lra). lra. }
  destruct (curve_p_real (val sg ^ 2) (val a) c p1 p s (exp z) (eps + 8 * u) P2 Hc BE D Bm Em EP) as (R1 & R2).
  apply (curve_real _ _ p w); try assumption.
  rewrite Vr. pose proof (abs_eps (p * w)). lra.
Qed.

(** On either side of the mean the same value. *)
Lemma curve_q_even sg x0 s t : usual sg -> val sg <> 0 -> usual x0 -> usual s -> usual t -> val s - val x0 = val x0 - val t ->
  val (curve_q sg x0 s) = val (curve_q sg x0 t).
Proof.
  intros Hs N Hx Hsu Ht EQ. destruct ftwo_val as (F2 & V2). assert (S2 : sz 1 1 (val f_two)) by (rewrite V2; exact sz_two).
  destruct (coef_b f_two sg F2 S2 Hs N) as (FK & SK & _). unfold curve_q. set (K := ddiv f_two (bell_b sg)) in *.
  assert (G : forall r, usual r -> val (dmul (dmul K (dsub r x0)) (dsub r x0)) = rnd (rnd (val K * rnd (val r - val x0)) * rnd (val r - val x0))).
  { intros r Hr. destruct (sub_step r x0 Hr Hx) as (Fd & Sd & Rd & _).
    assert (Sp : sz (-653) 601 (val K * val (dsub r x0))) by exact (sz_mul _ _ _ _ _ _ SK Sd).
    destruct (mul_step K (dsub r x0) (-653) 601 FK Fd Sp ltac:(lia) ltac:(lia)) as (Fp & Sp' & Rp & _).
    assert (Sq : sz (-906) 802 (val (dmul K (dsub r x0)) * val (dsub r x0))) by exact (sz_mul _ _ _ _ _ _ Sp' Sd).
    destruct (mul_step _ (dsub r x0) (-906) 802 Fp Fd Sq ltac:(lia) ltac:(lia)) as (_ & _ & Rq & _). rewrite Rq, Rp, Rd. reflexivity. }
  rewrite (G s Hsu), (G t Ht), EQ. replace (val x0 - val t) with (- (val t - val x0)) by ring. rewrite rnd_opp.
  replace (val K * - rnd (val t - val x0)) with (- (val K * rnd (val t - val x0))) by ring. rewrite rnd_opp. f_equal. ring.
Qed.

Lemma curve_w_even sg x0 s t : usual sg -> val sg <> 0 -> usual x0 -> usual s -> usual t -> val s - val x0 = val x0 - val t ->
  dsub d_one (curve_q sg x0 s) = dsub d_one (curve_q sg x0 t).
Proof.
  intros Hs N Hx Hsu Ht EQ. pose proof (curve_q_even sg x0 s t Hs N Hx Hsu Ht EQ) as V.
  destruct (curve_q_val sg x0 s Hs N Hx Hsu) as (F1 & _), (curve_q_val sg x0 t Hs N Hx Ht) as (F2 & _).
  destruct (Req_dec (val (curve_q sg x0 t)) 0) as [Z|D].
  - destruct (val_zero _ F2 Z) as (b & ->). rewrite Z in V. destruct (val_zero _ F1 V) as (c & ->). destruct b, c; reflexivity.
  - f_equal. apply val_inj; congruence.
Qed.
Lemma bell_exp_even M eps sg x0 s t : good_libm M eps -> usual sg -> val sg <> 0 -> usual x0 -> usual s -> usual t ->
  val s - val x0 = val x0 - val t -> l_exp M (bell_arg sg x0 s) = l_exp M (bell_arg sg x0 t).
Proof.
  intros G Hs N Hx Hsu Ht Q. destruct (bell_arg_val sg x0 t Hs N Hx Ht) as (F & _ & Z & (k & _ & A) & NZ & _).
  destruct (bell_arg_val sg x0 s Hs N Hx Hsu) as (F' & _ & Z' & _ & NZ' & _). destruct (Req_dec (val t) (val x0)) as [E|D].
  - rewrite (g_exp_zero _ _ G _ F (Z E)). apply (g_exp_zero _ _ G _ F'), Z'. lra.
  - f_equal. apply val_inj; [exact F'|exact F| |apply NZ'; lra]. rewrite (A s Hsu), (A t Ht), Q.
    replace (val x0 - val t) with (- (val t - val x0)) by ring. rewrite rnd_opp, Rabs_Ropp. reflexivity.
Qed.
Lemma curve64_even M eps a sg x0 s t : good_libm M eps -> usual sg -> val sg <> 0 -> usual x0 -> usual s -> usual t ->
  val s - val x0 = val x0 - val t -> curve64 M a sg x0 s = curve64 M a sg x0 t.
Proof.
  intros G Hs N Hx Hsu Ht Q. unfold curve64, curve_p.
  rewrite (curve_w_even sg x0 s t Hs N Hx Hsu Ht Q), (bell_exp_even M eps sg x0 s t G Hs N Hx Hsu Ht Q). reflexivity.
Qed.

Lemma gaussian64_d2x_ok : forall M eps n h x f a sg x0 y0, good_libm M eps -> coordinates64 n h x f ->
  exists v2 : dbl -> dbl, stores64 (d2x64 M (gaussian_function64 a sg x0 y0) x) h f (shared n x f) (fun p => v2 (value dbl h x p)) /\
    (usual a -> usual sg -> val sg <> 0 -> usual x0 ->
      (forall s t, usual s -> usual t -> val s - val x0 = val x0 - val t -> v2 s = v2 t) /\
      exists g1 g2, derivative (bell (val a) (val sg) (val x0) (val y0)) g1 /\ derivative g1 g2 /\
        forall t, usual t -> Rabs (val t - val x0) <= powerRZ 2 200 * Rabs (val sg) -> finite (v2 t) /\
          Rabs (val (v2 t) - g2 (val t)) <= Rabs (val a) / val sg ^ 2 * (1 + ((val t - val x0) / val sg) ^ 2) * (eps + 27 * ur)).
Proof.
  intros M eps n h x f a sg x0 y0 G C. exists (curve64 M a sg x0). split.
  - apply (stores_inplace64 n h x f _ (curve64 M a sg x0) C); [cbn; inpl64|occurs|]. intros p. reflexivity.
  - intros Ha Hs N Hx. split; [intros s t Hsu Ht; exact (curve64_even M eps a sg x0 s t G Hs N Hx Hsu Ht)|].
    exists (bell1 (val a) (2 * val sg * val sg) (val x0)), (bell2 (val a) (2 * val sg * val sg) (val x0)).
    split; [apply bell_der, N|]. split; [apply bell1_der; nra|]. intros t Ht L. exact (curve64_err M eps a sg x0 t G Ha Hs N Hx Ht L).
Qed.
(** 7 is within 2^200 standard deviations of the mean -3 when the deviation is 7. *)
Lemma curve_hyps : Rabs (val (dlit 7 0) - val (dlit (-3) 0)) <= powerRZ 2 200 * Rabs (val (dlit 7 0)).
Proof.
  destruct (int_val 7 ltac:(lia)) as (_ & ->), (int_val (-3) ltac:(lia)) as (_ & ->). rewrite p2, !Rabs_pos_eq by lra.
  assert (b2 1 <= b2 200) by (apply bpow_le; lia). change (b2 1) with 2 in *. lra.
Qed.
