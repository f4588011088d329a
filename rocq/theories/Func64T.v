(** Analytic field functions in double precision: the bell and the step. *)
From Coq Require Import Reals Lra Lia Psatz.
From Flocq Require Import Core.
From Verif Require Import Prelude WindowM WindowS GhostM FieldM FieldS MaskM NeboM NeboS StencilM StencilS RoundM RoundS RoundP RoundQ RoundT HeatM Cmp64P Part64Q BCM BCS BC64S BC64R FuncS Func64M Func64S Func64R Func64Q.
Open Scope R_scope.

Lemma sq_pos r : r <> 0 -> 0 < r ^ 2.
Proof. intros N. assert (0 < Rsqr r) by (apply Rsqr_pos_lt, N). unfold Rsqr in *. lra. Qed.

(** ** Products of factors near one *)
Lemma grow A c e : Rabs (A - 1) <= c * u -> 0 <= c <= 10 -> Rabs e <= u -> Rabs (A * (1 + e) - 1) <= (c + 1001 / 1000) * u.
Proof.
  intros H C E. pose proof u_pos as U. pose proof u_small as S. replace (A * (1 + e) - 1) with ((A - 1) + (A - 1) * e + e) by ring.
  pose proof (Rabs_triang ((A - 1) + (A - 1) * e) e) as T1. pose proof (Rabs_triang (A - 1) ((A - 1) * e)) as T2. rewrite (Rabs_mult (A - 1)) in T2.
  assert (Rabs (A - 1) * Rabs e <= (c * u) * / 1000000) by (apply Rmult_le_compat; try apply Rabs_pos; lra). nra.
Qed.
Lemma shrink A c e : Rabs (A - 1) <= c * u -> 0 <= c <= 10 -> Rabs e <= u -> Rabs (A / (1 + e) - 1) <= (c + 1001 / 1000) * u.
Proof.
  intros H C E. pose proof u_pos as U. pose proof u_small as S. pose proof (Rabs_def2 e (2 * u) ltac:(lra)) as D.
  replace (A / (1 + e) - 1) with (((A - 1) - e) / (1 + e)) by (field; lra). unfold Rdiv. rewrite Rabs_mult, Rabs_inv, (Rabs_pos_eq (1 + e)) by lra.
  apply Rmult_le_reg_r with (1 + e); [lra|]. rewrite Rmult_assoc, Rinv_l, Rmult_1_r by lra.
  pose proof (Rabs_triang (A - 1) (- e)) as T. rewrite Rabs_Ropp in T. unfold Rminus in *.
  assert ((c + 1) * u <= (c + 1001 / 1000) * u * (1 + e)); [|lra].
  assert (c + 1 <= (c + 1001 / 1000) * (1 + e)) by nra. nra.
Qed.

(** ** The bell *)
Definition bell_b (sg : dbl) : dbl := dmul (dmul f_two sg) sg.
Definition bell_arg (sg x0 t : dbl) : dbl := dmul (dmul (ddiv f_m1 (bell_b sg)) (dsub t x0)) (dsub t x0).
Definition bell64 (M : libm) (a sg x0 y0 t : dbl) : dbl := dadd (dmul a (l_exp M (bell_arg sg x0 t))) y0.

Lemma ftwo_val : finite f_two /\ val f_two = 2.
Proof. split; [reflexivity|]. unfold val. vm_compute B2R. unfold F2R. cbn. lra. Qed.
Lemma fm1_val : finite f_m1 /\ val f_m1 = -1.
Proof. split; [reflexivity|]. unfold val. vm_compute B2R. unfold F2R. cbn. lra. Qed.
Lemma sz_two : sz 1 1 2. Proof. right. rewrite Rabs_pos_eq by lra. cbn. lra. Qed.
Lemma sz_m1 : sz 0 0 (-1). Proof. right. rewrite Rabs_left by lra. cbn. lra. Qed.
Lemma sz_nz i j r : sz i j r -> r <> 0 -> b2 i <= Rabs r. Proof. intros [Z|[A _]] N; [contradiction|exact A]. Qed.

Lemma bell_b_val sg : usual sg -> val sg <> 0 ->
  finite (bell_b sg) /\ sz (-399) 401 (val (bell_b sg)) /\ val (bell_b sg) <> 0 /\ 0 < val (bell_b sg) /\
  exists e1 e2, Rabs e1 <= u /\ Rabs e2 <= u /\ val (bell_b sg) = 2 * val sg ^ 2 * (1 + e1) * (1 + e2).
Proof.
  intros Hs N. destruct (sz_usual sg Hs) as (Fs & Ss), ftwo_val as (F2 & V2).
  assert (S1 : sz (-199) 201 (val f_two * val sg)) by (rewrite V2; exact (sz_mul _ _ _ _ _ _ sz_two Ss)).
  destruct (mul_step f_two sg (-199) 201 F2 Fs S1 ltac:(lia) ltac:(lia)) as (F1 & S1' & _ & e1 & H1 & E1).
  assert (S2 : sz (-399) 401 (val (dmul f_two sg) * val sg)) by exact (sz_mul _ _ _ _ _ _ S1' Ss).
  destruct (mul_step _ sg (-399) 401 F1 Fs S2 ltac:(lia) ltac:(lia)) as (F & S & _ & e2 & H2 & E2). fold (bell_b sg) in *.
  assert (E : val (bell_b sg) = 2 * val sg ^ 2 * (1 + e1) * (1 + e2)) by (rewrite E2, E1, V2; ring).
  pose proof u_small. pose proof u_pos. pose proof (Rabs_def2 e1 (2 * u) ltac:(lra)). pose proof (Rabs_def2 e2 (2 * u) ltac:(lra)).
  assert (P : 0 < val (bell_b sg)).
  { rewrite E. assert (0 < val sg ^ 2) by (apply sq_pos; exact N). apply Rmult_lt_0_compat; [apply Rmult_lt_0_compat|]; lra. }
  split; [exact F|]. split; [exact S|]. split; [lra|]. split; [exact P|]. exists e1, e2. auto.
Qed.

Lemma bell_arg_val sg x0 t : usual sg -> val sg <> 0 -> usual x0 -> usual t ->
  finite (bell_arg sg x0 t) /\ val (bell_arg sg x0 t) <= 0 /\
  (val t = val x0 -> val (bell_arg sg x0 t) = 0) /\
  (exists k, k <= 0 /\ (forall s, usual s -> val (bell_arg sg x0 s) = rnd (rnd (k * Rabs (rnd (val s - val x0))) * Rabs (rnd (val s - val x0)))) ) /\
  (val t <> val x0 -> val (bell_arg sg x0 t) <> 0) /\
  exists e, Rabs e <= 8 * u /\ val (bell_arg sg x0 t) = - ((val t - val x0) ^ 2 / (2 * val sg ^ 2)) * (1 + e).
Proof.
  intros Hs N Hx Ht. destruct (bell_b_val sg Hs N) as (Fb & Sb & Nb & Pb & e1 & e2 & H1 & H2 & Eb).
  destruct fm1_val as (Fm & Vm).
  assert (SK : sz (-401) 399 (val f_m1 / val (bell_b sg))).
  { rewrite Vm. exact (sz_mul _ _ _ _ _ _ sz_m1 (sz_inv _ _ _ Nb Sb)). }
  destruct (div_step f_m1 (bell_b sg) (-401) 399 Fm Nb SK ltac:(lia) ltac:(lia)) as (FK & SK' & RK & e3 & H3 & E3).
  assert (KN : val (ddiv f_m1 (bell_b sg)) <= 0).
  { rewrite RK, Vm. apply rnd_le_fmt; [apply generic_format_0|]. assert (0 < / val (bell_b sg)) by (apply Rinv_0_lt_compat, Pb). unfold Rdiv. lra. }
  set (K := ddiv f_m1 (bell_b sg)) in *.
  assert (G : forall s, usual s -> finite (bell_arg sg x0 s) /\ val (bell_arg sg x0 s) = rnd (rnd (val K * val (dsub s x0)) * val (dsub s x0)) /\
    val (dsub s x0) = rnd (val s - val x0) /\ sz (-907) 801 (val K * val (dsub s x0) * val (dsub s x0)) /\
    exists e4 e5 e6, Rabs e4 <= u /\ Rabs e5 <= u /\ Rabs e6 <= u /\ val (dsub s x0) = (val s - val x0) * (1 + e4) /\
      val (bell_arg sg x0 s) = val K * val (dsub s x0) * (1 + e5) * val (dsub s x0) * (1 + e6)).
  { intros s Hsu. destruct (sub_step s x0 Hsu Hx) as (Fd & Sd & Rd & e4 & H4 & E4).
    assert (Sp : sz (-654) 600 (val K * val (dsub s x0))) by exact (sz_mul _ _ _ _ _ _ SK' Sd).
    destruct (mul_step K (dsub s x0) (-654) 600 FK Fd Sp ltac:(lia) ltac:(lia)) as (Fp & Sp' & Rp & e5 & H5 & E5).
    assert (Sq : sz (-907) 801 (val (dmul K (dsub s x0)) * val (dsub s x0))) by exact (sz_mul _ _ _ _ _ _ Sp' Sd).
    destruct (mul_step _ (dsub s x0) (-907) 801 Fp Fd Sq ltac:(lia) ltac:(lia)) as (Fq & Sq' & Rq & e6 & H6 & E6).
    change (dmul (dmul K (dsub s x0)) (dsub s x0)) with (bell_arg sg x0 s) in *.
    split; [exact Fq|]. split; [rewrite Rq, Rp; reflexivity|]. split; [exact Rd|]. split; [exact (sz_mul _ _ _ _ _ _ Sp Sd)|].
    exists e4, e5, e6. split; [exact H4|]. split; [exact H5|]. split; [exact H6|]. split; [exact E4|]. rewrite E6, E5. reflexivity. }
  destruct (G t Ht) as (F & R & Rd & Sz & e4 & e5 & e6 & H4 & H5 & H6 & E4 & E).
  assert (AB : forall d, rnd (rnd (val K * d) * d) = rnd (rnd (val K * Rabs d) * Rabs d)).
  { intros d. destruct (Rle_or_lt 0 d) as [P|P]; [rewrite (Rabs_pos_eq d P); reflexivity|]. rewrite (Rabs_left d P).
    replace (val K * - d) with (- (val K * d)) by ring. rewrite rnd_opp. f_equal. ring. }
  assert (NP : val (bell_arg sg x0 t) <= 0).
  { rewrite R, AB. apply rnd_le_fmt; [apply generic_format_0|]. pose proof (Rabs_pos (val (dsub t x0))) as P.
    assert (rnd (val K * Rabs (val (dsub t x0))) <= 0) by (apply rnd_le_fmt; [apply generic_format_0|nra]). nra. }
  assert (B : exists e, Rabs e <= 8 * u /\ val (bell_arg sg x0 t) = - ((val t - val x0) ^ 2 / (2 * val sg ^ 2)) * (1 + e)).
  { exists ((1 + e3) * (1 + e4) * (1 + e4) * (1 + e5) * (1 + e6) / (1 + e1) / (1 + e2) - 1).
    pose proof u_pos. pose proof u_small. pose proof (Rabs_def2 e1 (2 * u) ltac:(lra)). pose proof (Rabs_def2 e2 (2 * u) ltac:(lra)). split.
    - assert (A0 : Rabs ((1 + e3) - 1) <= 1 * u) by (replace (1 + e3 - 1) with e3 by ring; lra).
      pose proof (grow _ _ e4 A0 ltac:(lra) H4) as A1. pose proof (grow _ _ e4 A1 ltac:(lra) H4) as A2.
      pose proof (grow _ _ e5 A2 ltac:(lra) H5) as A3. pose proof (grow _ _ e6 A3 ltac:(lra) H6) as A4.
      pose proof (shrink _ _ e1 A4 ltac:(lra) H1) as A5. pose proof (shrink _ _ e2 A5 ltac:(lra) H2) as A6.
      eapply Rle_trans; [exact A6|]. apply Rmult_le_compat_r; lra.
    - rewrite E, E4, E3, Vm, Eb. field. repeat split; lra. }
  split; [exact F|]. split; [exact NP|]. split; [|split; [|split]].
  - intros Q. rewrite R, Rd, Q. unfold Rminus. rewrite Rplus_opp_r, !rnd0, Rmult_0_r. apply rnd0.
  - exists (val K). split; [exact KN|]. intros s Hsu. destruct (G s Hsu) as (_ & Rs & Rds & _). rewrite Rs, AB, Rds. reflexivity.
  - intros Q Z. destruct B as (e & He & Be). rewrite Z in Be. pose proof u_small. pose proof u_pos. pose proof (Rabs_def2 e (9 * u) ltac:(lra)).
    symmetry in Be. apply Rmult_integral in Be. destruct Be as [Be|Be]; [|lra].
    assert (0 < (val t - val x0) ^ 2 / (2 * val sg ^ 2)); [|lra].
    apply Rdiv_lt_0_compat; [apply sq_pos; lra|]. assert (0 < val sg ^ 2) by (apply sq_pos, N). lra.
  - exact B.
Qed.

Lemma bell64_err M eps a sg x0 y0 t : good_libm M eps -> usual a -> usual sg -> val sg <> 0 -> usual x0 -> usual y0 -> usual t ->
  finite (bell64 M a sg x0 y0 t) /\
  Rabs (val (bell64 M a sg x0 y0 t) - bell (val a) (val sg) (val x0) (val y0) (val t)) <= Rabs (val a) * (eps + 11 * ur) + ur * Rabs (val y0).
Proof.
  intros G Ha Hs N Hx Hy Ht. rewrite ur_u. destruct (bell_arg_val sg x0 t Hs N Hx Ht) as (F & NP & _ & _ & _ & e & He & E).
  destruct (g_exp _ _ G _ F NP) as (FE & BE & EE). assert (A1 : Rabs (val (l_exp M (bell_arg sg x0 t))) <= 1) by (apply Rabs_le; lra).
  destruct (affine a _ y0 Ha FE A1 Hy) as (F2 & _ & _ & E2). split; [exact F2|]. unfold bell64, bell.
  set (z := - ((val t - val x0) ^ 2 / (2 * val sg ^ 2))) in *. set (s := val (l_exp M _)) in *. set (r := val (dadd _ y0)) in *.
  assert (Z : z <= 0).
  { unfold z. assert (0 <= (val t - val x0) ^ 2 / (2 * val sg ^ 2)); [|lra]. apply Rmult_le_pos; [apply pow2_ge_0|].
    apply Rlt_le, Rinv_0_lt_compat. assert (0 < val sg ^ 2) by (apply sq_pos, N). lra. }
  pose proof u_small. pose proof u_pos. pose proof (exp_rel z e Z ltac:(lra)) as X. rewrite E in EE.
  assert (D : Rabs (s - exp z) <= eps + 8 * u).
  { replace (s - exp z) with ((s - exp (z * (1 + e))) + (exp (z * (1 + e)) - exp z)) by ring.
    pose proof (Rabs_triang (s - exp (z * (1 + e))) (exp (z * (1 + e)) - exp z)). lra. }
  replace (r - (val y0 + val a * exp z)) with ((r - (val a * s + val y0)) + val a * (s - exp z)) by ring.
  pose proof (Rabs_triang (r - (val a * s + val y0)) (val a * (s - exp z))) as T. rewrite (Rabs_mult (val a)) in T.
  assert (Rabs (val a) * Rabs (s - exp z) <= Rabs (val a) * (eps + 8 * u)) by (apply Rmult_le_compat_l; [apply Rabs_pos|exact D]). lra.
Qed.
Lemma bell64_val M eps a sg x0 y0 t : good_libm M eps -> usual a -> usual sg -> val sg <> 0 -> usual x0 -> usual y0 -> usual t ->
  let E := val (l_exp M (bell_arg sg x0 t)) in 0 <= E <= 1 /\ val (bell64 M a sg x0 y0 t) = rnd (rnd (val a * E) + val y0).
Proof.
  intros G Ha Hs N Hx Hy Ht E. destruct (bell_arg_val sg x0 t Hs N Hx Ht) as (F & NP & _).
  destruct (g_exp _ _ G _ F NP) as (FE & BE & _). split; [exact BE|].
  assert (A1 : Rabs (val (l_exp M (bell_arg sg x0 t))) <= 1) by (apply Rabs_le; lra).
  exact (proj1 (proj2 (affine a _ y0 Ha FE A1 Hy))).
Qed.
(** further from the centre, nearer to y0 *)
Lemma bell_exp_mono M eps sg x0 s t : good_libm M eps -> usual sg -> val sg <> 0 -> usual x0 -> usual s -> usual t ->
  Rabs (val t - val x0) <= Rabs (val s - val x0) -> val (l_exp M (bell_arg sg x0 s)) <= val (l_exp M (bell_arg sg x0 t)).
Proof.
  intros G Hs N Hx Hsu Ht L. destruct (bell_arg_val sg x0 t Hs N Hx Ht) as (F & NP & _ & (k & K & A) & _).
  destruct (bell_arg_val sg x0 s Hs N Hx Hsu) as (F' & _). apply (g_exp_mono _ _ G); [exact F'|exact F| |exact NP].
  rewrite (A s Hsu), (A t Ht).
  assert (D : Rabs (rnd (val t - val x0)) <= Rabs (rnd (val s - val x0))).
  { rewrite <- !(round_NE_abs radix2 fexp). apply rnd_mono, L. }
  pose proof (Rabs_pos (rnd (val t - val x0))). apply rnd_mono.
  assert (rnd (k * Rabs (rnd (val s - val x0))) <= rnd (k * Rabs (rnd (val t - val x0)))) by (apply rnd_mono; nra).
  assert (rnd (k * Rabs (rnd (val t - val x0))) <= 0) by (apply rnd_le_fmt; [apply generic_format_0|nra]). nra.
Qed.
Lemma bell64_mono M eps a sg x0 y0 s t : good_libm M eps -> usual a -> usual sg -> val sg <> 0 -> usual x0 -> usual y0 -> usual s -> usual t ->
  Rabs (val t - val x0) <= Rabs (val s - val x0) ->
  (0 <= val a -> val (bell64 M a sg x0 y0 s) <= val (bell64 M a sg x0 y0 t)) /\
  (val a <= 0 -> val (bell64 M a sg x0 y0 t) <= val (bell64 M a sg x0 y0 s)).
Proof.
  intros G Ha Hs N Hx Hy Hsu Ht L. pose proof (bell_exp_mono M eps sg x0 s t G Hs N Hx Hsu Ht L) as Q.
  destruct (bell64_val M eps a sg x0 y0 s G Ha Hs N Hx Hy Hsu) as (_ & ->), (bell64_val M eps a sg x0 y0 t G Ha Hs N Hx Hy Ht) as (_ & ->).
  split; intros P; apply rnd_mono, Rplus_le_compat_r, rnd_mono; nra.
Qed.
Lemma bell64_between M eps a sg x0 y0 t : good_libm M eps -> usual a -> usual sg -> val sg <> 0 -> usual x0 -> usual y0 -> usual t ->
  (0 <= val a -> val y0 <= val (bell64 M a sg x0 y0 t) <= val (dadd a y0)) /\
  (val a <= 0 -> val (dadd a y0) <= val (bell64 M a sg x0 y0 t) <= val y0).
Proof.
  intros G Ha Hs N Hx Hy Ht. destruct (bell64_val M eps a sg x0 y0 t G Ha Hs N Hx Hy Ht) as (B & ->). set (E := val (l_exp M _)) in *.
  destruct (usual_or a Ha) as (Fa & _ & Ba). destruct (plus_step a y0 Fa Hy) as (_ & -> & _); [eapply le_b2; [exact Ba|lia]|].
  split; intros P.
  - assert (0 <= rnd (val a * E)) by (apply rnd_ge_fmt; [apply generic_format_0|nra]).
    assert (rnd (val a * E) <= val a) by (apply rnd_le_fmt; [apply fmt_val|nra]). split; [apply rnd_ge_fmt; [apply fmt_val|lra]|apply rnd_mono; lra].
  - assert (rnd (val a * E) <= 0) by (apply rnd_le_fmt; [apply generic_format_0|nra]).
    assert (val a <= rnd (val a * E)) by (apply rnd_ge_fmt; [apply fmt_val|nra]). split; [apply rnd_mono; lra|apply rnd_le_fmt; [apply fmt_val|lra]].
Qed.
Lemma times_one a : finite a -> dmul a d_one = a.
Proof.
  intros F. destruct one_val as (F1 & V1). destruct (dmul_val a d_one F F1) as (F2 & V2).
  { rewrite V1, Rmult_1_r, (rnd_fmt _ (fmt_val a)). apply val_lt. }
  rewrite V1, Rmult_1_r, (rnd_fmt _ (fmt_val a)) in V2.
  destruct (Req_dec (val a) 0) as [Z|N]; [|apply val_inj; congruence].
  destruct (val_zero a F Z) as (s & ->). destruct s; reflexivity.
Qed.
Lemma bell64_top M eps a sg x0 y0 t : good_libm M eps -> usual a -> usual sg -> val sg <> 0 -> usual x0 -> usual y0 -> usual t ->
  val t = val x0 -> bell64 M a sg x0 y0 t = dadd a y0.
Proof.
  intros G Ha Hs N Hx Hy Ht Q. destruct (bell_arg_val sg x0 t Hs N Hx Ht) as (F & _ & Z & _).
  unfold bell64. rewrite (g_exp_zero _ _ G _ F (Z Q)), times_one by apply Ha. reflexivity.
Qed.
Lemma bell64_even M eps a sg x0 y0 s t : good_libm M eps -> usual a -> usual sg -> val sg <> 0 -> usual x0 -> usual y0 -> usual s -> usual t ->
  val s - val x0 = val x0 - val t -> bell64 M a sg x0 y0 s = bell64 M a sg x0 y0 t.
Proof.
  intros G Ha Hs N Hx Hy Hsu Ht Q. destruct (Req_dec (val t) (val x0)) as [Z|D].
  - rewrite (bell64_top M eps) with (t := t) by assumption. rewrite (bell64_top M eps) with (t := s); [reflexivity|assumption..|lra].
  - unfold bell64. do 3 f_equal. destruct (bell_arg_val sg x0 t Hs N Hx Ht) as (F & _ & _ & (k & _ & A) & NZ & _).
    destruct (bell_arg_val sg x0 s Hs N Hx Hsu) as (F' & _ & _ & _ & NZ' & _).
    apply val_inj; [exact F'|exact F| |apply NZ'; lra]. rewrite (A s Hsu), (A t Ht), Q.
    replace (val x0 - val t) with (- (val t - val x0)) by ring. rewrite rnd_opp, Rabs_Ropp. reflexivity.
Qed.

(** ** The step *)
Definition tanh_at (M : libm) (w l t : dbl) : dbl := l_tanh M (ddiv (dsub t l) w).
Definition step64 (M : libm) (A w l1 l2 t : dbl) : dbl :=
  dmul (dmul (ddiv A f_two) (dadd d_one (tanh_at M w l1 t))) (dsub d_one (dmul d_half (dadd d_one (tanh_at M w l2 t)))).

Lemma tanh_at_val M eps w l t : good_libm M eps -> usual w -> val w <> 0 -> usual l -> usual t ->
  finite (tanh_at M w l t) /\ Rabs (val (tanh_at M w l t)) <= 1 /\
  Rabs (val (tanh_at M w l t) - tanh ((val t - val l) / val w)) <= eps + 5 * u.
Proof.
  intros G Hw N Hl Ht. destruct (sub_step t l Ht Hl) as (Fd & Sd & _ & e1 & H1 & E1), (sz_usual w Hw) as (Fw & Sw).
  assert (S : sz (-453) 401 (val (dsub t l) / val w)) by exact (sz_mul _ _ _ _ _ _ Sd (sz_inv _ _ _ N Sw)).
  destruct (div_step _ w (-453) 401 Fd N S ltac:(lia) ltac:(lia)) as (F & _ & _ & e2 & H2 & E2).
  destruct (g_tanh _ _ G _ F) as (FT & BT & ET). split; [exact FT|]. split; [exact BT|]. unfold tanh_at.
  set (z := (val t - val l) / val w). set (e := (1 + e1) * (1 + e2) - 1).
  assert (E : val (ddiv (dsub t l) w) = z * (1 + e)) by (rewrite E2, E1; unfold z, e; field; exact N).
  pose proof u_small. pose proof u_pos.
  assert (He : Rabs e <= 5 / 2 * u).
  { assert (A0 : Rabs ((1 + e1) - 1) <= 1 * u) by (replace (1 + e1 - 1) with e1 by ring; lra).
    pose proof (grow _ _ e2 A0 ltac:(lra) H2). unfold e. lra. }
  pose proof (tanh_rel z e ltac:(lra)) as T. rewrite <- E in T.
  set (q := val (ddiv (dsub t l) w)) in *. set (s := val (l_tanh M _)) in *.
  replace (s - tanh z) with ((s - tanh q) + (tanh q - tanh z)) by ring.
  pose proof (Rabs_triang (s - tanh q) (tanh q - tanh z)). lra.
Qed.
Lemma one_plus T : finite T -> Rabs (val T) <= 1 ->
  finite (dadd d_one T) /\ 0 <= val (dadd d_one T) <= 2 /\ Rabs (val (dadd d_one T) - (1 + val T)) <= 2 * u.
Proof.
  intros F B. destruct one_val as (F1 & V1). apply Rabs_le_inv in B.
  destruct (add_val d_one T F1 F) as (FA & VA).
  { rewrite V1. apply Rle_trans with (b2 1); [cbn; apply Rabs_le; lra|apply bpow_le; lia]. }
  split; [exact FA|]. pose proof (plus_err 1 (val T)) as E. rewrite VA, V1. split.
  - split; [apply rnd_ge_fmt; [apply generic_format_0|lra]|apply rnd_le_fmt; [apply (fmt_bpow 1); lia|cbn; lra]].
  - eapply Rle_trans; [apply E; [apply (fmt_bpow 0); lia|apply fmt_val]|]. rewrite Rabs_pos_eq by lra. pose proof u_pos. nra.
Qed.
Lemma half_amp A : usual A -> finite (ddiv A f_two) /\ val (ddiv A f_two) = val A / 2.
Proof.
  intros HA. destruct (usual_or A HA) as (F & Z & B). destruct ftwo_val as (_ & V2).
  assert (Q : fmt (val A / 2)).
  { replace (val A / 2) with (val A * b2 (-1)) by (cbn; lra). apply scale_fmt; [apply fmt_val| |lia]. unfold not_tiny. rewrite p2.
    destruct Z as [Z|Z]; [left; exact Z|right]. eapply Rle_trans; [apply bpow_le|exact Z]. lia. }
  destruct (div_val A f_two F) as (FD & VD); rewrite ?V2; try lra.
  - apply Rle_trans with (b2 200); [|apply bpow_le; lia]. unfold Rdiv. rewrite Rabs_mult, (Rabs_pos_eq (/ 2)) by lra. pose proof (Rabs_pos (val A)). lra.
  - split; [exact FD|]. rewrite VD, V2. apply rnd_fmt, Q.
Qed.
Lemma tiny_1 : b2 (-1075) <= u. Proof. unfold u. apply bpow_le. lia. Qed.

Lemma step64_ok M eps A w l1 l2 t : good_libm M eps -> usual A -> usual w -> val w <> 0 -> usual l1 -> usual l2 -> usual t ->
  finite (step64 M A w l1 l2 t) /\ Rabs (val (step64 M A w l1 l2 t)) <= Rabs (val A) /\ 0 <= val A * val (step64 M A w l1 l2 t) /\
  Rabs (val (step64 M A w l1 l2 t) - step (val A) (val w) (val l1) (val l2) (val t)) <= Rabs (val A) * (eps + 14 * ur).
Proof.
  intros G HA Hw N H1 H2 Ht. rewrite ur_u. destruct (tanh_at_val M eps w l1 t G Hw N H1 Ht) as (F1 & B1 & E1), (tanh_at_val M eps w l2 t G Hw N H2 Ht) as (F2 & B2 & E2).
  destruct (one_plus _ F1 B1) as (G1 & C1 & D1), (one_plus _ F2 B2) as (G2 & C2 & D2).
  unfold step64, step. set (s1 := dadd d_one (tanh_at M w l1 t)) in *. set (s2 := dadd d_one (tanh_at M w l2 t)) in *.
  set (T1 := tanh ((val t - val l1) / val w)) in *. set (T2 := tanh ((val t - val l2) / val w)) in *.
  set (v1 := val (tanh_at M w l1 t)) in *. set (v2 := val (tanh_at M w l2 t)) in *. pose proof u_pos. pose proof u_small. pose proof tiny_1.
  assert (X1 : Rabs (val s1 - (1 + T1)) <= eps + 7 * u).
  { replace (val s1 - (1 + T1)) with ((val s1 - (1 + v1)) + (v1 - T1)) by ring. pose proof (Rabs_triang (val s1 - (1 + v1)) (v1 - T1)). lra. }
  assert (X2 : Rabs (val s2 - (1 + T2)) <= eps + 7 * u).
  { replace (val s2 - (1 + T2)) with ((val s2 - (1 + v2)) + (v2 - T2)) by ring. pose proof (Rabs_triang (val s2 - (1 + v2)) (v2 - T2)). lra. }
  (* the second factor *)
  destruct half_val as (Fh & Vh). assert (Vh' : val d_half = / 2) by (rewrite Vh; cbn; lra). clear Vh.
  destruct (mul_val d_half s2 Fh G2) as (F3 & V3).
  { rewrite Vh'. apply Rle_trans with (b2 0); [change (b2 0) with 1; apply Rabs_le; lra|apply bpow_le; lia]. }
  rewrite Vh' in V3. set (hh := dmul d_half s2) in *.
  assert (C3 : 0 <= val hh <= 1).
  { rewrite V3. split; [apply rnd_ge_fmt; [apply generic_format_0|lra]|apply rnd_le_fmt; [apply (fmt_bpow 0); lia|change (b2 0) with 1; lra]]. }
  assert (X3 : Rabs (val hh - / 2 * val s2) <= 2 * u).
  { rewrite V3. eapply Rle_trans; [apply abs_eps|]. rewrite Rabs_pos_eq by lra. nra. }
  destruct one_val as (Fo & Vo).
  destruct (sub_val d_one hh Fo F3) as (F4 & V4).
  { rewrite Vo. apply Rle_trans with (b2 0); [change (b2 0) with 1; apply Rabs_le; lra|apply bpow_le; lia]. }
  rewrite Vo in V4. set (s3 := dsub d_one hh) in *.
  assert (C4 : 0 <= val s3 <= 1).
  { rewrite V4. split; [apply rnd_ge_fmt; [apply generic_format_0|lra]|apply rnd_le_fmt; [apply (fmt_bpow 0); lia|change (b2 0) with 1; lra]]. }
  assert (X4 : Rabs (val s3 - (1 - val hh)) <= u).
  { rewrite V4. eapply Rle_trans; [apply (minus_err 1 (val hh)); [apply (fmt_bpow 0); lia|apply fmt_val]|]. rewrite Rabs_pos_eq by lra. nra. }
  assert (X5 : Rabs (val s3 - (1 - T2) / 2) <= eps / 2 + 13 / 2 * u).
  { replace (val s3 - (1 - T2) / 2) with ((val s3 - (1 - val hh)) - (val hh - / 2 * val s2) - / 2 * (val s2 - (1 + T2))) by field.
    apply Rabs_le_inv in X2, X3, X4. apply Rabs_le. lra. }
  (* the first factor *)
  destruct (half_amp A HA) as (FA & VA). destruct (usual_or A HA) as (FA0 & ZA & BA). pose proof (Rabs_pos (val A)) as PA.
  assert (LP : Rabs (val (ddiv A f_two) * val s1) <= Rabs (val A)).
  { rewrite VA. unfold Rdiv. rewrite !Rabs_mult, (Rabs_pos_eq (/ 2)), (Rabs_pos_eq (val s1)) by lra. nra. }
  destruct (mul_val (ddiv A f_two) s1 FA G1) as (F5 & V5).
  { eapply Rle_trans; [exact LP|]. eapply le_b2; [exact BA|lia]. }
  set (p := dmul (ddiv A f_two) s1) in *.
  assert (C5 : Rabs (val p) <= Rabs (val A)) by (rewrite V5; apply rnd_abs_le; [apply generic_format_abs, fmt_val|exact LP]).
  assert (TA : val A = 0 \/ b2 (-1075) <= u * Rabs (val A)).
  { destruct (Req_dec (val A) 0) as [Z|NZ]; [left; exact Z|right]. apply tiny_u; [apply (sz_usual A HA)|exact NZ]. }
  assert (X6 : Rabs (val p - val A / 2 * val s1) <= 2 * u * Rabs (val A)).
  { destruct TA as [Z|TA].
    - rewrite V5, VA, Z. unfold Rdiv. rewrite !Rmult_0_l, rnd0. unfold Rminus. rewrite Rplus_opp_r, Rabs_R0. lra.
    - rewrite V5. rewrite VA in *. eapply Rle_trans; [apply abs_eps|]. nra. }
  (* the product *)
  assert (LR : Rabs (val p * val s3) <= Rabs (val A)).
  { rewrite Rabs_mult, (Rabs_pos_eq (val s3)) by lra. pose proof (Rabs_pos (val p)). nra. }
  destruct (mul_val p s3 F5 F4) as (F6 & V6).
  { eapply Rle_trans; [exact LR|]. eapply le_b2; [exact BA|lia]. }
  split; [exact F6|]. split; [rewrite V6; apply rnd_abs_le; [apply generic_format_abs, fmt_val|exact LR]|]. split.
  - rewrite V6. destruct (Rle_or_lt 0 (val A)) as [SA|SA].
    + assert (0 <= val p) by (rewrite V5, VA; apply rnd_ge_fmt; [apply generic_format_0|nra]).
      assert (0 <= rnd (val p * val s3)) by (apply rnd_ge_fmt; [apply generic_format_0|nra]). nra.
    + assert (val p <= 0) by (rewrite V5, VA; apply rnd_le_fmt; [apply generic_format_0|nra]).
      assert (rnd (val p * val s3) <= 0) by (apply rnd_le_fmt; [apply generic_format_0|nra]). nra.
  - set (r := val (dmul p s3)) in *.
    assert (X7 : Rabs (r - val p * val s3) <= 2 * u * Rabs (val A)).
    { destruct TA as [Z|TA].
      - rewrite V6, V5, VA, Z. unfold Rdiv. rewrite !Rmult_0_l, rnd0, Rmult_0_l, rnd0. unfold Rminus. rewrite Rplus_opp_r, Rabs_R0. lra.
      - rewrite V6. eapply Rle_trans; [apply abs_eps|]. nra. }
    assert (BT1 : Rabs (1 + T1) <= 2).
    { pose proof (tanh_bound ((val t - val l1) / val w)) as Q. fold T1 in Q. apply Rabs_le_inv in Q. apply Rabs_le. lra. }
    replace (r - val A / 4 * (1 + T1) * (1 - T2)) with
      ((r - val p * val s3) + val s3 * (val p - val A / 2 * val s1) + val s3 * (val A / 2) * (val s1 - (1 + T1)) + val A / 2 * (1 + T1) * (val s3 - (1 - T2) / 2)) by field.
    assert (Y1 : Rabs (val s3 * (val p - val A / 2 * val s1)) <= 2 * u * Rabs (val A)).
    { rewrite Rabs_mult, (Rabs_pos_eq (val s3)) by lra. pose proof (Rabs_pos (val p - val A / 2 * val s1)). nra. }
    assert (Y2 : Rabs (val s3 * (val A / 2) * (val s1 - (1 + T1))) <= Rabs (val A) / 2 * (eps + 7 * u)).
    { unfold Rdiv. rewrite !Rabs_mult, (Rabs_pos_eq (val s3)), (Rabs_pos_eq (/ 2)) by lra. pose proof (Rabs_pos (val s1 - (1 + T1))).
      apply Rmult_le_compat; try lra; try (apply Rmult_le_pos; lra). assert (val s3 * (Rabs (val A) * / 2) <= 1 * (Rabs (val A) * / 2)) by (apply Rmult_le_compat_r; lra). lra. }
    assert (Y3 : Rabs (val A / 2 * (1 + T1) * (val s3 - (1 - T2) / 2)) <= Rabs (val A) * (eps / 2 + 13 / 2 * u)).
    { rewrite (Rabs_mult (val A / 2 * (1 + T1))). apply Rmult_le_compat; try apply Rabs_pos; [|exact X5].
      unfold Rdiv. rewrite !Rabs_mult, (Rabs_pos_eq (/ 2)) by lra. assert (Rabs (val A) * / 2 * Rabs (1 + T1) <= Rabs (val A) * / 2 * 2) by (apply Rmult_le_compat_l; lra). lra. }
    set (x1 := r - val p * val s3) in *. set (x2 := val s3 * (val p - val A / 2 * val s1)) in *.
    set (x3 := val s3 * (val A / 2) * (val s1 - (1 + T1))) in *. set (x4 := val A / 2 * (1 + T1) * (val s3 - (1 - T2) / 2)) in *.
    pose proof (Rabs_triang (x1 + x2 + x3) x4). pose proof (Rabs_triang (x1 + x2) x3). pose proof (Rabs_triang x1 x2). nra.
Qed.
