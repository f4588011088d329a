(** Analytic field functions in double precision: the numbers. *)
From Coq Require Import Reals Lra Lia Psatz.
From Flocq Require Import Core.
From Verif Require Import Prelude WindowM WindowS GhostM FieldM FieldS MaskM NeboM NeboS StencilM StencilS RoundM RoundS RoundP RoundQ RoundT HeatM Cmp64P Part64Q BCM BCS BC64S BC64R FuncS Func64M Func64S Func64R.
Open Scope R_scope.

Lemma ur_u : ur = u. Proof. unfold ur. rewrite p2. reflexivity. Qed.

(** ** Zero or between two powers of two *)
Definition sz (i j : Z) (r : R) : Prop := r = 0 \/ b2 i <= Rabs r <= b2 j.
Lemma sz_usual x : usual x -> finite x /\ sz (-200) 200 (val x).
Proof. intros H. destruct (usual_or x H) as (F & [Z|L] & U); split; try exact F; [left; exact Z|right; split; assumption]. Qed.
Lemma sz_weaken i j i' j' r : sz i j r -> (i' <= i)%Z -> (j <= j')%Z -> sz i' j' r.
Proof. intros [Z|[A B]] H1 H2; [left; exact Z|right]. split; [eapply ge_b2|eapply le_b2]; eassumption. Qed.
Lemma sz_mul i j k l a b : sz i j a -> sz k l b -> sz (i + k) (j + l) (a * b).
Proof.
  intros [->|A] H; [left; ring|]. destruct H as [->|B]; [left; ring|]. right. apply prod_bounds; assumption.
Qed.
Lemma sz_rnd i j r : (-1074 <= i)%Z -> (j <= 1023)%Z -> sz i j r -> sz i j (rnd r).
Proof.
  intros Hi Hj [->|[A B]]; [left; apply rnd0|right].
  assert (i <= j)%Z by (apply (le_bpow radix2); lra). split; [apply rnd_ge|apply rnd_le]; try assumption; lia.
Qed.
Lemma sz_inv i j r : r <> 0 -> sz i j r -> sz (- j) (- i) (/ r).
Proof.
  intros N [Z|[A B]]; [contradiction|right]. rewrite Rabs_inv, !bpow_opp. assert (0 < Rabs r) by (apply Rabs_pos_lt, N).
  pose proof (bpow_gt_0 radix2 i). pose proof (bpow_gt_0 radix2 j). split; apply Rinv_le_contravar; lra.
Qed.
Lemma sz_le i j r : sz i j r -> Rabs r <= b2 j.
Proof. intros [->|[_ B]]; [rewrite Rabs_R0; apply bpow_ge_0|exact B]. Qed.
Lemma sz_eps i j r : (-1022 <= i)%Z -> sz i j r -> exists e, Rabs e <= u /\ rnd r = r * (1 + e).
Proof.
  intros Hi [->|[A B]]; [exists 0; rewrite Rabs_R0, rnd0; split; [apply Rlt_le, u_pos|ring]|].
  apply rel_eps. eapply ge_b2; [exact A|exact Hi].
Qed.
Lemma sz_scaled i j r e : (-1074 <= i)%Z -> (j <= 1023)%Z -> sz i j r -> rnd r = r * (1 + e) -> sz i j (r * (1 + e)).
Proof. intros Hi Hj S <-. apply sz_rnd; assumption. Qed.

(** ** One operation *)
Lemma mul_step x y i j : finite x -> finite y -> sz i j (val x * val y) -> (-1022 <= i)%Z -> (j <= 1023)%Z ->
  finite (dmul x y) /\ sz i j (val (dmul x y)) /\ val (dmul x y) = rnd (val x * val y) /\ exists e, Rabs e <= u /\ val (dmul x y) = val x * val y * (1 + e).
Proof.
  intros Fx Fy S Hi Hj. destruct (mul_val x y Fx Fy) as [F V]; [eapply le_b2; [exact (sz_le _ _ _ S)|exact Hj]|].
  split; [exact F|]. rewrite V. split; [apply sz_rnd; [lia|lia|exact S]|]. split; [reflexivity|]. exact (sz_eps _ _ _ Hi S).
Qed.
Lemma div_step x y i j : finite x -> val y <> 0 -> sz i j (val x / val y) -> (-1022 <= i)%Z -> (j <= 1023)%Z ->
  finite (ddiv x y) /\ sz i j (val (ddiv x y)) /\ val (ddiv x y) = rnd (val x / val y) /\ exists e, Rabs e <= u /\ val (ddiv x y) = val x / val y * (1 + e).
Proof.
  intros Fx Ny S Hi Hj. destruct (div_val x y Fx Ny) as [F V]; [eapply le_b2; [exact (sz_le _ _ _ S)|exact Hj]|].
  split; [exact F|]. rewrite V. split; [apply sz_rnd; [lia|lia|exact S]|]. split; [reflexivity|]. exact (sz_eps _ _ _ Hi S).
Qed.
Lemma usual_diff x y : usual x -> usual y -> sz (-253) 201 (val x - val y).
Proof.
  intros Hx Hy. destruct (usual_or x Hx) as (Fx & Zx & Bx), (usual_or y Hy) as (Fy & Zy & By).
  destruct (fmt_multiple _ _ (fmt_val x) Zx) as (m & Em), (fmt_multiple _ _ (fmt_val y) Zy) as (k & Ek).
  assert (E : val x - val y = IZR (m - k) * b2 (-253)). { rewrite Em, Ek, minus_IZR. cbn [Z.sub Z.add Z.opp Z.pos_sub Pos.add]. ring. }
  destruct (Z.eq_dec (m - k) 0) as [Z|N]; [left; rewrite E, Z; ring|right]. split; [rewrite E; apply multiple_ge, N|].
  change 201%Z with (200 + 1)%Z; rewrite <- (double_b2 200). pose proof (Rabs_triang (val x) (- val y)) as T. rewrite Rabs_Ropp in T. unfold Rminus. lra.
Qed.
Lemma sub_step x y : usual x -> usual y -> finite (dsub x y) /\ sz (-253) 201 (val (dsub x y)) /\ val (dsub x y) = rnd (val x - val y) /\
  exists e, Rabs e <= u /\ val (dsub x y) = (val x - val y) * (1 + e).
Proof.
  intros Hx Hy. pose proof (usual_diff x y Hx Hy) as S. destruct (sub_val x y (proj1 Hx) (proj1 Hy)) as [F V]; [eapply le_b2; [exact (sz_le _ _ _ S)|lia]|].
  split; [exact F|]. rewrite V. split; [apply sz_rnd; [lia|lia|exact S]|]. split; [reflexivity|]. apply (sz_eps (-253) 201); [lia|exact S].
Qed.

(** ** Scaling by a number between -1 and 1, and adding *)
Lemma tiny_u a : sz (-200) 200 a -> a <> 0 -> b2 (-1075) <= u * Rabs a.
Proof.
  intros [Z|[A _]] N; [contradiction|]. unfold u. apply Rle_trans with (b2 (-53) * b2 (-200)); [|apply Rmult_le_compat_l; [apply bpow_ge_0|exact A]].
  rewrite <- bpow_plus. apply bpow_le. lia.
Qed.
Lemma times_unit a s : usual a -> finite s -> Rabs (val s) <= 1 ->
  finite (dmul a s) /\ val (dmul a s) = rnd (val a * val s) /\ Rabs (val (dmul a s)) <= Rabs (val a) /\
  Rabs (val (dmul a s) - val a * val s) <= 2 * u * Rabs (val a).
Proof.
  intros Ha Fs S. destruct (sz_usual a Ha) as (Fa & Sa). pose proof (sz_le _ _ _ Sa) as La.
  assert (L : Rabs (val a * val s) <= Rabs (val a)) by (rewrite Rabs_mult; pose proof (Rabs_pos (val a)); nra).
  destruct (mul_val a s Fa Fs) as [F V]; [eapply Rle_trans; [exact L|]; eapply le_b2; [exact La|lia]|].
  split; [exact F|]. split; [exact V|]. rewrite V. split.
  - apply rnd_abs_le; [|exact L]. apply generic_format_abs, fmt_val.
  - destruct (Req_dec (val a) 0) as [Z|N]; [rewrite Z, Rmult_0_l, rnd0; unfold Rminus; rewrite Rplus_opp_r, Rabs_R0; lra|].
    pose proof (abs_eps (val a * val s)) as E. pose proof (tiny_u _ Sa N) as T. pose proof u_pos. nra.
Qed.
Lemma plus_step p c : finite p -> usual c -> Rabs (val p) <= b2 201 ->
  finite (dadd p c) /\ val (dadd p c) = rnd (val p + val c) /\ Rabs (val (dadd p c) - (val p + val c)) <= u * Rabs (val p + val c).
Proof.
  intros Fp Hc B. destruct (usual_or c Hc) as (Fc & _ & Bc).
  destruct (add_val p c Fp Fc) as [F V].
  { apply Rle_trans with (b2 202); [|apply bpow_le; lia]. change 202%Z with (201 + 1)%Z; rewrite <- (double_b2 201). pose proof (Rabs_triang (val p) (val c)).
    pose proof (bpow_le radix2 200 201 ltac:(lia)). lra. }
  split; [exact F|]. split; [exact V|]. rewrite V. apply plus_err; apply fmt_val.
Qed.
Lemma affine a s c : usual a -> finite s -> Rabs (val s) <= 1 -> usual c ->
  finite (dadd (dmul a s) c) /\ val (dadd (dmul a s) c) = rnd (rnd (val a * val s) + val c) /\
  Rabs (val (dadd (dmul a s) c)) <= (1 + u) * (Rabs (val a) + Rabs (val c)) /\
  Rabs (val (dadd (dmul a s) c) - (val a * val s + val c)) <= 3 * u * Rabs (val a) + u * Rabs (val c).
Proof.
  intros Ha Fs S Hc. destruct (times_unit a s Ha Fs S) as (F & V & B & E). destruct (usual_or a Ha) as (_ & _ & La).
  destruct (plus_step _ c F Hc) as (F2 & V2 & E2); [eapply Rle_trans; [exact B|]; eapply le_b2; [exact La|lia]|].
  split; [exact F2|]. split; [rewrite V2, V; reflexivity|].
  set (p := val (dmul a s)) in *. set (r := val (dadd (dmul a s) c)) in *.
  pose proof (Rabs_triang p (val c)) as T. pose proof u_pos.
  assert (T2 : u * Rabs (p + val c) <= u * (Rabs (val a) + Rabs (val c))) by (apply Rmult_le_compat_l; lra).
  split.
  - replace r with ((r - (p + val c)) + (p + val c)) by ring. pose proof (Rabs_triang (r - (p + val c)) (p + val c)). lra.
  - replace (r - (val a * val s + val c)) with ((r - (p + val c)) + (p - val a * val s)) by ring.
    pose proof (Rabs_triang (r - (p + val c)) (p - val a * val s)). lra.
Qed.

(** ** The line *)
Definition line64 (m b t : dbl) : dbl := dadd (dmul t m) b.
Lemma line64_val m b t : usual m -> usual b -> usual t ->
  finite (line64 m b t) /\ val (line64 m b t) = rnd (rnd (val t * val m) + val b).
Proof.
  intros Hm Hb Ht. destruct (sz_usual m Hm) as (Fm & Sm), (sz_usual t Ht) as (Ft & St), (usual_or b Hb) as (Fb & _ & Bb).
  pose proof (sz_mul _ _ _ _ _ _ St Sm) as S. change (sz (-400) 400 (val t * val m)) in S.
  destruct (mul_step t m (-400) 400 Ft Fm S ltac:(lia) ltac:(lia)) as (F & S1 & V & _).
  unfold line64. destruct (add_val (dmul t m) b F Fb) as [F2 V2].
  - apply Rle_trans with (b2 401); [|apply bpow_le; lia]. change 401%Z with (400 + 1)%Z; rewrite <- (double_b2 400).
    pose proof (Rabs_triang (val (dmul t m)) (val b)). pose proof (bpow_le radix2 200 400 ltac:(lia)). pose proof (sz_le _ _ _ S1). lra.
  - split; [exact F2|]. rewrite V2, V. reflexivity.
Qed.
Lemma line64_err m b t : usual m -> usual b -> usual t ->
  Rabs (val (line64 m b t) - line (val m) (val b) (val t)) <= ur * (3 * Rabs (val m * val t) + Rabs (val b)).
Proof.
  intros Hm Hb Ht. rewrite ur_u. destruct (sz_usual m Hm) as (Fm & Sm), (sz_usual t Ht) as (Ft & St).
  destruct (line64_val m b t Hm Hb Ht) as (_ & ->). pose proof (sz_mul _ _ _ _ _ _ St Sm) as S. change (sz (-400) 400 (val t * val m)) in S.
  destruct (sz_eps (-400) 400 _ ltac:(lia) S) as (e & He & E). unfold line. rewrite E.
  assert (FP : fmt (val t * val m * (1 + e))) by (rewrite <- E; apply generic_format_round; typeclasses eauto).
  pose proof (plus_err _ _ FP (fmt_val b)) as E2. set (P := val t * val m) in *. rewrite (Rmult_comm (val m)). fold P.
  replace (rnd (P * (1 + e) + val b) - (P + val b)) with ((rnd (P * (1 + e) + val b) - (P * (1 + e) + val b)) + P * e) by ring.
  pose proof (Rabs_triang (rnd (P * (1 + e) + val b) - (P * (1 + e) + val b)) (P * e)) as T1. rewrite (Rabs_mult P e) in T1.
  pose proof (Rabs_triang (P * (1 + e)) (val b)) as T2. rewrite Rabs_mult in T2.
  pose proof (Rabs_triang 1 e) as T3. rewrite Rabs_R1 in T3. pose proof u_pos. pose proof u_small. pose proof (Rabs_pos P). pose proof (Rabs_pos (val b)).
  assert (Rabs P * Rabs e <= Rabs P * u) by (apply Rmult_le_compat_l; lra).
  assert (Rabs P * Rabs (1 + e) <= Rabs P * 2) by (apply Rmult_le_compat_l; lra).
  assert (u * Rabs (P * (1 + e) + val b) <= u * (Rabs P * 2 + Rabs (val b))) by (apply Rmult_le_compat_l; lra). lra.
Qed.
Lemma line64_mono m b s t : usual m -> usual b -> usual s -> usual t -> 0 <= val m -> val s <= val t -> val (line64 m b s) <= val (line64 m b t).
Proof.
  intros Hm Hb Hs Ht M L. destruct (line64_val m b s Hm Hb Hs) as (_ & ->), (line64_val m b t Hm Hb Ht) as (_ & ->).
  apply rnd_mono, Rplus_le_compat_r, rnd_mono, Rmult_le_compat_r; assumption.
Qed.
Lemma line64_anti m b s t : usual m -> usual b -> usual s -> usual t -> val m <= 0 -> val s <= val t -> val (line64 m b t) <= val (line64 m b s).
Proof.
  intros Hm Hb Hs Ht M L. destruct (line64_val m b s Hm Hb Hs) as (_ & ->), (line64_val m b t Hm Hb Ht) as (_ & ->).
  apply rnd_mono, Rplus_le_compat_r, rnd_mono. nra.
Qed.
Lemma fmt_int k : (Z.abs k <= 2 ^ 53)%Z -> fmt (IZR k).
Proof.
  intros H. destruct (Z.eq_dec (Z.abs k) (2 ^ 53)) as [E|N].
  - assert (F : fmt (b2 53)) by (apply fmt_bpow; lia).
    destruct (Z.abs_eq_or_opp k) as [A|A]; rewrite A in E.
    + rewrite E. change (IZR (2 ^ 53)) with (b2 53). exact F.
    + replace (IZR k) with (- b2 53); [apply generic_format_opp, F|]. replace k with (- 2 ^ 53)%Z by lia. rewrite opp_IZR. reflexivity.
  - apply generic_format_FLT. exists (Float radix2 k 0); [unfold F2R; cbn; ring|cbn [Fnum]; change (radix_val radix2 ^ 53)%Z with (2 ^ 53)%Z; lia|cbn [Fexp]; lia].
Qed.
Lemma line64_int m b t a c k : usual m -> usual b -> usual t -> val m = IZR a -> val b = IZR c -> val t = IZR k ->
  (Z.abs (a * k) <= 2 ^ 53)%Z -> (Z.abs (a * k + c) <= 2 ^ 53)%Z -> val (line64 m b t) = line (val m) (val b) (val t).
Proof.
  intros Hm Hb Ht Em Eb Et B1 B2. destruct (line64_val m b t Hm Hb Ht) as (_ & ->). unfold line. rewrite Em, Eb, Et.
  rewrite (Rmult_comm (IZR k)), <- mult_IZR. rewrite (rnd_fmt (IZR (a * k))) by (apply fmt_int, B1).
  rewrite <- plus_IZR. apply rnd_fmt, fmt_int, B2.
Qed.

(** ** The wave *)
Definition wave64 (M : libm) (a b c t : dbl) : dbl := dadd (dmul a (l_sin M (dmul t b))) c.
Lemma wave64_err M eps a b c t : good_libm M eps -> usual a -> usual b -> usual c -> usual t ->
  finite (wave64 M a b c t) /\ Rabs (val (wave64 M a b c t)) <= (1 + ur) * (Rabs (val a) + Rabs (val c)) /\
  Rabs (val (wave64 M a b c t) - wave (val a) (val b) (val c) (val t)) <= Rabs (val a) * (eps + ur * Rabs (val b * val t)) + ur * (3 * Rabs (val a) + Rabs (val c)).
Proof.
  intros G Ha Hb Hc Ht. rewrite ur_u. destruct (sz_usual b Hb) as (Fb & Sb), (sz_usual t Ht) as (Ft & St).
  pose proof (sz_mul _ _ _ _ _ _ St Sb) as S. change (sz (-400) 400 (val t * val b)) in S.
  destruct (mul_step t b (-400) 400 Ft Fb S ltac:(lia) ltac:(lia)) as (F & S1 & _ & e & He & V).
  destruct (g_sin _ _ G _ F) as (Fs & Bs & Es). destruct (affine a _ c Ha Fs Bs Hc) as (F2 & _ & B2 & E2).
  split; [exact F2|]. split; [exact B2|]. unfold wave64, wave. set (s := val (l_sin M (dmul t b))) in *. set (r := val (dadd _ c)) in *.
  assert (D : Rabs (s - sin (val b * val t)) <= eps + u * Rabs (val b * val t)).
  { pose proof (sin_lip (val (dmul t b)) (val b * val t)) as L. replace (val (dmul t b) - val b * val t) with (e * (val b * val t)) in L by (rewrite V; ring).
    rewrite Rabs_mult in L. replace (s - sin (val b * val t)) with ((s - sin (val (dmul t b))) + (sin (val (dmul t b)) - sin (val b * val t))) by ring.
    pose proof (Rabs_triang (s - sin (val (dmul t b))) (sin (val (dmul t b)) - sin (val b * val t))).
    assert (Rabs e * Rabs (val b * val t) <= u * Rabs (val b * val t)) by (apply Rmult_le_compat_r; [apply Rabs_pos|exact He]). lra. }
  replace (r - (val a * sin (val b * val t) + val c)) with ((r - (val a * s + val c)) + val a * (s - sin (val b * val t))) by ring.
  pose proof (Rabs_triang (r - (val a * s + val c)) (val a * (s - sin (val b * val t)))) as T. rewrite (Rabs_mult (val a)) in T.
  assert (Rabs (val a) * Rabs (s - sin (val b * val t)) <= Rabs (val a) * (eps + u * Rabs (val b * val t))) by (apply Rmult_le_compat_l; [apply Rabs_pos|exact D]). lra.
Qed.

(** ** Its derivatives *)
Definition slope64 (M : libm) (a b t : dbl) : dbl := dmul (dmul a b) (l_cos M (dmul t b)).
Definition bend64 (M : libm) (a b t : dbl) : dbl := dmul (dmul (dmul (dopp a) b) b) (l_sin M (dmul t b)).
Lemma coef_unit a s : finite a -> sz (-600) 600 (val a) -> finite s -> Rabs (val s) <= 1 ->
  finite (dmul a s) /\ Rabs (val (dmul a s)) <= Rabs (val a) /\ Rabs (val (dmul a s) - val a * val s) <= 2 * u * Rabs (val a).
Proof.
  intros Fa Sa Fs S. pose proof (sz_le _ _ _ Sa) as La.
  assert (L : Rabs (val a * val s) <= Rabs (val a)) by (rewrite Rabs_mult; pose proof (Rabs_pos (val a)); nra).
  destruct (mul_val a s Fa Fs) as [F V]; [eapply Rle_trans; [exact L|]; eapply le_b2; [exact La|lia]|].
  split; [exact F|]. rewrite V. split.
  - apply rnd_abs_le; [|exact L]. apply generic_format_abs, fmt_val.
  - destruct (Req_dec (val a) 0) as [Z|N]; [rewrite Z, Rmult_0_l, rnd0; unfold Rminus; rewrite Rplus_opp_r, Rabs_R0; lra|].
    pose proof (abs_eps (val a * val s)) as E.
    assert (T : b2 (-1075) <= u * Rabs (val a)).
    { destruct Sa as [Z|[A _]]; [contradiction|]. unfold u. apply Rle_trans with (b2 (-53) * b2 (-600)); [|apply Rmult_le_compat_l; [apply bpow_ge_0|exact A]].
      rewrite <- bpow_plus. apply bpow_le. lia. }
    pose proof u_pos. nra.
Qed.
(** k is K up to a relative error of three roundings, s is g at z up to d. *)
Lemma coef_err k K s g d r : Rabs (k - K) <= 3 * u * Rabs K -> Rabs (s - g) <= d -> Rabs g <= 1 -> Rabs (r - k * s) <= 2 * u * Rabs k ->
  Rabs (r - K * g) <= Rabs K * ((1 + 3 * u) * d + 6 * u).
Proof.
  intros HK Hs Hg Hr. pose proof u_pos as U. pose proof u_small as Us. pose proof (Rabs_pos K) as PK.
  assert (Bk : Rabs k <= (1 + 3 * u) * Rabs K) by (replace k with ((k - K) + K) by ring; pose proof (Rabs_triang (k - K) K); lra).
  replace (r - K * g) with ((r - k * s) + (k * (s - g) + (k - K) * g)) by ring.
  pose proof (Rabs_triang (r - k * s) (k * (s - g) + (k - K) * g)) as T1. pose proof (Rabs_triang (k * (s - g)) ((k - K) * g)) as T2. rewrite !Rabs_mult in T2.
  assert (P1 : Rabs k * Rabs (s - g) <= (1 + 3 * u) * Rabs K * d) by (apply Rmult_le_compat; auto using Rabs_pos).
  assert (P2 : Rabs (k - K) * Rabs g <= 3 * u * Rabs K * 1) by (apply Rmult_le_compat; auto using Rabs_pos).
  assert (P3 : 2 * u * Rabs k <= 2 * u * ((1 + 3 * u) * Rabs K)) by (apply Rmult_le_compat_l; lra).
  assert (P4 : u * u * Rabs K <= u * / 6 * Rabs K) by (apply Rmult_le_compat_r; [exact PK|apply Rmult_le_compat_l; lra]). nra.
Qed.
Lemma slope64_err M eps a b t : good_libm M eps -> usual a -> usual b -> usual t ->
  finite (slope64 M a b t) /\
  Rabs (val (slope64 M a b t) - val a * val b * cos (val t * val b)) <= Rabs (val a * val b) * ((1 + 3 * ur) * (eps + ur * Rabs (val b * val t)) + 6 * ur).
Proof.
  intros G Ha Hb Ht. rewrite ur_u. destruct (sz_usual a Ha) as (Fa & Sa), (sz_usual b Hb) as (Fb & Sb), (sz_usual t Ht) as (Ft & St).
  pose proof (sz_mul _ _ _ _ _ _ St Sb) as S. change (sz (-400) 400 (val t * val b)) in S.
  destruct (mul_step t b (-400) 400 Ft Fb S ltac:(lia) ltac:(lia)) as (F & S1 & _ & e & He & V).
  pose proof (sz_mul _ _ _ _ _ _ Sa Sb) as S2. change (sz (-400) 400 (val a * val b)) in S2.
  destruct (mul_step a b (-400) 400 Fa Fb S2 ltac:(lia) ltac:(lia)) as (F2 & S3 & _ & e2 & He2 & V2).
  destruct (g_cos _ _ G _ F) as (Fs & Bs & Es).
  destruct (coef_unit (dmul a b) (l_cos M (dmul t b)) F2 (sz_weaken (-400) 400 (-600) 600 _ S3 ltac:(lia) ltac:(lia)) Fs Bs) as (F3 & _ & E3).
  split; [exact F3|]. apply (coef_err (val (dmul a b)) _ (val (l_cos M (dmul t b)))).
  - rewrite V2. replace (val a * val b * (1 + e2) - val a * val b) with (e2 * (val a * val b)) by ring. rewrite Rabs_mult. apply Rmult_le_compat_r; [apply Rabs_pos|pose proof u_pos; lra].
  - pose proof (cos_lip (val (dmul t b)) (val t * val b)) as L. replace (val (dmul t b) - val t * val b) with (e * (val b * val t)) in L by (rewrite V; ring).
    rewrite Rabs_mult in L. set (s := val (l_cos M (dmul t b))) in *. replace (s - cos (val t * val b)) with ((s - cos (val (dmul t b))) + (cos (val (dmul t b)) - cos (val t * val b))) by ring.
    pose proof (Rabs_triang (s - cos (val (dmul t b))) (cos (val (dmul t b)) - cos (val t * val b))).
    assert (Rabs e * Rabs (val b * val t) <= u * Rabs (val b * val t)) by (apply Rmult_le_compat_r; [apply Rabs_pos|exact He]). lra.
  - pose proof (COS_bound (val t * val b)). apply Rabs_le. lra.
  - exact E3.
Qed.
Lemma bend64_err M eps a b t : good_libm M eps -> usual a -> usual b -> usual t ->
  finite (bend64 M a b t) /\
  Rabs (val (bend64 M a b t) - - val a * val b * val b * sin (val t * val b)) <= Rabs (val a * val b * val b) * ((1 + 3 * ur) * (eps + ur * Rabs (val b * val t)) + 6 * ur).
Proof.
  intros G Ha Hb Ht. rewrite ur_u. destruct (sz_usual a Ha) as (Fa & Sa), (sz_usual b Hb) as (Fb & Sb), (sz_usual t Ht) as (Ft & St).
  pose proof (sz_mul _ _ _ _ _ _ St Sb) as S. change (sz (-400) 400 (val t * val b)) in S.
  destruct (mul_step t b (-400) 400 Ft Fb S ltac:(lia) ltac:(lia)) as (F & S1 & _ & e & He & V).
  assert (Fo : finite (dopp a)) by (apply fin_opp, Fa). assert (So : sz (-200) 200 (val (dopp a))) by (rewrite val_opp; destruct Sa as [Z|B]; [left; rewrite Z; ring|right; rewrite Rabs_Ropp; exact B]).
  pose proof (sz_mul _ _ _ _ _ _ So Sb) as S2. change (sz (-400) 400 (val (dopp a) * val b)) in S2.
  destruct (mul_step (dopp a) b (-400) 400 Fo Fb S2 ltac:(lia) ltac:(lia)) as (F2 & S3 & _ & e2 & He2 & V2).
  pose proof (sz_mul _ _ _ _ _ _ S3 Sb) as S4. change (sz (-600) 600 (val (dmul (dopp a) b) * val b)) in S4.
  destruct (mul_step (dmul (dopp a) b) b (-600) 600 F2 Fb S4 ltac:(lia) ltac:(lia)) as (F4 & S5 & _ & e4 & He4 & V4).
  destruct (g_sin _ _ G _ F) as (Fs & Bs & Es).
  destruct (coef_unit (dmul (dmul (dopp a) b) b) (l_sin M (dmul t b)) F4 S5 Fs Bs) as (F3 & _ & E3).
  split; [exact F3|]. replace (Rabs (val a * val b * val b)) with (Rabs (- val a * val b * val b)) by (rewrite <- (Rabs_Ropp (val a * val b * val b)); f_equal; ring).
  apply (coef_err (val (dmul (dmul (dopp a) b) b)) _ (val (l_sin M (dmul t b)))).
  - rewrite V4, V2, val_opp. replace (- val a * val b * (1 + e2) * val b * (1 + e4) - - val a * val b * val b) with ((e2 + e4 + e2 * e4) * (- val a * val b * val b)) by ring.
    rewrite Rabs_mult. apply Rmult_le_compat_r; [apply Rabs_pos|]. pose proof u_pos. pose proof u_small.
    pose proof (Rabs_triang (e2 + e4) (e2 * e4)) as T1. pose proof (Rabs_triang e2 e4) as T2. rewrite Rabs_mult in T1.
    assert (Rabs e2 * Rabs e4 <= u * u) by (apply Rmult_le_compat; auto using Rabs_pos). nra.
  - pose proof (sin_lip (val (dmul t b)) (val t * val b)) as L. replace (val (dmul t b) - val t * val b) with (e * (val b * val t)) in L by (rewrite V; ring).
    rewrite Rabs_mult in L. set (s := val (l_sin M (dmul t b))) in *. replace (s - sin (val t * val b)) with ((s - sin (val (dmul t b))) + (sin (val (dmul t b)) - sin (val t * val b))) by ring.
    pose proof (Rabs_triang (s - sin (val (dmul t b))) (sin (val (dmul t b)) - sin (val t * val b))).
    assert (Rabs e * Rabs (val b * val t) <= u * Rabs (val b * val t)) by (apply Rmult_le_compat_r; [apply Rabs_pos|exact He]). lra.
  - pose proof (SIN_bound (val t * val b)). apply Rabs_le. lra.
  - exact E3.
Qed.
