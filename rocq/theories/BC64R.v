(** Boundary-condition operators in double precision: the numbers. *)
From Coq Require Import Reals Lra Lia Psatz.
From Flocq Require Import Core Sterbenz.
From Verif Require Import Prelude WindowM WindowS GhostM FieldM FieldS MaskM NeboM NeboS StencilM StencilS RoundM RoundS RoundP RoundQ RoundR RoundT HeatM Cmp64P Part64Q BCM BCS BC64M BC64S BC64Q.
Open Scope R_scope.

(** ** Multiples of a power of two *)
Lemma fmt_multiple x k : fmt x -> x = 0 \/ b2 k <= Rabs x -> exists m : Z, x = IZR m * b2 (k - 53).
Proof.
  intros F [->|L]; [exists 0%Z; ring|].
  assert (N : x <> 0). { intros ->. rewrite Rabs_R0 in L. pose proof (bpow_gt_0 radix2 k). lra. }
  assert (M : (k + 1 <= mag radix2 x)%Z) by (apply mag_ge_bpow; replace (k + 1 - 1)%Z with k by ring; exact L).
  set (c := cexp radix2 fexp x). assert (C : (k - 53 <= c)%Z) by (unfold c, cexp, FLT_exp; lia).
  exists (Ztrunc (scaled_mantissa radix2 fexp x) * 2 ^ (c - (k - 53)))%Z. rewrite F at 1. unfold F2R. cbn [Fnum Fexp]. fold c.
  rewrite mult_IZR, (IZR_Zpower radix2) by lia. rewrite Rmult_assoc, <- bpow_plus. do 2 f_equal. ring.
Qed.
Lemma multiple_ge m k : m <> 0%Z -> b2 k <= Rabs (IZR m * b2 k).
Proof.
  intros N. rewrite Rabs_mult, (Rabs_pos_eq (b2 k)) by apply bpow_ge_0. rewrite <- abs_IZR.
  assert (1 <= IZR (Z.abs m)) by (apply IZR_le; lia). pose proof (bpow_gt_0 radix2 k). nra.
Qed.

(** ** Usual numbers *)
Lemma usual_or x : usual x -> finite x /\ (val x = 0 \/ b2 (-200) <= Rabs (val x)) /\ Rabs (val x) <= b2 200.
Proof. unfold usual. rewrite !p2. tauto. Qed.
Lemma prod_bounds a b i j k l : b2 i <= Rabs a <= b2 k -> b2 j <= Rabs b <= b2 l -> b2 (i + j) <= Rabs (a * b) <= b2 (k + l).
Proof.
  intros A B. rewrite Rabs_mult, !bpow_plus. pose proof (bpow_gt_0 radix2 i). pose proof (bpow_gt_0 radix2 j).
  split; apply Rmult_le_compat; lra.
Qed.
Lemma le_b2 x i j : Rabs x <= b2 i -> (i <= j)%Z -> Rabs x <= b2 j.
Proof. intros A B. eapply Rle_trans; [exact A|apply bpow_le, B]. Qed.
Lemma ge_b2 x i j : b2 i <= Rabs x -> (j <= i)%Z -> b2 j <= Rabs x.
Proof. intros A B. eapply Rle_trans; [apply bpow_le, B|exact A]. Qed.
Lemma rnd0 : rnd 0 = 0. Proof. apply round_0. typeclasses eauto. Qed.
Lemma rnd_ge x k : (-1074 <= k <= 1023)%Z -> b2 k <= Rabs x -> b2 k <= Rabs (rnd x).
Proof.
  intros K L. pose proof (fmt_bpow k ltac:(lia)) as F. destruct (Rle_dec 0 x).
  - rewrite Rabs_pos_eq in L by assumption. apply (rnd_ge_fmt _ _ F) in L. pose proof (Rle_abs (rnd x)). lra.
  - rewrite Rabs_left in L by lra. apply (rnd_ge_fmt _ _ F) in L. rewrite rnd_opp in L. pose proof (Rle_abs (- rnd x)). rewrite Rabs_Ropp in *. lra.
Qed.
Lemma rnd_le x k : (-1074 <= k <= 1023)%Z -> Rabs x <= b2 k -> Rabs (rnd x) <= b2 k.
Proof. intros K. apply rnd_abs_le, fmt_bpow. lia. Qed.

(** ** The steps of the solution and of the operator applied to it *)
Record steps (x gamma cd cs : dbl) (P s q t : R) : Prop := {
  st_fP : finite (dmul x cs); st_P : val (dmul x cs) = P; st_Pr : P = rnd (val x * val cs);
  st_fs : finite (dsub gamma (dmul x cs)); st_s : val (dsub gamma (dmul x cs)) = s; st_sr : s = rnd (val gamma - P);
  st_fq : finite (ddiv (dsub gamma (dmul x cs)) cd); st_q : val (ddiv (dsub gamma (dmul x cs)) cd) = q; st_qr : q = rnd (s / val cd);
  st_ft : finite (dmul (ddiv (dsub gamma (dmul x cs)) cd) cd); st_t : val (dmul (ddiv (dsub gamma (dmul x cs)) cd) cd) = t; st_tr : t = rnd (q * val cd);
  st_bP : (val x * val cs = 0 \/ b2 (-400) <= Rabs (val x * val cs)) /\ Rabs P <= b2 400;
  st_bs : (s = 0 \/ b2 (-453) <= Rabs s) /\ Rabs s <= b2 401;
  st_bq : (s = 0 \/ b2 (-653) <= Rabs (s / val cd)) /\ Rabs q <= b2 601;
  st_bt : (s = 0 \/ b2 (-853) <= Rabs (q * val cd)) /\ Rabs t <= b2 801 }.

Lemma double_b2 k : b2 k + b2 k = b2 (k + 1).
Proof. rewrite bpow_plus. cbn [bpow]. change (IZR (Z.pow_pos radix2 1)) with 2. ring. Qed.
Lemma inv_bounds c : c <> 0 -> b2 (-200) <= Rabs c <= b2 200 -> b2 (-200) <= Rabs (/ c) <= b2 200.
Proof.
  intros N (A & B). rewrite Rabs_inv. assert (0 < Rabs c) by (apply Rabs_pos_lt, N). split.
  - change (-200)%Z with (- (200))%Z. rewrite bpow_opp. apply Rinv_le; assumption.
  - rewrite <- (Rinv_inv (b2 200)). rewrite <- bpow_opp. apply Rinv_le; [apply bpow_gt_0|exact A].
Qed.

Lemma solve_steps x gamma cd cs : usual x -> usual gamma -> usual cd -> usual cs -> val cd <> 0 ->
  exists P s q t, steps x gamma cd cs P s q t.
Proof.
  intros Ux Ug Ud Us Nd. apply usual_or in Ux, Ug, Ud, Us.
  destruct Ux as (Fx & Lx & Bx), Ug as (Fg & Lg & Bg), Ud as (Fd & Ld & Bd), Us as (Fs & Ls & Bs).
  destruct Ld as [?|Ld]; [contradiction|].
  assert (BP : (val x * val cs = 0 \/ b2 (-400) <= Rabs (val x * val cs)) /\ Rabs (val x * val cs) <= b2 400).
  { split.
    - destruct Lx as [->|Lx]; [left; ring|]. destruct Ls as [->|Ls]; [left; ring|]. right.
      apply (prod_bounds _ _ (-200) (-200) 200 200); auto.
    - rewrite Rabs_mult. change 400%Z with (200 + 200)%Z. rewrite bpow_plus. apply Rmult_le_compat; auto using Rabs_pos. }
  destruct BP as (BP & BP').
  destruct (mul_val x cs Fx Fs) as (FP & VP); [eapply le_b2; [exact BP'|lia]|].
  set (P := rnd (val x * val cs)) in *.
  assert (PB : P = 0 \/ b2 (-400) <= Rabs P).
  { destruct BP as [E|L]; [left; subst P; rewrite E; apply rnd0|right; apply rnd_ge; [lia|exact L]]. }
  assert (PB' : Rabs P <= b2 400) by (apply rnd_le; [lia|exact BP']).
  assert (D : Rabs (val gamma - P) <= b2 401).
  { unfold Rminus. eapply Rle_trans; [apply Rabs_triang|]. rewrite Rabs_Ropp. change 401%Z with (400 + 1)%Z. rewrite <- double_b2.
    apply Rplus_le_compat; [eapply le_b2; [exact Bg|lia]|exact PB']. }
  destruct (sub_val gamma (dmul x cs) Fg FP) as (Fsu & Vs); [rewrite VP; eapply le_b2; [exact D|lia]|]. rewrite VP in Vs.
  set (s := rnd (val gamma - P)) in *.
  assert (SB : s = 0 \/ b2 (-453) <= Rabs s).
  { destruct (Req_dec (val gamma - P) 0) as [E|N]; [left; subst s; rewrite E; apply rnd0|right]. apply rnd_ge; [lia|].
    destruct (fmt_multiple (val gamma) (-400) (fmt_val _)) as (m1 & E1).
    { destruct Lg as [?|L]; [left; assumption|right; eapply ge_b2; [exact L|lia]]. }
    destruct (fmt_multiple P (-400)) as (m2 & E2); [apply generic_format_round; typeclasses eauto|exact PB|].
    rewrite E1, E2 in *. change (-400 - 53)%Z with (-453)%Z in *. rewrite <- Rmult_minus_distr_r, <- minus_IZR in *. apply multiple_ge.
    intros E. rewrite E, Rmult_0_l in N. congruence. }
  assert (SB' : Rabs s <= b2 401) by (apply rnd_le; [lia|exact D]).
  destruct (inv_bounds (val cd) Nd (conj Ld Bd)) as (I1 & I2).
  assert (QB : s = 0 \/ b2 (-653) <= Rabs (s / val cd)).
  { destruct SB as [?|L]; [left; assumption|right]. apply (prod_bounds s (/ val cd) (-453) (-200) 401 200); auto. }
  assert (QB' : Rabs (s / val cd) <= b2 601).
  { unfold Rdiv. rewrite Rabs_mult. change 601%Z with (401 + 200)%Z. rewrite bpow_plus. apply Rmult_le_compat; auto using Rabs_pos. }
  destruct (div_val (dsub gamma (dmul x cs)) cd Fsu Nd) as (Fq & Vq); [rewrite Vs; eapply le_b2; [exact QB'|lia]|]. rewrite Vs in Vq.
  set (q := rnd (s / val cd)) in *.
  assert (QR : Rabs q <= b2 601) by (apply rnd_le; [lia|exact QB']).
  assert (TB : s = 0 \/ b2 (-853) <= Rabs (q * val cd)).
  { destruct QB as [?|L]; [left; assumption|right]. apply (prod_bounds q (val cd) (-653) (-200) 601 200); auto. split; [|exact QR]. apply rnd_ge; [lia|exact L]. }
  assert (TB' : Rabs (q * val cd) <= b2 801).
  { rewrite Rabs_mult. change 801%Z with (601 + 200)%Z. rewrite bpow_plus. apply Rmult_le_compat; auto using Rabs_pos. }
  destruct (mul_val (ddiv (dsub gamma (dmul x cs)) cd) cd Fq Fd) as (Ft & Vt); [rewrite Vq; eapply le_b2; [exact TB'|lia]|]. rewrite Vq in Vt.
  exists P, s, q, (rnd (q * val cd)). constructor; auto. split; [exact TB|]. apply rnd_le; [lia|exact TB'].
Qed.

(** The operator applied to the solution, either point first. *)
Definition residual (x gamma cd cs : dbl) (r : dbl) : Prop :=
  let q := ddiv (dsub gamma (dmul x cs)) cd in r = dadd (dmul q cd) (dmul x cs) \/ r = dadd (dmul x cs) (dmul q cd).
Lemma residual_val x gamma cd cs P s q t r : steps x gamma cd cs P s q t -> residual x gamma cd cs r -> finite r /\ val r = rnd (t + P).
Proof.
  intros S R. assert (L : Rabs (t + P) <= b2 1023).
  { eapply Rle_trans; [apply Rabs_triang|]. change 1023%Z with (1022 + 1)%Z. rewrite <- double_b2.
    apply Rplus_le_compat; eapply le_b2; [apply (st_bt _ _ _ _ _ _ _ _ S)|lia|apply (st_bP _ _ _ _ _ _ _ _ S)|lia]. }
  pose proof (st_fP _ _ _ _ _ _ _ _ S) as FP. pose proof (st_ft _ _ _ _ _ _ _ _ S) as FT.
  pose proof (st_P _ _ _ _ _ _ _ _ S) as VP. pose proof (st_t _ _ _ _ _ _ _ _ S) as VT.
  destruct R as [-> | ->].
  - destruct (add_val _ _ FT FP) as (F & V); rewrite VP, VT in *; auto.
  - destruct (add_val _ _ FP FT) as (F & V); rewrite VP, VT in *; [rewrite Rplus_comm; exact L|]. split; [exact F|]. rewrite V. f_equal. ring.
Qed.

(** ** The general error *)
Lemma three_eps a b c : Rabs a <= u -> Rabs b <= u -> Rabs c <= u -> Rabs ((1 + a) * (1 + b) * (1 + c) - 1) <= 31 / 10 * u.
Proof.
  intros A B C. apply Rabs_le_inv in A, B, C. pose proof u_pos. pose proof u_small.
  assert (X : Rabs (a * b) <= u / 1000). { rewrite Rabs_mult. apply Rabs_le in A, B. pose proof (Rabs_pos a). pose proof (Rabs_pos b). nra. }
  assert (Y : Rabs (a * c) <= u / 1000). { rewrite Rabs_mult. apply Rabs_le in A, C. pose proof (Rabs_pos a). pose proof (Rabs_pos c). nra. }
  assert (Z : Rabs (b * c) <= u / 1000). { rewrite Rabs_mult. apply Rabs_le in B, C. pose proof (Rabs_pos b). pose proof (Rabs_pos c). nra. }
  assert (W : Rabs (a * b * c) <= u / 1000). { rewrite Rabs_mult. apply Rabs_le in C. pose proof (Rabs_pos c). pose proof (Rabs_pos (a * b)). nra. }
  apply Rabs_le_inv in X, Y, Z, W. apply Rabs_le. lra.
Qed.

Lemma solve_error x gamma cd cs r : usual x -> usual gamma -> usual cd -> usual cs -> val cd <> 0 -> residual x gamma cd cs r ->
  finite r /\ Rabs (val r - val gamma) <= powerRZ 2 (-50) * (Rabs (val gamma) + Rabs (val x * val cs)).
Proof.
  intros Ux Ug Ud Us Nd R. destruct (solve_steps x gamma cd cs Ux Ug Ud Us Nd) as (P & s & q & t & S).
  destruct (residual_val _ _ _ _ _ _ _ _ _ S R) as (F & V). split; [exact F|]. rewrite V, eight_u. clear V R r F Ux Ug Ud Us.
  destruct S as [_ _ EP _ _ Es _ _ Eq _ Vt Et (BP & _) (Bs & _) (Bq & _) (Bt & _)].
  assert (FP : fmt P) by (subst P; apply generic_format_round; typeclasses eauto).
  assert (Ft : fmt t) by (rewrite Et; apply generic_format_round; typeclasses eauto).
  pose proof u_pos as UP. pose proof u_small as US.
  set (g := val gamma) in *. set (c := val cd) in *. set (y := val x * val cs) in *.
  assert (HP : Rabs P <= Rabs y * (1 + u)).
  { destruct BP as [E|L]; [rewrite EP, E, rnd0, Rabs_R0; lra|].
    destruct (rel_eps y) as (e & He & E); [eapply ge_b2; [exact L|lia]|]. rewrite EP, E, Rabs_mult. apply Rmult_le_compat_l; [apply Rabs_pos|].
    eapply Rle_trans; [apply Rabs_triang|]. rewrite Rabs_R1. lra. }
  destruct (plus_eps g (- P)) as (e1 & H1 & E1); [apply fmt_val|apply generic_format_opp, FP|].
  assert (T : exists d, Rabs d <= 31 / 10 * u /\ t = (g - P) * (1 + d)).
  { destruct (Req_dec s 0) as [Z|NZ].
    - exists 0. split; [rewrite Rabs_R0; lra|]. assert (q = 0) by (rewrite Eq, Z; unfold Rdiv; rewrite Rmult_0_l; apply rnd0).
      assert (t = 0) as -> by (rewrite Et, H, Rmult_0_l; apply rnd0). 
      rewrite Es in Z. unfold Rminus in Z. rewrite E1 in Z. unfold Rminus. apply Rabs_le_inv in H1.
      apply Rmult_integral in Z. destruct Z as [->|Z]; [ring|lra].
    - destruct Bq as [?|Bq]; [contradiction|]. destruct Bt as [?|Bt]; [contradiction|].
      destruct (rel_eps (s / c)) as (e2 & H2 & E2); [eapply ge_b2; [exact Bq|lia]|].
      destruct (rel_eps (q * c)) as (e3 & H3 & E3); [eapply ge_b2; [exact Bt|lia]|].
      exists ((1 + e1) * (1 + e2) * (1 + e3) - 1). split; [apply three_eps; assumption|].
      rewrite Et, E3, Eq, E2, Es. unfold Rminus. rewrite E1. field. exact Nd. }
  destruct T as (d & Hd & T). destruct (plus_eps t P Ft FP) as (e4 & H4 & E4). rewrite E4, T.
  replace (((g - P) * (1 + d) + P) * (1 + e4) - g) with ((g - P) * (d * (1 + e4)) + g * e4) by ring.
  assert (HD : Rabs (d * (1 + e4)) <= 32 / 10 * u).
  { rewrite Rabs_mult. assert (Rabs (1 + e4) <= 1 + u) by (eapply Rle_trans; [apply Rabs_triang|]; rewrite Rabs_R1; lra).
    pose proof (Rabs_pos d). pose proof (Rabs_pos (1 + e4)). nra. }
  assert (HG : Rabs (g - P) <= Rabs g + Rabs P) by (unfold Rminus; eapply Rle_trans; [apply Rabs_triang|]; rewrite Rabs_Ropp; lra).
  eapply Rle_trans; [apply Rabs_triang|]. rewrite (Rabs_mult (g - P)), (Rabs_mult g).
  pose proof (Rabs_pos g). pose proof (Rabs_pos y). pose proof (Rabs_pos P). pose proof (Rabs_pos (g - P)).
  assert (A1 : Rabs (g - P) * Rabs (d * (1 + e4)) <= (Rabs g + Rabs P) * (32 / 10 * u)) by (apply Rmult_le_compat; auto using Rabs_pos).
  assert (A2 : Rabs g * Rabs e4 <= Rabs g * u) by (apply Rmult_le_compat_l; auto).
  assert (A3 : Rabs P * u <= Rabs y * (11 / 10 * u)). { eapply Rle_trans; [apply Rmult_le_compat_r; [lra|exact HP]|]. rewrite Rmult_assoc. apply Rmult_le_compat_l; [assumption|nra]. }
  assert (0 <= Rabs g * u) by (apply Rmult_le_pos; lra). assert (0 <= Rabs y * u) by (apply Rmult_le_pos; lra). lra.
Qed.

(** ** Interpolation: both coefficients one half *)
Lemma scale_rnd r k : fmt r -> r = 0 \/ b2 (-900) <= Rabs r -> (-100 <= k <= 100)%Z -> rnd (r * b2 k) = r * b2 k.
Proof.
  intros F [->|L] K; [rewrite Rmult_0_l; apply rnd0|]. apply rnd_fmt.
  assert (N : r <> 0). { intros ->. rewrite Rabs_R0 in L. pose proof (bpow_gt_0 radix2 (-900)). lra. }
  assert (M : (-899 <= mag radix2 r)%Z) by (apply mag_ge_bpow; exact L).
  assert (C : cexp radix2 fexp (r * b2 k) = (cexp radix2 fexp r + k)%Z).
  { unfold cexp. rewrite mag_mult_bpow by exact N. unfold FLT_exp. lia. }
  unfold generic_format. rewrite F at 1. unfold scaled_mantissa. rewrite C. unfold F2R. cbn [Fnum Fexp].
  replace (r * b2 k * b2 (- (cexp radix2 fexp r + k))) with (r * b2 (- cexp radix2 fexp r)).
  - rewrite bpow_plus. ring.
  - rewrite Z.opp_add_distr, bpow_plus, (bpow_opp radix2 k). field. pose proof (bpow_gt_0 radix2 k). lra.
Qed.

Lemma half_steps x gamma cd cs P s q t : usual x -> steps x gamma cd cs P s q t -> val cd = / 2 -> val cs = / 2 ->
  P = val x / 2 /\ t = s /\ s = rnd (val gamma - val x / 2).
Proof.
  intros Ux S Hd Hs. apply usual_or in Ux. destruct Ux as (_ & Lx & _).
  destruct S as [_ _ EP _ _ Es _ _ Eq _ _ Et _ (Bs & _) _ _]. rewrite Hs in EP. rewrite Hd in *.
  assert (H : / 2 = b2 (-1)) by (cbn; lra).
  assert (P = val x / 2) as ->.
  { rewrite EP, H, scale_rnd; [cbn; lra|apply fmt_val| |lia]. destruct Lx as [?|L]; [left; assumption|right; eapply ge_b2; [exact L|lia]]. }
  assert (Fs : fmt s) by (rewrite Es; apply generic_format_round; typeclasses eauto).
  assert (q = s * 2) as ->.
  { rewrite Eq. replace (s / / 2) with (s * b2 1) by (cbn; lra). rewrite scale_rnd; [cbn; lra|exact Fs| |lia].
    destruct Bs as [?|L]; [left; assumption|right; eapply ge_b2; [exact L|lia]]. }
  split; [reflexivity|]. split; [|exact Es]. rewrite Et. replace (s * 2 * / 2) with s by lra. apply rnd_fmt, Fs.
Qed.

Lemma half_usual (c : dbl) : finite c -> val c = / 2 -> usual c /\ val c <> 0.
Proof.
  intros F V. split; [|lra]. unfold usual. rewrite !p2, V, Rabs_pos_eq by lra. split; [exact F|]. replace (/ 2) with (b2 (-1)) by (cbn; lra).
  split; [right|]; apply bpow_le; lia.
Qed.

Lemma half_error x gamma cd cs r : usual x -> usual gamma -> finite cd -> finite cs -> val cd = / 2 -> val cs = / 2 -> residual x gamma cd cs r ->
  finite r /\ Rabs (val r - val gamma) <= powerRZ 2 (-51) * Rabs (val gamma) + powerRZ 2 (-53) * Rabs (val x).
Proof.
  intros Ux Ug Fd Fs Hd Hs R. destruct (half_usual cd Fd Hd) as (Ud & Nd), (half_usual cs Fs Hs) as (Us & _).
  destruct (solve_steps x gamma cd cs Ux Ug Ud Us Nd) as (P & s & q & t & S).
  destruct (residual_val _ _ _ _ _ _ _ _ _ S R) as (F & V). split; [exact F|]. rewrite V.
  pose proof (generic_format_round radix2 fexp ZnearestE (val x * val cs)) as FP. rewrite <- (st_Pr _ _ _ _ _ _ _ _ S) in FP.
  destruct (half_steps _ _ _ _ _ _ _ _ Ux S Hd Hs) as (-> & -> & Es).
  assert (Ft : fmt s) by (rewrite Es; apply generic_format_round; typeclasses eauto).
  rewrite !p2. replace (b2 (-51)) with (4 * u) by (unfold u; change (-51)%Z with (2 + -53)%Z; rewrite bpow_plus; cbn; lra). fold u.
  pose proof u_pos as UP. pose proof u_small as US. set (g := val gamma) in *. set (y := val x) in *.
  destruct (plus_eps g (- (y / 2))) as (e1 & H1 & E1); [apply fmt_val|apply generic_format_opp, FP|].
  destruct (plus_eps s (y / 2) Ft FP) as (e2 & H2 & E2). rewrite E2, Es. unfold Rminus at 2. rewrite E1.
  replace (((g + - (y / 2)) * (1 + e1) + y / 2) * (1 + e2) - g) with ((g - y / 2) * (e1 * (1 + e2)) + g * e2) by field.
  assert (HD : Rabs (e1 * (1 + e2)) <= 11 / 10 * u).
  { rewrite Rabs_mult. assert (Rabs (1 + e2) <= 1 + u) by (eapply Rle_trans; [apply Rabs_triang|]; rewrite Rabs_R1; lra).
    pose proof (Rabs_pos e1). pose proof (Rabs_pos (1 + e2)). nra. }
  assert (HY : Rabs (y / 2) = Rabs y / 2) by (unfold Rdiv; rewrite Rabs_mult, (Rabs_pos_eq (/ 2)) by lra; ring).
  assert (HG : Rabs (g - y / 2) <= Rabs g + Rabs y / 2) by (unfold Rminus; eapply Rle_trans; [apply Rabs_triang|]; rewrite Rabs_Ropp; lra).
  eapply Rle_trans; [apply Rabs_triang|]. rewrite (Rabs_mult (g - y / 2)), (Rabs_mult g).
  assert (A1 : Rabs (g - y / 2) * Rabs (e1 * (1 + e2)) <= (Rabs g + Rabs y / 2) * (11 / 10 * u)) by (apply Rmult_le_compat; auto using Rabs_pos).
  assert (A2 : Rabs g * Rabs e2 <= Rabs g * u) by (apply Rmult_le_compat_l; auto using Rabs_pos).
  pose proof (Rabs_pos g). pose proof (Rabs_pos y).
  assert (HX : 0 <= Rabs g * u) by (apply Rmult_le_pos; lra). assert (0 <= Rabs y * u) by (apply Rmult_le_pos; lra).
  lra.
Qed.

Lemma half_exact_bc x gamma cd cs r : usual x -> usual gamma -> finite cd -> finite cs -> val cd = / 2 -> val cs = / 2 -> residual x gamma cd cs r ->
  val gamma = 0 \/ val x = 0 \/ (0 <= val gamma * val x /\ Rabs (val gamma) <= Rabs (val x) <= 4 * Rabs (val gamma)) ->
  finite r /\ val r = val gamma.
Proof.
  intros Ux Ug Fd Fs Hd Hs R H. destruct (half_usual cd Fd Hd) as (Ud & Nd), (half_usual cs Fs Hs) as (Us & _).
  destruct (solve_steps x gamma cd cs Ux Ug Ud Us Nd) as (P & s & q & t & S).
  destruct (residual_val _ _ _ _ _ _ _ _ _ S R) as (F & V). split; [exact F|]. rewrite V.
  pose proof (generic_format_round radix2 fexp ZnearestE (val x * val cs)) as FP. rewrite <- (st_Pr _ _ _ _ _ _ _ _ S) in FP.
  destruct (half_steps _ _ _ _ _ _ _ _ Ux S Hd Hs) as (-> & -> & Es).
  assert (Fd' : fmt (val gamma - val x / 2)).
  { destruct H as [-> |[-> |(SG & L & U)]].
    - replace (0 - val x / 2) with (- (val x / 2)) by ring. apply generic_format_opp, FP.
    - replace (val gamma - 0 / 2) with (val gamma) by lra. apply fmt_val.
    - pose proof (fmt_val gamma) as Fg. revert SG L U FP Fg. generalize (val gamma), (val x). intros g y SG L U FP Fg.
      destruct (Rle_dec 0 y) as [Y|Y].
      + assert (G : 0 <= g). { destruct (Rle_dec 0 g) as [|N]; [assumption|]. rewrite (Rabs_left g) in L, U by lra. rewrite (Rabs_pos_eq y) in L, U by lra. nra. }
        rewrite !Rabs_pos_eq in L, U by assumption. apply sterbenz; auto; try typeclasses eauto. lra.
      + rewrite (Rabs_left y) in L, U by lra. assert (G : g <= 0). { destruct (Rle_dec g 0) as [|N]; [assumption|]. rewrite (Rabs_pos_eq g) in L, U by lra. nra. }
        rewrite (Rabs_left1 g) in L, U by assumption. replace (g - y / 2) with (- (- g - - (y / 2))) by ring.
        apply generic_format_opp. apply sterbenz; try typeclasses eauto; try (apply generic_format_opp; assumption). lra. }
  rewrite (rnd_fmt _ Fd') in Es. rewrite Es. replace (val gamma - val x / 2 + val x / 2) with (val gamma) by ring. apply rnd_fmt, fmt_val.
Qed.

(** ** Zero flux: opposite coefficients *)
Lemma scaled_form p k : fmt p -> b2 k <= p -> (-1000 <= k)%Z -> exists m e, p = IZR m * b2 e /\ (2 ^ 52 <= m < 2 ^ 53)%Z /\ (-1074 <= e)%Z.
Proof.
  intros F L K. assert (P : 0 < p) by (eapply Rlt_le_trans; [apply bpow_gt_0|exact L]).
  assert (M : (k + 1 <= mag radix2 p)%Z) by (apply mag_ge_bpow; replace (k + 1 - 1)%Z with k by ring; rewrite Rabs_pos_eq by lra; exact L).
  assert (C : cexp radix2 fexp p = (mag radix2 p - 53)%Z) by (unfold cexp, FLT_exp; lia).
  set (m := Ztrunc (scaled_mantissa radix2 fexp p)) in *.
  assert (E : p = IZR m * b2 (mag radix2 p - 53)).
  { rewrite F at 1. unfold F2R. cbn [Fnum Fexp]. rewrite C. reflexivity. }
  exists m, (mag radix2 p - 53)%Z. split; [exact E|]. split; [|lia].
  destruct (mag radix2 p) as (g & G). cbn [mag_val] in *. specialize (G ltac:(lra)). rewrite Rabs_pos_eq in G by lra.
  replace (g - 1)%Z with (52 + (g - 53))%Z in G by ring. replace (b2 g) with (b2 (53 + (g - 53))) in G by (f_equal; ring).
  rewrite !bpow_plus in G. change (b2 52) with (IZR (2 ^ 52)) in G. change (b2 53) with (IZR (2 ^ 53)) in G. rewrite E in G.
  pose proof (bpow_gt_0 radix2 (g - 53)). split.
  - apply le_IZR. eapply Rmult_le_reg_r; [eassumption|]. apply G.
  - apply lt_IZR. eapply Rmult_lt_reg_r; [eassumption|]. apply G.
Qed.

Lemma near_odd m : Z.even m = false -> ZnearestE (IZR m + / 2) <> m /\ ZnearestE (IZR m - / 2) <> m.
Proof.
  intros Od. split.
  - replace (IZR m + / 2) with (IZR (m + 1) - / 2) by (rewrite plus_IZR; lra). rewrite (proj2 (near_tie (m + 1) ltac:(rewrite Z.even_add, Od; reflexivity))). lia.
  - replace (IZR m - / 2) with (IZR (m - 1) + / 2) by (rewrite minus_IZR; lra). rewrite (proj1 (near_tie (m - 1) ltac:(rewrite Z.even_sub, Od; reflexivity))). lia.
Qed.

Lemma closer_pos p y z : b2 (-1000) <= p -> ~ power_of_two p -> rnd y = p -> Rabs (z - p) <= Rabs (y - p) -> rnd z = p.
Proof.
  intros L NP E H. assert (F : fmt p) by (rewrite <- E; apply generic_format_round; typeclasses eauto).
  destruct (scaled_form p (-1000) F L ltac:(lia)) as (m & e & Ep & Hm & He).
  pose proof (bpow_gt_0 radix2 e) as BP.
  assert (PP : 0 < p) by (eapply Rlt_le_trans; [apply bpow_gt_0|exact L]).
  assert (M1 : (2 ^ 52 < m)%Z).
  { destruct (Z.eq_dec m (2 ^ 52)) as [->|]; [|lia]. exfalso. apply NP. exists (52 + e)%Z. rewrite p2, bpow_plus, Ep, Rabs_mult, !Rabs_pos_eq; [reflexivity|lra|apply IZR_le; lia]. }
  assert (UL : ulp radix2 fexp p = b2 e).
  { rewrite ulp_neq_0 by lra. f_equal. rewrite Ep. unfold cexp. rewrite mag_mult_bpow by (apply IZR_neq; lia).
    assert (mag radix2 (IZR m) = 53%Z :> Z) as ->; [|unfold FLT_exp; lia].
    apply mag_unique. rewrite Rabs_pos_eq by (apply IZR_le; lia). change (b2 (53 - 1)) with (IZR (2 ^ 52)). change (b2 53) with (IZR (2 ^ 53)). split; [apply IZR_le|apply IZR_lt]; lia. }
  assert (HU : Rabs (y - p) <= / 2 * b2 e).
  { pose proof (error_le_half_ulp_round radix2 fexp (fun z => negb (Z.even z)) y) as X. rewrite E, UL in X. rewrite Rabs_minus_sym. exact X. }
  assert (MI : IZR (2 ^ 52) + 1 <= IZR m /\ IZR m + 1 <= IZR (2 ^ 53)) by (rewrite <- !plus_IZR; split; apply IZR_le; lia).
  assert (Fm : forall w, Rabs (w - p) <= / 2 * b2 e -> exists f, w = (IZR m + f) * b2 e /\ Rabs f <= / 2 /\ Rabs (w - p) = Rabs f * b2 e /\ rnd w = IZR (ZnearestE (IZR m + f)) * b2 e).
  { intros w W. exists ((w - p) / b2 e).
    assert (A : w = (IZR m + (w - p) / b2 e) * b2 e) by (rewrite Ep; field; lra).
    assert (B : Rabs (w - p) = Rabs ((w - p) / b2 e) * b2 e).
    { unfold Rdiv. rewrite Rabs_mult, (Rabs_pos_eq (/ b2 e)) by (apply Rlt_le, Rinv_0_lt_compat, BP). field. lra. }
    assert (C : Rabs ((w - p) / b2 e) <= / 2) by (apply (Rmult_le_reg_r (b2 e)); lra).
    split; [exact A|]. split; [exact C|]. split; [exact B|]. rewrite A at 1. apply rnd_scaled; [|exact He].
    apply Rabs_le_inv in C. lra. }
  destruct (Fm y HU) as (f & Ey & Hf & Df & Rf). destruct (Fm z ltac:(lra)) as (g & Ez & Hg & Dg & Rg).
  rewrite Rg. rewrite Ep. do 2 f_equal.
  assert (GF : Rabs g <= Rabs f) by (apply (Rmult_le_reg_r (b2 e)); lra).
  assert (KM : ZnearestE (IZR m + f) = m). { rewrite E, Ep in Rf. apply Rmult_eq_reg_r in Rf; [|lra]. symmetry. apply eq_IZR, Rf. }
  destruct (Rlt_dec (Rabs g) (/ 2)) as [G|G].
  - apply Znearest_imp. replace (IZR m + g - IZR m) with g by ring. exact G.
  - assert (Rabs f = / 2) by lra. assert (Rabs g = / 2) by lra.
    assert (EV : Z.even m = true).
    { destruct (Z.even m) eqn:Od; [reflexivity|]. exfalso. destruct (near_odd m Od) as (N1 & N2).
      unfold Rabs in H0. destruct (Rcase_abs f); [apply N2|apply N1]; rewrite <- KM at 2; f_equal; lra. }
    destruct (near_tie m EV) as (T1 & T2). unfold Rabs in H1. destruct (Rcase_abs g).
    + replace (IZR m + g) with (IZR m - / 2) by lra. exact T2.
    + replace (IZR m + g) with (IZR m + / 2) by lra. exact T1.
Qed.
Lemma closer p y z : b2 (-1000) <= Rabs p -> ~ power_of_two p -> rnd y = p -> Rabs (z - p) <= Rabs (y - p) -> rnd z = p.
Proof.
  intros L NP E H. destruct (Rle_dec 0 p) as [P|P].
  - rewrite Rabs_pos_eq in L by assumption. exact (closer_pos p y z L NP E H).
  - rewrite Rabs_left in L by lra. assert (X : rnd (- z) = - p).
    { apply (closer_pos (- p) (- y)); [exact L| |rewrite rnd_opp, E; reflexivity|].
      - intros (k & K). apply NP. exists k. rewrite Rabs_Ropp in K. exact K.
      - replace (- z - - p) with (- (z - p)) by ring. replace (- y - - p) with (- (y - p)) by ring. rewrite !Rabs_Ropp. exact H. }
    rewrite rnd_opp in X. lra.
Qed.
Lemma pow_scale x r : power_of_two r -> fmt x -> x = 0 \/ b2 (-200) <= Rabs x -> b2 (-200) <= Rabs r <= b2 200 -> rnd (x * r) = x * r.
Proof.
  intros (k & K) F L (B1 & B2). rewrite p2 in K. rewrite K in B1, B2. apply (le_bpow radix2) in B1, B2.
  destruct L as [->|L]; [rewrite Rmult_0_l; apply rnd0|].
  assert (X : rnd (x * b2 k) = x * b2 k).
  { apply rnd_fmt. assert (N : x <> 0). { intros ->. rewrite Rabs_R0 in L. pose proof (bpow_gt_0 radix2 (-200)). lra. }
    assert (M : (-199 <= mag radix2 x)%Z) by (apply mag_ge_bpow; exact L).
    assert (C : cexp radix2 fexp (x * b2 k) = (cexp radix2 fexp x + k)%Z) by (unfold cexp; rewrite mag_mult_bpow by exact N; unfold FLT_exp; lia).
    unfold generic_format. rewrite F at 1. unfold scaled_mantissa. rewrite C. unfold F2R. cbn [Fnum Fexp].
    replace (x * b2 k * b2 (- (cexp radix2 fexp x + k))) with (x * b2 (- cexp radix2 fexp x)).
    - rewrite bpow_plus. ring.
    - rewrite Z.opp_add_distr, bpow_plus, (bpow_opp radix2 k). field. pose proof (bpow_gt_0 radix2 k). lra. }
  unfold Rabs in K. destruct (Rcase_abs r).
  - replace r with (- b2 k) by lra. replace (x * - b2 k) with (- (x * b2 k)) by ring. rewrite rnd_opp, X. reflexivity.
  - rewrite K. exact X.
Qed.

Lemma flux_exact x gamma cd cs r : usual x -> usual gamma -> usual cd -> usual cs -> val cd <> 0 -> val gamma = 0 -> val cd = - val cs ->
  power_of_two (val cs) \/ ~ power_of_two (val (dmul x cs)) -> residual x gamma cd cs r ->
  finite r /\ val r = 0.
Proof.
  intros Ux Ug Ud Us Nd G0 Op H R. destruct (solve_steps x gamma cd cs Ux Ug Ud Us Nd) as (P & s & q & t & S).
  destruct (residual_val _ _ _ _ _ _ _ _ _ S R) as (F & V). split; [exact F|]. rewrite V. rewrite (st_P _ _ _ _ _ _ _ _ S) in H.
  destruct S as [_ _ EP _ _ Es _ _ Eq _ _ Et (BP & _) _ _ _].
  apply usual_or in Ux, Us. destruct Ux as (_ & Lx & _), Us as (_ & [?|Ls] & Bs); [exfalso; lra|].
  assert (FP : fmt P) by (rewrite EP; apply generic_format_round; typeclasses eauto).
  assert (s = - P) as ->.
  { rewrite Es, G0. replace (0 - P) with (- P) by ring. rewrite rnd_opp, (rnd_fmt _ FP). reflexivity. }
  set (c := val cs) in *. set (y := val x) in *. assert (Nc : c <> 0) by lra. rewrite Op in Eq, Et.
  assert (q = rnd (P / c)) as Eq' by (rewrite Eq; f_equal; field; exact Nc).
  assert (T : rnd (q * c) = P).
  { destruct H as [H|H].
    - pose proof (pow_scale y c H (fmt_val _) Lx (conj Ls Bs)) as X. rewrite <- EP in X.
      assert (q = y) as ->; [|auto]. rewrite Eq', X. replace (y * c / c) with y by (field; exact Nc). apply rnd_fmt, fmt_val.
    - destruct BP as [Z|BP].
      + assert (P = 0) as E0 by (rewrite EP, Z; apply rnd0). rewrite Eq', E0. unfold Rdiv. rewrite Rmult_0_l, rnd0, Rmult_0_l. apply rnd0.
      + apply (closer P (y * c)); [|exact H|symmetry; exact EP|].
        * rewrite EP. eapply ge_b2; [apply (rnd_ge _ (-400)); [lia|exact BP]|lia].
        * destruct (round_N_pt radix2 fexp (fun z => negb (Z.even z)) (P / c)) as (_ & NN). specialize (NN y (fmt_val _)). rewrite <- Eq' in NN.
          replace (q * c - P) with ((q - P / c) * c) by (field; exact Nc). replace (y * c - P) with ((y - P / c) * c) by (field; exact Nc).
          rewrite !Rabs_mult. apply Rmult_le_compat_r; [apply Rabs_pos|exact NN]. }
  rewrite Et. replace (q * - c) with (- (q * c)) by ring. rewrite rnd_opp, T. replace (- P + P) with 0 by ring. apply rnd0.
Qed.

(** ** The operator applied to a field that holds the solution *)
Lemma applied_eq h phi p0 p1 c0 c1 g :
  applied h phi p0 p1 c0 c1 g = dadd (dmul (value dbl h phi (iv_add g p0)) c0) (dmul (value dbl h phi (iv_add g p1)) c1).
Proof. reflexivity. Qed.
Lemma solved_residual h phi D S cd cs gamma g r : solved h phi D S cd cs gamma g ->
  r = applied h phi D S cd cs g \/ r = applied h phi S D cs cd g -> residual (value dbl h phi (iv_add g S)) gamma cd cs r.
Proof. intros E [->| ->]; rewrite applied_eq, E; unfold residual; auto. Qed.

Lemma bc_error h phi D S cd cs gamma g r : solved h phi D S cd cs gamma g -> let x := value dbl h phi (iv_add g S) in
  usual x -> usual gamma -> usual cd -> usual cs -> val cd <> 0 ->
  r = applied h phi D S cd cs g \/ r = applied h phi S D cs cd g ->
  finite r /\ Rabs (val r - val gamma) <= powerRZ 2 (-50) * (Rabs (val gamma) + Rabs (val x * val cs)).
Proof. intros E x Ux Ug Ud Us Nd R. apply (solve_error x gamma cd cs r Ux Ug Ud Us Nd). exact (solved_residual _ _ _ _ _ _ _ _ _ E R). Qed.
Lemma bc_half h phi D S cd cs gamma g r : solved h phi D S cd cs gamma g -> let x := value dbl h phi (iv_add g S) in
  usual x -> usual gamma -> cd = d_half -> cs = d_half ->
  r = applied h phi D S cd cs g \/ r = applied h phi S D cs cd g ->
  finite r /\ Rabs (val r - val gamma) <= powerRZ 2 (-51) * Rabs (val gamma) + powerRZ 2 (-53) * Rabs (val x).
Proof.
  intros E x Ux Ug -> -> R. destruct half_val as (Fh & Vh). change (b2 (-1)) with (/ 2) in Vh.
  exact (half_error x gamma d_half d_half r Ux Ug Fh Fh Vh Vh (solved_residual _ _ _ _ _ _ _ _ _ E R)).
Qed.
Lemma bc_half_exact h phi D S cd cs gamma g r : solved h phi D S cd cs gamma g -> let x := value dbl h phi (iv_add g S) in
  usual x -> usual gamma -> cd = d_half -> cs = d_half ->
  val gamma = 0 \/ val x = 0 \/ (0 <= val gamma * val x /\ Rabs (val gamma) <= Rabs (val x) <= 4 * Rabs (val gamma)) ->
  r = applied h phi D S cd cs g \/ r = applied h phi S D cs cd g ->
  finite r /\ val r = val gamma.
Proof.
  intros E x Ux Ug -> -> H R. destruct half_val as (Fh & Vh). change (b2 (-1)) with (/ 2) in Vh.
  exact (half_exact_bc x gamma d_half d_half r Ux Ug Fh Fh Vh Vh (solved_residual _ _ _ _ _ _ _ _ _ E R) H).
Qed.
Lemma bc_flux h phi D S cd cs gamma g r : solved h phi D S cd cs gamma g -> let x := value dbl h phi (iv_add g S) in
  usual x -> usual cd -> usual cs -> val cd <> 0 -> finite gamma -> val gamma = 0 -> val cd = - val cs ->
  power_of_two (val cs) \/ ~ power_of_two (val (dmul x cs)) ->
  r = applied h phi D S cd cs g \/ r = applied h phi S D cs cd g ->
  finite r /\ val r = 0.
Proof.
  intros E x Ux Ud Us Nd Fg G0 Op H R.
  apply (flux_exact x gamma cd cs r Ux); auto; [|exact (solved_residual _ _ _ _ _ _ _ _ _ E R)].
  unfold usual. rewrite G0, Rabs_R0, !p2. split; [exact Fg|]. split; [auto|apply bpow_ge_0].
Qed.

(** ** The coefficients that build_stencils registers *)
Lemma opp_vals c : finite c -> finite (dopp c) /\ val (dopp c) = - val c.
Proof. intros F. split; [unfold finite, dopp; rewrite is_finite_Bopp; exact F|apply B2R_Bopp]. Qed.
Lemma registered_coefs n Lx Ly Lz t s d b : In (t, s, d, b) (build_stencils64 n Lx Ly Lz) ->
  forall p0 p1 c, b = StencilOp (p0, [p1]) c -> exists c0 c1, c = (c0, [c1]) /\
    match t with Interpolant | InterpolantD _ => c0 = d_half /\ c1 = d_half | _ => c0 = dopp c1 end.
Proof.
  intros I p0 p1 c E. pose proof (build_kind64 n Lx Ly Lz _ _ _ _ I) as K. destruct one_val as (F1 & V1), half_val as (F2 & V2).
  destruct K as [s d D|s d D|s d D|t s d e T D N|s|s e|s e]; try discriminate E;
    match type of E with StencilOp ?a ?b = StencilOp ?x ?y => assert (b = y) as <- by (injection E; auto); assert (EP : a = x) by (injection E; intros; f_equal; auto; congruence) end; clear E;
    cbn [make_coefs64 coefHalf coefQuarter coefD coefHalfD]; unfold two_point_coefs.
  - do 2 eexists. split; [reflexivity|]. auto.
  - do 2 eexists. split; [reflexivity|]. destruct T as [-> | ->]; (apply ddiv_opp_l; [exact F1|rewrite V1; lra]).
  - do 2 eexists. split; [reflexivity|]. auto.
  - do 2 eexists. split; [reflexivity|]. apply ddiv_opp_l; [exact F2|rewrite V2; cbn; lra].
Qed.
