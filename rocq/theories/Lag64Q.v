(** Proofs about Lagrange interpolation in double precision: rounding errors. *)
From Coq Require Import Reals Lra Lia Psatz.
From Flocq Require Import Core.
From Verif Require Import Prelude StencilM RoundM RoundS RoundP RoundQ RoundT RedM HeatM Cmp64M Cmp64S Cmp64P Part64Q Lag64M Lag64S Lag64A Lag64P.
Open Scope R_scope.

(** ** Relative errors *)
Definition g : R := 1 + 2 * u.
Lemma g_gt1 : 1 < g. Proof. pose proof u_pos. unfold g. lra. Qed.
Lemma g_pow n : 1 <= g ^ n. Proof. apply pow_R1_Rle. pose proof g_gt1. lra. Qed.
Lemma g_mono n m : (n <= m)%nat -> g ^ n <= g ^ m.
Proof. intros L. apply Rle_pow; [pose proof g_gt1; lra|exact L]. Qed.
Lemma g_le n : INR n * (4 * u) <= 1 -> g ^ n <= 1 + INR n * (4 * u).
Proof.
  pose proof u_pos as Up. induction n as [|n IH]; cbn [pow]; [cbn; lra|]. rewrite S_INR. intros H.
  assert (Hn : 0 <= INR n) by apply pos_INR. specialize (IH ltac:(nra)). unfold g at 1.
  eapply Rle_trans; [apply Rmult_le_compat_l; [lra|exact IH]|]. set (x := INR n) in *. nra.
Qed.
Lemma g_two n : INR n <= 10000 -> g ^ n <= 1 + INR n * (4 * u) /\ g ^ n <= 2.
Proof.
  intros L. pose proof u_pos. pose proof u_small. assert (Hn : 0 <= INR n) by apply pos_INR.
  assert (K : INR n * (4 * u) <= 1) by nra. pose proof (g_le n K). lra.
Qed.

(** r is e up to n roundings. *)
Definition near (n : nat) (r e : R) : Prop := exists t, / g ^ n <= t <= g ^ n /\ r = e * t.
Lemma near_refl e : near 0 e e.
Proof. exists 1. cbn. lra. Qed.
Lemma ginv n : 0 < / g ^ n <= 1.
Proof. pose proof (g_pow n). split; [apply Rinv_0_lt_compat; lra|]. rewrite <- Rinv_1. apply Rinv_le_contravar; lra. Qed.
Lemma near_mono n m r e : (n <= m)%nat -> near n r e -> near m r e.
Proof.
  intros L (t & T & E). exists t. split; [|exact E]. pose proof (g_mono n m L). pose proof (g_pow n).
  split; [|lra]. eapply Rle_trans; [|apply T]. apply Rinv_le_contravar; lra.
Qed.
Lemma near_mul n m r e s f : near n r e -> near m s f -> near (n + m) (r * s) (e * f).
Proof.
  intros (t & T & ->) (t' & T' & ->). exists (t * t'). split; [|ring]. pose proof (ginv n). pose proof (ginv m).
  rewrite pow_add, Rinv_mult. split; [apply Rmult_le_compat; lra|apply Rmult_le_compat; lra].
Qed.
Lemma near_inv n s f : f <> 0 -> near n s f -> s <> 0 /\ near n (/ s) (/ f).
Proof.
  intros F (t & T & ->). pose proof (ginv n). assert (0 < t) by lra. split; [apply Rmult_integral_contrapositive; split; lra|].
  exists (/ t). split; [|field; lra]. split; [apply Rinv_le_contravar; lra|]. rewrite <- (Rinv_inv (g ^ n)).
  apply Rinv_le_contravar; lra.
Qed.
Lemma near_one e r : Rabs e <= u -> near 1 (r * (1 + e)) r.
Proof.
  intros H. exists (1 + e). split; [|reflexivity]. apply Rabs_le_inv in H. pose proof u_pos. pose proof u_small.
  rewrite pow_1. unfold g. split; [|lra]. apply (Rmult_le_reg_l (1 + 2 * u)); [lra|]. rewrite Rinv_r by lra. nra.
Qed.
Lemma near_minus x y : fmt x -> fmt y -> near 1 (rnd (x - y)) (x - y).
Proof.
  intros Fx Fy. destruct (plus_eps x (- y) Fx (generic_format_opp _ _ _ Fy)) as (e & He & E).
  unfold Rminus. rewrite E. apply near_one, He.
Qed.
Lemma near_rnd n r e : near n r e -> (r = 0 \/ b2 (-1022) <= Rabs r) -> near (S n) (rnd r) e.
Proof.
  intros Nr [->|L].
  - rewrite round_0 by typeclasses eauto. apply (near_mono n); [lia|exact Nr].
  - destruct (rel_eps r L) as (d & Hd & ->). replace (S n) with (n + 1)%nat by lia. destruct (near_one d 1 Hd) as (t' & T' & E').
    destruct Nr as (t & T & ->). exists (t * t'). replace (1 * (1 + d)) with (1 + d) in E' by ring. rewrite E'. split; [|ring].
    pose proof (ginv n). pose proof (ginv 1). rewrite pow_add, Rinv_mult. split; apply Rmult_le_compat; lra.
Qed.
Lemma near_abs n r e : near n r e -> Rabs e / g ^ n <= Rabs r <= g ^ n * Rabs e.
Proof.
  intros (t & T & ->). pose proof (ginv n). rewrite Rabs_mult, (Rabs_pos_eq t) by lra. pose proof (Rabs_pos e). unfold Rdiv. nra.
Qed.

(** r is e up to n roundings of quantities that are at most A in all. *)
Definition close (n : nat) (r e A : R) : Prop := Rabs (r - e) <= (g ^ n - 1) * A /\ Rabs e <= A.
Lemma close_mono n m r e A : (n <= m)%nat -> close n r e A -> close m r e A.
Proof. intros L (H & K). split; [|exact K]. pose proof (g_mono n m L). pose proof (Rabs_pos e). nra. Qed.
Lemma near_close n r e : near n r e -> close n r e (Rabs e).
Proof.
  intros (t & T & ->). split; [|lra]. replace (e * t - e) with (e * (t - 1)) by ring. rewrite Rabs_mult, Rmult_comm.
  apply Rmult_le_compat_r; [apply Rabs_pos|]. apply Rabs_le. split; [|lra]. pose proof (g_pow n).
  assert (2 - g ^ n <= / g ^ n); [|lra]. apply (Rmult_le_reg_l (g ^ n)); [lra|]. rewrite Rinv_r by lra. nra.
Qed.
Lemma close_abs n r e A : close n r e A -> Rabs r <= g ^ n * A.
Proof. intros (H & K). pose proof (Rabs_triang (r - e) e) as T. replace (r - e + e) with r in T by ring. lra. Qed.
Lemma close_add n s e A p f B : fmt s -> fmt p -> close n s e A -> close n p f B -> close (S n) (rnd (s + p)) (e + f) (A + B).
Proof.
  intros Fs Fp (H1 & K1) (H2 & K2). destruct (plus_eps s p Fs Fp) as (d & Hd & ->). pose proof (g_pow n) as G. pose proof u_pos as Up.
  assert (KA : Rabs (e + f) <= A + B) by (eapply Rle_trans; [apply Rabs_triang|lra]). split; [|exact KA].
  replace ((s + p) * (1 + d) - (e + f)) with ((s - e) * (1 + d) + (p - f) * (1 + d) + (e + f) * d) by ring.
  assert (D : Rabs (1 + d) <= 1 + u) by (apply Rabs_le_inv in Hd; apply Rabs_le; lra).
  eapply Rle_trans; [apply Rabs_triang|]. eapply Rle_trans; [apply Rplus_le_compat_r, Rabs_triang|]. rewrite !Rabs_mult.
  pose proof (Rabs_pos e). pose proof (Rabs_pos f).
  apply Rle_trans with ((g ^ n - 1) * A * (1 + u) + (g ^ n - 1) * B * (1 + u) + (A + B) * u).
  - apply Rplus_le_compat; [apply Rplus_le_compat|]; apply Rmult_le_compat; try assumption; apply Rabs_pos.
  - cbn [pow]. unfold g at 3. assert (0 <= u * g ^ n * (A + B)) by (apply Rmult_le_pos; [nra|lra]). nra.
Qed.
Lemma close_scale n r e A y : close n r e A -> close n (y * r) (y * e) (Rabs y * A).
Proof.
  intros (H & K). pose proof (Rabs_pos y). split; [|rewrite Rabs_mult; apply Rmult_le_compat_l; assumption].
  replace (y * r - y * e) with (y * (r - e)) by ring. rewrite Rabs_mult. nra.
Qed.
Lemma close_div n m r e A s f : close n r e A -> near m s f -> f <> 0 -> close (n + m) (r / s) (e / f) (A / Rabs f).
Proof.
  intros C Nf F. destruct (near_inv m s f F Nf) as (S0 & t & T & E). pose proof (close_abs n r e A C) as CA. destruct C as (H & K).
  assert (FP : 0 < / Rabs f) by (apply Rinv_0_lt_compat, Rabs_pos_lt, F). unfold Rdiv. rewrite E. split.
  - replace (r * (/ f * t) - e * / f) with ((r * (t - 1) + (r - e)) * / f) by ring. rewrite Rabs_mult, Rabs_inv.
    rewrite <- Rmult_assoc. apply Rmult_le_compat_r; [lra|]. eapply Rle_trans; [apply Rabs_triang|]. rewrite Rabs_mult.
    assert (D : Rabs (t - 1) <= g ^ m - 1).
    { apply Rabs_le. split; [|lra]. pose proof (g_pow m). assert (2 - g ^ m <= / g ^ m); [|lra].
      apply (Rmult_le_reg_l (g ^ m)); [lra|]. rewrite Rinv_r by lra. nra. }
    apply Rle_trans with (g ^ n * A * (g ^ m - 1) + (g ^ n - 1) * A); [|rewrite pow_add; right; ring].
    apply Rplus_le_compat; [apply Rmult_le_compat; try assumption; apply Rabs_pos|exact H].
  - rewrite Rabs_mult, Rabs_inv. apply Rmult_le_compat_r; lra.
Qed.
Lemma close_rnd n r e A : close n r e A -> (A = 0 \/ b2 (-1022) <= A) -> close (S n) (rnd r) e A.
Proof.
  intros C D. pose proof (close_abs n r e A C) as CA. destruct C as (H & K). split; [|exact K]. destruct D as [->|D].
  - rewrite Rmult_0_r in *. assert (r = 0) by (pose proof (Rabs_pos r); destruct (Req_dec r 0); [assumption|pose proof (Rabs_pos_lt r); lra]).
    assert (e = 0) by (destruct (Req_dec e 0); [assumption|pose proof (Rabs_pos_lt e); lra]). subst. rewrite round_0 by typeclasses eauto.
    rewrite Rminus_0_r, Rabs_R0. lra.
  - pose proof (abs_eps r) as AE. pose proof (g_pow n) as G. pose proof u_pos as Up.
    assert (Eta : b2 (-1075) <= u * A).
    { replace (-1075)%Z with (-53 + -1022)%Z by lia. rewrite bpow_plus. apply Rmult_le_compat_l; [apply bpow_ge_0|exact D]. }
    replace (rnd r - e) with ((rnd r - r) + (r - e)) by ring. eapply Rle_trans; [apply Rabs_triang|].
    apply Rle_trans with (u * (g ^ n * A) + u * A + (g ^ n - 1) * A); [nra|]. cbn [pow]. unfold g at 3.
    assert (0 <= A) by (pose proof (bpow_ge_0 radix2 (-1022)); lra).
    assert (0 <= u * (g ^ n - 1) * A) by (apply Rmult_le_pos; [nra|assumption]). nra.
Qed.
