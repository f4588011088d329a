(** Proofs about the norm of a field of doubles. *)
From Coq Require Import Reals Lra Lia Psatz Permutation.
From Flocq Require Import Core.
From Verif Require Import Prelude WindowM WindowS GhostM FieldM FieldS MaskM NeboM NeboS NeboD NeboF IterP RoundM RoundS RoundP RoundQ RoundT RoundU RoundV RedM RedS RedP.
Open Scope R_scope.

Lemma dsqrt_val x : finite x -> 0 <= val x -> finite (dsqrt x) /\ val (dsqrt x) = rnd (sqrt (val x)).
Proof.
  intros F P. destruct (Bsqrt_correct 53 1024 d_prec d_emax mode_NE x) as (V & Fi & _). unfold dsqrt, finite, val in *. split; [|exact V].
  rewrite Fi. destruct x as [| | |[] m e B]; try discriminate F; try reflexivity. exfalso. revert P. cbn [B2R]. intros P.
  assert (F2R (Float radix2 (cond_Zopp true (Zpos m)) e) < 0) by (apply F2R_lt_0; cbn; lia). lra.
Qed.
Lemma sqrt_close T S0 c : 0 < T -> 0 <= S0 -> Rabs (S0 - T) <= c * T -> Rabs (sqrt S0 - sqrt T) <= c * sqrt T.
Proof.
  intros Tp Sp H. pose proof (sqrt_lt_R0 T Tp) as Q. pose proof (sqrt_pos S0) as Q0.
  assert (E : S0 - T = (sqrt S0 - sqrt T) * (sqrt S0 + sqrt T)).
  { replace ((sqrt S0 - sqrt T) * (sqrt S0 + sqrt T)) with (sqrt S0 * sqrt S0 - sqrt T * sqrt T) by ring. rewrite !sqrt_sqrt by lra. reflexivity. }
  rewrite E, Rabs_mult, (Rabs_pos_eq (sqrt S0 + sqrt T)) in H by lra.
  apply (Rmult_le_reg_r (sqrt T)); [exact Q|]. pose proof (Rabs_pos (sqrt S0 - sqrt T)).
  replace (c * sqrt T * sqrt T) with (c * T) by (rewrite <- (sqrt_sqrt T) at 1 by lra; ring).
  eapply Rle_trans; [|exact H]. apply Rmult_le_compat_l; lra.
Qed.

Section Norm.
Variables (pow2 : dbl -> dbl) (Hp : square_ok pow2).
Definition in_range (x : dbl) : Prop := finite x /\ (val x = 0 \/ powerRZ 2 (-500) <= Rabs (val x)) /\ Rabs (val x) <= powerRZ 2 500.
Definition sumsq (l : list dbl) : R := rsum (map (fun x => val x * val x) l).
Lemma sumsq_pos l : 0 <= sumsq l.
Proof. unfold sumsq. induction l as [|x l IH]; cbn; [lra|]. pose proof (Rle_0_sqr (val x)). unfold Rsqr in *. lra. Qed.

Lemma squares l : Forall in_range l ->
  Forall finite (map pow2 l) /\ rabs_sum (map pow2 l) = rsum (map val (map pow2 l)) /\
  Rabs (rsum (map val (map pow2 l)) - sumsq l) <= 2 * u * sumsq l.
Proof.
  unfold sumsq. induction 1 as [|x l (F & T & B) Fl (I1 & I2 & I3)]; cbn [map rsum rabs_sum].
  - split; [constructor|]. split; [reflexivity|]. rewrite Rminus_0_r, Rabs_R0. lra.
  - destruct (proj2 Hp x F T) as [Fs Es].
    { eapply Rle_trans; [exact B|]. rewrite !p2. apply bpow_le. lia. }
    rewrite two52 in Es. pose proof (Rle_0_sqr (val x)) as Sx. unfold Rsqr in Sx. pose proof u_pos. pose proof u_small.
    split; [constructor; assumption|]. split.
    + rewrite I2, Rabs_pos_eq; [reflexivity|]. apply Rabs_le_inv in Es. nra.
    + set (S := rsum (map val (map pow2 l))) in *. set (T0 := rsum (map (fun x => val x * val x) l)) in *.
      replace (val (pow2 x) + S - (val x * val x + T0)) with ((val (pow2 x) - val x * val x) + (S - T0)) by ring.
      eapply Rle_trans; [apply Rabs_triang|]. lra.
Qed.

Lemma sumsq_zero_or l : Forall in_range l -> (sumsq l = 0) \/ powerRZ 2 (-1000) <= sumsq l.
Proof.
  unfold sumsq. induction 1 as [|x l (F & T & B) Fl IH]; cbn [map rsum]; [left; reflexivity|].
  pose proof (sumsq_pos l) as P. unfold sumsq in P. rewrite !p2 in *. destruct T as [Z|T].
  - rewrite Z. destruct IH as [-> | IH]; [left; lra|right; lra].
  - right. assert (bpow radix2 (-1000) <= val x * val x); [|lra].
    replace (val x * val x) with (Rabs (val x) * Rabs (val x)) by (rewrite <- Rabs_mult; apply Rabs_pos_eq; nra).
    change (-1000)%Z with (-500 + -500)%Z. rewrite bpow_plus. apply Rmult_le_compat; try apply bpow_ge_0; exact T.
Qed.

Lemma norm_list x l : Forall in_range (x :: l) -> INR (length (x :: l)) <= powerRZ 2 51 -> sumsq (x :: l) <= powerRZ 2 1020 ->
  let r := dsqrt (fold_left dadd (map pow2 l) (pow2 x)) in
  finite r /\ Rabs (val r - sqrt (sumsq (x :: l))) <= (INR (length (x :: l)) + 2) * powerRZ 2 (-52) * sqrt (sumsq (x :: l)).
Proof.
  intros F L B. destruct (squares _ F) as (Fs & As & Es). pose proof (sumsq_zero_or _ F) as Z. pose proof (sumsq_pos (x :: l)) as TP.
  set (T := sumsq (x :: l)) in *. rewrite two52. rewrite !p2 in *. cbn [map length] in *. set (n := length l) in *.
  inversion Fs as [|? ? F0 Fl]; subst. pose proof u_pos as Up. pose proof u_small as Us. pose proof (pos_INR n) as Pn. rewrite S_INR in *.
  assert (Nu : (INR n + 1) * u <= / 4).
  { apply Rle_trans with (bpow radix2 51 * u); [apply Rmult_le_compat_r; lra|]. unfold u. rewrite <- bpow_plus. cbn. lra. }
  assert (Lu : INR n * u <= / 2) by nra. assert (P0 : 0 <= INR n * u) by nra.
  pose proof (pow_u_lin _ Lu) as P. pose proof (pow_u_ge n) as G.
  cbn [rabs_sum] in As. set (A := Rabs (val (pow2 x)) + rabs_sum (map pow2 l)) in *.
  rewrite <- As in Es. apply Rabs_le_inv in Es. assert (A0 : 0 <= A <= (1 + 2 * u) * T).
  { split; [|lra]. rewrite As in *. unfold A in As. rewrite <- As. pose proof (Rabs_pos (val (pow2 x))). pose proof (rabs_sum_pos (map pow2 l)). unfold A. lra. }
  destruct (sum_error (map pow2 l) (pow2 x) F0 Fl) as [FS ES].
  { rewrite map_length. fold n A. apply Rle_trans with (2 * (4 * bpow radix2 1020)); [apply Rmult_le_compat; nra|].
    change 1023%Z with (3 + 1020)%Z. rewrite bpow_plus. change (bpow radix2 3) with 8. lra. }
  rewrite map_length in ES. fold n A in ES. cbn [map rsum] in As. rewrite <- As in ES. set (S0 := fold_left dadd (map pow2 l) (pow2 x)) in *.
  set (eta := 3 / 2 * (INR n * u) + 4 * u).
  assert (D : Rabs (val S0 - T) <= eta * T).
  { replace (val S0 - T) with ((val S0 - A) + (A - T)) by ring. eapply Rle_trans; [apply Rabs_triang|].
    assert (Rabs (A - T) <= 2 * u * T) by (apply Rabs_le; lra).
    assert (((1 + u) ^ n - 1) * A <= 3 / 2 * (INR n * u) * ((1 + 2 * u) * T)) by (apply Rmult_le_compat; lra).
    assert (3 / 2 * (INR n * u) * (2 * u * T) <= 2 * u * T).
    { assert (0 <= u * T) by nra. assert (3 / 2 * (INR n * u) <= 1) by lra. nra. }
    unfold eta. nra. }
  assert (eta0 : 0 <= eta <= / 2) by (unfold eta; nra).
  assert (Sp : 0 <= val S0). { apply Rabs_le_inv in D. nra. }
  destruct (dsqrt_val S0 FS Sp) as [Fr Vr]. split; [exact Fr|]. rewrite Vr.
  destruct Z as [Z|Z].
  - rewrite Z in *. rewrite Rmult_0_r in D. assert (val S0 = 0) by (apply Rabs_le_inv in D; lra).
    rewrite H, sqrt_0, round_0 by apply valid_rnd_N. rewrite Rminus_0_r, Rabs_R0. lra.
  - assert (Tp : 0 < T) by (pose proof (bpow_gt_0 radix2 (-1000)); lra). pose proof (sqrt_lt_R0 T Tp) as Q.
    pose proof (sqrt_close T (val S0) eta Tp Sp D) as C.
    destruct (rel_eps (sqrt (val S0))) as (e & Be & Ee).
    { rewrite Rabs_pos_eq by apply sqrt_pos. apply Rle_trans with (bpow radix2 (-501)); [apply bpow_le; lia|].
      rewrite <- (sqrt_Rsqr (bpow radix2 (-501))) by apply bpow_ge_0. apply sqrt_le_1_alt. unfold Rsqr. rewrite <- bpow_plus.
      change (-501 + -501)%Z with (-2 + -1000)%Z. rewrite bpow_plus. change (bpow radix2 (-2)) with (/ 4). apply Rabs_le_inv in D. nra. }
    rewrite Ee. replace (sqrt (val S0) * (1 + e) - sqrt T) with ((sqrt (val S0) - sqrt T) + sqrt (val S0) * e) by ring.
    eapply Rle_trans; [apply Rabs_triang|]. rewrite Rabs_mult, (Rabs_pos_eq (sqrt (val S0))) by apply sqrt_pos.
    assert (sqrt (val S0) <= 2 * sqrt T) by (apply Rabs_le_inv in C; nra). pose proof (sqrt_pos (val S0)). pose proof (Rabs_pos e).
    assert (sqrt (val S0) * Rabs e <= 2 * sqrt T * u) by (apply Rmult_le_compat; lra).
    unfold eta in *. assert (0 <= u * sqrt T) by nra. assert (0 <= INR n * u * sqrt T) by nra. nra.
Qed.

Lemma norm_list_nan x l : In NaN (x :: l) -> dsqrt (fold_left dadd (map pow2 l) (pow2 x)) = NaN.
Proof.
  intros I. rewrite fold_nan; [reflexivity|]. destruct I as [->|I]; [left; apply (proj1 Hp)|right].
  rewrite <- (proj1 Hp). apply in_map. exact I.
Qed.

Lemma norm_runs i n h e : reducible i n h e -> exists p0 rest, lists_in_order (covered i n e) (p0 :: rest) /\
  returns (fun fuel => norm64 pow2 i fuel e) h
    (dsqrt (fold_left dadd (map pow2 (map (fun p => den64 h e p) rest)) (pow2 (den64 h e p0)))).
Proof.
  intros R. assert (R' : reducible i n h (EOp1 dbl pow2 e)) by exact R.
  destruct (reduce_list i n h _ R') as (N & p0 & rest & Ls & Rn). exists p0, rest. split; [destruct i; exact Ls|].
  exists N. intros fuel Hf. specialize (Rn dadd fuel Hf). rewrite map_map. unfold norm64.
  destruct i; cbn [reduce64] in Rn; unfold nebo_norm_interior, nebo_norm, nebo_sum_interior, nebo_sum; rewrite (run_bind dbl _ _ h h _ Rn); reflexivity.
Qed.

Lemma norm_correct i n h e l : reducible i n h e -> each_once (covered i n e) l ->
  (forall p, covered i n e p -> finite (den64 h e p) /\ (val (den64 h e p) = 0 \/ powerRZ 2 (-500) <= Rabs (val (den64 h e p))) /\
     Rabs (val (den64 h e p)) <= powerRZ 2 500) ->
  INR (length l) <= powerRZ 2 51 -> rsum (map (fun p => val (den64 h e p) * val (den64 h e p)) l) <= powerRZ 2 1020 ->
  exists r, returns (fun fuel => norm64 pow2 i fuel e) h r /\ finite r /\
    let exact := sqrt (rsum (map (fun p => val (den64 h e p) * val (den64 h e p)) l)) in
    Rabs (val r - exact) <= (INR (length l) + 2) * powerRZ 2 (-52) * exact.
Proof.
  intros R Ol F L B. destruct (norm_runs i n h e R) as (p0 & rest & Ls & Rn).
  pose proof (once_perm _ _ _ (in_order_once _ _ Ls) Ol) as Pm. cbv zeta.
  rewrite <- (rsum_perm _ _ (Permutation_map (fun p => val (den64 h e p) * val (den64 h e p)) Pm)) in *. rewrite <- (Permutation_length Pm) in *.
  rewrite <- (map_map (fun p => den64 h e p) (fun x => val x * val x)) in *. rewrite <- (map_length (fun p => den64 h e p)) in *.
  eexists. split; [exact Rn|]. apply norm_list; [|exact L|exact B].
  change (den64 h e p0 :: map (fun p => den64 h e p) rest) with (map (fun p => den64 h e p) (p0 :: rest)).
  apply Forall_map, Forall_forall. intros p I. apply F, (proj1 Ls), I.
Qed.
Lemma norm_nan i n h e p : reducible i n h e -> covered i n e p -> den64 h e p = NaN -> returns (fun fuel => norm64 pow2 i fuel e) h NaN.
Proof.
  intros R C E. destruct (norm_runs i n h e R) as (p0 & rest & Ls & Rn). rewrite norm_list_nan in Rn; [exact Rn|].
  apply (proj1 Ls) in C. rewrite <- E. change (den64 h e p0 :: map (fun p => den64 h e p) rest) with (map (fun p => den64 h e p) (p0 :: rest)).
  apply (in_map (fun p => den64 h e p)). exact C.
Qed.
End Norm.

(** Multiplying is one such pow. *)
Lemma dmul_square : square_ok (fun x => dmul x x).
Proof.
  split; [reflexivity|]. intros x F T B. rewrite two52, !p2 in *. pose proof u_pos as Up. pose proof (Rle_0_sqr (val x)) as Sx. unfold Rsqr in Sx.
  assert (Sq : val x * val x = Rabs (val x) * Rabs (val x)) by (rewrite <- Rabs_mult; symmetry; apply Rabs_pos_eq; exact Sx).
  assert (L : Rabs (val x * val x) <= bpow radix2 1022).
  { rewrite Rabs_pos_eq, Sq by exact Sx. change 1022%Z with (511 + 511)%Z. rewrite bpow_plus. apply Rmult_le_compat; try apply Rabs_pos; exact B. }
  destruct (dmul_val x x F F) as [Fm Vm].
  { apply Rle_lt_trans with (bpow radix2 1022); [apply rnd_abs_bpow; [lia|exact L]|apply bpow_lt; lia]. }
  split; [exact Fm|]. rewrite Vm. destruct T as [Z|T].
  - rewrite Z, Rmult_0_l, round_0 by apply valid_rnd_N. rewrite Rminus_0_r, Rabs_R0. lra.
  - destruct (rel_eps (val x * val x)) as (e & Be & Ee).
    { rewrite Rabs_pos_eq, Sq by exact Sx. apply Rle_trans with (bpow radix2 (-500 + -500)); [apply bpow_le; lia|].
      rewrite bpow_plus. apply Rmult_le_compat; try apply bpow_ge_0; exact T. }
    rewrite Ee. replace (val x * val x * (1 + e) - val x * val x) with (e * (val x * val x)) by ring. rewrite Rabs_mult, (Rabs_pos_eq (val x * val x)) by exact Sx.
    apply Rmult_le_compat_r; lra.
Qed.
