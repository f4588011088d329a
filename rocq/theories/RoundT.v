(** Differences, accuracy and NaN for the registered operators in double precision. *)
From Coq Require Import Reals Lra Lia Psatz Permutation.
From Flocq Require Import Core Relative Mult_error Plus_error.
From Verif Require Import Prelude WindowM GhostM FieldM FieldS MaskM NeboM NeboS NeboF StencilM StencilS StencilP StencilQ RoundM RoundS RoundP RoundQ RoundR.
Open Scope R_scope.

Definition u : R := bpow radix2 (-53).
Lemma u_pos : 0 < u. Proof. apply bpow_gt_0. Qed.
Lemma u_small : u <= / 1000000. Proof. unfold u. cbn. lra. Qed.
Lemma u_half : / 2 * bpow radix2 (- (53) + 1) = u.
Proof. unfold u. cbn. lra. Qed.
Lemma plus_eps x y : fmt x -> fmt y -> exists e, Rabs e <= u /\ rnd (x + y) = (x + y) * (1 + e).
Proof.
  intros Fx Fy. destruct (FLT_plus_error_N_ex radix2 (-1074) 53 (fun z => negb (Z.even z)) x y Fx Fy) as (e & Be & E).
  exists e. split; [|exact E]. eapply Rle_trans; [exact Be|]. unfold u_ro. rewrite u_half. pose proof u_pos.
  apply (Rmult_le_reg_r (1 + u)); [lra|]. unfold Rdiv. rewrite Rmult_assoc, Rinv_l by lra. nra.
Qed.
Lemma rel_eps x : bpow radix2 (-1022) <= Rabs x -> exists e, Rabs e <= u /\ rnd x = x * (1 + e).
Proof.
  intros L. destruct (relative_error_N_FLT_ex radix2 (-1074) 53 ltac:(lia) (fun z => negb (Z.even z)) x L) as (e & Be & E).
  exists e. split; [|exact E]. rewrite u_half in Be. exact Be.
Qed.
Lemma abs_eps x : Rabs (rnd x - x) <= u * Rabs x + bpow radix2 (-1075).
Proof.
  destruct (error_N_FLT radix2 (-1074) 53 ltac:(lia) (fun z => negb (Z.even z)) x) as (e & eta & Be & Bt & _ & E).
  rewrite E. replace (x * (1 + e) + eta - x) with (e * x + eta) by ring. rewrite u_half in Be.
  replace (/ 2 * bpow radix2 (-1074)) with (bpow radix2 (-1075)) in Bt.
  - eapply Rle_trans; [apply Rabs_triang|]. rewrite Rabs_mult. apply Rplus_le_compat; [|exact Bt]. apply Rmult_le_compat_r; [apply Rabs_pos|exact Be].
  - change (-1074)%Z with (-1075 + 1)%Z. rewrite bpow_plus. cbn [bpow]. cbn. lra.
Qed.
Lemma dadd_fin x y : finite x -> finite y -> finite (dadd x y) -> val (dadd x y) = rnd (val x + val y).
Proof.
  intros Fx Fy F. pose proof (Bplus_correct 53 1024 d_prec d_emax mode_NE x y Fx Fy) as C.
  change (Bplus mode_NE x y) with (dadd x y) in *. destruct (Rlt_bool _ _).
  - destruct C as (V & _). exact V.
  - destruct C as (C & _). apply overflow_inf in C. rewrite C in F. discriminate.
Qed.
Lemma ddiv_fin x y : finite x -> val y <> 0 -> finite (ddiv x y) -> val (ddiv x y) = rnd (val x / val y).
Proof.
  intros Fx Ny F. pose proof (Bdiv_correct 53 1024 d_prec d_emax mode_NE x y Ny) as C.
  change (Bdiv mode_NE x y) with (ddiv x y) in *. destruct (Rlt_bool _ _).
  - destruct C as (V & _). exact V.
  - apply overflow_inf in C. rewrite C in F. discriminate.
Qed.
Lemma val_nz x : finite x -> val x <> 0 -> exists s m e B, x = B754_finite s m e B.
Proof. destruct x; try discriminate; intros _ N; [destruct (N eq_refl)|eauto]. Qed.

(** ** The reciprocal of the spacing is not negative *)
Lemma count_val k : (1 <= k < 2 ^ 32)%Z -> finite (dlit k 0) /\ 1 <= val (dlit k 0).
Proof.
  intros H. pose proof (binary_normalize_correct 53 1024 d_prec d_emax mode_NE k 0 false) as C. cbv zeta in C.
  fold (dlit k 0) in C. change (SpecFloat.fexp 53 1024) with fexp in *. change (round_mode mode_NE) with ZnearestE in *.
  assert (E : F2R (Float radix2 k 0) = IZR k) by (unfold F2R; cbn; lra). rewrite E in C.
  assert (L1 : 1 <= IZR k) by (apply IZR_le; lia).
  assert (L2 : IZR k <= bpow radix2 32) by (change (bpow radix2 32) with (IZR (2 ^ 32)); apply IZR_le; lia).
  assert (B : 1 <= rnd (IZR k) <= bpow radix2 32).
  { split; [apply rnd_ge_fmt; [change 1 with (bpow radix2 0); apply fmt_bpow; lia|exact L1]|apply rnd_le_fmt; [apply fmt_bpow; lia|exact L2]]. }
  rewrite Rlt_bool_true in C.
  - destruct C as (V & F & _). split; [exact F|]. unfold val. rewrite V. lra.
  - rewrite Rabs_pos_eq by lra. apply Rle_lt_trans with (1 := proj2 B). apply bpow_lt. lia.
Qed.
Lemma spacing_nonneg n Lx Ly Lz e : counts_ok n ->
  finite Lx -> finite Ly -> finite Lz -> 0 < val Lx -> 0 < val Ly -> 0 < val Lz ->
  finite (spacing64 n Lx Ly Lz e) /\ 0 <= val (spacing64 n Lx Ly Lz e).
Proof.
  intros Cn Fx Fy Fz Px Py Pz.
  assert (G : forall L k, finite L -> 0 < val L -> (1 <= k < 2 ^ 32)%Z -> finite (ddiv L (dlit k 0)) /\ 0 <= val (ddiv L (dlit k 0))).
  { intros L k FL PL Hk. destruct (count_val k Hk) as [Fk Vk].
    assert (Q : 0 <= val L / val (dlit k 0) <= val L).
    { split; [apply Rmult_le_pos; [lra|left; apply Rinv_0_lt_compat; lra]|].
      apply (Rmult_le_reg_r (val (dlit k 0))); [lra|]. unfold Rdiv. rewrite Rmult_assoc, Rinv_l by lra. nra. }
    assert (B : 0 <= rnd (val L / val (dlit k 0)) <= val L).
    { split; [apply rnd_ge_fmt; [apply generic_format_0|lra]|apply rnd_le_fmt; [apply fmt_val|lra]]. }
    destruct (ddiv_val L (dlit k 0) FL ltac:(lra)) as [F V].
    - rewrite Rabs_pos_eq by lra. apply Rle_lt_trans with (1 := proj2 B). pose proof (val_lt L). rewrite Rabs_pos_eq in H by lra. exact H.
    - split; [exact F|rewrite V; lra]. }
  destruct e; cbn [spacing64]; apply G; try assumption; [apply (Cn XDIR)|apply (Cn YDIR)|apply (Cn ZDIR)].
Qed.
Lemma reciprocal_nonneg n Lx Ly Lz t e : counts_ok n ->
  finite Lx -> finite Ly -> finite Lz -> 0 < val Lx -> 0 < val Ly -> 0 < val Lz ->
  finite (reciprocal n Lx Ly Lz t e) -> 0 <= val (reciprocal n Lx Ly Lz t e).
Proof.
  intros Cn Fx Fy Fz Px Py Pz F. destruct (spacing_nonneg n Lx Ly Lz e Cn Fx Fy Fz Px Py Pz) as [Fs Ps].
  unfold reciprocal in *. set (w := match t with GradientD _ => d_half | _ => d_one end) in *.
  assert (W : finite w /\ 0 < val w).
  { destruct one_val as [A B], half_val as [C D]. unfold w. destruct t; (split; [assumption|]); rewrite ?B, ?D; try apply bpow_gt_0; lra. }
  destruct W as [Fw Pw].
  destruct (Req_dec (val (spacing64 n Lx Ly Lz e)) 0) as [Z|N].
  - exfalso. destruct (val_zero _ Fs Z) as (sg & Es). rewrite Es in F. destruct (val_nz w Fw ltac:(lra)) as (s & m & ex & B & Ew). rewrite Ew in F. discriminate F.
  - rewrite (ddiv_fin _ _ Fw N F). apply rnd_ge_fmt; [apply generic_format_0|]. apply Rmult_le_pos; [lra|]. left. apply Rinv_0_lt_compat. lra.
Qed.

(** ** Sums of many terms *)
Fixpoint rabs_sum (l : list dbl) : R := match l with [] => 0 | x :: l => Rabs (val x) + rabs_sum l end.
Lemma rabs_sum_pos l : 0 <= rabs_sum l.
Proof. induction l as [|x l IH]; cbn; [lra|]. pose proof (Rabs_pos (val x)). lra. Qed.
Lemma pow_u_ge n : 1 <= (1 + u) ^ n.
Proof. pose proof u_pos. apply pow_R1_Rle. lra. Qed.
Lemma sum_error l : forall acc, finite acc -> Forall finite l ->
  (1 + u) ^ length l * (Rabs (val acc) + rabs_sum l) <= bpow radix2 1023 ->
  finite (fold_left dadd l acc) /\
  Rabs (val (fold_left dadd l acc) - (val acc + rsum (map val l))) <= ((1 + u) ^ length l - 1) * (Rabs (val acc) + rabs_sum l).
Proof.
  induction l as [|x l IH]; intros acc Fa Fl Bd; cbn [fold_left map rsum length rabs_sum pow] in *.
  - split; [exact Fa|]. replace (val acc - (val acc + 0)) with 0 by ring. rewrite Rabs_R0. lra.
  - inversion Fl as [|? ? Fx Fl']; subst. pose proof u_pos as Up. pose proof (pow_u_ge (length l)) as Pg. set (P := (1 + u) ^ length l) in *.
    pose proof (rabs_sum_pos l) as Sp. pose proof (Rabs_pos (val acc)) as Ap. pose proof (Rabs_pos (val x)) as Xp. pose proof (Rabs_triang (val acc) (val x)) as Tr.
    assert (Q : Rabs (val acc) + Rabs (val x) <= bpow radix2 1023).
    { assert (1 <= (1 + u) * P) by nra. nra. }
    assert (R1 : Rabs (rnd (val acc + val x)) <= bpow radix2 1023) by (apply rnd_abs_le; [apply fmt_bpow; lia|lra]).
    destruct (dadd_val acc x Fa Fx) as [F V]. { apply Rle_lt_trans with (1 := R1). apply bpow_lt. lia. }
    destruct (plus_eps (val acc) (val x) (fmt_val _) (fmt_val _)) as (e & Be & Ee). rewrite Ee in V.
    assert (A' : Rabs (val (dadd acc x)) <= (1 + u) * (Rabs (val acc) + Rabs (val x))).
    { rewrite V, Rabs_mult. assert (Rabs (1 + e) <= 1 + u) by (apply Rabs_le_inv in Be; apply Rabs_le; lra).
      pose proof (Rabs_pos (val acc + val x)). pose proof (Rabs_pos (1 + e)). nra. }
    assert (D : Rabs (val (dadd acc x) - (val acc + val x)) <= u * (Rabs (val acc) + Rabs (val x))).
    { rewrite V. replace ((val acc + val x) * (1 + e) - (val acc + val x)) with (e * (val acc + val x)) by ring. rewrite Rabs_mult.
      pose proof (Rabs_pos (val acc + val x)). pose proof (Rabs_pos e). nra. }
    destruct (IH (dadd acc x) F Fl') as [G B].
    { fold P. eapply Rle_trans; [|exact Bd]. apply (Rle_trans _ (P * ((1 + u) * (Rabs (val acc) + (Rabs (val x) + rabs_sum l))))); [|nra].
      apply Rmult_le_compat_l; [lra|]. nra. }
    fold P in B. split; [exact G|].
    set (r := val (fold_left dadd l (dadd acc x))) in *. set (S := rsum (map val l)) in *.
    replace (r - (val acc + (val x + S))) with ((r - (val (dadd acc x) + S)) + (val (dadd acc x) - (val acc + val x))) by ring.
    eapply Rle_trans; [apply Rabs_triang|].
    assert (K : (P - 1) * (Rabs (val (dadd acc x)) + rabs_sum l) <= (P - 1) * ((1 + u) * (Rabs (val acc) + Rabs (val x) + rabs_sum l))).
    { apply Rmult_le_compat_l; [lra|]. nra. }
    assert (K2 : u * (Rabs (val acc) + Rabs (val x)) <= u * (Rabs (val acc) + Rabs (val x) + rabs_sum l)) by nra.
    replace (((1 + u) * P - 1) * (Rabs (val acc) + (Rabs (val x) + rabs_sum l)))
      with ((P - 1) * ((1 + u) * (Rabs (val acc) + Rabs (val x) + rabs_sum l)) + u * (Rabs (val acc) + Rabs (val x) + rabs_sum l)) by ring.
    lra.
Qed.
Lemma pow_u_le n : INR n * u <= 1 -> (1 + u) ^ n - 1 <= INR n * u + (INR n * u) * (INR n * u).
Proof.
  pose proof u_pos as Up. induction n as [|n IH]; cbn [pow]; [cbn; lra|]. rewrite S_INR. intros H.
  assert (Hn : 0 <= INR n) by apply pos_INR. specialize (IH ltac:(nra)). set (x := INR n) in *. set (P := (1 + u) ^ n) in *.
  assert (P <= 1 + x * u + x * u * (x * u)) by lra. 
  assert ((1 + u) * P <= (1 + u) * (1 + x * u + x * u * (x * u))) by (apply Rmult_le_compat_l; lra).
  assert (x * u * (x * u) * u <= x * u * u) by (assert (x * u <= 1) by nra; assert (0 <= x * u) by nra; nra).
  nra.
Qed.
