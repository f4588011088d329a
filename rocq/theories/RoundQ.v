(** Proofs about double precision, continued: four values, constants,
    differences. *)
From Coq Require Import Reals Lra Lia Psatz.
From Flocq Require Import Core Relative Mult_error Plus_error.
From Verif Require Import Prelude WindowM GhostM FieldM FieldS MaskM NeboM NeboS StencilM StencilS RoundM RoundS RoundP.
Open Scope R_scope.

Lemma fmt_bpow e : (-1074 <= e)%Z -> fmt (bpow radix2 e).
Proof. intros He. apply generic_format_bpow. unfold FLT_exp. lia. Qed.
Lemma fmt_three e : (-1074 <= e)%Z -> fmt (3 * bpow radix2 e).
Proof. intros He. apply generic_format_FLT. exists (Float radix2 3 e); [reflexivity|cbn; lia|exact He]. Qed.

Definition avg4 x1 x2 x3 x4 :=
  dadd (dadd (dadd (dmul x1 d_quarter) (dmul x2 d_quarter)) (dmul x3 d_quarter)) (dmul x4 d_quarter).
Lemma average4 x1 x2 x3 x4 : finite x1 -> finite x2 -> finite x3 -> finite x4 ->
  not_tiny (val x1) -> not_tiny (val x2) -> not_tiny (val x3) -> not_tiny (val x4) ->
  finite (avg4 x1 x2 x3 x4) /\
  forall lo hi, lo <= val x1 <= hi -> lo <= val x2 <= hi -> lo <= val x3 <= hi -> lo <= val x4 <= hi ->
    lo <= val (avg4 x1 x2 x3 x4) <= hi.
Proof.
  intros F1 F2 F3 F4 T1 T2 T3 T4. destruct quarter_val as [Fq Vq]. unfold avg4.
  destruct (scale_exact x1 d_quarter (-2) F1 T1 Fq Vq ltac:(lia)) as [G1 V1].
  destruct (scale_exact x2 d_quarter (-2) F2 T2 Fq Vq ltac:(lia)) as [G2 V2].
  destruct (scale_exact x3 d_quarter (-2) F3 T3 Fq Vq ltac:(lia)) as [G3 V3].
  destruct (scale_exact x4 d_quarter (-2) F4 T4 Fq Vq ltac:(lia)) as [G4 V4].
  assert (Q : forall r, r * bpow radix2 (-2) = r / 4) by (intros r; cbn; field). rewrite Q in V1, V2, V3, V4.
  pose proof (val_lt x1) as L1. pose proof (val_lt x2) as L2. pose proof (val_lt x3) as L3. pose proof (val_lt x4) as L4.
  assert (E22 : bpow radix2 1024 = 4 * bpow radix2 1022) by (change 1024%Z with (2 + 1022)%Z; rewrite bpow_plus; reflexivity).
  assert (E23 : bpow radix2 1023 = 2 * bpow radix2 1022) by (change 1023%Z with (1 + 1022)%Z; rewrite bpow_plus; reflexivity).
  pose proof (bpow_gt_0 radix2 1022) as P22.
  assert (A1 : Rabs (val x1 / 4 + val x2 / 4) <= bpow radix2 1023).
  { apply Rabs_lt_inv in L1, L2. apply Rabs_le. lra. }
  pose proof (rnd_abs_le _ _ (fmt_bpow 1023 ltac:(lia)) A1) as B1.
  destruct (dadd_val _ _ G1 G2) as [H1 W1]. { rewrite V1, V2. lra. }
  rewrite V1, V2 in W1.
  assert (A2 : Rabs (rnd (val x1 / 4 + val x2 / 4) + val x3 / 4) <= 3 * bpow radix2 1022).
  { apply Rabs_lt_inv in L3. apply Rabs_le_inv in B1. apply Rabs_le. lra. }
  pose proof (rnd_abs_le _ _ (fmt_three 1022 ltac:(lia)) A2) as B2.
  destruct (dadd_val _ _ H1 G3) as [H2 W2]. { rewrite W1, V3. lra. }
  rewrite W1, V3 in W2.
  set (hi := Rmax (Rmax (val x1) (val x2)) (Rmax (val x3) (val x4))).
  set (lo := Rmin (Rmin (val x1) (val x2)) (Rmin (val x3) (val x4))).
  assert (Hi : exists x, hi = val x /\ not_tiny (val x)).
  { unfold hi, Rmax. repeat destruct (Rle_dec _ _); eauto. }
  assert (Lo : exists x, lo = val x /\ not_tiny (val x)).
  { unfold lo, Rmin. repeat destruct (Rle_dec _ _); eauto. }
  assert (Hb : val x1 <= hi /\ val x2 <= hi /\ val x3 <= hi /\ val x4 <= hi).
  { unfold hi, Rmax. repeat destruct (Rle_dec _ _); lra. }
  assert (Lb : lo <= val x1 /\ lo <= val x2 /\ lo <= val x3 /\ lo <= val x4).
  { unfold lo, Rmin. repeat destruct (Rle_dec _ _); lra. }
  assert (Hm : forall h, val x1 <= h -> val x2 <= h -> val x3 <= h -> val x4 <= h -> hi <= h).
  { intros h. unfold hi, Rmax. repeat destruct (Rle_dec _ _); lra. }
  assert (Lm : forall h, h <= val x1 -> h <= val x2 -> h <= val x3 -> h <= val x4 -> h <= lo).
  { intros h. unfold lo, Rmin. repeat destruct (Rle_dec _ _); lra. }
  assert (B : lo <= rsum4 (val x1) (val x2) (val x3) (val x4) <= hi).
  { destruct Hi as (xh & Eh & Th), Lo as (xl & El & Tl). split.
    - apply rsum4_ge; try tauto; rewrite El; [apply fmt_val|exact Tl].
    - apply rsum4_le; try tauto; rewrite Eh; [apply fmt_val|exact Th]. }
  destruct (dadd_val _ _ H2 G4) as [H3 W3].
  { rewrite W2, V4. change (Rabs (rsum4 (val x1) (val x2) (val x3) (val x4)) < bpow radix2 1024).
    eapply between_lt; [exact B| |].
    - destruct Lo as (xl & -> & _). apply val_lt.
    - destruct Hi as (xh & -> & _). apply val_lt. }
  rewrite W2, V4 in W3. split; [exact H3|]. intros l h C1 C2 C3 C4. rewrite W3.
  change (l <= rsum4 (val x1) (val x2) (val x3) (val x4) <= h).
  specialize (Hm h (proj2 C1) (proj2 C2) (proj2 C3) (proj2 C4)). specialize (Lm l (proj1 C1) (proj1 C2) (proj1 C3) (proj1 C4)). lra.
Qed.

(** ** Constants *)
Definition tame (k : dbl) : Prop := finite k -> not_tiny (val k).
Lemma val_zero k : finite k -> val k = 0 -> exists s, k = B754_zero s.
Proof.
  destruct k as [s| | |s m e B]; try discriminate; [eauto|]. intros _ E. exfalso. unfold val, B2R in E. apply eq_0_F2R in E. destruct s; discriminate E.
Qed.
Lemma constant2 k : tame k -> dadd (dmul k d_half) (dmul k d_half) = k.
Proof.
  intros T. destruct (is_finite k) eqn:F.
  - destruct (Req_dec (val k) 0) as [Z|N].
    + destruct (val_zero k F Z) as (s & ->). destruct s; reflexivity.
    + destruct (average2 k k F F (T F) (T F)) as (G & _ & B). apply val_inj; [exact G|exact F| |].
      * rewrite Rmin_left, Rmax_left in B by lra. lra.
      * rewrite Rmin_left, Rmax_left in B by lra. lra.
  - destruct k as [s|s| |s m e B]; try discriminate; [destruct s; reflexivity|reflexivity].
Qed.
Lemma constant4 k : tame k -> avg4 k k k k = k.
Proof.
  intros T. destruct (is_finite k) eqn:F.
  - destruct (Req_dec (val k) 0) as [Z|N].
    + destruct (val_zero k F Z) as (s & ->). destruct s; reflexivity.
    + destruct (average4 k k k k F F F F (T F) (T F) (T F) (T F)) as (G & B). specialize (B (val k) (val k)). 
      apply val_inj; [exact G|exact F|lra|lra].
  - destruct k as [s|s| |s m e B]; try discriminate; [destruct s; reflexivity|reflexivity].
Qed.

(** ** Signs and negation *)
Lemma val_opp x : val (dopp x) = - val x.
Proof. apply B2R_Bopp. Qed.
Lemma fin_opp x : finite (dopp x) <-> finite x.
Proof. unfold finite, dopp. rewrite is_finite_Bopp. tauto. Qed.
Lemma eq_by_sign x y : finite x -> finite y -> val x = val y -> Bsign x = Bsign y -> x = y.
Proof. apply B2R_Bsign_inj. Qed.

Lemma sign_opp x : is_nan x = false -> Bsign (dopp x) = negb (Bsign x).
Proof. apply Bsign_Bopp. Qed.
Lemma dmul_opp_r x y : dmul x (dopp y) = dopp (dmul x y).
Proof.
  destruct (is_nan (dmul x y)) eqn:Nn.
  - destruct x as [sx|sx| |sx mx ex Bx], y as [sy|sy| |sy my ey By]; try reflexivity; try discriminate.
    exfalso. pose proof (Bmult_correct 53 1024 d_prec d_emax mode_NE (B754_finite sx mx ex Bx) (B754_finite sy my ey By)) as C.
    destruct (Rlt_bool _ _).
    + destruct C as (_ & F & _). change (Bmult mode_NE _ _) with (dmul (B754_finite sx mx ex Bx) (B754_finite sy my ey By)) in F.
      destruct (dmul _ _); discriminate.
    + apply overflow_inf in C. change (Bmult mode_NE _ _) with (dmul (B754_finite sx mx ex Bx) (B754_finite sy my ey By)) in C. rewrite C in Nn. discriminate.
  - destruct x as [sx|sx| |sx mx ex Bx], y as [sy|sy| |sy my ey By]; try discriminate Nn;
      try (destruct sx, sy; reflexivity).
    set (x := B754_finite sx mx ex Bx : dbl) in *. set (y := B754_finite sy my ey By : dbl) in *.
    pose proof (Bmult_correct 53 1024 d_prec d_emax mode_NE x y) as C. pose proof (Bmult_correct 53 1024 d_prec d_emax mode_NE x (dopp y)) as C'.
    change (Bmult mode_NE x y) with (dmul x y) in *. change (Bmult mode_NE x (dopp y)) with (dmul x (dopp y)) in *.
    change (@B2R 53 1024) with val in *. change (SpecFloat.fexp 53 1024) with fexp in *. change (round_mode mode_NE) with ZnearestE in *.
    rewrite val_opp in C'. rewrite <- Ropp_mult_distr_r, rnd_opp, Rabs_Ropp in C'.
    destruct (Rlt_bool _ _).
    + destruct C as (V & F & Sg), C' as (V' & F' & Sg'). apply eq_by_sign.
      * exact F'.
      * apply fin_opp. exact F.
      * rewrite val_opp, V, V'. reflexivity.
      * rewrite Sg' by (destruct (dmul x (dopp y)); try reflexivity; discriminate F'). rewrite (sign_opp (dmul x y)) by exact Nn.
        rewrite Sg by exact Nn. rewrite (sign_opp y) by reflexivity. destruct (Bsign x), (Bsign y); reflexivity.
    + apply overflow_inf in C, C'. rewrite C, C'. cbn. unfold dopp. destruct sx, sy; reflexivity.
Qed.
Lemma ddiv_opp_l x y : finite x -> val x <> 0 -> ddiv (dopp x) y = dopp (ddiv x y).
Proof.
  intros Fx Nx. destruct x as [sx|sx| |sx mx ex Bx]; try discriminate; [destruct (Nx eq_refl)|].
  destruct y as [sy|sy| |sy my ey By]; try (destruct sx, sy; reflexivity); [reflexivity|].
  set (x := B754_finite sx mx ex Bx : dbl) in *. set (y := B754_finite sy my ey By : dbl) in *.
  assert (Ny : val y <> 0). { intros Z. destruct (val_zero y eq_refl Z). discriminate. }
  pose proof (Bdiv_correct 53 1024 d_prec d_emax mode_NE x y Ny) as C. pose proof (Bdiv_correct 53 1024 d_prec d_emax mode_NE (dopp x) y Ny) as C'.
  change (Bdiv mode_NE x y) with (ddiv x y) in *. change (Bdiv mode_NE (dopp x) y) with (ddiv (dopp x) y) in *.
  change (@B2R 53 1024) with val in *. change (SpecFloat.fexp 53 1024) with fexp in *. change (round_mode mode_NE) with ZnearestE in *.
  rewrite val_opp in C'. unfold Rdiv in C'. rewrite <- Ropp_mult_distr_l, rnd_opp, Rabs_Ropp in C'. fold (Rdiv (val x) (val y)) in C'.
  destruct (Rlt_bool _ _).
  - destruct C as (V & F & Sg), C' as (V' & F' & Sg'). apply eq_by_sign.
    + exact F'.
    + apply fin_opp. exact F.
    + rewrite val_opp, V, V'. reflexivity.
    + assert (N1 : is_nan (ddiv x y) = false) by (destruct (ddiv x y); try reflexivity; discriminate F).
      rewrite Sg' by (destruct (ddiv (dopp x) y); try reflexivity; discriminate F'). rewrite (sign_opp (ddiv x y)) by exact N1.
      rewrite Sg by exact N1. rewrite (sign_opp x) by reflexivity. destruct (Bsign x), (Bsign y); reflexivity.
  - apply overflow_inf in C, C'. rewrite C, C'. cbn. unfold dopp. destruct sx, sy; reflexivity.
Qed.

(** ** Differences *)
Lemma cancel p : finite p -> dadd (dopp p) p = zero.
Proof.
  intros F. pose proof (Bplus_correct 53 1024 d_prec d_emax mode_NE (dopp p) p (proj2 (fin_opp p) F) F) as C.
  change (Bplus mode_NE (dopp p) p) with (dadd (dopp p) p) in *. change (@B2R 53 1024) with val in *.
  rewrite val_opp, Rplus_opp_l in C. rewrite round_0 in C by apply valid_rnd_N. rewrite Rabs_R0 in C.
  rewrite Rlt_bool_true in C by apply bpow_gt_0. rewrite Rcompare_Eq in C by reflexivity. destruct C as (V & G & Sg).
  apply eq_by_sign; [exact G|reflexivity|exact V|]. rewrite Sg. rewrite (sign_opp p) by (destruct p; try reflexivity; discriminate F).
  cbn. destruct (Bsign p); reflexivity.
Qed.
Lemma sign_false x : finite x -> 0 < val x -> Bsign x = false.
Proof.
  destruct x as [s|s| |s m e B]; try discriminate; intros _ L; [cbn in L; lra|]. destruct s; [|reflexivity].
  exfalso. unfold val, B2R in L. apply gt_0_F2R in L. cbn in L. lia.
Qed.
Lemma sign_true x : finite x -> val x < 0 -> Bsign x = true.
Proof.
  destruct x as [s|s| |s m e B]; try discriminate; intros _ L; [cbn in L; lra|]. destruct s; [reflexivity|].
  exfalso. unfold val, B2R in L. apply lt_0_F2R in L. cbn in L. lia.
Qed.
Lemma sum_nonneg p q : finite p -> finite q -> val p <= val q -> dle zero (dadd (dopp p) q).
Proof.
  intros Fp Fq L. pose proof (Bplus_correct 53 1024 d_prec d_emax mode_NE (dopp p) q (proj2 (fin_opp p) Fp) Fq) as C.
  change (Bplus mode_NE (dopp p) q) with (dadd (dopp p) q) in *. change (@B2R 53 1024) with val in *.
  change (SpecFloat.fexp 53 1024) with fexp in *. change (round_mode mode_NE) with ZnearestE in *. rewrite val_opp in C.
  destruct (Rlt_bool _ _) eqn:Lb.
  - destruct C as (V & G & _). unfold dle. rewrite Bleb_correct; [|reflexivity|exact G]. apply Rle_bool_true.
    change (B2R (dadd (dopp p) q)) with (val (dadd (dopp p) q)). rewrite V. change (B2R zero) with 0. apply rnd_ge_fmt; [apply generic_format_0|lra].
  - destruct C as (V & Sg). apply overflow_inf in V. rewrite V.
    assert (Bp : Bsign (dopp p) = false).
    { destruct (Rlt_dec (val p) 0) as [Np|Pp].
      - apply sign_false; [apply fin_opp; exact Fp|rewrite val_opp; lra].
      - destruct (Req_dec (val q) 0) as [Zq|Nq].
        + exfalso. replace (- val p + val q) with 0 in Lb by lra. rewrite round_0, Rabs_R0 in Lb by apply valid_rnd_N.
          rewrite Rlt_bool_true in Lb by apply bpow_gt_0. discriminate.
        + rewrite Sg. apply sign_false; [exact Fq|lra]. }
    rewrite Bp. reflexivity.
Qed.
Lemma sum_nonpos p q : finite p -> finite q -> val q <= val p -> dle (dadd (dopp p) q) zero.
Proof.
  intros Fp Fq L. pose proof (Bplus_correct 53 1024 d_prec d_emax mode_NE (dopp p) q (proj2 (fin_opp p) Fp) Fq) as C.
  change (Bplus mode_NE (dopp p) q) with (dadd (dopp p) q) in *. change (@B2R 53 1024) with val in *.
  change (SpecFloat.fexp 53 1024) with fexp in *. change (round_mode mode_NE) with ZnearestE in *. rewrite val_opp in C.
  destruct (Rlt_bool _ _) eqn:Lb.
  - destruct C as (V & G & _). unfold dle. rewrite Bleb_correct; [|exact G|reflexivity]. apply Rle_bool_true.
    change (B2R (dadd (dopp p) q)) with (val (dadd (dopp p) q)). rewrite V. change (B2R zero) with 0. apply rnd_le_fmt; [apply generic_format_0|lra].
  - destruct C as (V & Sg). apply overflow_inf in V. rewrite V.
    assert (Bp : Bsign (dopp p) = true).
    { destruct (Rlt_dec 0 (val p)) as [Np|Pp].
      - apply sign_true; [apply fin_opp; exact Fp|rewrite val_opp; lra].
      - destruct (Req_dec (val q) 0) as [Zq|Nq].
        + exfalso. replace (- val p + val q) with 0 in Lb by lra. rewrite round_0, Rabs_R0 in Lb by apply valid_rnd_N.
          rewrite Rlt_bool_true in Lb by apply bpow_gt_0. discriminate.
        + rewrite Sg. apply sign_true; [exact Fq|lra]. }
    rewrite Bp. reflexivity.
Qed.
