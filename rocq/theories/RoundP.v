(** Proofs about double precision: sums and products of two numbers, halves and
    quarters, and the average of four. *)
From Coq Require Import Reals Lra Lia Psatz.
From Flocq Require Import Core Relative Mult_error Plus_error.
From Verif Require Import Prelude WindowM GhostM FieldM FieldS MaskM NeboM NeboS StencilM StencilS RoundM RoundS.
Open Scope R_scope.

Notation fexp := (FLT_exp (-1074) 53).
Notation rnd := (round radix2 fexp ZnearestE).
Notation fmt := (generic_format radix2 fexp).

Global Instance P53 : Prec_gt_0 53. Proof. exact eq_refl. Qed.
Lemma fexp_eq : forall x, SpecFloat.fexp 53 1024 x = fexp x.
Proof. reflexivity. Qed.
Global Instance vfexp : Valid_exp fexp. Proof. apply FLT_exp_valid. exact P53. Qed.
Lemma p2 z : powerRZ 2 z = bpow radix2 z.
Proof. symmetry. apply bpow_powerRZ. Qed.

Lemma fmt_val x : fmt (val x).
Proof. apply (generic_format_B2R 53 1024). Qed.
Lemma val_lt x : Rabs (val x) < bpow radix2 1024.
Proof. apply (abs_B2R_lt_emax 53 1024). Qed.

Lemma dadd_val x y : finite x -> finite y -> Rabs (rnd (val x + val y)) < bpow radix2 1024 ->
  finite (dadd x y) /\ val (dadd x y) = rnd (val x + val y).
Proof.
  intros Fx Fy L. pose proof (Bplus_correct 53 1024 d_prec d_emax mode_NE x y Fx Fy) as C.
  rewrite Rlt_bool_true in C by exact L. destruct C as (V & F & _). split; [exact F|exact V].
Qed.
Lemma dmul_val x y : finite x -> finite y -> Rabs (rnd (val x * val y)) < bpow radix2 1024 ->
  finite (dmul x y) /\ val (dmul x y) = rnd (val x * val y).
Proof.
  intros Fx Fy L. pose proof (Bmult_correct 53 1024 d_prec d_emax mode_NE x y) as C.
  rewrite Rlt_bool_true in C by exact L. destruct C as (V & F & _). unfold finite in *. rewrite Fx, Fy in F. split; [exact F|exact V].
Qed.
Lemma overflow_inf (x : dbl) s : B2SF x = binary_overflow 53 1024 mode_NE s -> x = B754_infinity s.
Proof.
  change (binary_overflow 53 1024 mode_NE s) with (SpecFloat.S754_infinity s).
  destruct x; cbn; try discriminate. intros [= ->]. reflexivity.
Qed.
(** A finite product is the rounded product. *)
Lemma dmul_fin x y : finite (dmul x y) -> finite x /\ finite y /\ val (dmul x y) = rnd (val x * val y).
Proof.
  intros F. pose proof (Bmult_correct 53 1024 d_prec d_emax mode_NE x y) as C. fold dmul in C.
  destruct (Rlt_bool _ _).
  - destruct C as (V & G & _). change (Bmult mode_NE x y) with (dmul x y) in *. unfold finite in *. rewrite F in G. symmetry in G. apply andb_prop in G.
    destruct G. split; [assumption|]. split; [assumption|]. exact V.
  - change (Bmult mode_NE x y) with (dmul x y) in *. apply overflow_inf in C. rewrite C in F. discriminate.
Qed.
Lemma ddiv_val x y : finite x -> val y <> 0 -> Rabs (rnd (val x / val y)) < bpow radix2 1024 ->
  finite (ddiv x y) /\ val (ddiv x y) = rnd (val x / val y).
Proof.
  intros Fx Ny L. pose proof (Bdiv_correct 53 1024 d_prec d_emax mode_NE x y Ny) as C.
  rewrite Rlt_bool_true in C by exact L. destruct C as (V & F & _). unfold finite in *. rewrite Fx in F. split; [exact F|exact V].
Qed.

Lemma val_inj x y : finite x -> finite y -> val x = val y -> val x <> 0 -> x = y.
Proof.
  intros Fx Fy E N. apply (B2R_inj 53 1024); [| |exact E].
  - apply is_finite_strict_B2R. exact N.
  - apply is_finite_strict_B2R. unfold val in *. congruence.
Qed.

(** ** Scaling by powers of two *)
Lemma half_val : finite d_half /\ val d_half = bpow radix2 (-1).
Proof. split; [reflexivity|]. unfold val. vm_compute B2R. unfold F2R. cbn. lra. Qed.
Lemma quarter_val : finite d_quarter /\ val d_quarter = bpow radix2 (-2).
Proof. split; [reflexivity|]. unfold val. vm_compute B2R. unfold F2R. cbn. lra. Qed.
Lemma one_val : finite d_one /\ val d_one = 1.
Proof. split; [reflexivity|]. unfold val. vm_compute B2R. unfold F2R. cbn. lra. Qed.

Lemma not_tiny_mag r e : not_tiny r -> r <> 0 -> (-2 <= e)%Z -> (-1074 + 53 <= mag radix2 r + e)%Z.
Proof.
  intros [Z|L] N He; [contradiction|]. rewrite p2 in L. apply (mag_ge_bpow radix2 r (-1019)) in L. cbn in L. lia.
Qed.
Lemma scale_fmt r e : fmt r -> not_tiny r -> (-2 <= e)%Z -> fmt (r * bpow radix2 e).
Proof.
  intros F T He. destruct (Req_dec r 0) as [->|N]; [rewrite Rmult_0_l; apply generic_format_0|].
  apply mult_bpow_exact_FLT; [exact F|]. pose proof (not_tiny_mag r e T N He). lia.
Qed.
Lemma scale_exact x c e : finite x -> not_tiny (val x) -> finite c -> val c = bpow radix2 e -> (-2 <= e <= 0)%Z ->
  finite (dmul x c) /\ val (dmul x c) = val x * bpow radix2 e.
Proof.
  intros Fx T Fc Vc He. assert (G : rnd (val x * val c) = val x * bpow radix2 e).
  { rewrite Vc. apply round_generic; [apply valid_rnd_N|]. apply scale_fmt; [apply fmt_val|exact T|lia]. }
  rewrite <- G. apply dmul_val; [exact Fx|exact Fc|]. rewrite G. rewrite Rabs_mult, (Rabs_pos_eq (bpow _ _)) by apply bpow_ge_0.
  assert (B : bpow radix2 e <= 1) by (change 1 with (bpow radix2 0); apply bpow_le; lia).
  pose proof (val_lt x). pose proof (Rabs_pos (val x)). pose proof (bpow_ge_0 radix2 e). nra.
Qed.

(** ** The average of two *)
Lemma rnd_le_fmt x m : fmt m -> x <= m -> rnd x <= m.
Proof. intros F L. apply round_le_generic; [apply vfexp|apply valid_rnd_N|exact F|exact L]. Qed.
Lemma rnd_ge_fmt x m : fmt m -> m <= x -> m <= rnd x.
Proof. intros F L. apply round_ge_generic; [apply vfexp|apply valid_rnd_N|exact F|exact L]. Qed.
Lemma rnd_mono x y : x <= y -> rnd x <= rnd y.
Proof. intros L. apply round_le; [apply vfexp|apply valid_rnd_N|exact L]. Qed.
Lemma rnd_opp x : rnd (- x) = - rnd x.
Proof. apply round_NE_opp. Qed.
Lemma rnd_abs_le x m : fmt m -> Rabs x <= m -> Rabs (rnd x) <= m.
Proof. intros F L. apply abs_round_le_generic; [apply vfexp|apply valid_rnd_N|exact F|exact L]. Qed.
Lemma rnd_fmt x : fmt x -> rnd x = x.
Proof. intros F. apply round_generic; [apply valid_rnd_N|exact F]. Qed.

Lemma between_lt lo hi a b : lo <= b <= hi -> Rabs lo < a -> Rabs hi < a -> Rabs b < a.
Proof. intros [H1 H2] L1 L2. apply Rabs_lt_inv in L1, L2. apply Rabs_lt. lra. Qed.

Lemma average2 x y : finite x -> finite y -> not_tiny (val x) -> not_tiny (val y) ->
  finite (dadd (dmul x d_half) (dmul y d_half)) /\
  val (dadd (dmul x d_half) (dmul y d_half)) = rnd ((val x + val y) / 2) /\
  Rmin (val x) (val y) <= val (dadd (dmul x d_half) (dmul y d_half)) <= Rmax (val x) (val y).
Proof.
  intros Fx Fy Tx Ty. destruct half_val as [Fh Vh].
  destruct (scale_exact x d_half (-1) Fx Tx Fh Vh ltac:(lia)) as [F1 V1].
  destruct (scale_exact y d_half (-1) Fy Ty Fh Vh ltac:(lia)) as [F2 V2].
  assert (E : val (dmul x d_half) + val (dmul y d_half) = (val x + val y) / 2).
  { rewrite V1, V2. cbn. lra. }
  assert (B : Rmin (val x) (val y) <= rnd ((val x + val y) / 2) <= Rmax (val x) (val y)).
  { split.
    - apply rnd_ge_fmt; [unfold Rmin; destruct (Rle_dec _ _); apply fmt_val|]. unfold Rmin; destruct (Rle_dec _ _); lra.
    - apply rnd_le_fmt; [unfold Rmax; destruct (Rle_dec _ _); apply fmt_val|]. unfold Rmax; destruct (Rle_dec _ _); lra. }
  destruct (dadd_val _ _ F1 F2) as [F V].
  { rewrite E. eapply between_lt; [exact B| |].
    - unfold Rmin; destruct (Rle_dec _ _); apply val_lt.
    - unfold Rmax; destruct (Rle_dec _ _); apply val_lt. }
  rewrite E in V. split; [exact F|]. split; [exact V|]. rewrite V. exact B.
Qed.

(** ** The average of four *)
(** Rounding of y * 2^e with y between 2^52 and 2^53: y is rounded to an integer. *)
Lemma rnd_scaled y e : IZR (2 ^ 52) <= y < IZR (2 ^ 53) -> (-1074 <= e)%Z ->
  rnd (y * bpow radix2 e) = IZR (ZnearestE y) * bpow radix2 e.
Proof.
  intros [L U] He. unfold round, F2R, scaled_mantissa. cbn [Fnum Fexp].
  assert (M : (mag radix2 (y * bpow radix2 e) = (53 + e)%Z :> Z)).
  { apply mag_unique. rewrite Rabs_mult, (Rabs_pos_eq (bpow _ _)) by apply bpow_ge_0. rewrite Rabs_pos_eq by (apply Rle_trans with (2 := L); apply IZR_le; lia).
    replace (53 + e - 1)%Z with (52 + e)%Z by ring. rewrite !bpow_plus.
    change (bpow radix2 52) with (IZR (2 ^ 52)). change (bpow radix2 53) with (IZR (2 ^ 53)).
    pose proof (bpow_gt_0 radix2 e). split; [apply Rmult_le_compat_r; lra|apply Rmult_lt_compat_r; lra]. }
  assert (C : cexp radix2 fexp (y * bpow radix2 e) = e).
  { unfold cexp. rewrite M. unfold FLT_exp. lia. }
  rewrite C. rewrite Rmult_assoc, <- bpow_plus. replace (e + - e)%Z with 0%Z by ring. cbn [bpow]. rewrite Rmult_1_r. reflexivity.
Qed.

Lemma near_tie m : Z.even m = true -> ZnearestE (IZR m + /2) = m /\ ZnearestE (IZR m - /2) = m.
Proof.
  intros Ev. unfold Znearest. split.
  - assert (F : Zfloor (IZR m + /2) = m). { apply Zfloor_imp. rewrite plus_IZR. lra. }
    rewrite F. replace (IZR m + / 2 - IZR m) with (/2) by ring. rewrite Rcompare_Eq by reflexivity. rewrite Ev. reflexivity.
  - assert (F : Zfloor (IZR m - /2) = (m - 1)%Z). { apply Zfloor_imp. rewrite plus_IZR, !minus_IZR. lra. }
    rewrite F. rewrite minus_IZR. replace (IZR m - / 2 - (IZR m - 1)) with (/2) by field. rewrite Rcompare_Eq by reflexivity.
    replace (Z.even (m - 1)) with false; [cbn|].
    + apply Zceil_imp. rewrite minus_IZR. lra.
    + replace (m - 1)%Z with (m + -1)%Z by ring. rewrite Z.even_add, Ev. reflexivity.
Qed.
Lemma near_quarters m D : (Z.abs D <= 1 \/ Z.abs D = 2 /\ Z.even m = true)%Z -> ZnearestE (IZR m + IZR D / 4) = m.
Proof.
  intros [L|[L Ev]].
  - apply Znearest_imp. replace (IZR m + IZR D / 4 - IZR m) with (IZR D / 4) by ring.
    assert (A : Rabs (IZR D) <= 1) by (rewrite <- abs_IZR; apply IZR_le; exact L).
    unfold Rdiv. rewrite Rabs_mult, (Rabs_pos_eq (/4)) by lra. lra.
  - destruct (near_tie m Ev) as [A B]. assert (D = 2 \/ D = -2)%Z as [->| ->] by lia.
    + replace (2 / 4) with (/2) by lra. exact A.
    + replace (IZR m + -2 / 4) with (IZR m - /2) by lra. exact B.
Qed.
Lemma half_dist y : Rabs (y - IZR (ZnearestE y)) <= /2.
Proof. apply Znearest_half. Qed.

Lemma three_quarters_pos M : fmt M -> bpow radix2 (-1020) <= M -> rnd (rnd (3 / 4 * M) + M / 4) = M.
Proof.
  intros F L.
  assert (Mp : 0 < M) by (apply Rlt_le_trans with (2 := L); apply bpow_gt_0).
  set (m := Ztrunc (scaled_mantissa radix2 fexp M)). set (e := cexp radix2 fexp M).
  assert (E : M = IZR m * bpow radix2 e) by exact F.
  pose proof (bpow_gt_0 radix2 e) as Pe.
  assert (Mu : (-1019 <= mag radix2 M)%Z).
  { apply (mag_ge_bpow radix2 M (-1019)). rewrite Rabs_pos_eq by lra. exact L. }
  assert (Ee : e = (mag radix2 M - 53)%Z). { unfold e, cexp, FLT_exp. lia. }
  assert (Bm : IZR (2 ^ 52) <= IZR m < IZR (2 ^ 53)).
  { assert (Hu : bpow radix2 (mag radix2 M - 1) <= Rabs M < bpow radix2 (mag radix2 M)) by (destruct (mag radix2 M) as [u Hu]; apply Hu; lra).
    rewrite Rabs_pos_eq in Hu by lra. set (u := mag_val radix2 M (mag radix2 M)) in *. clearbody u.
    change (IZR (2 ^ 52)) with (bpow radix2 52). change (IZR (2 ^ 53)) with (bpow radix2 53).
    replace (u - 1)%Z with (52 + e)%Z in Hu by lia. replace u with (53 + e)%Z in Hu by lia. clearbody m. clearbody e. rewrite E in Hu. rewrite !bpow_plus in Hu.
    destruct Hu as [H1 H2]. split; [eapply Rmult_le_reg_r; [exact Pe|exact H1]|eapply Rmult_lt_reg_r; [exact Pe|exact H2]]. }
  assert (Bz : (2 ^ 52 <= m < 2 ^ 53)%Z). { split; [apply le_IZR, Bm|apply lt_IZR, Bm]. }
  assert (Fin : forall D, (Z.abs D <= 1 \/ Z.abs D = 2 /\ Z.even m = true)%Z -> (m = 2 ^ 52 -> D = 0)%Z ->
     rnd ((IZR m + IZR D / 4) * bpow radix2 e) = M).
  { intros D HD H0. rewrite rnd_scaled; [rewrite near_quarters by exact HD; symmetry; exact E| |lia].
    assert (LD : -2 <= IZR D <= 2) by (split; apply IZR_le; lia).
    destruct (Z.eq_dec m (2 ^ 52)) as [Em|Nm].
    - rewrite (H0 Em). rewrite Em. split; [lra|]. assert (IZR (2 ^ 52) < IZR (2 ^ 53)) by (apply IZR_lt; lia). lra.
    - assert (A : IZR (2 ^ 52) + 1 <= IZR m) by (rewrite <- plus_IZR; apply IZR_le; lia).
      assert (B : IZR m + 1 <= IZR (2 ^ 53)) by (rewrite <- plus_IZR; apply IZR_le; lia). lra. }
  destruct (Z_lt_le_dec (3 * m) (2 ^ 54)) as [Lo|Hi].
  - assert (R1 : rnd (3 / 4 * M) = IZR (ZnearestE (IZR (3 * m) / 2)) * bpow radix2 (e - 1)).
    { replace (3 / 4 * M) with (IZR (3 * m) / 2 * bpow radix2 (e - 1)).
      - apply rnd_scaled; [|lia]. split.
        + apply (Rmult_le_reg_r 2); [lra|]. unfold Rdiv. rewrite Rmult_assoc, Rinv_l, Rmult_1_r by lra. rewrite <- mult_IZR. apply IZR_le. lia.
        + apply (Rmult_lt_reg_r 2); [lra|]. unfold Rdiv. rewrite Rmult_assoc, Rinv_l, Rmult_1_r by lra. rewrite <- mult_IZR. apply IZR_lt. lia.
      - rewrite E, mult_IZR. replace (e - 1)%Z with (e + -1)%Z by ring. rewrite bpow_plus. cbn [bpow]. cbn. field. }
    pose proof (half_dist (IZR (3 * m) / 2)) as Hd. set (r := ZnearestE (IZR (3 * m) / 2)) in *.
    assert (T : rnd (3 / 4 * M) + M / 4 = (IZR m + IZR (2 * r - 3 * m) / 4) * bpow radix2 e).
    { rewrite R1. rewrite E at 1. replace (e - 1)%Z with (e + -1)%Z by ring. rewrite bpow_plus. rewrite minus_IZR, !mult_IZR. cbn. field. }
    rewrite T. apply Fin.
    + left. apply Z.abs_le. apply Rabs_le_inv in Hd. rewrite mult_IZR in Hd.
      assert (A : IZR (-1) <= IZR (2 * r - 3 * m) <= IZR 1) by (rewrite minus_IZR, !mult_IZR; lra).
      split; apply le_IZR, A.
    + intros Em. unfold r. rewrite Em. replace (IZR (3 * 2 ^ 52) / 2) with (IZR (3 * 2 ^ 51)).
      * rewrite (Znearest_imp _ _ (3 * 2 ^ 51)); [reflexivity|]. rewrite Rminus_diag_eq, Rabs_R0 by reflexivity. lra.
      * replace (3 * 2 ^ 52)%Z with (3 * 2 ^ 51 * 2)%Z by reflexivity. rewrite (mult_IZR (3 * 2 ^ 51)). field.
  - assert (R1 : rnd (3 / 4 * M) = IZR (ZnearestE (IZR (3 * m) / 4)) * bpow radix2 e).
    { replace (3 / 4 * M) with (IZR (3 * m) / 4 * bpow radix2 e).
      - apply rnd_scaled; [|lia]. split.
        + apply (Rmult_le_reg_r 4); [lra|]. unfold Rdiv. rewrite Rmult_assoc, Rinv_l, Rmult_1_r by lra. rewrite <- mult_IZR. apply IZR_le. lia.
        + apply (Rmult_lt_reg_r 4); [lra|]. unfold Rdiv. rewrite Rmult_assoc, Rinv_l, Rmult_1_r by lra. rewrite <- mult_IZR. apply IZR_lt. lia.
      - rewrite E, mult_IZR. field. }
    pose proof (half_dist (IZR (3 * m) / 4)) as Hd. set (r := ZnearestE (IZR (3 * m) / 4)) in *.
    assert (T : rnd (3 / 4 * M) + M / 4 = (IZR m + IZR (4 * r - 3 * m) / 4) * bpow radix2 e).
    { rewrite R1. rewrite E at 1. rewrite minus_IZR, !mult_IZR. field. }
    rewrite T. apply Fin.
    + apply Rabs_le_inv in Hd. rewrite mult_IZR in Hd.
      assert (A : IZR (-2) <= IZR (4 * r - 3 * m) <= IZR 2) by (rewrite minus_IZR, !mult_IZR; lra).
      destruct A as [A1 A2]. apply le_IZR in A1, A2.
      destruct (Z.even m) eqn:Ev; [lia|]. left.
      assert (Od : Z.odd m = true) by (rewrite <- Z.negb_even, Ev; reflexivity). apply Z.odd_spec in Od. destruct Od as (c & ->). lia.
    + intros Em. lia.
Qed.
Lemma three_quarters M : fmt M -> not_tiny M -> rnd (rnd (3 / 4 * M) + M / 4) = M.
Proof.
  intros F [->|T].
  - rewrite Rmult_0_r, round_0 by apply valid_rnd_N. replace (0 + 0 / 4) with 0 by lra. apply round_0, valid_rnd_N.
  - rewrite p2 in T. destruct (Rle_dec 0 M) as [P|N].
    + rewrite Rabs_pos_eq in T by exact P. apply three_quarters_pos; assumption.
    + rewrite Rabs_left in T by lra. pose proof (three_quarters_pos (- M) (generic_format_opp _ _ _ F) T) as Q.
      replace (3 / 4 * - M) with (- (3 / 4 * M)) in Q by ring. rewrite rnd_opp in Q.
      replace (- rnd (3 / 4 * M) + - M / 4) with (- (rnd (3 / 4 * M) + M / 4)) in Q by field. rewrite rnd_opp in Q. lra.
Qed.

Definition rsum4 a b c d := rnd (rnd (rnd (a / 4 + b / 4) + c / 4) + d / 4).
Lemma rsum4_le a b c d M : fmt M -> not_tiny M -> a <= M -> b <= M -> c <= M -> d <= M -> rsum4 a b c d <= M.
Proof.
  intros F T La Lb Lc Ld. rewrite <- (three_quarters M F T). unfold rsum4. apply rnd_mono.
  assert (S1 : rnd (a / 4 + b / 4) <= M / 2).
  { apply rnd_le_fmt; [|lra]. replace (M / 2) with (M * bpow radix2 (-1)) by (cbn; field). apply scale_fmt; [exact F|exact T|lia]. }
  assert (S2 : rnd (rnd (a / 4 + b / 4) + c / 4) <= rnd (3 / 4 * M)) by (apply rnd_mono; lra).
  lra.
Qed.
Lemma rsum4_opp a b c d : rsum4 (- a) (- b) (- c) (- d) = - rsum4 a b c d.
Proof.
  unfold rsum4. replace (- a / 4 + - b / 4) with (- (a / 4 + b / 4)) by field. rewrite rnd_opp.
  replace (- rnd (a / 4 + b / 4) + - c / 4) with (- (rnd (a / 4 + b / 4) + c / 4)) by field. rewrite rnd_opp.
  replace (- rnd (rnd (a / 4 + b / 4) + c / 4) + - d / 4) with (- (rnd (rnd (a / 4 + b / 4) + c / 4) + d / 4)) by field. apply rnd_opp.
Qed.
Lemma not_tiny_opp r : not_tiny r -> not_tiny (- r).
Proof. intros [->|L]; [left; ring|right; rewrite Rabs_Ropp; exact L]. Qed.
Lemma rsum4_ge a b c d M : fmt M -> not_tiny M -> M <= a -> M <= b -> M <= c -> M <= d -> M <= rsum4 a b c d.
Proof.
  intros F T La Lb Lc Ld. pose proof (rsum4_le (- a) (- b) (- c) (- d) (- M) (generic_format_opp _ _ _ F) (not_tiny_opp _ T)) as Q.
  rewrite rsum4_opp in Q. lra.
Qed.
