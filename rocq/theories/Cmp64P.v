(** Proofs about comparing fields of doubles. *)
From Coq Require Import Reals Lra Lia Psatz.
From Flocq Require Import Core.
From Verif Require Import Prelude WindowM WindowS GhostM FieldM FieldS MaskM NeboM NeboS IterM IterS RoundM RoundS RoundP RoundQ RoundT RedM RedS RedP RedQ HeatM HeatD CompareM CompareP Cmp64M Cmp64S.
Open Scope R_scope.

(** ** Absolute values, order *)
Lemma abs_fin x : finite (dabs x) <-> finite x. Proof. destruct x; cbn; unfold finite; cbn; tauto. Qed.
Lemma abs_val x : val (dabs x) = Rabs (val x). Proof. apply B2R_Babs. Qed.
Lemma abs_nan x : dabs x = NaN <-> x = NaN. Proof. destruct x; split; intros K; try discriminate K; reflexivity. Qed.
Lemma abs_sign x y : finite x -> finite y -> Rabs (val x) = Rabs (val y) -> dabs x = dabs y.
Proof.
  intros A B E. apply B2R_Bsign_inj; [apply abs_fin, A|apply abs_fin, B|change (val (dabs x) = val (dabs y)); rewrite !abs_val; exact E|].
  destruct x, y; try discriminate; reflexivity.
Qed.
Lemma lt_val x y : finite x -> finite y -> (dltb x y = true <-> val x < val y).
Proof. intros A B. unfold dltb. rewrite (Bltb_correct 53 1024 x y A B). unfold val. destruct (Rlt_bool_spec (B2R x) (B2R y)); split; intros; try lra; try discriminate; auto. Qed.
Lemma lt_val_f x y : finite x -> finite y -> (dltb x y = false <-> val y <= val x).
Proof. intros A B. pose proof (lt_val x y A B). destruct (dltb x y); split; intros K; try discriminate; auto. - assert (val x < val y) by tauto. lra. - destruct (Rle_or_lt (val y) (val x)); [assumption|]. assert (false = true) by tauto. discriminate. Qed.
Lemma eq_same x y : deqb x y = true <-> same x y.
Proof.
  destruct (is_finite x && is_finite y)%bool eqn:F.
  - apply Bool.andb_true_iff in F. destruct F as (Fx & Fy). unfold deqb, same.
    rewrite (Beqb_correct 53 1024 x y Fx Fy). fold (val x). fold (val y). destruct (Req_bool_spec (val x) (val y)) as [E|N].
    + split; [|reflexivity]. intros _. split; [intros ->; discriminate|]. split; [intros ->; discriminate|].
      destruct (Req_dec (val x) 0) as [Z|Z]; [right; split; [exact Fx|]; split; [exact Fy|]; lra|left; apply val_inj; assumption].
    + split; [discriminate|]. intros (_ & _ & [K|(_ & _ & K & K')]); [destruct (N (f_equal val K))|lra].
  - split.
    + intros K. assert (x = y /\ x <> NaN /\ y <> NaN) by (destruct x as [[]|[]| |[] m e B], y as [[]|[]| |[] m' e' B']; try discriminate K; try discriminate F; repeat split; discriminate).
      unfold same. tauto.
    + intros (A & B & [K|(K & K' & _)]).
      * subst y. destruct x as [[]|[]| |[] m e B']; try discriminate F; try reflexivity. destruct (A eq_refl).
      * unfold finite in *. rewrite K, K' in F. discriminate.
Qed.
Lemma eq_zero e : deqb (dabs e) d_zero = true <-> is_zero e.
Proof.
  rewrite eq_same. unfold same, is_zero. destruct e as [s|s| |s m e B].
  - split; [intros _; split; reflexivity|]. intros _. split; [discriminate|]. split; [discriminate|]. right. repeat split; reflexivity.
  - split; [intros (_ & _ & [K|(K & _)]); discriminate|intros (K & _); discriminate].
  - split; [intros (K & _); destruct (K eq_refl)|intros (K & _); discriminate].
  - split.
    + intros (_ & _ & [K|(_ & _ & K & _)]); [discriminate|]. split; [reflexivity|]. rewrite abs_val in K. apply Rabs_eq_R0. exact K.
    + intros (_ & K). split; [discriminate|]. split; [discriminate|]. right. split; [reflexivity|]. split; [reflexivity|]. rewrite abs_val, K, Rabs_R0. split; reflexivity.
Qed.
Lemma eq_zero_f e : ~ is_zero e -> deqb (dabs e) d_zero = false.
Proof. intros N. destruct (deqb (dabs e) d_zero) eqn:E; [|reflexivity]. apply eq_zero in E. tauto. Qed.

(** ** The difference *)
Lemma sub_cases x y : finite x -> finite y ->
  (finite (dsub x y) /\ val (dsub x y) = rnd (val x - val y) /\ Rabs (rnd (val x - val y)) < bpow radix2 1024) \/
  (exists s, dsub x y = B754_infinity s /\ bpow radix2 1024 <= Rabs (rnd (val x - val y))).
Proof.
  intros A B. pose proof (Bminus_correct 53 1024 d_prec d_emax mode_NE x y A B) as C.
  change (Bminus mode_NE x y) with (dsub x y) in *. destruct (Rlt_bool_spec (Rabs (round radix2 (SpecFloat.fexp 53 1024) (round_mode mode_NE) (B2R x - B2R y))) (bpow radix2 1024)) as [L|L].
  - left. destruct C as (V & F & _). split; [exact F|]. split; [exact V|exact L].
  - right. destruct C as (C & _). apply overflow_inf in C. eexists. split; [exact C|exact L].
Qed.
Lemma sub_sym x y : dabs (dsub x y) = dabs (dsub y x).
Proof.
  destruct (is_finite x) eqn:Fx, (is_finite y) eqn:Fy.
  - assert (E : Rabs (rnd (val x - val y)) = Rabs (rnd (val y - val x))).
    { replace (val x - val y) with (- (val y - val x)) by ring. rewrite rnd_opp, Rabs_Ropp. reflexivity. }
    destruct (sub_cases x y Fx Fy) as [(A & V & L)|(s & I & L)], (sub_cases y x Fy Fx) as [(A' & V' & L')|(s' & I' & L')]; try lra.
    + apply abs_sign; [exact A|exact A'|]. rewrite V, V'. exact E.
    + rewrite I, I'. reflexivity.
  - destruct x as [s|s| |s m e B], y as [s'|s'| |s' m' e' B']; try discriminate; reflexivity.
  - destruct x as [s|s| |s m e B], y as [s'|s'| |s' m' e' B']; try discriminate; reflexivity.
  - destruct x as [s|s| |s m e B], y as [s'|s'| |s' m' e' B']; try discriminate; try reflexivity. destruct s, s'; reflexivity.
Qed.
Lemma sub_self x : finite x -> is_zero (dsub x x).
Proof.
  intros F. destruct (sub_cases x x F F) as [(A & V & _)|(s & _ & L)].
  - split; [exact A|]. rewrite V. replace (val x - val x) with 0 by ring. apply round_0. apply valid_rnd_N.
  - exfalso. replace (val x - val x) with 0 in L by ring. rewrite (round_0 radix2 fexp ZnearestE), Rabs_R0 in L. pose proof (bpow_gt_0 radix2 1024). lra.
Qed.

(** ** Pairs, absolute *)
Lemma abs_exact e x y : is_zero e -> (differ_abs64 e x y = false <-> same x y) /\ forall a, (differ_rel64 e a x y = false <-> same x y).
Proof.
  intros Z. apply eq_zero in Z. unfold differ_abs64, differ_rel64. cbv zeta. split; [|intros a]; rewrite Z, <- eq_same; destruct (deqb x y); cbn; split; congruence.
Qed.
Lemma abs_sym e x y : differ_abs64 e x y = differ_abs64 e y x.
Proof.
  unfold differ_abs64. cbv zeta. rewrite (sub_sym x y). destruct (deqb (dabs e) d_zero); [|reflexivity]. f_equal.
  destruct (deqb x y) eqn:A, (deqb y x) eqn:B; auto.
  - apply eq_same in A. assert (K : same y x) by (unfold same in *; intuition). apply eq_same in K. congruence.
  - apply eq_same in B. assert (K : same x y) by (unfold same in *; intuition). apply eq_same in K. congruence.
Qed.
Lemma sub_unnoticed x y : unnoticed x y -> dsub x y = NaN.
Proof.
  intros [->|[->|(-> & N)]]; [reflexivity|destruct x; reflexivity|]. destruct y as [s|s| |s m e B]; try (destruct (N eq_refl)); [destruct s; reflexivity|reflexivity].
Qed.
Lemma unnoticed_dec x y : unnoticed x y \/ (finite x /\ finite y) \/ (~ unnoticed x y /\ exists s, dsub x y = B754_infinity s).
Proof.
  destruct x as [s|s| |s m e B], y as [s'|s'| |s' m' e' B']; unfold unnoticed; try tauto; try (right; left; split; reflexivity).
  all: try (right; right; split; [intros [K|[K|(K & _)]]; discriminate|eexists; reflexivity]).
  destruct s, s'; try (left; right; right; split; [reflexivity|discriminate]);
    (right; right; split; [intros [K|[K|(K & _)]]; discriminate|eexists; reflexivity]).
Qed.
Lemma nan_ltb x : dltb x NaN = false. Proof. apply ltb_nan. Qed.
Lemma lt_inf x : finite x -> dltb x (B754_infinity false) = true.
Proof. destruct x as [s|s| |s m e B]; try discriminate; try reflexivity; destruct s; reflexivity. Qed.
Lemma two52u : powerRZ 2 (-52) = 2 * u. Proof. apply two52. Qed.
Lemma abs_close e x y : finite e -> ~ is_zero e ->
  (differ_abs64 e x y = false -> unnoticed x y \/ apart_at_most (Rabs (val e) * (1 + powerRZ 2 (-52))) x y) /\
  (unnoticed x y \/ apart_at_most (Rabs (val e)) x y -> differ_abs64 e x y = false).
Proof.
  intros F N. unfold differ_abs64. cbv zeta. rewrite (eq_zero_f e N). pose proof (proj2 (abs_fin e) F) as FA. split.
  - intros D. destruct (unnoticed_dec x y) as [U|[(Fx & Fy)|(_ & s & I)]]; [left; exact U| |].
    + right. destruct (sub_cases x y Fx Fy) as [(A & V & _)|(s & I & _)].
      * apply lt_val_f in D; [|exact FA|apply abs_fin, A]. rewrite !abs_val, V in D.
        destruct (plus_eps (val x) (- val y) (fmt_val x) ltac:(apply generic_format_opp, fmt_val)) as (ep & Be & E).
        change (val x + - val y) with (val x - val y) in E. rewrite E, Rabs_mult in D. split; [exact Fx|]. split; [exact Fy|].
        rewrite two52u. pose proof u_pos. pose proof u_small. pose proof (Rabs_pos (val x - val y)) as P. pose proof (Rabs_pos (val e)) as Pe.
        apply Rabs_le_inv in Be. rewrite (Rabs_pos_eq (1 + ep)) in D by lra.
        assert (D' : Rabs (val x - val y) * (1 - u) <= Rabs (val e)) by nra.
        apply Rmult_le_reg_r with (1 - u); [lra|]. apply Rle_trans with (1 := D').
        assert (1 <= (1 + 2 * u) * (1 - u)) by nra. rewrite Rmult_assoc. nra.
      * rewrite I in D. cbn [dabs Babs] in D. change (dabs (B754_infinity s)) with (B754_infinity false : dbl) in D. rewrite lt_inf in D by exact FA. discriminate.
    + rewrite I in D. change (dabs (B754_infinity s)) with (B754_infinity false : dbl) in D. rewrite lt_inf in D by exact FA. discriminate.
  - intros [U|(Fx & Fy & L)].
    + rewrite (sub_unnoticed _ _ U). apply nan_ltb.
    + assert (Le : Rabs (rnd (val x - val y)) <= Rabs (val e)).
      { apply rnd_abs_le; [|exact L]. rewrite <- abs_val. apply fmt_val. }
      destruct (sub_cases x y Fx Fy) as [(A & V & _)|(s & I & O)].
      * apply lt_val_f; [exact FA|apply abs_fin, A|]. rewrite !abs_val, V. exact Le.
      * exfalso. pose proof (val_lt e). lra.
Qed.

(** ** Pairs, relative *)
Lemma rel_self e a x : ~ is_zero e -> differ_rel64 e a x x = false.
Proof.
  intros N. unfold differ_rel64. cbv zeta. rewrite (eq_zero_f e N).
  destruct (is_finite x) eqn:F.
  - destruct (sub_self x F) as (A & Z).
    assert (E : dabs (dsub x x) = B754_zero false).
    { destruct (dsub x x) as [s|s| |s m ee B]; try discriminate; [reflexivity|]. exfalso. unfold val in Z. cbn in Z. apply Float_prop.eq_0_F2R in Z. destruct s; discriminate. }
    rewrite E. assert (NN : forall s, dltb (dabs e) (B754_zero s) = false).
    { intros s. destruct e as [s'|s'| |s' m' e' B']; reflexivity. }
    destruct (dadd (dabs x) a) as [s|s| |s m ee B]; cbn [ddiv Bdiv xorb]; try apply NN; apply nan_ltb.
  - rewrite (sub_unnoticed x x); [apply nan_ltb|]. unfold unnoticed. destruct x; try discriminate; auto. right. right. split; [reflexivity|discriminate].
Qed.
Lemma add_cases x y : finite x -> finite y ->
  (finite (dadd x y) /\ val (dadd x y) = rnd (val x + val y) /\ Rabs (rnd (val x + val y)) < bpow radix2 1024) \/
  (exists s, dadd x y = B754_infinity s /\ bpow radix2 1024 <= Rabs (rnd (val x + val y))).
Proof.
  intros A B. pose proof (Bplus_correct 53 1024 d_prec d_emax mode_NE x y A B) as C.
  change (Bplus mode_NE x y) with (dadd x y) in *. destruct (Rlt_bool_spec (Rabs (round radix2 (SpecFloat.fexp 53 1024) (round_mode mode_NE) (B2R x + B2R y))) (bpow radix2 1024)) as [L|L].
  - left. destruct C as (V & F & _). split; [exact F|]. split; [exact V|exact L].
  - right. destruct C as (C & _). apply overflow_inf in C. eexists. split; [exact C|exact L].
Qed.
Lemma div_cases x y : finite x -> val y <> 0 ->
  (finite (ddiv x y) /\ val (ddiv x y) = rnd (val x / val y) /\ Rabs (rnd (val x / val y)) < bpow radix2 1024) \/
  (exists s, ddiv x y = B754_infinity s /\ bpow radix2 1024 <= Rabs (rnd (val x / val y))).
Proof.
  intros A N. pose proof (Bdiv_correct 53 1024 d_prec d_emax mode_NE x y N) as C.
  change (Bdiv mode_NE x y) with (ddiv x y) in *. destruct (Rlt_bool_spec (Rabs (round radix2 (SpecFloat.fexp 53 1024) (round_mode mode_NE) (B2R x / B2R y))) (bpow radix2 1024)) as [L|L].
  - left. destruct C as (V & F & _). split; [unfold finite; rewrite F; exact A|]. split; [exact V|exact L].
  - right. apply overflow_inf in C. eexists. split; [exact C|exact L].
Qed.
(** x / y with x, y not negative: no negative infinity *)
Lemma div_nonneg_cases x y : finite x -> finite y -> 0 <= val x -> 0 < val y ->
  (finite (ddiv x y) /\ val (ddiv x y) = rnd (val x / val y)) \/ (ddiv x y = B754_infinity false /\ bpow radix2 1024 <= rnd (val x / val y)).
Proof.
  intros A B P Q. assert (R0 : 0 <= rnd (val x / val y)) by (apply rnd_nonneg; apply Rmult_le_pos; [exact P|left; apply Rinv_0_lt_compat, Q]).
  pose proof (Bdiv_correct 53 1024 d_prec d_emax mode_NE x y ltac:(change (B2R y) with (val y); lra)) as C.
  change (Bdiv mode_NE x y) with (ddiv x y) in *. destruct (Rlt_bool_spec (Rabs (round radix2 (SpecFloat.fexp 53 1024) (round_mode mode_NE) (B2R x / B2R y))) (bpow radix2 1024)) as [L|L].
  - left. destruct C as (V & F & _). split; [unfold finite; rewrite F; exact A|exact V].
  - right. apply overflow_inf in C. change (round radix2 (SpecFloat.fexp 53 1024) (round_mode mode_NE) (B2R x / B2R y)) with (rnd (val x / val y)) in L.
    rewrite Rabs_pos_eq in L by exact R0. split; [|exact L].
    assert (NZ : val x <> 0).
    { intros Z. unfold Rdiv in L. rewrite Z, Rmult_0_l, (round_0 radix2 fexp ZnearestE) in L. pose proof (bpow_gt_0 radix2 1024). lra. }
    assert (Sx : forall z : dbl, finite z -> 0 < val z -> Bsign z = false).
    { intros z Fz Pz. destruct z as [s|s| |s m e Bz]; try discriminate; [cbn in Pz; lra|]. destruct s; [|reflexivity]. exfalso. unfold val in Pz. cbn in Pz. 
      pose proof (Float_prop.F2R_lt_0 radix2 (Float radix2 (Z.neg m) e) ltac:(cbn; lia)). lra. }
    rewrite (Sx x A ltac:(lra)), (Sx y B Q) in C. exact C.
Qed.
Lemma abs_eq_inf s : dabs (B754_infinity s) = B754_infinity false. Proof. reflexivity. Qed.
(** Passing the relative test whatever the tolerance: a NaN, or an infinity first. *)
Lemma rel_unnoticed e a x y : ~ is_zero e -> finite a -> ~ finite x \/ y = NaN -> differ_rel64 e a x y = false.
Proof.
  intros N Fa U. unfold differ_rel64. cbv zeta. rewrite (eq_zero_f e N).
  assert (ddiv (dabs (dsub x y)) (dadd (dabs x) a) = NaN) as ->; [|apply nan_ltb].
  destruct U as [U| ->]; [|destruct x; reflexivity].
  destruct x as [s|s| |s m ee B]; try destruct (U eq_refl); [|reflexivity].
  assert (dadd (dabs (B754_infinity s)) a = B754_infinity false) as -> by (destruct a; try discriminate; reflexivity).
  destruct y as [s'|s'| |s' m' e' B']; try reflexivity. destruct s, s'; reflexivity.
Qed.
Lemma fmt_abs x : fmt (val x) -> fmt (Rabs (val x)). Proof. intros H. apply generic_format_abs, H. Qed.
Lemma rel_close e a x y : finite e -> ~ is_zero e -> finite a -> 0 <= val a ->
  (differ_rel64 e a x y = false -> powerRZ 2 (-1022) <= Rabs (val e) -> (finite x -> Rabs (val x) + val a <= powerRZ 2 1023) ->
     ~ finite x \/ y = NaN \/ apart_at_most (Rabs (val e) * (1 + powerRZ 2 (-50)) * (Rabs (val x) + val a)) x y) /\
  (apart_at_most (Rabs (val e) * (1 - powerRZ 2 (-50)) * (Rabs (val x) + val a)) x y -> Rabs (val x - val y) <= powerRZ 2 1023 -> differ_rel64 e a x y = false).
Proof.
  intros F N Fa Pa. unfold differ_rel64. cbv zeta. rewrite (eq_zero_f e N). pose proof (proj2 (abs_fin e) F) as FA.
  assert (U50 : powerRZ 2 (-50) = 8 * u) by (rewrite p2; change (-50)%Z with (-53 + 3)%Z; rewrite bpow_plus; change (bpow radix2 3) with 8; unfold u; ring). rewrite U50. rewrite !p2.
  pose proof u_pos as U0. pose proof u_small as U1. pose proof (Rabs_pos (val x)) as Px. pose proof (Rabs_pos (val e)) as Pe. pose proof (Rabs_pos (val x - val y)) as Pd.
  assert (F1023 : fmt (bpow radix2 1023)) by (apply fmt_bpow; lia).
  assert (B1024 : bpow radix2 1023 < bpow radix2 1024) by (apply bpow_lt; lia).
  (* the difference and the denominator *)
  assert (DD : finite x -> finite y -> exists e1, Rabs e1 <= u /\ rnd (val x - val y) = (val x - val y) * (1 + e1)).
  { intros Fx Fy. exact (plus_eps (val x) (- val y) (fmt_val x) ltac:(apply generic_format_opp, fmt_val)). }
  assert (DE : finite x -> exists e2, Rabs e2 <= u /\ rnd (Rabs (val x) + val a) = (Rabs (val x) + val a) * (1 + e2)).
  { intros Fx. apply plus_eps; [apply fmt_abs, fmt_val|apply fmt_val]. }
  split.
  - intros D Ne Small. destruct (is_finite x) eqn:Fx; [|left; unfold finite; congruence].
    destruct (nan_dec y) as [->|Ny]; [right; left; reflexivity|]. right. right. specialize (Small Fx).
    destruct (DE Fx) as (e2 & B2 & E2). apply Rabs_le_inv in B2.
    assert (Dp : 0 <= rnd (Rabs (val x) + val a)) by (apply rnd_nonneg; lra).
    destruct (add_cases (dabs x) a (proj2 (abs_fin x) Fx) Fa) as [(FD & VD & _)|(s & _ & L)].
    2:{ exfalso. rewrite abs_val in L. pose proof (rnd_abs_le _ _ F1023 (Rle_trans _ _ _ (Req_le _ _ (Rabs_pos_eq _ (Rplus_le_le_0_compat _ _ Px Pa))) Small)). lra. }
    rewrite abs_val, E2 in VD.
    assert (HF : forall s, dsub x y = B754_infinity s -> False).
    { intros s I. rewrite I, abs_eq_inf in D.
      assert (ddiv (B754_infinity false) (dadd (dabs x) a) = B754_infinity false) as G.
      { assert (0 <= val (dadd (dabs x) a)) as Q by (rewrite VD; nra).
        destruct (dadd (dabs x) a) as [s'|s'| |s' m' e' B'] eqn:EA; try discriminate FD.
        - destruct s'; [|reflexivity]. exfalso. destruct x as [sx|sx| |sx mx ex Bx]; try discriminate Fx.
          + destruct a as [sa|sa| |sa ma ea Ba]; try discriminate Fa; try discriminate EA; destruct sa; discriminate EA.
          + (* |x| > 0 and a >= 0: the sum is not -0 *)
            pose proof (Bplus_correct 53 1024 d_prec d_emax mode_NE (dabs (B754_finite sx mx ex Bx)) a eq_refl Fa) as C.
            change (Bplus mode_NE (dabs (B754_finite sx mx ex Bx)) a) with (dadd (dabs (B754_finite sx mx ex Bx)) a) in C. rewrite EA in C.
            destruct (Rlt_bool _ _); [|destruct C as (C & _); discriminate].
            destruct C as (_ & _ & C). cbn [Bsign] in C.
            assert (Pos : 0 < B2R (dabs (B754_finite sx mx ex Bx)) + B2R a).
            { assert (0 < B2R (dabs (B754_finite sx mx ex Bx))) by (cbn; apply Float_prop.F2R_gt_0; reflexivity). unfold val in Pa. lra. }
            rewrite (Rcompare_Gt _ _ Pos) in C. discriminate.
        - destruct s'; [|reflexivity]. exfalso. unfold val in Q. cbn in Q.
          pose proof (Float_prop.F2R_lt_0 radix2 (Float radix2 (Z.neg m') e') ltac:(cbn; lia)). lra. }
      rewrite G in D. rewrite lt_inf in D by exact FA. discriminate. }
    assert (Fy : finite y).
    { destruct y as [s|s| |s m ee B]; try reflexivity; [|destruct (Ny eq_refl)]. exfalso. destruct x as [sx|sx| |sx mx ex Bx]; try discriminate Fx; apply (HF (negb s)); reflexivity. }
    split; [exact Fx|]. split; [exact Fy|].
    destruct (sub_cases x y Fx Fy) as [(FS & VS & _)|(s & I & _)]; [|destruct (HF s I)].
    destruct (DD Fx Fy) as (e1 & B1 & E1). apply Rabs_le_inv in B1. rewrite E1 in VS.
    destruct (Req_dec (Rabs (val x) + val a) 0) as [Z|Z].
    + (* zero denominator: infinite or NaN *)
      assert (X0 : val x = 0) by (apply Rabs_eq_R0; lra). assert (D0 : val (dadd (dabs x) a) = 0) by (rewrite VD, Z; ring).
      destruct (Req_dec (val x - val y) 0) as [Y|Y]; [rewrite Y, Rabs_R0, Z; lra|]. exfalso.
      assert (NS : val (dabs (dsub x y)) <> 0). { rewrite abs_val, VS. apply Rabs_no_R0. apply Rmult_integral_contrapositive_currified; [exact Y|lra]. }
      destruct (val_nz _ (proj2 (abs_fin _) FS) NS) as (s1 & m1 & q1 & Q1 & EQ).
      assert (s1 = false) by (destruct (dsub x y); try discriminate EQ; cbn in EQ; congruence). subst s1.
      assert (G : ddiv (dabs (dsub x y)) (dadd (dabs x) a) = B754_infinity false).
      { rewrite EQ. destruct (dadd (dabs x) a) as [s'|s'| |s' m' e' B'] eqn:EA; try discriminate FD.
        - destruct s'; [|reflexivity]. exfalso. destruct x as [sx|sx| |sx mx ex Bx]; try discriminate Fx.
          + destruct a as [sa|sa| |sa ma ea Ba]; try discriminate Fa; try discriminate EA; destruct sa; discriminate EA.
          + unfold val in X0. cbn in X0. apply Float_prop.eq_0_F2R in X0. destruct sx; discriminate.
        - exfalso. unfold val in D0. cbn in D0. apply Float_prop.eq_0_F2R in D0. destruct s'; discriminate. }
      rewrite G in D. rewrite lt_inf in D by exact FA. discriminate.
    + set (w := Rabs (val x) + val a) in *. assert (W : 0 < w) by (assert (0 <= w) by (unfold w; lra); lra).
      assert (Vpos : 0 < val (dadd (dabs x) a)) by (rewrite VD; apply Rmult_lt_0_compat; lra).
      assert (Vd : val (dabs (dsub x y)) = Rabs (val x - val y) * (1 + e1)).
      { rewrite abs_val, VS, Rabs_mult, (Rabs_pos_eq (1 + e1)) by lra. reflexivity. }
      destruct (div_nonneg_cases (dabs (dsub x y)) (dadd (dabs x) a) (proj2 (abs_fin _) FS) FD ltac:(rewrite abs_val; apply Rabs_pos) Vpos) as [(FQ & VQ)|(G & _)].
      2:{ rewrite G, lt_inf in D by exact FA. discriminate. }
      apply lt_val_f in D; [|exact FA|exact FQ]. rewrite abs_val in D. rewrite VQ, Vd, VD in D.
      set (r := Rabs (val x - val y) * (1 + e1) / (w * (1 + e2))) in *.
      assert (Rr : r <= Rabs (val e) * (1 + 2 * u)).
      { destruct (Rle_or_lt (bpow radix2 (-1022)) r) as [Lr|Lr].
        - destruct (rel_eps r) as (e3 & B3 & E3); [rewrite Rabs_pos_eq; [exact Lr|pose proof (bpow_gt_0 radix2 (-1022)); lra]|].
          apply Rabs_le_inv in B3. rewrite E3 in D. pose proof (bpow_gt_0 radix2 (-1022)).
          assert (r * (1 - u) <= Rabs (val e)) by nra. assert (1 <= (1 + 2 * u) * (1 - u)) by nra.
          apply Rmult_le_reg_r with (1 - u); [lra|]. apply Rle_trans with (Rabs (val e)); [assumption|]. rewrite Rmult_assoc. nra.
        - nra. }
      assert (Er : Rabs (val x - val y) * (1 + e1) = r * (w * (1 + e2))) by (unfold r; field; split; lra).
      assert (Up : r * (w * (1 + e2)) <= Rabs (val e) * (1 + 2 * u) * (w * (1 + u))).
      { apply Rmult_le_compat; nra. }
      apply Rmult_le_reg_r with (1 - u); [lra|].
      apply Rle_trans with (Rabs (val x - val y) * (1 + e1)); [nra|]. rewrite Er. apply Rle_trans with (1 := Up).
      assert (K : (1 + 2 * u) * (1 + u) <= (1 + 8 * u) * (1 - u)) by nra.
      replace (Rabs (val e) * (1 + 2 * u) * (w * (1 + u))) with (Rabs (val e) * w * ((1 + 2 * u) * (1 + u))) by ring.
      replace (Rabs (val e) * (1 + 8 * u) * w * (1 - u)) with (Rabs (val e) * w * ((1 + 8 * u) * (1 - u))) by ring.
      apply Rmult_le_compat_l; [apply Rmult_le_pos; lra|exact K].
  - intros (Fx & Fy & L) Big. destruct (DD Fx Fy) as (e1 & B1 & E1). destruct (DE Fx) as (e2 & B2 & E2). apply Rabs_le_inv in B1, B2.
    destruct (sub_cases x y Fx Fy) as [(FS & VS & _)|(s & _ & O)].
    2:{ exfalso. pose proof (rnd_abs_le _ _ F1023 Big). lra. }
    rewrite E1 in VS.
    assert (Vd : val (dabs (dsub x y)) = Rabs (val x - val y) * (1 + e1)).
    { rewrite abs_val, VS, Rabs_mult, (Rabs_pos_eq (1 + e1)) by lra. reflexivity. }
    assert (FS' : finite (dabs (dsub x y))) by (apply abs_fin, FS).
    set (w := Rabs (val x) + val a) in *. assert (W0 : 0 <= w) by (unfold w; lra).
    destruct (add_cases (dabs x) a (proj2 (abs_fin x) Fx) Fa) as [(FD & VD & _)|(s & I & _)].
    + rewrite abs_val in VD. fold w in VD. rewrite E2 in VD. destruct (Req_dec w 0) as [Z|Z].
      * assert (X0 : Rabs (val x - val y) = 0). { rewrite Z in L. lra. }
        assert (S0 : val (dabs (dsub x y)) = 0) by (rewrite Vd, X0; ring). assert (D0 : val (dadd (dabs x) a) = 0) by (rewrite VD, Z; ring).
        assert (G : ddiv (dabs (dsub x y)) (dadd (dabs x) a) = NaN).
        { destruct (dabs (dsub x y)) as [s1|s1| |s1 m1 q1 Q1]; try discriminate FS'.
          - destruct (dadd (dabs x) a) as [s2|s2| |s2 m2 q2 Q2]; try discriminate FD; [reflexivity|].
            exfalso. unfold val in D0. cbn in D0. apply Float_prop.eq_0_F2R in D0. destruct s2; discriminate.
          - exfalso. unfold val in S0. cbn in S0. apply Float_prop.eq_0_F2R in S0. destruct s1; discriminate. }
        rewrite G. apply nan_ltb.
      * assert (W : 0 < w) by lra. assert (Vpos : 0 < val (dadd (dabs x) a)) by (rewrite VD; apply Rmult_lt_0_compat; lra).
        assert (Lr : Rabs (val x - val y) * (1 + e1) / (w * (1 + e2)) <= Rabs (val e)).
        { apply Rmult_le_reg_r with (w * (1 + e2)); [apply Rmult_lt_0_compat; lra|].
          replace (Rabs (val x - val y) * (1 + e1) / (w * (1 + e2)) * (w * (1 + e2))) with (Rabs (val x - val y) * (1 + e1)) by (field; split; lra).
          apply Rle_trans with (Rabs (val e) * (1 - 8 * u) * w * (1 + e1)); [apply Rmult_le_compat_r; lra|].
          replace (Rabs (val e) * (1 - 8 * u) * w * (1 + e1)) with (Rabs (val e) * w * ((1 - 8 * u) * (1 + e1))) by ring.
          replace (Rabs (val e) * (w * (1 + e2))) with (Rabs (val e) * w * (1 + e2)) by ring. apply Rmult_le_compat_l; [apply Rmult_le_pos; lra|]. nra. }
        assert (Le : rnd (Rabs (val x - val y) * (1 + e1) / (w * (1 + e2))) <= Rabs (val e)).
        { apply rnd_le_fmt; [apply fmt_abs, fmt_val|exact Lr]. }
        destruct (div_nonneg_cases (dabs (dsub x y)) (dadd (dabs x) a) FS' FD ltac:(rewrite abs_val; apply Rabs_pos) Vpos) as [(FQ & VQ)|(_ & G)].
        -- apply lt_val_f; [exact FA|exact FQ|]. rewrite abs_val, VQ, Vd, VD. exact Le.
        -- exfalso. rewrite Vd, VD in G. pose proof (val_lt e). lra.
    + rewrite I. assert (Q : forall sg z, finite z -> dltb (dabs e) (ddiv z (B754_infinity sg)) = false).
      { intros sg z Fz. destruct z as [s1|s1| |s1 m1 q1 Q1]; try discriminate Fz; cbn [ddiv Bdiv]; unfold dltb; destruct e as [s2|s2| |s2 m2 q2 Q2]; try discriminate F; reflexivity. }
      apply Q, FS'.
Qed.
Lemma abs_self e x : ~ is_zero e -> differ_abs64 e x x = false.
Proof.
  intros N. unfold differ_abs64. cbv zeta. rewrite (eq_zero_f e N). destruct (is_finite x) eqn:F.
  - destruct (sub_self x F) as (A & Z). destruct (dsub x x) as [s|s| |s m ee B]; try discriminate.
    + destruct e as [s'|s'| |s' m' e' B']; reflexivity.
    + exfalso. unfold val in Z. cbn in Z. apply Float_prop.eq_0_F2R in Z. destruct s; discriminate.
  - rewrite (sub_unnoticed x x); [apply nan_ltb|]. unfold unnoticed. destruct x; try discriminate; auto. right. right. split; [reflexivity|discriminate].
Qed.
Lemma ltb_nan_l x : dltb NaN x = false. Proof. apply ltb_nan. Qed.
Lemma abs_nan_pair e x : ~ is_zero e -> differ_abs64 e x NaN = false /\ differ_abs64 e NaN x = false.
Proof.
  intros N. unfold differ_abs64. cbv zeta. rewrite (eq_zero_f e N). split; [destruct x|]; apply nan_ltb.
Qed.
