(** Analytic field functions in double precision: proofs for C75. *)
From Coq Require Import Reals Lra Lia.
From Flocq Require Import Core.
From Verif Require Import Prelude WindowM WindowS WindowP GhostM FieldM FieldS FieldP MaskM MaskS MaskP NeboM NeboS NeboP NeboQ NeboA NeboB NeboC NeboD NeboE NeboF StencilM StencilS BCS RoundM RoundS RoundP RoundQ RoundT HeatM Part64Q BC64S BC64R Grid64Q FuncM FuncS FuncP Func64M Func64S Func64R Func64Q Func64T.
Open Scope Z_scope.

(** Expressions that read x in place and nothing else. *)
Definition inplace64 (x : field) (e : expr dbl) : Prop :=
  (forall l m u, In (l, m, u) (demands dbl e iv_zero iv_zero) -> m = iv_zero /\ u = iv_zero /\ (l = LConst \/ l = LField x)) /\
  (forall g s, In (g, s) (reads dbl e iv_zero) -> g = x /\ s = iv_zero) /\
  masks dbl e iv_zero = [] /\ singles dbl e = [].
Lemma in_field64 x : inplace64 x (EField dbl x).
Proof. repeat split; cbn in *; try tauto; destruct H as [H|[]]; injection H as <- <-; auto; try (intros; subst); auto. Qed.
Lemma in_num64 x v : inplace64 x (num64 v).
Proof. repeat split; cbn in *; try tauto; destruct H as [H|[]]; injection H as <- <-; auto; intros; subst; auto. Qed.
Lemma in_fun64 x g e : inplace64 x e -> inplace64 x (fun64 g e).
Proof. auto. Qed.
Lemma in_op64 x o a b : inplace64 x a -> inplace64 x b -> inplace64 x (EOp2 dbl o a b).
Proof.
  intros (A1 & A2 & A3 & A4) (B1 & B2 & B3 & B4). split; [|split; [|split]]; cbn.
  - intros l m u I. apply in_app_or in I. destruct I; auto.
  - intros g s I. apply in_app_or in I. destruct I; auto.
  - rewrite A3, B3. reflexivity.
  - rewrite A4, B4. reflexivity.
Qed.
Lemma in_gauss64 x b xo : inplace64 x (gauss_arg64 b xo (EField dbl x)).
Proof. repeat apply in_op64; auto using in_num64, in_field64. Qed.

Lemma zero_any64 n h f : destination_ok dbl n h f -> any_cell n f iv_zero.
Proof.
  intros ((Pn & Pe & _ & _ & Gn & Gl & _) & _). unfold any_cell, reach, in_region, iv_zero, iv_neg, iv_add.
  unfold pos_dims, iv_le, g_nonneg, g_le, iv_le, iv_zero in *. cbn [ix iy iz] in *. lia.
Qed.

Lemma stores_inplace64 n h x f e (v : dbl -> dbl) : coordinates64 n h x f -> inplace64 x e ->
  (In (LField x, iv_zero, iv_zero) (demands dbl e iv_zero iv_zero)) ->
  (forall p, denote dbl dadd dmul h e p = v (value dbl h x p)) ->
  stores64 (fun fuel f => fill64 fuel f e) h f (shared n x f) (fun p => v (value dbl h x p)).
Proof.
  intros (O & D & Al & Cx & Fin) (I1 & I2 & I3 & I4) Ix Hv.
  destruct (proj1 O x iv_zero (or_introl eq_refl)) as (Px & Bx).
  assert (Oe : operands_ok dbl n h e).
  { split; [|split].
    - intros g s I. destruct (I2 g s I) as (-> & ->). split; [exact Px|exact Bx].
    - rewrite I3. intros ? ? [].
    - rewrite I4. intros ? []. }
  assert (Ale : alias_ok dbl f e).
  { intros g s I. destruct (I2 g s I) as (-> & ->). apply (Al x iv_zero). left. reflexivity. }
  destruct Fin as (F1 & F2 & F3 & F4 & F5). unfold iv_le, g_nonneg, iv_le, iv_zero, iv_add in F1, F2, F3, F4. cbn [ix iy iz] in F1, F2, F3, F4.
  assert (Ce : covers_extra dbl f e).
  { intros l m u I. destruct (I1 l m u I) as (-> & -> & [-> | ->]).
    - cbn [layers snd iv_zero ix iy iz]. repeat split; intros _; lia.
    - apply (Cx (LField x) iv_zero iv_zero). left. reflexivity. }
  assert (RR : forall p, region dbl n f e p <-> shared n x f p).
  { intros p. split.
    - intros (A & K). split; [exact A|]. specialize (K _ _ _ Ix p).
      assert (L : iv_le (iv_sub p iv_zero) p /\ iv_le p (iv_add p iv_zero)) by (unfold iv_le, iv_sub, iv_add, iv_zero; cbn [ix iy iz]; lia).
      specialize (K (proj1 L) (proj2 L)). unfold known, in_region in K. unfold valid_cell, reach, in_region. cbn [layers fst snd] in K.
      unfold iv_add in *. cbn [ix iy iz] in *. lia.
    - intros (A & K). split; [exact A|]. intros l m u I q L U. destruct (I1 l m u I) as (-> & -> & Hl).
      assert (q = p) as ->.
      { unfold iv_le, iv_sub, iv_add, iv_zero in L, U. cbn [ix iy iz] in L, U. destruct p as [p1 p2 p3], q as [q1 q2 q3]. cbn [ix iy iz] in *. f_equal; lia. }
      unfold known, in_region. unfold valid_cell, any_cell, reach, in_region in *. destruct Hl as [-> | ->]; cbn [layers fst snd];
      unfold iv_add, iv_neg in *; cbn [ix iy iz] in *; lia. }
  assert (NE : exists p, region dbl n f e p).
  { exists iv_zero. apply RR. split; [apply (zero_any64 n h), D|]. destruct Px as (Pn & Pe & _ & _ & Gn & _).
    unfold valid_cell, reach, in_region, iv_zero, iv_neg, iv_add.
    unfold pos_dims, iv_le, g_nonneg, g_le, iv_le, iv_zero in *. cbn [ix iy iz] in *. lia. }
  destruct (assign_correct dbl dadd dmul n h f e Oe D Ale Ce NE) as (N & HN). exists N. intros fuel Hf.
  destruct (HN fuel Hf) as (h' & E & A). exists h'. split; [exact E|].
  apply (assigned_ext dbl h h' f _ _ _ RR). destruct A as (A1 & A2 & A3). split; [exact A1|]. split; [|exact A3].
  intros p P. rewrite (A2 p P). apply Hv.
Qed.

Lemma stores_num64 n h f v : destination_ok dbl n h f -> finite_ghosts f ->
  stores64 (fun fuel f => fill64 fuel f (num64 v)) h f (any_cell n f) (fun _ => v).
Proof.
  intros D Fin. pose proof D as (Po & _).
  destruct Fin as (F1 & F2 & F3 & F4 & F5). unfold iv_le, g_nonneg, iv_le, iv_zero, iv_add in F1, F2, F3, F4. cbn [ix iy iz] in F1, F2, F3, F4.
  assert (RR : forall p, region dbl n f (num64 v) p <-> any_cell n f p).
  { intros p. split; [intros (A & _); exact A|]. intros A. split; [exact A|]. intros l m u I q L U.
    cbn in I. destruct I as [I|[]]. injection I as <- <- <-.
    assert (q = p) as ->.
    { unfold iv_le, iv_sub, iv_add, iv_zero in L, U. cbn [ix iy iz] in L, U. destruct p as [p1 p2 p3], q as [q1 q2 q3]. cbn [ix iy iz] in *. f_equal; lia. }
    unfold known, in_region. unfold any_cell, reach, in_region in *. cbn [layers fst snd];
    unfold iv_add, iv_neg in *; cbn [ix iy iz] in *; lia. }
  destruct (assign_correct dbl dadd dmul n h f (num64 v)) as (N & HN); [|exact D|..].
  - split; [intros ? ? []|]. split; [intros ? ? []|intros ? []].
  - intros ? ? [].
  - intros l m u I. cbn in I. destruct I as [I|[]]. injection I as <- <- <-. cbn [layers snd iv_zero ix iy iz]. repeat split; intros _; lia.
  - exists iv_zero. apply RR. apply (zero_any64 n h), D.
  - exists N. intros fuel Hf. destruct (HN fuel Hf) as (h' & E & A). exists h'. split; [exact E|].
    exact (assigned_ext dbl h h' f _ _ _ RR A).
Qed.


Ltac inpl64 := repeat first [apply in_gauss64 | apply in_op64 | apply in_num64 | apply in_field64 | apply in_fun64].

Open Scope R_scope.
Lemma linear64_stores M n h x f m b : coordinates64 n h x f ->
  stores64 (evaluate64 M (linear_function64 m b) x) h f (shared n x f) (fun p => line64 m b (value dbl h x p)) /\
  stores64 (dx64 M (linear_function64 m b) x) h f (any_cell n f) (fun _ => m) /\
  stores64 (d2x64 M (linear_function64 m b) x) h f (any_cell n f) (fun _ => zero).
Proof.
  intros C. split.
  - apply (stores_inplace64 n h x f _ (line64 m b) C); [cbn; inpl64|occurs|]. intros p. reflexivity.
  - pose proof C as (_ & D & _ & _ & Fi). split; apply stores_num64; assumption.
Qed.
Lemma sin64_stores M n h x f a b c : coordinates64 n h x f ->
  stores64 (evaluate64 M (sin_function64 a b c) x) h f (shared n x f) (fun p => wave64 M a b c (value dbl h x p)) /\
  stores64 (dx64 M (sin_function64 a b c) x) h f (shared n x f) (fun p => slope64 M a b (value dbl h x p)) /\
  stores64 (d2x64 M (sin_function64 a b c) x) h f (shared n x f) (fun p => bend64 M a b (value dbl h x p)).
Proof.
  intros C. split; [|split].
  - apply (stores_inplace64 n h x f _ (wave64 M a b c) C); [cbn; inpl64|occurs|]. intros p. reflexivity.
  - apply (stores_inplace64 n h x f _ (slope64 M a b) C); [cbn; inpl64|occurs|]. intros p. reflexivity.
  - apply (stores_inplace64 n h x f _ (bend64 M a b) C); [cbn; inpl64|occurs|]. intros p. reflexivity.
Qed.
Lemma gaussian64_stores M n h x f a sg x0 y0 : coordinates64 n h x f ->
  stores64 (evaluate64 M (gaussian_function64 a sg x0 y0) x) h f (shared n x f) (fun p => bell64 M a sg x0 y0 (value dbl h x p)).
Proof. intros C. apply (stores_inplace64 n h x f _ (bell64 M a sg x0 y0) C); [cbn; inpl64|occurs|]. intros p. reflexivity. Qed.
Lemma hypertan64_stores M n h x f A w l1 l2 : coordinates64 n h x f ->
  stores64 (evaluate64 M (hypertan_function64 A w l1 l2) x) h f (shared n x f) (fun p => step64 M A w l1 l2 (value dbl h x p)).
Proof. intros C. apply (stores_inplace64 n h x f _ (step64 M A w l1 l2) C); [cbn; inpl64|occurs|]. intros p. reflexivity. Qed.

(** A library that rounds correctly is a good one. *)
Definition to_dbl (r : R) : dbl := dlit (ZnearestE (scaled_mantissa radix2 fexp r)) (cexp radix2 fexp r).
Lemma to_dbl_val r : Rabs r <= 1 -> finite (to_dbl r) /\ val (to_dbl r) = rnd r.
Proof.
  intros B. pose proof (binary_normalize_correct 53 1024 d_prec d_emax mode_NE (ZnearestE (scaled_mantissa radix2 fexp r)) (cexp radix2 fexp r) false) as C.
  change (F2R (Float radix2 (ZnearestE (scaled_mantissa radix2 fexp r)) (cexp radix2 fexp r))) with (rnd r) in C.
  change (SpecFloat.fexp 53 1024) with fexp in C. change (round_mode mode_NE) with ZnearestE in C.
  cbv zeta in C. assert (F : fmt (rnd r)) by (apply generic_format_round; typeclasses eauto). rewrite (rnd_fmt _ F) in C.
  assert (L : Rabs (rnd r) <= 1) by (apply rnd_abs_le; [apply (fmt_bpow 0); lia|exact B]).
  rewrite Rlt_bool_true in C; [destruct C as (V & Fi & _); split; [exact Fi|exact V]|].
  eapply Rle_lt_trans; [exact L|]. change 1 with (bpow radix2 0). apply bpow_lt. lia.
Qed.
Definition rounded_libm : libm := Libm (fun x => to_dbl (sin (val x))) (fun x => to_dbl (cos (val x))) (fun x => if Req_EM_T (val x) 0 then d_one else to_dbl (exp (val x))) (fun x => to_dbl (tanh (val x))).
Lemma exp_le_1 z : z <= 0 -> 0 <= exp z <= 1.
Proof.
  intros H. split; [apply Rlt_le, exp_pos|]. rewrite <- exp_0. destruct (Req_dec z 0) as [->|N]; [lra|]. apply Rlt_le, exp_increasing. lra.
Qed.
Lemma to_dbl_err r : Rabs r <= 1 -> Rabs (rnd r - r) <= 2 * ur.
Proof.
  intros B. rewrite ur_u. pose proof (abs_eps r) as E. pose proof tiny_1. pose proof u_pos. pose proof (Rabs_pos r). nra.
Qed.
Lemma rounded_good : good_libm rounded_libm (2 * ur).
Proof.
  pose proof ur_u as U. pose proof u_pos as P. constructor; cbn [l_sin l_cos l_exp l_tanh rounded_libm].
  - intros x F. assert (B : Rabs (sin (val x)) <= 1) by (pose proof (SIN_bound (val x)); apply Rabs_le; lra).
    destruct (to_dbl_val _ B) as (G & V). split; [exact G|]. rewrite V. split; [|apply to_dbl_err, B].
    apply rnd_abs_le; [apply (fmt_bpow 0); lia|exact B].
  - intros x F. assert (B : Rabs (cos (val x)) <= 1) by (pose proof (COS_bound (val x)); apply Rabs_le; lra).
    destruct (to_dbl_val _ B) as (G & V). split; [exact G|]. rewrite V. split; [|apply to_dbl_err, B].
    apply rnd_abs_le; [apply (fmt_bpow 0); lia|exact B].
  - intros x F N. destruct (Req_EM_T (val x) 0) as [E|E].
    + destruct one_val as (F1 & V1). split; [exact F1|]. rewrite V1, E, exp_0. split; [lra|]. unfold Rminus. rewrite Rplus_opp_r, Rabs_R0. lra.
    + pose proof (exp_le_1 _ N) as B. assert (B' : Rabs (exp (val x)) <= 1) by (apply Rabs_le; lra).
      destruct (to_dbl_val _ B') as (G & V). split; [exact G|]. rewrite V. split; [|apply to_dbl_err, B'].
      split; [apply rnd_ge_fmt; [apply generic_format_0|lra]|apply rnd_le_fmt; [apply (fmt_bpow 0); lia|apply B]].
  - intros x y Fx Fy L N. pose proof (exp_le_1 _ N) as By. pose proof (exp_le_1 (val x) ltac:(lra)) as Bx.
    destruct (to_dbl_val (exp (val x))) as (_ & Vx); [apply Rabs_le; lra|]. destruct (to_dbl_val (exp (val y))) as (_ & Vy); [apply Rabs_le; lra|].
    destruct one_val as (_ & V1). destruct (Req_EM_T (val x) 0) as [Ex|Ex], (Req_EM_T (val y) 0) as [Ey|Ey]; rewrite ?V1, ?Vx, ?Vy; try lra.
    + apply rnd_le_fmt; [apply (fmt_bpow 0); lia|apply Bx].
    + apply rnd_mono. destruct (Req_dec (val x) (val y)) as [->|D]; [lra|]. apply Rlt_le, exp_increasing. lra.
  - intros x _ E. destruct (Req_EM_T (val x) 0) as [_|N]; [reflexivity|contradiction].
  - intros x F. pose proof (tanh_bound (val x)) as B. destruct (to_dbl_val _ B) as (G & V). split; [exact G|]. rewrite V. split; [|apply to_dbl_err, B].
    apply rnd_abs_le; [apply (fmt_bpow 0); lia|exact B].
Qed.

(** A concrete case: coordinates xt and destination xf of NeboE, all cells of
    every block holding v. *)
Definition dheap (v : dbl) : heap dbl := fun _ => Block (fun i => (0 <=? i)%Z && (i <? 200)%Z) (fun _ => v).
Lemma d_coordinates v : coordinates64 xdim (dheap v) xt xf.
Proof.
  split; [|split; [|split; [|split]]].
  - split; [|split; intros; cbn in *; tauto]. intros g s I. cbn in I. destruct I as [I|[]]. injection I as <- <-.
    split; [apply user_field_on_patch, user_xt|]. intros p P. apply xcell_ok; [cbn; auto|right; exact P].
  - split; [apply user_field_on_patch, user_xf|]. split; [reflexivity|]. intros p P. apply xcell_ok; [cbn; auto|left; exact P].
  - intros g s I. cbn in I. destruct I as [I|[]]. injection I as <- <-. left. discriminate.
  - intros l m u I. cbn in I. destruct I as [I|[]]. injection I as <- <- <-. cbn. repeat split; intros; lia.
  - unfold finite_ghosts, g_nonneg, iv_le. cbn. unfold GHOST_MAX. repeat split; lia.
Qed.
Lemma usual_small k : (1 <= Z.abs k <= 1000)%Z -> usual (dlit k 0).
Proof.
  intros H. destruct (Grid64Q.int_val k ltac:(lia)) as (F & V). split; [exact F|]. rewrite V, !p2. split.
  - right. rewrite <- abs_IZR. apply Rle_trans with 1; [change 1 with (bpow radix2 0); apply bpow_le; lia|apply IZR_le; lia].
  - rewrite <- abs_IZR. apply Rle_trans with (IZR 1000); [apply IZR_le; lia|]. apply Rle_trans with (bpow radix2 10); [cbn; lra|apply bpow_le; lia].
Qed.
