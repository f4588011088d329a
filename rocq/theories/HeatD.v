(** Proofs for C65 in double precision. *)
From Coq Require Import Reals Lra Lia Psatz.
From Flocq Require Import Core.
From Verif Require Import Prelude WindowM WindowS GhostM FieldM FieldS FieldP MaskM NeboM NeboS NeboF StencilM StencilS StencilP RoundM RoundS RoundP RoundQ RoundT StoreM StoreS ThinS HeatM HeatS HeatP HeatQ HeatR.
Open Scope R_scope.

Lemma loop_double n Lx Ly Lz bx by_ bz g h P scr :
  heat_setup dbl n bx by_ bz g (build_stencils64 n Lx Ly Lz) h P -> (forall s, In s scr -> scratch_ok dbl n bx by_ bz g h P s) -> scr <> [] ->
  exists h', ends_with dbl (fun fuel => heat_loop64 fuel n P scr) h h' /\
    let dx := spacing64 n Lx Ly Lz in
    let T := value dbl h (temperature P) in let K := value dbl h (thermCond P) in let C := value dbl h (rhoCp P) in
    (forall p, in_patch n p -> value dbl h' (rhs P) p = heating64 dx T K C n p) /\
    (forall d p, wide n d -> on_face n d p -> value dbl h' (flux P d) p = heat_flux64 dx T K d p) /\
    (forall b i, bcells (h' b) i = bcells (h b) i) /\
    (forall b i, ~ written dbl n P scr b -> bdata (h' b) i = bdata (h b) i).
Proof.
  intros S1 S2 NE.
  destruct (loop_ok dbl dadd dmul dsub ddiv dopp zero apply_op64 (fun _ _ _ _ _ => eq_refl)
    (make_coefs64 (spacing64 n Lx Ly Lz)) d_half d_half (fun d => ddiv (dopp d_one) (spacing64 n Lx Ly Lz d)) (fun d => ddiv d_one (spacing64 n Lx Ly Lz d))
    eq_refl (fun _ => eq_refl) n bx by_ bz g P scr h S1 S2) as (h' & Cm & E & R & Kp).
  exists h'. split; [exact Cm|]. cbv zeta. destruct (R NE) as (R1 & R2).
  split; [exact R1|]. split; [exact R2|]. split; assumption.
Qed.

(** ** What finite results tell about operands *)
Lemma dadd_ops x y : finite (dadd x y) -> finite x /\ finite y /\ val (dadd x y) = rnd (val x + val y).
Proof.
  intros F. assert (A : finite x /\ finite y).
  { revert F. destruct x as [s|s| |s m e B], y as [s'|s'| |s' m' e' B']; unfold dadd, finite, Bplus; cbn [is_finite]; try (intros F; discriminate F); auto.
    destruct (Bool.eqb s s'); intros F; discriminate F. }
  destruct A as (A & B). split; [exact A|]. split; [exact B|]. apply dadd_fin; assumption.
Qed.
Lemma dsub_ops x y : finite (dsub x y) -> finite x /\ finite y /\ val (dsub x y) = rnd (val x - val y).
Proof.
  intros F. assert (A : finite x /\ finite y).
  { revert F. destruct x as [s|s| |s m e B], y as [s'|s'| |s' m' e' B']; unfold dsub, finite, Bminus; cbn [is_finite]; try (intros F; discriminate F); auto.
    destruct (Bool.eqb s (negb s')); intros F; discriminate F. }
  destruct A as (A & B). split; [exact A|]. split; [exact B|].
  pose proof (Bminus_correct 53 1024 d_prec d_emax mode_NE x y A B) as C.
  change (Bminus mode_NE x y) with (dsub x y) in *. destruct (Rlt_bool _ _).
  - destruct C as (V & _). exact V.
  - destruct C as (C & _). apply overflow_inf in C. rewrite C in F. discriminate.
Qed.
Lemma ddiv_ops x y : finite (ddiv x y) -> finite y -> val y <> 0 -> finite x /\ val (ddiv x y) = rnd (val x / val y).
Proof.
  intros F Fy Ny. assert (A : finite x).
  { revert F. destruct (val_nz y Fy Ny) as (s & m & e & B & ->). destruct x as [s'|s'| |s' m' e' B']; unfold ddiv, finite, Bdiv; cbn [is_finite]; try (intros F; discriminate F); auto. }
  split; [exact A|]. apply ddiv_fin; assumption.
Qed.
Lemma rnd_nonneg x : 0 <= x -> 0 <= rnd x.
Proof. intros H. apply rnd_ge_fmt; [apply generic_format_0|exact H]. Qed.
Lemma rnd_nonpos x : x <= 0 -> rnd x <= 0.
Proof. intros H. apply rnd_le_fmt; [apply generic_format_0|exact H]. Qed.
Lemma dle_val x y : finite x -> finite y -> (dle x y <-> val x <= val y).
Proof.
  intros A B. unfold dle. rewrite (Bleb_correct 53 1024 x y A B). unfold val. destruct (Rle_bool_spec (B2R x) (B2R y)); split; intros; try lra; try discriminate; auto.
Qed.
Lemma zero_val : finite zero /\ val zero = 0. Proof. split; reflexivity. Qed.

Section D.
Variable dx : dir -> dbl.
(** The reciprocals of the spacings are not negative. *)
Hypothesis Dx : forall d, finite (ddiv d_one (dx d)) -> 0 <= val (ddiv d_one (dx d)).
Variable T K C : ivec -> dbl.

Lemma diff_ops d a b : finite (diff64 dx d a b) -> finite a /\ finite b /\ 0 <= val (ddiv d_one (dx d)) /\
  val (diff64 dx d a b) = rnd (rnd (val b * val (ddiv d_one (dx d))) - rnd (val a * val (ddiv d_one (dx d)))).
Proof.
  unfold diff64. destruct one_val as (O1 & O2). rewrite ddiv_opp_l by (try exact O1; rewrite O2; lra). rewrite dmul_opp_r.
  intros F. destruct (dadd_ops _ _ F) as (A & B & V). rewrite fin_opp in A.
  destruct (dmul_fin _ _ A) as (A1 & A2 & A3). destruct (dmul_fin _ _ B) as (B1 & _ & B3).
  split; [exact A1|]. split; [exact B1|]. split; [apply Dx, A2|]. rewrite V, val_opp, A3, B3. f_equal. ring.
Qed.
Lemma diff_up d a b : finite (diff64 dx d a b) -> val a <= val b -> 0 <= val (diff64 dx d a b).
Proof.
  intros F L. destruct (diff_ops d a b F) as (_ & _ & R & ->). apply rnd_nonneg.
  assert (rnd (val a * val (ddiv d_one (dx d))) <= rnd (val b * val (ddiv d_one (dx d)))); [|lra].
  apply rnd_mono, Rmult_le_compat_r; assumption.
Qed.
Lemma diff_down d a b : finite (diff64 dx d a b) -> val b <= val a -> val (diff64 dx d a b) <= 0.
Proof.
  intros F L. destruct (diff_ops d a b F) as (_ & _ & R & ->). apply rnd_nonpos.
  assert (rnd (val b * val (ddiv d_one (dx d))) <= rnd (val a * val (ddiv d_one (dx d)))); [|lra].
  apply rnd_mono, Rmult_le_compat_r; assumption.
Qed.
Lemma nonneg_val x : finite x -> dle zero x -> 0 <= val x.
Proof. intros F H. apply dle_val in H; [exact H|reflexivity|exact F]. Qed.
(** Heat crosses a face from the warmer to the colder cell. *)
Lemma flux_sign d p : finite (heat_flux64 dx T K d p) -> dle zero (K (step d (-1) p)) -> dle zero (K p) ->
  finite (T p) /\ finite (T (step d (-1) p)) /\
  (dle (T (step d (-1) p)) (T p) -> val (heat_flux64 dx T K d p) <= 0) /\
  (dle (T p) (T (step d (-1) p)) -> 0 <= val (heat_flux64 dx T K d p)).
Proof.
  unfold heat_flux64. intros F K1 K2. destruct (dmul_fin _ _ F) as (A & B & ->). rewrite fin_opp in A.
  destruct (dadd_ops _ _ B) as (B1 & B2 & ->). destruct (dmul_fin _ _ B1) as (C1 & _ & ->). destruct (dmul_fin _ _ B2) as (C2 & _ & ->).
  destruct (diff_ops d _ _ A) as (T1 & T2 & _). apply nonneg_val in K1; [|exact C1]. apply nonneg_val in K2; [|exact C2].
  destruct half_val as (_ & Hv). rewrite Hv, val_opp. pose proof (bpow_gt_0 radix2 (-1)) as Bp.
  assert (Kf : 0 <= rnd (rnd (val (K (step d (-1) p)) * bpow radix2 (-1)) + rnd (val (K p) * bpow radix2 (-1)))).
  { apply rnd_nonneg. apply Rplus_le_le_0_compat; apply rnd_nonneg, Rmult_le_pos; lra. }
  split; [exact T2|]. split; [exact T1|]. split; intros L; (apply dle_val in L; [|assumption|assumption]).
  - apply rnd_nonpos. pose proof (diff_up d _ _ A L). nra.
  - apply rnd_nonneg. pose proof (diff_down d _ _ A L). nra.
Qed.
Notation loss p d := (ddiv (diff64 dx d (heat_flux64 dx T K d p) (heat_flux64 dx T K d (step d 1 p))) (C p)).
Lemma fold_finite p l : forall r, finite (fold_left (fun r d => dsub r (loss p d)) l r) -> finite r /\ forall d, In d l -> finite (loss p d).
Proof.
  induction l as [|d l IH]; intros r F; cbn [fold_left] in F; [split; [exact F|intros d []]|].
  destruct (IH _ F) as (A & B). destruct (dsub_ops _ _ A) as (A1 & A2 & _). split; [exact A1|]. intros e [<-|I]; [exact A2|apply B, I].
Qed.
Lemma fold_down p l : forall r, finite (fold_left (fun r d => dsub r (loss p d)) l r) -> val r <= 0 -> (forall d, In d l -> 0 <= val (loss p d)) ->
  val (fold_left (fun r d => dsub r (loss p d)) l r) <= 0.
Proof.
  induction l as [|d l IH]; intros r F H0 H; cbn [fold_left] in *; [exact H0|].
  destruct (fold_finite p l _ F) as (A & _). destruct (dsub_ops _ _ A) as (_ & _ & V).
  apply IH; [exact F| |intros e I; apply H; right; exact I]. rewrite V. apply rnd_nonpos. pose proof (H d (or_introl eq_refl)). lra.
Qed.
Lemma fold_up p l : forall r, finite (fold_left (fun r d => dsub r (loss p d)) l r) -> 0 <= val r -> (forall d, In d l -> val (loss p d) <= 0) ->
  0 <= val (fold_left (fun r d => dsub r (loss p d)) l r).
Proof.
  induction l as [|d l IH]; intros r F H0 H; cbn [fold_left] in *; [exact H0|].
  destruct (fold_finite p l _ F) as (A & _). destruct (dsub_ops _ _ A) as (_ & _ & V).
  apply IH; [exact F| |intros e I; apply H; right; exact I]. rewrite V. apply rnd_nonneg. pose proof (H d (or_introl eq_refl)). lra.
Qed.
Variable n : ivec.
Lemma hottest64 p : finite (heating64 dx T K C n p) -> finite (C p) -> 0 < val (C p) ->
  (forall d k, wide n d -> (-1 <= k <= 1)%Z -> dle zero (K (step d k p)) /\ dle (T (step d k p)) (T p)) -> dle (heating64 dx T K C n p) zero.
Proof.
  intros F FC PC H. apply dle_val; [exact F|reflexivity|]. apply fold_down; [exact F|apply Rle_refl|].
  destruct (fold_finite p (wide_dirs n) zero F) as (_ & FL). intros d I. pose proof (FL d I) as Fd.
  apply filter_In in I. destruct I as (_ & W). apply Z.ltb_lt in W.
  destruct (ddiv_ops _ _ Fd FC ltac:(lra)) as (F1 & V). rewrite V. apply rnd_nonneg.
  apply Rmult_le_pos; [|left; apply Rinv_0_lt_compat; exact PC].
  destruct (diff_ops d _ _ F1) as (Fa & Fb & _). apply diff_up; [exact F1|].
  assert (K0 := proj1 (H d 0%Z W ltac:(lia))). destruct (H d (-1)%Z W ltac:(lia)) as (Km & Tm). destruct (H d 1%Z W ltac:(lia)) as (Kp & Tp).
  assert (E0 : step d 0 p = p) by (destruct p as [p1 p2 p3], d; unfold step; cbn [ix iy iz]; rewrite Z.add_0_r; reflexivity). rewrite E0 in K0.
  assert (E1 : step d (-1) (step d 1 p) = p) by (destruct p as [p1 p2 p3], d; unfold step; cbn [ix iy iz]; f_equal; lia).
  destruct (flux_sign d p Fa Km K0) as (_ & _ & S1 & _). destruct (flux_sign d (step d 1 p) Fb) as (_ & _ & _ & S2); [rewrite E1; exact K0|exact Kp|].
  rewrite E1 in S2. specialize (S1 Tm). specialize (S2 Tp). lra.
Qed.
Lemma coldest64 p : finite (heating64 dx T K C n p) -> finite (C p) -> 0 < val (C p) ->
  (forall d k, wide n d -> (-1 <= k <= 1)%Z -> dle zero (K (step d k p)) /\ dle (T p) (T (step d k p))) -> dle zero (heating64 dx T K C n p).
Proof.
  intros F FC PC H. apply dle_val; [reflexivity|exact F|]. apply fold_up; [exact F|apply Rle_refl|].
  destruct (fold_finite p (wide_dirs n) zero F) as (_ & FL). intros d I. pose proof (FL d I) as Fd.
  apply filter_In in I. destruct I as (_ & W). apply Z.ltb_lt in W.
  destruct (ddiv_ops _ _ Fd FC ltac:(lra)) as (F1 & V). rewrite V. apply rnd_nonpos.
  assert (Q : val (diff64 dx d (heat_flux64 dx T K d p) (heat_flux64 dx T K d (step d 1 p))) <= 0).
  2:{ assert (0 < / val (C p)) by (apply Rinv_0_lt_compat; exact PC). unfold Rdiv. nra. }
  destruct (diff_ops d _ _ F1) as (Fa & Fb & _). apply diff_down; [exact F1|].
  assert (K0 := proj1 (H d 0%Z W ltac:(lia))). destruct (H d (-1)%Z W ltac:(lia)) as (Km & Tm). destruct (H d 1%Z W ltac:(lia)) as (Kp & Tp).
  assert (E0 : step d 0 p = p) by (destruct p as [p1 p2 p3], d; unfold step; cbn [ix iy iz]; rewrite Z.add_0_r; reflexivity). rewrite E0 in K0.
  assert (E1 : step d (-1) (step d 1 p) = p) by (destruct p as [p1 p2 p3], d; unfold step; cbn [ix iy iz]; f_equal; lia).
  destruct (flux_sign d p Fa Km K0) as (_ & _ & _ & S1). destruct (flux_sign d (step d 1 p) Fb) as (_ & _ & S2 & _); [rewrite E1; exact K0|exact Kp|].
  rewrite E1 in S2. specialize (S1 Tm). specialize (S2 Tp). lra.
Qed.
End D.
