(** Analytic field functions in double precision: the theorems put together. *)
From Coq Require Import Reals Lra Lia.
From Verif Require Import Prelude WindowM WindowS GhostM FieldM FieldS MaskM NeboM NeboS NeboE RoundM RoundS BCS BC64S Grid64Q FuncS FuncP Func64M Func64S Func64R Func64Q Func64T Func64P Func64U.
Open Scope R_scope.

Lemma linear64_ok : forall M n h x f m b, coordinates64 n h x f ->
  (exists v : dbl -> dbl, stores64 (evaluate64 M (linear_function64 m b) x) h f (shared n x f) (fun p => v (value dbl h x p)) /\
    (usual m -> usual b ->
      (forall t, usual t -> finite (v t) /\
        Rabs (val (v t) - line (val m) (val b) (val t)) <= ur * (3 * Rabs (val m * val t) + Rabs (val b))) /\
      (forall s t, usual s -> usual t -> val s <= val t ->
        (0 <= val m -> val (v s) <= val (v t)) /\ (val m <= 0 -> val (v t) <= val (v s))) /\
      (forall t i j k, usual t -> val m = IZR i -> val b = IZR j -> val t = IZR k ->
        (Z.abs (i * k) <= 2 ^ 53)%Z -> (Z.abs (i * k + j) <= 2 ^ 53)%Z -> val (v t) = IZR (i * k + j)))) /\
  stores64 (dx64 M (linear_function64 m b) x) h f (any_cell n f) (fun _ => m) /\
  stores64 (d2x64 M (linear_function64 m b) x) h f (any_cell n f) (fun _ => zero).
Proof.
  intros M n h x f m b C. destruct (linear64_stores M n h x f m b C) as (A & D). split; [|exact D].
  exists (line64 m b). split; [exact A|]. intros Hm Hb. split; [|split].
  - intros t Ht. split; [exact (proj1 (line64_val m b t Hm Hb Ht))|exact (line64_err m b t Hm Hb Ht)].
  - intros s t Hs Ht L. split; intros S; [exact (line64_mono m b s t Hm Hb Hs Ht S L)|exact (line64_anti m b s t Hm Hb Hs Ht S L)].
  - intros t i j k Ht E1 E2 E3 B1 B2. rewrite (line64_int m b t i j k Hm Hb Ht E1 E2 E3 B1 B2). unfold line. rewrite E1, E2, E3, plus_IZR, mult_IZR. reflexivity.
Qed.
Lemma sin64_ok : forall M eps n h x f a b c, good_libm M eps -> coordinates64 n h x f ->
  exists v v1 v2 : dbl -> dbl, exists g1 g2,
    stores64 (evaluate64 M (sin_function64 a b c) x) h f (shared n x f) (fun p => v (value dbl h x p)) /\
    stores64 (dx64 M (sin_function64 a b c) x) h f (shared n x f) (fun p => v1 (value dbl h x p)) /\
    stores64 (d2x64 M (sin_function64 a b c) x) h f (shared n x f) (fun p => v2 (value dbl h x p)) /\
    derivative (wave (val a) (val b) (val c)) g1 /\ derivative g1 g2 /\
    (usual a -> usual b -> usual c -> forall t, usual t ->
      (finite (v t) /\ Rabs (val (v t)) <= (1 + ur) * (Rabs (val a) + Rabs (val c)) /\
       Rabs (val (v t) - wave (val a) (val b) (val c) (val t))
         <= Rabs (val a) * (eps + ur * Rabs (val b * val t)) + ur * (3 * Rabs (val a) + Rabs (val c))) /\
      (finite (v1 t) /\ Rabs (val (v1 t) - g1 (val t)) <= Rabs (val a * val b) * ((1 + 3 * ur) * (eps + ur * Rabs (val b * val t)) + 6 * ur)) /\
      (finite (v2 t) /\ Rabs (val (v2 t) - g2 (val t)) <= Rabs (val a * val b * val b) * ((1 + 3 * ur) * (eps + ur * Rabs (val b * val t)) + 6 * ur))).
Proof.
  intros M eps n h x f a b c G C. destruct (sin64_stores M n h x f a b c C) as (A0 & A1 & A2).
  exists (wave64 M a b c), (slope64 M a b), (bend64 M a b), (wave1 (val a) (val b)), (wave2 (val a) (val b)).
  split; [exact A0|]. split; [exact A1|]. split; [exact A2|]. split; [apply wave_der|]. split; [apply wave1_der|].
  intros Ha Hb Hc t Ht. split; [exact (wave64_err M eps a b c t G Ha Hb Hc Ht)|].
  split; [exact (slope64_err M eps a b t G Ha Hb Ht)|exact (bend64_err M eps a b t G Ha Hb Ht)].
Qed.
Lemma gaussian64_ok : forall M eps n h x f a sg x0 y0, good_libm M eps -> coordinates64 n h x f ->
  exists v : dbl -> dbl, stores64 (evaluate64 M (gaussian_function64 a sg x0 y0) x) h f (shared n x f) (fun p => v (value dbl h x p)) /\
    (usual a -> usual sg -> val sg <> 0 -> usual x0 -> usual y0 ->
      (forall t, usual t -> finite (v t) /\
        Rabs (val (v t) - bell (val a) (val sg) (val x0) (val y0) (val t)) <= Rabs (val a) * (eps + 11 * ur) + ur * Rabs (val y0)) /\
      (forall s t, usual s -> usual t -> val s - val x0 = val x0 - val t -> v s = v t) /\
      (forall s t, usual s -> usual t -> Rabs (val t - val x0) <= Rabs (val s - val x0) ->
        (0 <= val a -> val (v s) <= val (v t)) /\ (val a <= 0 -> val (v t) <= val (v s))) /\
      (forall t, usual t -> (0 <= val a -> val y0 <= val (v t)) /\ (val a <= 0 -> val (v t) <= val y0)) /\
      (forall t, usual t -> val t = val x0 -> v t = dadd a y0)).
Proof.
  intros M eps n h x f a sg x0 y0 G C. exists (bell64 M a sg x0 y0). split; [exact (gaussian64_stores M n h x f a sg x0 y0 C)|].
  intros Ha Hs N Hx Hy. split; [|split; [|split; [|split]]].
  - intros t Ht. exact (bell64_err M eps a sg x0 y0 t G Ha Hs N Hx Hy Ht).
  - intros s t H1 H2. exact (bell64_even M eps a sg x0 y0 s t G Ha Hs N Hx Hy H1 H2).
  - intros s t H1 H2. exact (bell64_mono M eps a sg x0 y0 s t G Ha Hs N Hx Hy H1 H2).
  - intros t Ht. destruct (bell64_between M eps a sg x0 y0 t G Ha Hs N Hx Hy Ht) as (P & Q). split; intros S; [apply P, S|apply Q, S].
  - intros t Ht. exact (bell64_top M eps a sg x0 y0 t G Ha Hs N Hx Hy Ht).
Qed.
Lemma hypertan64_ok : forall M eps n h x f A w l1 l2, good_libm M eps -> coordinates64 n h x f ->
  exists v : dbl -> dbl, stores64 (evaluate64 M (hypertan_function64 A w l1 l2) x) h f (shared n x f) (fun p => v (value dbl h x p)) /\
    (usual A -> usual w -> val w <> 0 -> usual l1 -> usual l2 -> forall t, usual t ->
      finite (v t) /\ Rabs (val (v t)) <= Rabs (val A) /\ 0 <= val A * val (v t) /\
      Rabs (val (v t) - step (val A) (val w) (val l1) (val l2) (val t)) <= Rabs (val A) * (eps + 14 * ur)).
Proof.
  intros M eps n h x f A w l1 l2 G C. exists (step64 M A w l1 l2). split; [exact (hypertan64_stores M n h x f A w l1 l2 C)|].
  intros HA Hw N H1 H2 t Ht. exact (step64_ok M eps A w l1 l2 t G HA Hw N H1 H2 Ht).
Qed.
Lemma func64_hyps : good_libm rounded_libm (2 * ur) /\
  coordinates64 xdim (dheap (dlit 7 0)) xt xf /\ shared xdim xt xf (IV 3 (-1) 0) /\ shared xdim xt xf (IV 1 1 0) /\
  value dbl (dheap (dlit 7 0)) xt (IV 1 1 0) = dlit 7 0 /\
  usual (dlit 7 0) /\ usual (dlit (-3) 0) /\ val (dlit 7 0) = 7 /\ val (dlit 7 0) <> 0 /\
  Rabs (val (dlit 7 0) - val (dlit (-3) 0)) <= powerRZ 2 200 * Rabs (val (dlit 7 0)).
Proof.
  split; [exact rounded_good|]. split; [exact (d_coordinates (dlit 7 0))|]. destruct r_shared as (A & B). split; [exact A|]. split; [exact B|].
  split; [reflexivity|]. split; [apply usual_small; lia|]. split; [apply usual_small; lia|].
  pose proof curve_hyps as K. destruct (int_val 7 ltac:(lia)) as (_ & V). split; [exact V|]. split; [rewrite V; lra|exact K].
Qed.
