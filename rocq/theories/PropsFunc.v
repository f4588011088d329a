(** C55: fields filled from analytic functions. *)
From Coq Require Import Reals.
From Verif Require Import Prelude WindowM WindowS GhostM FieldM FieldS MaskM NeboM NeboS NeboE BCS FuncM FuncS FuncP.
Open Scope R_scope.

(** LinearFunction1D and its derivatives. *)
Theorem C55_linear : forall n h x f m b, coordinates n h x f ->
  stores (evaluate (linear_function m b) x) h f (shared n x f) (fun p => line m b (value R h x p)) /\
  exists g1 g2, derivative (line m b) g1 /\ derivative g1 g2 /\
    stores (dx (linear_function m b) x) h f (any_cell n f) (fun p => g1 (value R h x p)) /\
    stores (d2x (linear_function m b) x) h f (any_cell n f) (fun p => g2 (value R h x p)).
Proof. exact linear_ok. Qed.
Print Assumptions C55_linear.

(** SinFunction and its derivatives. *)
Theorem C55_sin : forall n h x f a b c, coordinates n h x f ->
  stores (evaluate (sin_function a b c) x) h f (shared n x f) (fun p => wave a b c (value R h x p)) /\
  exists g1 g2, derivative (wave a b c) g1 /\ derivative g1 g2 /\
    stores (dx (sin_function a b c) x) h f (shared n x f) (fun p => g1 (value R h x p)) /\
    stores (d2x (sin_function a b c) x) h f (shared n x f) (fun p => g2 (value R h x p)).
Proof. exact sin_ok. Qed.
Print Assumptions C55_sin.

(** GaussianFunction and its second derivative. *)
Theorem C55_gaussian : forall n h x f a sg x0 y0, coordinates n h x f -> sg <> 0 ->
  stores (evaluate (gaussian_function a sg x0 y0) x) h f (shared n x f) (fun p => bell a sg x0 y0 (value R h x p)) /\
  exists g1 g2, derivative (bell a sg x0 y0) g1 /\ derivative g1 g2 /\
    stores (d2x (gaussian_function a sg x0 y0) x) h f (shared n x f) (fun p => g2 (value R h x p)).
Proof. exact gaussian_ok. Qed.
Print Assumptions C55_gaussian.

(** HyperTanFunction. *)
Theorem C55_hypertan : forall n h x f A w l1 l2, coordinates n h x f -> w <> 0 ->
  stores (evaluate (hypertan_function A w l1 l2) x) h f (shared n x f) (fun p => step A w l1 l2 (value R h x p)).
Proof. exact hypertan_ok. Qed.
Print Assumptions C55_hypertan.

(** dx of a GaussianFunction is wrong for every choice of its parameters: there
    is a coordinate t such that a cell at t never gets the derivative there. *)
Theorem C55_gaussian_dx_refuted : forall a sg x0 y0, sg <> 0 -> exists t, forall g, derivative (bell a sg x0 y0) g ->
  forall n h x f p, coordinates n h x f -> shared n x f p -> value R h x p = t ->
  exists N, forall fuel, (N <= fuel)%nat -> exists h', run (dx (gaussian_function a sg x0 y0) x fuel f) h = RDone h' tt /\
    value R h' f p <> g t.
Proof. exact gaussian_dx_wrong. Qed.
Print Assumptions C55_gaussian_dx_refuted.

(** dx and d2x of a HyperTanFunction leave the field as it was. *)
Theorem C55_hypertan_dx_refuted : forall A w l1 l2 h x f fuel,
  run (dx (hypertan_function A w l1 l2) x fuel f) h = RDone h tt /\
  run (d2x (hypertan_function A w l1 l2) x fuel f) h = RDone h tt.
Proof. exact hypertan_dx_nothing. Qed.
Print Assumptions C55_hypertan_dx_refuted.

Example C55_hyps_met : forall t, coordinates xdim (rheap t) xt xf /\
  shared xdim xt xf (IV 3 (-1) 0) /\ shared xdim xt xf (IV 1 1 0) /\ value R (rheap t) xt (IV 1 1 0) = t /\ 2 <> 0.
Proof.
  intros t. split; [exact (r_coordinates t)|]. destruct r_shared as (A & B). split; [exact A|]. split; [exact B|].
  split; [reflexivity|]. apply not_0_IZR. discriminate.
Qed.
