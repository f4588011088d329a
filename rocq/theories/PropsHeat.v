(** C65: the heat equation program.

    [heat_loopQ] and [heat_loop64] run the time step of the example program on
    given memory, once for every set of scratch fields in [scr] (a pass gets new
    scratch fields from the pool each time), with the operators that
    build_stencils registers, in exact arithmetic and in doubles.  In the exact
    version a division by zero gives 0, as it does for Coq's rationals; the
    theorems that need it exclude a zero heat capacity or patch length. *)
From Coq Require Import Reals.
From Verif Require Import Prelude WindowM WindowS GhostM FieldM FieldS MaskM NeboM NeboS StencilM StencilS StencilQ RoundM RoundS RoundT StoreM StoreS ThinS HeatM HeatS HeatT HeatD HeatU HeatE Heat64S Heat64P Heat64Q.
Open Scope Z_scope.

(** The program ends, accesses no memory outside its blocks, and leaves in rhs
    the energy balance of every cell of the patch and in the flux fields
    Fourier's law at every face; it changes only rhs, fluxes and scratch. *)
Theorem C65_exact : forall n Lx Ly Lz bx by_ bz g h P scr,
  heat_setup Qc n bx by_ bz g (build_stencils n Lx Ly Lz) h P -> (forall s, In s scr -> scratch_ok Qc n bx by_ bz g h P s) -> scr <> [] ->
  exists h', ends_with Qc (fun fuel => heat_loopQ fuel n P scr) h h' /\
    let dx := grid_spacing n Lx Ly Lz in
    let T := value Qc h (temperature P) in let K := value Qc h (thermCond P) in let C := value Qc h (rhoCp P) in
    (forall p, in_patch n p -> value Qc h' (rhs P) p = heating dx T K C n p) /\
    (forall d p, wide n d -> on_face n d p -> value Qc h' (flux P d) p = heat_flux dx T K d p) /\
    (forall b i, bcells (h' b) i = bcells (h b) i) /\
    (forall b i, ~ written Qc n P scr b -> bdata (h' b) i = bdata (h b) i).
Proof. exact loop_exact. Qed.
Print Assumptions C65_exact.
(** The same in doubles: the bits are those of this rounded formula. *)
Theorem C65_double : forall n Lx Ly Lz bx by_ bz g h P scr,
  heat_setup dbl n bx by_ bz g (build_stencils64 n Lx Ly Lz) h P -> (forall s, In s scr -> scratch_ok dbl n bx by_ bz g h P s) -> scr <> [] ->
  exists h', ends_with dbl (fun fuel => heat_loop64 fuel n P scr) h h' /\
    let dx := spacing64 n Lx Ly Lz in
    let T := value dbl h (temperature P) in let K := value dbl h (thermCond P) in let C := value dbl h (rhoCp P) in
    (forall p, in_patch n p -> value dbl h' (rhs P) p = heating64 dx T K C n p) /\
    (forall d p, wide n d -> on_face n d p -> value dbl h' (flux P d) p = heat_flux64 dx T K d p) /\
    (forall b i, bcells (h' b) i = bcells (h b) i) /\
    (forall b i, ~ written dbl n P scr b -> bdata (h' b) i = bdata (h b) i).
Proof. exact loop_double. Qed.
Print Assumptions C65_double.
(** Conservation: the heat gained by all cells is what crosses the sides. *)
Theorem C65_energy : forall n Lx Ly Lz bx by_ bz g h P scr,
  heat_setup Qc n bx by_ bz g (build_stencils n Lx Ly Lz) h P -> (forall s, In s scr -> scratch_ok Qc n bx by_ bz g h P s) -> scr <> [] ->
  (forall p, in_patch n p -> value Qc h (rhoCp P) p <> 0%Qc) ->
  exists h', ends_with Qc (fun fuel => heat_loopQ fuel n P scr) h h' /\
    qsum (map (fun p => value Qc h' (rhoCp P) p * value Qc h' (rhs P) p)%Qc (cells n)) =
    qsum (map (fun d => (qsum (map (value Qc h' (flux P d)) (side d n 0)) - qsum (map (value Qc h' (flux P d)) (side d n (comp d n)))) / grid_spacing n Lx Ly Lz d)%Qc (wide_dirs n)).
Proof. exact energy_run. Qed.
Print Assumptions C65_energy.
(** When the ghost layer repeats the outermost cells, nothing crosses. *)
Theorem C65_insulated : forall n Lx Ly Lz bx by_ bz g h P scr,
  heat_setup Qc n bx by_ bz g (build_stencils n Lx Ly Lz) h P -> (forall s, In s scr -> scratch_ok Qc n bx by_ bz g h P s) -> scr <> [] ->
  (forall p, in_patch n p -> value Qc h (rhoCp P) p <> 0%Qc) ->
  (forall d p, wide n d -> In p (side d n 0) \/ In p (side d n (comp d n)) -> value Qc h (temperature P) (step d (-1) p) = value Qc h (temperature P) p) ->
  exists h', ends_with Qc (fun fuel => heat_loopQ fuel n P scr) h h' /\
    qsum (map (fun p => value Qc h (rhoCp P) p * value Qc h' (rhs P) p)%Qc (cells n)) = 0%Qc.
Proof. exact insulated_run. Qed.
Print Assumptions C65_insulated.
(** In doubles this is false: rounding creates or destroys heat. *)
Theorem C65_insulated64_refuted : exists n Lx Ly Lz g h P scr h',
  heat_setup dbl n true true true g (build_stencils64 n Lx Ly Lz) h P /\ (forall s, In s scr -> scratch_ok dbl n true true true g h P s) /\
  (forall d p, wide n d -> In p (side d n 0) \/ In p (side d n (comp d n)) -> value dbl h (temperature P) (step d (-1) p) = value dbl h (temperature P) p) /\
  ends_with dbl (fun fuel => heat_loop64 fuel n P scr) h h' /\
  (forall p, in_patch n p -> finite (value dbl h' (rhs P) p) /\ finite (value dbl h (rhoCp P) p) /\ (0 < val (value dbl h (rhoCp P) p))%R) /\
  rsum (map (fun p => val (value dbl h (rhoCp P) p) * val (value dbl h' (rhs P) p))%R (cells n)) <> 0%R.
Proof. exact not_conserved. Qed.
Print Assumptions C65_insulated64_refuted.
(** A hottest cell does not warm up, a coldest cell does not cool down. *)
Theorem C65_hot_to_cold : forall n Lx Ly Lz bx by_ bz g h P scr,
  heat_setup Qc n bx by_ bz g (build_stencils n Lx Ly Lz) h P -> (forall s, In s scr -> scratch_ok Qc n bx by_ bz g h P s) -> scr <> [] ->
  let T := value Qc h (temperature P) in let K := value Qc h (thermCond P) in let C := value Qc h (rhoCp P) in
  exists h', ends_with Qc (fun fuel => heat_loopQ fuel n P scr) h h' /\
  forall p, in_patch n p -> (0 < C p)%Qc -> (forall d k, wide n d -> -1 <= k <= 1 -> (0 <= K (step d k p))%Qc) ->
   ((forall d k, wide n d -> -1 <= k <= 1 -> (T (step d k p) <= T p)%Qc) -> (value Qc h' (rhs P) p <= 0)%Qc) /\
   ((forall d k, wide n d -> -1 <= k <= 1 -> (T p <= T (step d k p))%Qc) -> (0 <= value Qc h' (rhs P) p)%Qc).
Proof. exact sign_run. Qed.
Print Assumptions C65_hot_to_cold.
(** This one survives rounding, wherever no overflow occurs. *)
Theorem C65_hot_to_cold64 : forall n Lx Ly Lz, counts_ok n -> finite Lx -> finite Ly -> finite Lz -> (0 < val Lx)%R -> (0 < val Ly)%R -> (0 < val Lz)%R ->
  forall bx by_ bz g h P scr,
  heat_setup dbl n bx by_ bz g (build_stencils64 n Lx Ly Lz) h P -> (forall s, In s scr -> scratch_ok dbl n bx by_ bz g h P s) -> scr <> [] ->
  let T := value dbl h (temperature P) in let K := value dbl h (thermCond P) in let C := value dbl h (rhoCp P) in
  exists h', ends_with dbl (fun fuel => heat_loop64 fuel n P scr) h h' /\
  (forall p, in_patch n p -> finite (value dbl h' (rhs P) p) -> finite (C p) -> (0 < val (C p))%R ->
   (forall d k, wide n d -> -1 <= k <= 1 -> dle zero (K (step d k p))) ->
   ((forall d k, wide n d -> -1 <= k <= 1 -> dle (T (step d k p)) (T p)) -> dle (value dbl h' (rhs P) p) zero) /\
   ((forall d k, wide n d -> -1 <= k <= 1 -> dle (T p) (T (step d k p))) -> dle zero (value dbl h' (rhs P) p))) /\
  (forall d p, wide n d -> on_face n d p -> finite (value dbl h' (flux P d) p) -> dle zero (K (step d (-1) p)) -> dle zero (K p) ->
   (dle (T (step d (-1) p)) (T p) -> dle (value dbl h' (flux P d) p) zero) /\
   (dle (T p) (T (step d (-1) p)) -> dle zero (value dbl h' (flux P d) p))).
Proof. exact sign_run64. Qed.
Print Assumptions C65_hot_to_cold64.
(** How far rounding takes the results from the balance over the reals, with the
    spacing length / number of cells: MT and MK bound the temperatures and
    conductivities the cell (or face) sees, all of moderate magnitude. *)
Theorem C65_error64 : forall n Lx Ly Lz, counts_ok n -> (forall d, wide n d -> moderate (len Lx Ly Lz d) /\ val (len Lx Ly Lz d) <> 0%R) ->
  forall bx by_ bz g h P scr,
  heat_setup dbl n bx by_ bz g (build_stencils64 n Lx Ly Lz) h P -> (forall s, In s scr -> scratch_ok dbl n bx by_ bz g h P s) -> scr <> [] ->
  let T := value dbl h (temperature P) in let K := value dbl h (thermCond P) in let C := value dbl h (rhoCp P) in
  let D := spacingR n Lx Ly Lz in
  exists h', ends_with dbl (fun fuel => heat_loop64 fuel n P scr) h h' /\
  (forall p MT MK, in_patch n p -> moderate (C p) -> val (C p) <> 0%R ->
   (forall d k, wide n d -> -1 <= k <= 1 -> bounded_by (T (step d k p)) MT /\ bounded_by (K (step d k p)) MK) ->
   finite (value dbl h' (rhs P) p) /\
   (Rabs (val (value dbl h' (rhs P) p) - heatingR D T K C n p) <=
    powerRZ 2 (-47) * (MT * MK / Rabs (val (C p))) * rsum (map (fun d => / (D d * D d)) (wide_dirs n)))%R) /\
  (forall d p MT MK, wide n d -> on_face n d p ->
   (forall k, -1 <= k <= 0 -> bounded_by (T (step d k p)) MT /\ bounded_by (K (step d k p)) MK) ->
   finite (value dbl h' (flux P d) p) /\
   (Rabs (val (value dbl h' (flux P d) p) - heat_fluxR D T K d p) <= powerRZ 2 (-49) * (MT * MK / Rabs (D d)))%R).
Proof. exact error_run. Qed.
Print Assumptions C65_error64.

(** The heat rounding creates or destroys in an insulated patch is small. *)
Theorem C65_insulated_error64 : forall n Lx Ly Lz, counts_ok n -> (forall d, wide n d -> moderate (len Lx Ly Lz d) /\ val (len Lx Ly Lz d) <> 0%R) ->
  forall bx by_ bz g h P scr,
  heat_setup dbl n bx by_ bz g (build_stencils64 n Lx Ly Lz) h P -> (forall s, In s scr -> scratch_ok dbl n bx by_ bz g h P s) -> scr <> [] ->
  let T := value dbl h (temperature P) in let K := value dbl h (thermCond P) in let C := value dbl h (rhoCp P) in
  let D := spacingR n Lx Ly Lz in
  forall MT MK,
  (forall p, in_patch n p -> moderate (C p) /\ val (C p) <> 0%R /\
     forall d k, wide n d -> -1 <= k <= 1 -> bounded_by (T (step d k p)) MT /\ bounded_by (K (step d k p)) MK) ->
  (forall d p, wide n d -> In p (side d n 0) \/ In p (side d n (comp d n)) -> T (step d (-1) p) = T p) ->
  exists h', ends_with dbl (fun fuel => heat_loop64 fuel n P scr) h h' /\
  (Rabs (rsum (map (fun p => val (C p) * val (value dbl h' (rhs P) p)) (cells n))) <=
   powerRZ 2 (-47) * (MT * MK) * rsum (map (fun d => / (D d * D d)) (wide_dirs n)) * INR (length (cells n)))%R.
Proof. exact insulated_run64. Qed.
Print Assumptions C65_insulated_error64.

(** For a temperature quadratic and a conductivity linear in the coordinates
    around a cell, rhs is div (K grad T) / rhoCp at the cell centre exactly. *)
Theorem C65_quadratic : forall n Lx Ly Lz bx by_ bz g h P scr,
  heat_setup Qc n bx by_ bz g (build_stencils n Lx Ly Lz) h P -> (forall s, In s scr -> scratch_ok Qc n bx by_ bz g h P s) -> scr <> [] ->
  forall c k0 k, Lx <> 0%Qc -> Ly <> 0%Qc -> Lz <> 0%Qc ->
  let dx := grid_spacing n Lx Ly Lz in
  exists h', ends_with Qc (fun fuel => heat_loopQ fuel n P scr) h h' /\
  forall p, in_patch n p ->
   (forall d j, wide n d -> -1 <= j <= 1 -> value Qc h (temperature P) (step d j p) = quadratic c (coord dx SVol (step d j p))) ->
   (forall d j, wide n d -> -1 <= j <= 1 -> value Qc h (thermCond P) (step d j p) = linear k0 k (coord dx SVol (step d j p))) ->
   value Qc h' (rhs P) p =
   (qsum (map (fun d => k d * slope c d (coord dx SVol p) + linear k0 k (coord dx SVol p) * bend c d) (wide_dirs n)) / value Qc h (rhoCp P) p)%Qc.
Proof. exact quadratic_run. Qed.
Print Assumptions C65_quadratic.

Example C65_hyps_met :
  (forall v, heat_setup Qc en true true true (ghost_n 1) (build_stencils en (qc_of 3) (qc_of 2) 1%Qc) (emem Qc v) eP) /\
  (forall v s, In s (esc en) -> scratch_ok Qc en true true true (ghost_n 1) (emem Qc v) eP s) /\ esc en <> [] /\
  (forall p, value Qc (emem Qc vi) (rhoCp eP) p = 1%Qc) /\
  (forall d p, wide en d -> In p (side d en 0) \/ In p (side d en (comp d en)) ->
    value Qc (emem Qc vi) (temperature eP) (step d (-1) p) = value Qc (emem Qc vi) (temperature eP) p) /\
  value Qc (emem Qc vi) (temperature eP) (IV 0 0 0) <> value Qc (emem Qc vi) (temperature eP) (IV 2 0 0) /\
  in_patch en (IV 1 1 0) /\
  (forall d j, wide en d -> -1 <= j <= 1 ->
    value Qc (emem Qc vq) (temperature eP) (step d j (IV 1 1 0)) =
    quadratic equad (coord (grid_spacing en (qc_of 3) (qc_of 2) 1%Qc) SVol (step d j (IV 1 1 0)))) /\
  (** running it gives the second derivative of x squared in every cell *)
  match run (heat_loopQ 100 en eP (esc en)) (emem Qc vq) with
  | RDone h' _ => forallb (fun p => Qc_eq_bool (value Qc h' (ef en SVol 3) p) (qc_of 2)) (cells en) = true
  | _ => False
  end.
Proof.
  split; [exact eq_setup|]. split; [exact eq_scratch|]. split; [discriminate|]. split; [intros p; reflexivity|].
  split; [exact e_insulated|]. split; [intros E; apply (f_equal this) in E; vm_compute in E; discriminate|].
  split; [repeat split; vm_compute; congruence|]. split; [exact e_quadratic|exact run_quadratic].
Qed.
Example C65_hyps_met64 :
  counts_ok en2 /\ heat_setup dbl en2 true true true (ghost_n 1) (build_stencils64 en2 (dlit 2 0) d_one d_one) (emem dbl v64) e64 /\
  (forall s, In s (esc en2) -> scratch_ok dbl en2 true true true (ghost_n 1) (emem dbl v64) e64 s) /\
  let T := value dbl (emem dbl v64) (temperature e64) in let K := value dbl (emem dbl v64) (thermCond e64) in
  let C := value dbl (emem dbl v64) (rhoCp e64) in let p := IV 1 0 0 in
  in_patch en2 p /\ finite (heating64 (spacing64 en2 (dlit 2 0) d_one d_one) T K C en2 p) /\ finite (C p) /\ (0 < val (C p))%R /\
  (forall d k, wide en2 d -> -1 <= k <= 1 -> dle zero (K (step d k p))) /\
  (forall d k, wide en2 d -> -1 <= k <= 1 -> dle (T (step d k p)) (T p)).
Proof. split; [intros d; destruct d; cbn -[Z.pow]; lia|]. cbv zeta. exact (conj e64_setup (conj e64_scratch e64_hottest)). Qed.
Example C65_hyps_met_error :
  let T := value dbl (emem dbl v64) (temperature e64) in let K := value dbl (emem dbl v64) (thermCond e64) in let C := value dbl (emem dbl v64) (rhoCp e64) in
  (forall d, wide en2 d -> moderate (len (dlit 2 0) d_one d_one d) /\ val (len (dlit 2 0) d_one d_one d) <> 0%R) /\
  (forall p, in_patch en2 p -> moderate (C p) /\ val (C p) <> 0%R /\
     forall d k, wide en2 d -> -1 <= k <= 1 -> bounded_by (T (step d k p)) 2 /\ bounded_by (K (step d k p)) 1) /\
  (forall d p, wide en2 d -> In p (side d en2 0) \/ In p (side d en2 (comp d en2)) -> T (step d (-1) p) = T p).
Proof. exact e64_bounds. Qed.
