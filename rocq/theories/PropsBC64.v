(** C72: boundary conditions in double precision.

    [solved h phi D S cd cs gamma g]: the cell at g + D holds, rounded after every
    operation, (gamma - phi(g + S) * cs) / cd.  [applied h phi p0 p1 c0 c1 g]: what
    the two-point operator returns at g. *)
From Coq Require Import Reals.
From Verif Require Import Prelude WindowM WindowS GhostM FieldM FieldS MaskM NeboM NeboS NeboE NeboG StencilM StencilS StencilP BCM BCS BCE RoundM RoundS HeatM BC64M BC64S BC64P BC64Q BC64R BC64E BCR BC64T.
Open Scope Z_scope.

(** The Nebo form, as C38_nebo: every masked point is solved, nothing else changes. *)
Theorem C72_nebo : forall n h b m phi gamma minus,
  let D := b_dest64 b in let S := b_src64 b in let e := bc_expr64 b m phi gamma minus in
  operands_ok dbl n h e -> destination_ok dbl n h phi -> covers_extra dbl phi e -> (exists p, region dbl n phi e p) ->
  (forall g s, In (g, s) (reads dbl gamma iv_zero) -> fbuf g <> fbuf phi) ->
  (forall g, In g (singles dbl gamma) -> fbuf g <> fbuf phi) ->
  (forall g, next_to minus (offset (b_gamma64 b)) (offset (b_phi64 b)) g (iv_add g D)) ->
  S <> D ->
  (forall g g', holds m g = true -> holds m g' = true -> region dbl n phi e (iv_add g D) -> region dbl n phi e (iv_add g' D) ->
     before (iv_add g D) (iv_add g' D) -> iv_add g S <> iv_add g' D) ->
  exists N, forall fuel, (N <= fuel)%nat -> exists h',
    run (bc_apply64 fuel b m phi gamma minus) h = RDone h' tt /\
    (forall g, holds m g = true -> region dbl n phi e (iv_add g D) ->
       solved h' phi D S (b_destcoef64 b) (b_srccoef64 b) (denote dbl dadd dmul h gamma g) g) /\
    only_changed64 h h' (fun c i => c = fbuf phi /\
       exists g, holds m g = true /\ region dbl n phi e (iv_add g D) /\ i = cell phi (iv_add g D)).
Proof. exact nebo_bc64. Qed.
Print Assumptions C72_nebo.
(** The overloads for a field and for a scalar: every masked point is solved for
    the value the field had there, or for the scalar. *)
Theorem C72_field : forall n h b m phi gamma minus,
  let D := b_dest64 b in let S := b_src64 b in let e := bc_expr64 b m phi (EField dbl gamma) minus in
  operands_ok dbl n h e -> destination_ok dbl n h phi -> covers_extra dbl phi e -> (exists p, region dbl n phi e p) ->
  fbuf gamma <> fbuf phi ->
  (forall g, next_to minus (offset (b_gamma64 b)) (offset (b_phi64 b)) g (iv_add g D)) ->
  S <> D ->
  (forall g g', holds m g = true -> holds m g' = true -> region dbl n phi e (iv_add g D) -> region dbl n phi e (iv_add g' D) ->
     before (iv_add g D) (iv_add g' D) -> iv_add g S <> iv_add g' D) ->
  exists N, forall fuel, (N <= fuel)%nat -> exists h',
    run (bc_apply_field64 fuel b m phi gamma minus) h = RDone h' tt /\
    (forall g, holds m g = true -> region dbl n phi e (iv_add g D) ->
       solved h' phi D S (b_destcoef64 b) (b_srccoef64 b) (value dbl h gamma g) g) /\
    only_changed64 h h' (fun c i => c = fbuf phi /\
       exists g, holds m g = true /\ region dbl n phi e (iv_add g D) /\ i = cell phi (iv_add g D)).
Proof. exact nebo_bc_field64. Qed.
Print Assumptions C72_field.
Theorem C72_scalar : forall n h b m phi gamma minus,
  let D := b_dest64 b in let S := b_src64 b in let e := bc_expr64 b m phi (EScalar dbl gamma) minus in
  operands_ok dbl n h e -> destination_ok dbl n h phi -> covers_extra dbl phi e -> (exists p, region dbl n phi e p) ->
  (forall g, next_to minus (offset (b_gamma64 b)) (offset (b_phi64 b)) g (iv_add g D)) ->
  S <> D ->
  (forall g g', holds m g = true -> holds m g' = true -> region dbl n phi e (iv_add g D) -> region dbl n phi e (iv_add g' D) ->
     before (iv_add g D) (iv_add g' D) -> iv_add g S <> iv_add g' D) ->
  exists N, forall fuel, (N <= fuel)%nat -> exists h',
    run (bc_apply_scalar64 fuel b m phi gamma minus) h = RDone h' tt /\
    (forall g, holds m g = true -> region dbl n phi e (iv_add g D) ->
       solved h' phi D S (b_destcoef64 b) (b_srccoef64 b) gamma g) /\
    only_changed64 h h' (fun c i => c = fbuf phi /\
       exists g, holds m g = true /\ region dbl n phi e (iv_add g D) /\ i = cell phi (iv_add g D)).
Proof. exact nebo_bc_scalar64. Qed.
Print Assumptions C72_scalar.
Example C72_field_hyps_met :
  operands_ok dbl bdim (eheap d_one) efexp /\ destination_ok dbl bdim (eheap d_one) bphi /\ covers_extra dbl bphi efexp /\
  fbuf bgam <> fbuf bphi /\
  (forall g, next_to true (offset (b_gamma64 ebc)) (offset (b_phi64 ebc)) g (iv_add g (b_dest64 ebc))) /\
  b_src64 ebc <> b_dest64 ebc /\
  (forall g g', holds bmask g = true -> holds bmask g' = true ->
     region dbl bdim bphi efexp (iv_add g (b_dest64 ebc)) -> region dbl bdim bphi efexp (iv_add g' (b_dest64 ebc)) ->
     before (iv_add g (b_dest64 ebc)) (iv_add g' (b_dest64 ebc)) -> iv_add g (b_src64 ebc) <> iv_add g' (b_dest64 ebc)) /\
  holds bmask (IV 0 0 0) = true /\ region dbl bdim bphi efexp (iv_add (IV 0 0 0) (b_dest64 ebc)).
Proof.
  refine (conj (ef_operands _) (conj (e_destination _) (conj ef_covers (conj _ (conj e_side
    (conj _ (conj ef_chain (conj eq_refl (ef_region _ _))))))))).
  - discriminate.
  - discriminate.
  - cbn. lia.
Qed.

(** The coefficients of an operator, by number: past the end the access is
    refused, except that a collection of one coefficient also has a number 1. *)
Theorem C72_get_coef : forall (c : coefs dbl) i,
  (forall x, nth_error (fst c :: snd c) i = Some x -> get_coef64 c i = Ok x) /\
  (nth_error (fst c :: snd c) i = None -> get_coef64 c i = match i, snd c with 1%nat, [] => Ok (fst c) | _, _ => Throw end).
Proof. exact coef_access64. Qed.
Print Assumptions C72_get_coef.


(** BoundaryConditionOp on one point. *)
Theorem C72_op : forall p0 p1 c0 c1 p s v f h fuel,
  finite_ghosts f -> freadonly f = false -> block_exists64 h f ->
  in_block f (iv_add p p0) -> in_block f (iv_add p p1) -> p0 <> p1 -> (1 <= fuel)%nat ->
  exists o h', bc_single64 (p0, [p1]) (c0, [c1]) p s v = Some (Ok o) /\
    run (bc_run64 fuel o f) h = RDone h' tt /\
    match s with PLUS_SIDE => solved h' f p1 p0 c1 c0 v p | _ => solved h' f p0 p1 c0 c1 v p end /\
    only_changed64 h h' (fun b i => b = fbuf f /\ i = cell f (iv_add p (match s with PLUS_SIDE => p1 | _ => p0 end))).
Proof. exact bc_single_run64. Qed.
Print Assumptions C72_op.
Theorem C72_op_side : forall src dst s p v c, staggered src -> staggered dst -> differ src dst = 1 ->
  exists lo hi, stencil2 src dst = (lo, [hi]) /\ lo <> hi /\
  forall o, bc_single64 (stencil2 src dst) c p s v = Some (Ok o) ->
  exists a b, o_where64 o = Single a b /\ a = iv_add p (match s with PLUS_SIDE => hi | _ => lo end) /\
    next_to (minus_like s) dst src p a /\ next_to (negb (minus_like s)) dst src p b.
Proof. exact bc_single_side64. Qed.
Print Assumptions C72_op_side.
(** BoundaryConditionOp on a list, bit for bit the single operators in turn. *)
Theorem C72_list : forall fuel pts c w ps s v f h,
  s <> NO_SIDE -> wglob w = wext (fint f) -> woff w = iv_zero ->
  finite_ghosts f -> freadonly f = false -> block_exists64 h f -> fits (fint f) -> (1 <= fuel)%nat ->
  (length (snd c) = 1)%nat ->
  (exists p0 p1, pts = (p0, [p1]) /\ forall p, In p ps -> in_box (wext (fint f)) (iv_add p p0) /\ in_box (wext (fint f)) (iv_add p p1)) ->
  exists o h', bc_list64 pts c w ps s v = Some (Ok o) /\
    run (bc_run64 fuel o f) h = RDone h' tt /\ run (singles_in_turn64 fuel pts c ps s v f) h = RDone h' tt.
Proof. exact list_run64. Qed.
Print Assumptions C72_list.

(** How well a solved cell meets the condition, for any two-point operator. *)
Theorem C72_error : forall h phi D S cd cs gamma g r, solved h phi D S cd cs gamma g ->
  let x := value dbl h phi (iv_add g S) in
  usual x -> usual gamma -> usual cd -> usual cs -> val cd <> 0%R ->
  r = applied h phi D S cd cs g \/ r = applied h phi S D cs cd g ->
  finite r /\ (Rabs (val r - val gamma) <= powerRZ 2 (-50) * (Rabs (val gamma) + Rabs (val x * val cs)))%R.
Proof. exact bc_error. Qed.
Print Assumptions C72_error.
(** A value imposed through the interpolant. *)
Theorem C72_interpolant : forall h phi D S cd cs gamma g r, solved h phi D S cd cs gamma g ->
  let x := value dbl h phi (iv_add g S) in
  usual x -> usual gamma -> cd = d_half -> cs = d_half ->
  r = applied h phi D S cd cs g \/ r = applied h phi S D cs cd g ->
  finite r /\ (Rabs (val r - val gamma) <= powerRZ 2 (-51) * Rabs (val gamma) + powerRZ 2 (-53) * Rabs (val x))%R.
Proof. exact bc_half. Qed.
Print Assumptions C72_interpolant.
(** Exactly met for zero, and when the inner value is between once and four times
    the imposed one. *)
Theorem C72_interpolant_exact : forall h phi D S cd cs gamma g r, solved h phi D S cd cs gamma g ->
  let x := value dbl h phi (iv_add g S) in
  usual x -> usual gamma -> cd = d_half -> cs = d_half ->
  (val gamma = 0 \/ val x = 0 \/ (0 <= val gamma * val x /\ Rabs (val gamma) <= Rabs (val x) <= 4 * Rabs (val gamma)))%R ->
  r = applied h phi D S cd cs g \/ r = applied h phi S D cs cd g ->
  finite r /\ val r = val gamma.
Proof. exact bc_half_exact. Qed.
Print Assumptions C72_interpolant_exact.
(** Zero flux through an operator with opposite coefficients. *)
Theorem C72_zero_flux : forall h phi D S cd cs gamma g r, solved h phi D S cd cs gamma g ->
  let x := value dbl h phi (iv_add g S) in
  usual x -> usual cd -> usual cs -> val cd <> 0%R -> finite gamma -> val gamma = 0%R -> (val cd = - val cs)%R ->
  power_of_two (val cs) \/ ~ power_of_two (val (dmul x cs)) ->
  r = applied h phi D S cd cs g \/ r = applied h phi S D cs cd g ->
  finite r /\ val r = 0%R.
Proof. exact bc_flux. Qed.
Print Assumptions C72_zero_flux.
(** The registered two-point operators are of one of these forms. *)
Theorem C72_registered : forall n Lx Ly Lz t s d b, In (t, s, d, b) (build_stencils64 n Lx Ly Lz) ->
  forall p0 p1 c, b = StencilOp (p0, [p1]) c -> exists c0 c1, c = (c0, [c1]) /\
    match t with Interpolant | InterpolantD _ => c0 = d_half /\ c1 = d_half | _ => c0 = dopp c1 end.
Proof. exact registered_coefs. Qed.
Print Assumptions C72_registered.

(** Four cells of length 93 holding 186: zero flux imposed, but the gradient is not 0. *)
Theorem C72_zero_flux_refuted : exists n f h l h' o, let c := grad_at l in
  In (Gradient, SVol, SSurfX, StencilOp (IV (-1) 0 0, [IV 0 0 0]) c) (build_stencils64 n l l l) /\ block_exists64 h f /\
  (forall p, value dbl h f p = dlit 186 0) /\ l = dlit 372 0 /\
  bc_single64 (IV (-1) 0 0, [IV 0 0 0]) c iv_zero MINUS_SIDE zero = Some (Ok o) /\
  run (bc_run64 1 o f) h = RDone h' tt /\
  let r := denote dbl dadd dmul h' (apply_op64 (StencilOp (IV (-1) 0 0, [IV 0 0 0]) c) (EField dbl f)) iv_zero in
  finite r /\ val r <> 0%R.
Proof. exact flux_off. Qed.
Print Assumptions C72_zero_flux_refuted.
(** 2^-60 imposed next to a cell holding 2: the interpolant gives 0. *)
Theorem C72_interpolant_refuted : exists f h gamma h' o,
  block_exists64 h f /\ (forall p, value dbl h f p = dlit 2 0) /\ gamma = dlit 1 (-60) /\
  bc_single64 (IV (-1) 0 0, [IV 0 0 0]) (d_half, [d_half]) iv_zero MINUS_SIDE gamma = Some (Ok o) /\
  run (bc_run64 1 o f) h = RDone h' tt /\
  applied h' f (IV (-1) 0 0) (IV 0 0 0) d_half d_half iv_zero = zero.
Proof. exact half_off. Qed.
Print Assumptions C72_interpolant_refuted.
(** A zero coefficient at the cell to be set is not detected. *)
Theorem C72_zero_coefficient_refuted : exists f h gamma h' o,
  block_exists64 h f /\ (forall p, value dbl h f p = d_one) /\ gamma = d_one /\
  bc_single64 (IV (-1) 0 0, [IV 0 0 0]) (zero, [d_one]) iv_zero MINUS_SIDE gamma = Some (Ok o) /\
  run (bc_run64 1 o f) h = RDone h' tt /\
  applied h' f (IV (-1) 0 0) (IV 0 0 0) zero d_one iv_zero = B754_nan.
Proof. exact zero_coef. Qed.
Print Assumptions C72_zero_coefficient_refuted.

Example C72_hyps_met :
  (operands_ok dbl bdim (eheap d_one) eexp /\ destination_ok dbl bdim (eheap d_one) bphi /\ covers_extra dbl bphi eexp /\
   (forall g, next_to true (offset (b_gamma64 ebc)) (offset (b_phi64 ebc)) g (iv_add g (b_dest64 ebc))) /\
   b_src64 ebc <> b_dest64 ebc /\
   (forall g g', holds bmask g = true -> holds bmask g' = true ->
     region dbl bdim bphi eexp (iv_add g (b_dest64 ebc)) -> region dbl bdim bphi eexp (iv_add g' (b_dest64 ebc)) ->
     before (iv_add g (b_dest64 ebc)) (iv_add g' (b_dest64 ebc)) -> iv_add g (b_src64 ebc) <> iv_add g' (b_dest64 ebc)) /\
   holds bmask (IV 0 0 0) = true /\ region dbl bdim bphi eexp (iv_add (IV 0 0 0) (b_dest64 ebc))) /\
  (finite_ghosts bphi /\ freadonly bphi = false /\ block_exists64 (eheap d_one) bphi /\
   stencil2 (offset SVol) (offset SSurfX) = (IV (-1) 0 0, [IV 0 0 0]) /\
   in_block bphi (iv_add (IV 0 0 0) (IV (-1) 0 0)) /\ in_block bphi (iv_add (IV 0 0 0) (IV 0 0 0))) /\
  exists h, solved h bphi (IV (-1) 0 0) (IV 0 0 0) (dlit (-3) 0) (dlit 3 0) zero iv_zero /\
    usual (value dbl h bphi (iv_add iv_zero (IV 0 0 0))) /\ usual zero /\ usual (dlit (-3) 0) /\ usual (dlit 3 0) /\ val (dlit (-3) 0) <> 0%R /\
    val zero = 0%R /\ (val (dlit (-3) 0) = - val (dlit 3 0))%R /\ ~ power_of_two (val (dmul (value dbl h bphi (iv_add iv_zero (IV 0 0 0))) (dlit 3 0))).
Proof. exact e_hyps. Qed.
