(** Model of the heat equation program (test/heatEqn): the right-hand side of the
    equation computed with operators, scratch fields and assignments.  Over any
    element type; [vap b a] is the operator b applied to the expression a. *)
From Verif Require Import Prelude WindowM GhostM FieldM MaskM NeboM StencilM.

Section Heat.
Variable V : Type.
Variable vadd vmul vsub vdiv : V -> V -> V.
Variable vopp : V -> V.
Variable vzero : V.
Variable vap : builder V -> expr V -> expr V.
Notation assign fuel f e := (fst (nebo_assign V vadd vmul fuel f e)).

(** test/heatEqn/tools.h:10-33 (calculate_flux).  [tmp] is the scratch field of
    lines 22-23; taking it from the store is modelled in StoreM and ConcM. *)
Definition calculate_flux (fuel : nat) (grad interp : builder V) (temperature thermCond flux tmp : field) : prog V unit :=
  let* _ := assign fuel tmp (vap interp (EField V thermCond)) in
  let* _ := assign fuel flux (vap grad (EField V temperature)) in
  assign fuel flux (EOp2 V vmul (EOp1 V vopp (EField V flux)) (EField V tmp)).
(** test/heatEqn/tools.h:37-52 (calculate_rhs) *)
Definition calculate_rhs (fuel : nat) (div : builder V) (flux rhoCp rhs tmp : field) : prog V unit :=
  let* _ := assign fuel tmp (vap div (EField V flux)) in
  assign fuel rhs (EOp2 V vsub (EField V rhs) (EOp2 V vdiv (EField V tmp) (EField V rhoCp))).

(** The fields (test/heatEqn/main.cpp:112-140; the coordinate fields are left
    out), one flux for each direction, the scratch fields of the calls, and the
    operators (main.cpp:99-109). *)
Record problem := Problem {
  temperature : field; thermCond : field; rhoCp : field; rhs : field; flux : dir -> field;
  face_tmp : dir -> field; cell_tmp : dir -> field;
  op_grad : dir -> builder V; op_interp : dir -> builder V; op_div : dir -> builder V }.
(** if( c ) statement *)
Definition when (b : bool) (p : prog V unit) : prog V unit := if b then p else Ret tt.
(** test/heatEqn/main.cpp:159-166: the body of the loop over time *)
Definition heat_step (fuel : nat) (npts : ivec) (P : problem) : prog V unit :=
  let flux_of d := calculate_flux fuel (op_grad P d) (op_interp P d) (temperature P) (thermCond P) (flux P d) (face_tmp P d) in
  let rhs_of d := calculate_rhs fuel (op_div P d) (flux P d) (rhoCp P) (rhs P) (cell_tmp P d) in
  let* _ := when (1 <? ix npts) (flux_of XDIR) in
  let* _ := when (1 <? iy npts) (flux_of YDIR) in
  let* _ := when (1 <? iz npts) (flux_of ZDIR) in
  let* _ := assign fuel (rhs P) (EScalar V vzero) in
  let* _ := when (1 <? ix npts) (rhs_of XDIR) in
  let* _ := when (1 <? iy npts) (rhs_of YDIR) in
  when (1 <? iz npts) (rhs_of ZDIR).
(** The scratch fields of a pass: the store may hand out other blocks each time. *)
Definition with_scratch (P : problem) (s : (dir -> field) * (dir -> field)) : problem :=
  Problem (temperature P) (thermCond P) (rhoCp P) (rhs P) (flux P) (fst s) (snd s) (op_grad P) (op_interp P) (op_div P).
(** test/heatEqn/main.cpp:155-174: one pass for each entry of [scratch] *)
Fixpoint heat_loop (fuel : nat) (npts : ivec) (P : problem) (scratch : list ((dir -> field) * (dir -> field))) : prog V unit :=
  match scratch with
  | [] => Ret tt
  | s :: scratch => let* _ := heat_step fuel npts (with_scratch P s) in heat_loop fuel npts P scratch
  end.
End Heat.
Arguments temperature {V}. Arguments thermCond {V}. Arguments rhoCp {V}. Arguments rhs {V}. Arguments flux {V}.
Arguments face_tmp {V}. Arguments cell_tmp {V}. Arguments op_grad {V}. Arguments op_interp {V}. Arguments op_div {V}. Arguments with_scratch {V}.

(** With exact numbers and with doubles. *)
From Verif Require Import RoundM.
Definition heat_loopQ := heat_loop Qc Qcplus Qcmult Qcminus Qcdiv Qcopp 0%Qc apply_op.
Definition dsub : dbl -> dbl -> dbl := @Bminus 53 1024 d_prec d_emax mode_NE.
Definition heat_loop64 := heat_loop dbl dadd dmul dsub ddiv dopp (B754_zero false) apply_op64.
