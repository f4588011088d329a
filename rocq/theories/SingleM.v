(** Model of single-value fields: the check in the constructors, and programs
    that use such fields as variables. *)
From Verif Require Import Prelude WindowM GhostM FieldM NeboM.

(** SpatialField.h:498-523, SingleValueCheck<SingleValue>::check: true if it does
    not throw.  [debug]: NDEBUG is not defined.  extent(i) is a size_t; get_minus
    and get_plus are ints. *)
Definition single_check (debug : bool) (w : window) (g : ghost) : bool :=
  if debug then
    if (1 <? ix (wext w)) && (1 <? iy (wext w)) && (1 <? iz (wext w)) then false
    else if (0 <? ix (gminus g)) && (0 <? iy (gminus g)) && (0 <? iz (gminus g)) &&
            (0 <? ix (gplus g)) && (0 <? iy (gplus g)) && (0 <? iz (gplus g)) then false
    else true
  else true.
(** SpatialField.h:534-627 and 658-712, the constructors of SpatialField<SingleValue>
    on the CPU *)
Definition single_make (debug : bool) (w : window) (bc : bcinfo) (g : ghost) (buf : nat) (nthreads : Z) : outcome field :=
  if single_check debug w g then Ok (field_make w bc g buf nthreads) else Throw.
Definition single_window (debug : bool) (w : window) (f : field) : outcome field :=
  if single_check debug w (fghosts f) then Ok (field_window w f) else Throw.

Section Single.
Variable V : Type.
Variable vadd vmul : V -> V -> V.

(** What may stand to the right of <<= if the left side is a single-value field
    (NeboAssignment.h:80-176): constants, single-value fields [SVar i], element
    functions and cond of them (operators and comparisons are parameters). *)
Inductive sexpr :=
| SConst (v : V) | SVar (i : nat) | SFun1 (op : V -> V) (a : sexpr) | SFun2 (op : V -> V -> V) (a b : sexpr)
| SCond (c : V -> V -> bool) (a b x y : sexpr).
(** The Nebo expression built for it (C54 has the operators). *)
Fixpoint sv_expr (fs : nat -> field) (e : sexpr) : expr V :=
  match e with
  | SConst v => EScalar V v
  | SVar i => ESingle V (fs i)
  | SFun1 op a => EOp1 V op (sv_expr fs a)
  | SFun2 op a b => EOp2 V op (sv_expr fs a) (sv_expr fs b)
  | SCond c a b x y => ECond V (BCmp V c (sv_expr fs a) (sv_expr fs b)) (sv_expr fs x) (sv_expr fs y)
  end.
(** A sequence of assignments (NeboAssignment.h:80-176, operator<<= on single-value
    fields, without threads) *)
Fixpoint sv_run (fuel : nat) (fs : nat -> field) (p : list (nat * sexpr)) (h : heap V) : result V unit :=
  match p with
  | [] => RDone h tt
  | (i, e) :: r =>
      match run (fst (nebo_assign V vadd vmul fuel (fs i) (sv_expr fs e))) h with
      | RDone h' _ => sv_run fuel fs r h'
      | x => x
      end
  end.
End Single.
Arguments SConst {V}. Arguments SVar {V}. Arguments SFun1 {V}. Arguments SFun2 {V}. Arguments SCond {V}.
