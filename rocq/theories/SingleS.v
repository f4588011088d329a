(** Specification of single-value fields: they are variables. *)
From Verif Require Import Prelude WindowM GhostM FieldM NeboM SingleM.

Section Spec.
Variable V : Type.
(** The same program with plain variables. *)
Fixpoint seval (env : nat -> V) (e : sexpr V) : V :=
  match e with
  | SConst v => v
  | SVar i => env i
  | SFun1 op a => op (seval env a)
  | SFun2 op a b => op (seval env a) (seval env b)
  | SCond c a b x y => if c (seval env a) (seval env b) then seval env x else seval env y
  end.
Definition sset (env : nat -> V) (i : nat) (v : V) : nat -> V := fun j => if Nat.eqb j i then v else env j.
Fixpoint srun (env : nat -> V) (p : list (nat * sexpr V)) : nat -> V :=
  match p with [] => env | (i, e) :: r => srun (sset env i (seval env e)) r end.

(** Field [f] as the documentation demands (FVStaggeredFieldTypes.h:122-127): one
    cell, no ghosts; any boundary flags. *)
Definition proper (f : field) : Prop := exists debug bx by_ bz buf nt,
  single_make debug (win_full (IV 1 1 1)) (bc_make bx by_ bz iv_zero) (ghost_n 0) buf nt = Ok f.
(** The fields are proper and have memory of their own, of one element, and this
    element is the variable. *)
Definition variables (h : heap V) (fs : nat -> field) (env : nat -> V) : Prop :=
  (forall i, proper (fs i)) /\ (forall i j, i <> j -> fbuf (fs i) <> fbuf (fs j)) /\
  forall i, (forall k, bcells (h (fbuf (fs i))) k = (k =? 0)) /\ bdata (h (fbuf (fs i))) 0 = env i.
End Spec.

(** Expression [e] with every single-value field replaced by the number [val]
    has for it. *)
Section Consts.
Variable V : Type.
Variable val : field -> V.
Fixpoint consts (e : expr V) : expr V :=
  match e with
  | EScalar _ v => EScalar V v
  | EField _ f => EField V f
  | ESingle _ f => EScalar V (val f)
  | EOp1 _ op a => EOp1 V op (consts a)
  | EOp2 _ op a b => EOp2 V op (consts a) (consts b)
  | ECond _ c x o => ECond V (bconsts c) (consts x) (consts o)
  | EStencil _ p0 c0 rest a => EStencil V p0 c0 rest (consts a)
  | ESumStencil _ p0 rest a => ESumStencil V p0 rest (consts a)
  end
with bconsts (e : bexpr V) : bexpr V :=
  match e with
  | BScalar _ b => BScalar V b
  | BMask _ m => BMask V m
  | BCmp _ c a b => BCmp V c (consts a) (consts b)
  | BAnd _ a b => BAnd V (bconsts a) (bconsts b)
  | BOr _ a b => BOr V (bconsts a) (bconsts b)
  | BNot _ a => BNot V (bconsts a)
  | BShift _ p a => BShift V p (bconsts a)
  end.
End Consts.
