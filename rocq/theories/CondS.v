(** Specification of conditional expressions. *)
From Verif Require Import Prelude WindowM WindowS GhostM FieldM FieldS MaskM MaskS NeboM NeboS CondM.

Section CondS.
Variable V : Type.
Variable vadd vmul : V -> V -> V.

(** The first true clause, else the default. *)
Fixpoint first_true (clauses : list (bool * V)) (otherwise : V) : V :=
  match clauses with
  | [] => otherwise
  | (c, v) :: rest => if c then v else first_true rest otherwise
  end.

(** Meaning of the arguments at point p. *)
Definition holds_at (h : heap V) (p : ivec) (c : carg V) : bool :=
  match c with
  | CBool b => b
  | CExpr e => bdenote V vadd vmul h e p
  | CMask m => holds m p
  end.
Definition value_at (h : heap V) (p : ivec) (v : varg V) : V :=
  match v with
  | VNum d => d
  | VField f => value V h f p
  | VExpr e => denote V vadd vmul h e p
  end.
(** Meaning of the result: a plain number is the same at every point. *)
Definition result_at (h : heap V) (p : ivec) (r : cresult V) : V :=
  match r with RNum d => d | RExpr e => denote V vadd vmul h e p end.

(** Is the argument known at p (NeboS: all the cells it needs are valid)? *)
Definition bexpr_known (n : ivec) (e : bexpr V) (p : ivec) : Prop :=
  forall l m u, In (l, m, u) (bdemands V e iv_zero iv_zero) ->
  forall q, iv_le (iv_sub p m) q -> iv_le q (iv_add p u) -> known n l q.
Definition carg_known (n p : ivec) (c : carg V) : Prop :=
  match c with
  | CBool _ => known n LConst p
  | CExpr e => bexpr_known n e p
  | CMask m => known n (LField (mgeo m)) p
  end.
Definition varg_known (n p : ivec) (v : varg V) : Prop :=
  match v with
  | VNum _ => known n LConst p
  | VField f => known n (LField f) p
  | VExpr e => expr_known V n e p
  end.
(** Only plain bools and numbers. *)
Definition plain_clause (cv : carg V * varg V) : bool :=
  match cv with (CBool _, VNum _) => true | _ => false end.
Definition plain_value (v : varg V) : bool := match v with VNum _ => true | _ => false end.
End CondS.
