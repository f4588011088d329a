(** What the operators and functions on fields mean. *)
From Verif Require Import Prelude WindowM GhostM FieldM MaskM NeboM NeboS OpM.
From Coq Require Import String.

(** Formulas: numbers, fields, single-value fields and expressions from
    elsewhere (stencil operators, cond), combined by the operators and
    functions; and the logical formulas. *)
Inductive two := Add | Sub | Mul | Div | Pow | Max | Min.
Section Formulas.
Variable V : Type.
Inductive num :=
| NVal (v : V) | NField (f : field) | NSingle (f : field) | NExpr (e : expr V)
| N1 (o : prim1) (a : num) | N2 (o : two) (a b : num).
Inductive log :=
| LBool (b : bool) | LMask (m : mask) | LExpr (b : bexpr V)
| LCmp (c : primc) (a b : num) | LAnd (a b : log) | LOr (a b : log) | LNot (a : log).

(** The C++ text of a formula *)
Local Open Scope string_scope.
Definition spell1 (o : prim1) : string :=
  match o with
  | PNeg => "operator-" | PSin => "sin" | PCos => "cos" | PTan => "tan" | PExp => "exp" | PTanh => "tanh"
  | PAbs => "abs" | PSqrt => "sqrt" | PLog => "log" | PLog10 => "log10" | PErf => "erf" | PErfc => "erfc"
  end.
Definition spell2 (o : two) : string :=
  match o with
  | Add => "operator+" | Sub => "operator-" | Mul => "operator*" | Div => "operator/"
  | Pow => "pow" | Max => "max" | Min => "min"
  end.
Definition spellc (c : primc) : string :=
  match c with
  | PEq => "operator==" | PNe => "operator!=" | PLt => "operator<" | PLe => "operator<="
  | PGt => "operator>" | PGe => "operator>="
  end.
Local Close Scope string_scope.
Fixpoint write (t : num) : source V :=
  match t with
  | NVal v => Val V (TScalar V v)
  | NField f => Val V (TField V f)
  | NSingle f => Val V (TSingle V f)
  | NExpr e => Val V (TExpr V e)
  | N1 o a => App1 V (spell1 o) (write a)
  | N2 o a b => App2 V (spell2 o) (write a) (write b)
  end.
Fixpoint lwrite (t : log) : source V :=
  match t with
  | LBool b => Val V (TBool V b)
  | LMask m => Val V (TMask V m)
  | LExpr b => Val V (TBExpr V b)
  | LCmp c a b => App2 V (spellc c) (write a) (write b)
  | LAnd a b => App2 V "operator&&"%string (lwrite a) (lwrite b)
  | LOr a b => App2 V "operator||"%string (lwrite a) (lwrite b)
  | LNot a => App1 V "operator!"%string (lwrite a)
  end.

(** Its value at a grid point.  max takes the first argument if it is greater,
    min if it is less, otherwise the second. *)
Variable A : arith V.
Definition two_value (o : two) (x y : V) : V :=
  match o with
  | Add => a2 A PAdd x y | Sub => a2 A PSub x y | Mul => a2 A PMul x y | Div => a2 A PDiv x y
  | Pow => a2 A PPow x y
  | Max => if ac A PGt x y then x else y
  | Min => if ac A PLt x y then x else y
  end.
Variable vadd vmul : V -> V -> V.
Fixpoint num_value (h : heap V) (p : ivec) (t : num) : V :=
  match t with
  | NVal v => v
  | NField f => value V h f p
  | NSingle f => bdata (h (fbuf f)) 0
  | NExpr e => denote V vadd vmul h e p
  | N1 o a => a1 A o (num_value h p a)
  | N2 o a b => two_value o (num_value h p a) (num_value h p b)
  end.
Fixpoint log_value (h : heap V) (p : ivec) (t : log) : bool :=
  match t with
  | LBool b => b
  | LMask m => holds m p
  | LExpr b => bdenote V vadd vmul h b p
  | LCmp c a b => ac A c (num_value h p a) (num_value h p b)
  | LAnd a b => log_value h p a && log_value h p b
  | LOr a b => log_value h p a || log_value h p b
  | LNot a => negb (log_value h p a)
  end.

(** Plain constants, single-value formulas (one value for all points), and
    formulas with fields *)
Inductive level := Constant | OneValue | OnField.
Definition join (a b : level) : level :=
  match a, b with
  | OnField, _ | _, OnField => OnField
  | OneValue, _ | _, OneValue => OneValue
  | Constant, Constant => Constant
  end.
Fixpoint num_level (t : num) : level :=
  match t with
  | NVal _ => Constant | NSingle _ => OneValue | NField _ | NExpr _ => OnField
  | N1 _ a => num_level a
  | N2 _ a b => join (num_level a) (num_level b)
  end.
Fixpoint log_level (t : log) : level :=
  match t with
  | LBool _ => Constant | LMask _ | LExpr _ => OnField
  | LCmp _ a b => join (num_level a) (num_level b)
  | LAnd a b | LOr a b => join (log_level a) (log_level b)
  | LNot a => log_level a
  end.

(** The formulas the library's overloads accept: no operator has only plain
    constants as arguments, and comparisons of single values alone cannot be
    combined with &&, || and !. *)
Fixpoint num_ok (t : num) : Prop :=
  match t with
  | NVal _ | NField _ | NSingle _ | NExpr _ => True
  | N1 _ a => num_ok a /\ num_level a <> Constant
  | N2 _ a b => num_ok a /\ num_ok b /\ join (num_level a) (num_level b) <> Constant
  end.
Fixpoint log_ok (t : log) : Prop :=
  match t with
  | LBool _ | LMask _ | LExpr _ => True
  | LCmp _ a b => num_ok a /\ num_ok b /\ join (num_level a) (num_level b) <> Constant
  | LAnd a b | LOr a b =>
      log_ok a /\ log_ok b /\ log_level a <> OneValue /\ log_level b <> OneValue /\ join (log_level a) (log_level b) <> Constant
  | LNot a => log_ok a /\ log_level a = OnField
  end.

(** The expression tree with the same shape as the formula *)
Fixpoint num_tree (t : num) : expr V :=
  match t with
  | NVal v => EScalar V v | NField f => EField V f | NSingle f => ESingle V f | NExpr e => e
  | N1 o a => EOp1 V (a1 A o) (num_tree a)
  | N2 o a b => EOp2 V (two_value o) (num_tree a) (num_tree b)
  end.
Fixpoint log_tree (t : log) : bexpr V :=
  match t with
  | LBool b => BScalar V b | LMask m => BMask V m | LExpr b => b
  | LCmp c a b => BCmp V (ac A c) (num_tree a) (num_tree b)
  | LAnd a b => BAnd V (log_tree a) (log_tree b)
  | LOr a b => BOr V (log_tree a) (log_tree b)
  | LNot a => BNot V (log_tree a)
  end.

(** The tree inside a C++ value, and its level *)
Definition term_num (t : term V) : option (expr V) :=
  match t with
  | TScalar _ v => Some (EScalar V v) | TField _ f => Some (EField V f) | TSingle _ f => Some (ESingle V f)
  | TExpr _ e | TSExpr _ e => Some e
  | _ => None
  end.
Definition term_log (t : term V) : option (bexpr V) :=
  match t with
  | TBool _ b => Some (BScalar V b) | TMask _ m => Some (BMask V m)
  | TBExpr _ b | TBSExpr _ b => Some b
  | _ => None
  end.
Definition term_level (t : term V) : level :=
  match t with
  | TScalar _ _ | TBool _ _ => Constant
  | TSingle _ _ | TSExpr _ _ | TBSExpr _ _ => OneValue
  | _ => OnField
  end.
End Formulas.
