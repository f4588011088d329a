(** Model of the operators and functions on fields: which overload a call
    selects and the expression it builds (NeboOperators.h, NeboAssignment.h).
    The overloads themselves are in OpTabM. *)
From Verif Require Import Prelude WindowM GhostM FieldM MaskM NeboM.
From Coq Require Import String.

(** Types of arguments: value_type, a field, NeboExpression, a SingleValue
    field, NeboSingleValueExpression, bool, NeboBooleanExpression, a mask,
    NeboBooleanSingleValueExpression (NeboBasic.h:185-262). *)
Inductive kind := KScalar | KField | KExpr | KSingle | KSExpr | KBool | KBExpr | KMask | KBSExpr.
(** How an overload turns an argument into an operand: NeboScalar,
    NeboConstField, NeboConstSingleValueField, NeboMask (NeboRhs.h, NeboMask.h)
    or arg.expr() *)
Inductive wrapper := WScalar | WField | WSingle | WMask | WExpr.
(** The expression that eval() returns *)
Inductive body :=
| Operand1 | Operand2
| Infix (o : string) (a b : body)
| Prefix (o : string) (a : body)
| Call1 (f : string) (a : body)
| Call2 (f : string) (a b : body)
| Choose (c a b : body).
Record node_type := Node { nname : string; nbool : bool; nseq : body; ngpu : body; nred : body }.
Record overload := Over { oline : Z; oname : string; opars : list kind; onode : string; oargs : list (wrapper * nat); oresult : kind }.
Record assign_overload := AOver { aline : Z; aname : string; alhs : kind; arhs : kind; aghosts : bool; aarg : wrapper }.

(** Equality of types *)
Definition kind_eqb (a b : kind) : bool :=
  match a, b with
  | KScalar, KScalar | KField, KField | KExpr, KExpr | KSingle, KSingle | KSExpr, KSExpr
  | KBool, KBool | KBExpr, KBExpr | KMask, KMask | KBSExpr, KBSExpr => true
  | _, _ => false
  end.
Fixpoint kinds_eqb (a b : list kind) : bool :=
  match a, b with
  | [], [] => true
  | x :: a, y :: b => kind_eqb x y && kinds_eqb a b
  | _, _ => false
  end.

(** The functions of the element type that eval() uses: C++'s operators and
    std::sin ... on value_type. *)
Inductive prim1 := PNeg | PSin | PCos | PTan | PExp | PTanh | PAbs | PSqrt | PLog | PLog10 | PErf | PErfc.
Inductive prim2 := PAdd | PSub | PMul | PDiv | PPow.
Inductive primc := PEq | PNe | PLt | PLe | PGt | PGe.
Record arith (V : Type) := Arith { a1 : prim1 -> V -> V; a2 : prim2 -> V -> V -> V; ac : primc -> V -> V -> bool }.
Arguments Arith {V}. Arguments a1 {V}. Arguments a2 {V}. Arguments ac {V}.

Local Open Scope string_scope.
(** The names used by the eval() functions of NeboOperators.h *)
Definition call1 (s : string) : option prim1 :=
  if s =? "std::sin" then Some PSin else if s =? "std::cos" then Some PCos
  else if s =? "std::tan" then Some PTan else if s =? "std::exp" then Some PExp
  else if s =? "std::tanh" then Some PTanh else if s =? "std::abs" then Some PAbs
  else if s =? "std::sqrt" then Some PSqrt else if s =? "std::log" then Some PLog
  else if s =? "std::log10" then Some PLog10 else if s =? "erf" then Some PErf
  else if s =? "erfc" then Some PErfc else None.
Definition infix2 (s : string) : option prim2 :=
  if s =? "+" then Some PAdd else if s =? "-" then Some PSub
  else if s =? "*" then Some PMul else if s =? "/" then Some PDiv else None.
Definition infixc (s : string) : option primc :=
  if s =? "==" then Some PEq else if s =? "!=" then Some PNe
  else if s =? "<" then Some PLt else if s =? "<=" then Some PLe
  else if s =? ">" then Some PGt else if s =? ">=" then Some PGe else None.

Section Values.
Variable V : Type.
Variable A : arith V.

(** What eval() computes from the values x and y of the operands *)
Fixpoint number (b : body) : option (V -> V -> V) :=
  match b with
  | Operand1 => Some (fun x _ => x)
  | Operand2 => Some (fun _ y => y)
  | Infix o a b =>
      match infix2 o, number a, number b with
      | Some p, Some f, Some g => Some (fun x y => a2 A p (f x y) (g x y))
      | _, _, _ => None
      end
  | Prefix o a => if o =? "-" then match number a with Some f => Some (fun x y => a1 A PNeg (f x y)) | None => None end else None
  | Call1 s a => match call1 s, number a with Some p, Some f => Some (fun x y => a1 A p (f x y)) | _, _ => None end
  | Call2 s a b =>
      if s =? "std::pow" then
        match number a, number b with Some f, Some g => Some (fun x y => a2 A PPow (f x y) (g x y)) | _, _ => None end
      else None
  | Choose c a b =>
      match truth c, number a, number b with
      | Some t, Some f, Some g => Some (fun x y => if t x y then f x y else g x y)
      | _, _, _ => None
      end
  end
with truth (b : body) : option (V -> V -> bool) :=
  match b with
  | Infix o a b =>
      match infixc o, number a, number b with
      | Some p, Some f, Some g => Some (fun x y => ac A p (f x y) (g x y))
      | _, _, _ => None
      end
  | _ => None
  end.

(** C++ values that can be arguments *)
Inductive term :=
| TScalar (v : V) | TField (f : field) | TExpr (e : expr V) | TSingle (f : field) | TSExpr (e : expr V)
| TBool (b : bool) | TBExpr (b : bexpr V) | TMask (m : mask) | TBSExpr (b : bexpr V).
Definition kind_of (t : term) : kind :=
  match t with
  | TScalar _ => KScalar | TField _ => KField | TExpr _ => KExpr | TSingle _ => KSingle | TSExpr _ => KSExpr
  | TBool _ => KBool | TBExpr _ => KBExpr | TMask _ => KMask | TBSExpr _ => KBSExpr
  end.

(** Operands of nodes *)
Inductive operand := Num (e : expr V) | Log (b : bexpr V).
(** The operand made of an argument (e.g. NeboOperators.h:243-252) *)
Definition wrap (w : wrapper) (t : term) : option operand :=
  match w, t with
  | WScalar, TScalar v => Some (Num (EScalar V v))
  | WScalar, TBool b => Some (Log (BScalar V b))
  | WField, TField f => Some (Num (EField V f))
  | WSingle, TSingle f => Some (Num (ESingle V f))
  | WMask, TMask m => Some (Log (BMask V m))
  | WExpr, TExpr e | WExpr, TSExpr e => Some (Num e)
  | WExpr, TBExpr b | WExpr, TBSExpr b => Some (Log b)
  | _, _ => None
  end.

(** The node of type n with the given operands, as an expression of NeboM.  All
    node types treat ghosts, init and next alike, so only eval() is looked at
    (NeboM, EOp1, EOp2, BCmp, BAnd, BOr, BNot); the operands of && and || have
    no side effects, so it does not matter whether both are evaluated. *)
Definition build (n : node_type) (l : list operand) : option operand :=
  match l, nbool n with
  | [Num a], false => match number (nseq n) with Some f => Some (Num (EOp1 V (fun x => f x x) a)) | None => None end
  | [Num a; Num b], false => match number (nseq n) with Some f => Some (Num (EOp2 V f a b)) | None => None end
  | [Num a; Num b], true => match truth (nseq n) with Some f => Some (Log (BCmp V f a b)) | None => None end
  | [Log a; Log b], true =>
      match nseq n with
      | Infix o Operand1 Operand2 =>
          if o =? "&&" then Some (Log (BAnd V a b)) else if o =? "||" then Some (Log (BOr V a b)) else None
      | _ => None
      end
  | [Log a], true => match nseq n with Prefix o Operand1 => if o =? "!" then Some (Log (BNot V a)) else None | _ => None end
  | _, _ => None
  end.
(** ReturnTerm(...): NeboExpression, NeboSingleValueExpression and their boolean
    forms (NeboBasic.h:193-262) *)
Definition result (k : kind) (o : operand) : option term :=
  match k, o with
  | KExpr, Num e => Some (TExpr e)
  | KSExpr, Num e => Some (TSExpr e)
  | KBExpr, Log b => Some (TBExpr b)
  | KBSExpr, Log b => Some (TBSExpr b)
  | _, _ => None
  end.

Fixpoint all_some {X} (l : list (option X)) : option (list X) :=
  match l with
  | [] => Some []
  | Some x :: r => match all_some r with Some xs => Some (x :: xs) | None => None end
  | None :: _ => None
  end.

Variable nodes : list node_type.
Variable table : list overload.
(** The overload whose parameters have the types of the arguments; none: the
    program does not compile.  C++ also considers less specialised templates
    (a SingleValue field is a field), which lose to this one. *)
Definition resolve (name : string) (ks : list kind) : option overload :=
  find (fun o => (oname o =? name) && kinds_eqb (opars o) ks) table.
Definition call (name : string) (ts : list term) : option term :=
  match resolve name (map kind_of ts) with
  | None => None
  | Some o =>
      match find (fun n => nname n =? onode o) nodes,
            all_some (map (fun wi => match nth_error ts (snd wi) with Some t => wrap (fst wi) t | None => None end) (oargs o)) with
      | Some n, Some ops => match build n ops with Some r => result (oresult o) r | None => None end
      | _, _ => None
      end
  end.

(** A C++ expression: values and calls of operators and functions *)
Inductive source :=
| Val (t : term)
| App1 (name : string) (a : source)
| App2 (name : string) (a b : source).
Fixpoint compile (s : source) : option term :=
  match s with
  | Val t => Some t
  | App1 n a => match compile a with Some x => call n [x] | None => None end
  | App2 n a b => match compile a, compile b with Some x, Some y => call n [x; y] | _, _ => None end
  end.

(** Assignments: the overload for the destination and the right-hand side
    calls assign with or without ghosts (NeboAssignment.h, NeboLhs.h:136-169). *)
Variable atable : list assign_overload.
Variable vadd vmul : V -> V -> V.
Definition assignment (fuel : nat) (name : string) (lhs rhs : term) : option (prog V unit) :=
  match lhs with
  | TField f | TSingle f =>
      match find (fun o => (aname o =? name) && kind_eqb (alhs o) (kind_of lhs) && kind_eqb (arhs o) (kind_of rhs)) atable with
      | Some o => match wrap (aarg o) rhs with
                  | Some (Num e) => Some (sequential_assign V vadd vmul fuel (aghosts o) f e)
                  | _ => None
                  end
      | None => None
      end
  | _ => None
  end.
(** lhs name rhs; as a statement of the program *)
Definition statement (fuel : nat) (name : string) (lhs : term) (rhs : source) : option (prog V unit) :=
  match compile rhs with Some t => assignment fuel name lhs t | None => None end.
End Values.
