(** Model of the conditional-expression builder cond(c1,e1)(c2,e2)...(e).
    Simplification: value_type is the type of the plain numbers (double). *)
From Verif Require Import Prelude WindowM GhostM FieldM MaskM NeboM.

Section Cond.
Variable V : Type.
Notation expr := (expr V). Notation bexpr := (bexpr V).

(** What a caller may pass as a condition and as a value: the overloads at
    NeboCond.h:747-945, 1130-1460, 1503-1790. *)
Inductive carg := CBool (b : bool) | CExpr (e : bexpr) | CMask (m : mask).
Inductive varg := VNum (d : V) | VField (f : field) | VExpr (e : expr).

(** The Initial-mode node the overloads make of an argument, e.g.
    NeboCond.h:759-766, 932-944. *)
Definition ctest (c : carg) : bexpr :=
  match c with CBool b => BScalar V b | CExpr e => e | CMask m => BMask V m end.
Definition cval (v : varg) : expr :=
  match v with VNum d => EScalar V d | VField f => EField V f | VExpr e => e end.

(** NeboCond.h:272-375: NeboCond<Initial,Clause,Otherwise> while it is still
    being built; the innermost Otherwise is NeboNil (29-44). *)
Inductive chain := Nil | Chain (test : bexpr) (value : expr) (otherwise : chain).
(** NeboCond.h:530-618: NeboSimpleCond; only bools and doubles so far. *)
Inductive schain := SLast (b : bool) (d : V) | SChain (b : bool) (d : V) (otherwise : schain).

(** NeboCond.h:499-510, 541-570, 587-610 (Convert) *)
Fixpoint convert (s : schain) : chain :=
  match s with
  | SLast b d => Chain (BScalar V b) (EScalar V d) Nil
  | SChain b d o => Chain (BScalar V b) (EScalar V d) (convert o)
  end.

(** NeboCond.h:620-946, 948-1461: the two kinds of CondBuilder *)
Inductive builder := BField (cs : chain) | BSimple (cs : schain).

(** NeboCond.h:1503-1511 (cond(bool,double)), 1513-1790 (all others) *)
Definition cond_start (c : carg) (v : varg) : builder :=
  match c, v with
  | CBool b, VNum d => BSimple (SLast b d)
  | _, _ => BField (Chain (ctest c) (cval v) Nil)
  end.

(** operator()(condition, value): NeboCond.h:735-945 on a field builder: the
    new clause goes in front; 1077-1086 (bool,double) on a simple builder;
    1088-1460: otherwise convert the clauses so far. *)
Definition cond_clause (bd : builder) (c : carg) (v : varg) : builder :=
  match bd with
  | BField cs => BField (Chain (ctest c) (cval v) cs)
  | BSimple cs =>
      match c, v with
      | CBool b, VNum d => BSimple (SChain b d cs)
      | _, _ => BField (Chain (ctest c) (cval v) (convert cs))
      end
  end.

(** NeboCond.h:629-661 (ReverseClausesRecursive on NeboCond) *)
Fixpoint reverse (l : chain) (r : expr) : expr :=
  match l with
  | Nil => r
  | Chain t e following => reverse following (ECond V t e r)
  end.

(** NeboCond.h:518-528 (NeboSimpleFinalClause), 530-539 (eval) *)
Inductive sfinal := SFin (d : V) | SCond (b : bool) (d : V) (otherwise : sfinal).
Fixpoint seval (s : sfinal) : V :=
  match s with SFin d => d | SCond b d o => if b then d else seval o end.
(** NeboCond.h:954-985 (ReverseClausesRecursive on NeboSimpleCond) *)
Fixpoint sreverse (l : schain) (r : sfinal) : sfinal :=
  match l with
  | SLast b d => SCond b d r
  | SChain b d following => sreverse following (SCond b d r)
  end.

(** A number or an expression. *)
Inductive cresult := RNum (d : V) | RExpr (e : expr).

(** operator()(value): NeboCond.h:694-733 on a field builder; 1013-1015
    (double), 1017-1075 (convert, then reverse) on a simple builder. *)
Definition cond_finish (bd : builder) (v : varg) : cresult :=
  match bd with
  | BField cs => RExpr (reverse cs (cval v))
  | BSimple cs =>
      match v with
      | VNum d => RNum (seval (sreverse cs (SFin d)))
      | _ => RExpr (reverse (convert cs) (cval v))
      end
  end.

(** The whole call chain; with no clause: NeboCond.h:1469-1501. *)
Definition cond_call (clauses : list (carg * varg)) (final : varg) : cresult :=
  match clauses with
  | [] => match final with VNum d => RNum d | _ => RExpr (cval final) end
  | (c, v) :: rest =>
      cond_finish (fold_left (fun bd cv => cond_clause bd (fst cv) (snd cv)) rest (cond_start c v)) final
  end.
End Cond.
Arguments CBool {V}. Arguments CExpr {V}. Arguments CMask {V}.
Arguments VNum {V}. Arguments VField {V}. Arguments VExpr {V}.
Arguments RNum {V}. Arguments RExpr {V}.
