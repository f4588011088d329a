(** The node types and overloads of NeboOperators.h and NeboAssignment.h, one entry for
    each, written by tools/optab.py from the headers.  The numbers are the lines where
    the declaration starts. *)
From Verif Require Import Prelude OpM.
From Coq Require Import String.
Local Open Scope string_scope.

(** NeboOperators.h: the eval() of every node type when assigning, on a GPU and in
    reductions; true: of type bool. *)
Definition node_types : list node_type := [
  (* NeboOperators.h:30-232 *) Node "SumOp" false
    (Infix "+" Operand1 Operand2)
    (Infix "+" Operand1 Operand2)
    (Infix "+" Operand1 Operand2);
  (* NeboOperators.h:815-1017 *) Node "DiffOp" false
    (Infix "-" Operand1 Operand2)
    (Infix "-" Operand1 Operand2)
    (Infix "-" Operand1 Operand2);
  (* NeboOperators.h:1600-1802 *) Node "ProdOp" false
    (Infix "*" Operand1 Operand2)
    (Infix "*" Operand1 Operand2)
    (Infix "*" Operand1 Operand2);
  (* NeboOperators.h:2385-2587 *) Node "DivOp" false
    (Infix "/" Operand1 Operand2)
    (Infix "/" Operand1 Operand2)
    (Infix "/" Operand1 Operand2);
  (* NeboOperators.h:3170-3331 *) Node "SinFcn" false
    (Call1 "std::sin" Operand1)
    (Call1 "std::sin" Operand1)
    (Call1 "std::sin" Operand1);
  (* NeboOperators.h:3394-3555 *) Node "CosFcn" false
    (Call1 "std::cos" Operand1)
    (Call1 "std::cos" Operand1)
    (Call1 "std::cos" Operand1);
  (* NeboOperators.h:3618-3779 *) Node "TanFcn" false
    (Call1 "std::tan" Operand1)
    (Call1 "std::tan" Operand1)
    (Call1 "std::tan" Operand1);
  (* NeboOperators.h:3842-4003 *) Node "ExpFcn" false
    (Call1 "std::exp" Operand1)
    (Call1 "std::exp" Operand1)
    (Call1 "std::exp" Operand1);
  (* NeboOperators.h:4066-4229 *) Node "TanhFcn" false
    (Call1 "std::tanh" Operand1)
    (Call1 "std::tanh" Operand1)
    (Call1 "std::tanh" Operand1);
  (* NeboOperators.h:4292-4453 *) Node "AbsFcn" false
    (Call1 "std::abs" Operand1)
    (Call1 "std::abs" Operand1)
    (Call1 "std::abs" Operand1);
  (* NeboOperators.h:4516-4673 *) Node "NegFcn" false
    (Prefix "-" Operand1)
    (Prefix "-" Operand1)
    (Prefix "-" Operand1);
  (* NeboOperators.h:4739-4941 *) Node "PowFcn" false
    (Call2 "std::pow" Operand1 Operand2)
    (Call2 "std::pow" Operand1 Operand2)
    (Call2 "std::pow" Operand1 Operand2);
  (* NeboOperators.h:5529-5692 *) Node "SqrtFcn" false
    (Call1 "std::sqrt" Operand1)
    (Call1 "std::sqrt" Operand1)
    (Call1 "std::sqrt" Operand1);
  (* NeboOperators.h:5755-5916 *) Node "LogFcn" false
    (Call1 "std::log" Operand1)
    (Call1 "std::log" Operand1)
    (Call1 "std::log" Operand1);
  (* NeboOperators.h:5979-6142 *) Node "Log10Fcn" false
    (Call1 "std::log10" Operand1)
    (Call1 "std::log10" Operand1)
    (Call1 "std::log10" Operand1);
  (* NeboOperators.h:6206-6363 *) Node "ErfFcn" false
    (Call1 "erf" Operand1)
    (Call1 "erf" Operand1)
    (Call1 "erf" Operand1);
  (* NeboOperators.h:6426-6585 *) Node "ErfcFcn" false
    (Call1 "erfc" Operand1)
    (Call1 "erfc" Operand1)
    (Call1 "erfc" Operand1);
  (* NeboOperators.h:6648-6850 *) Node "EqualCmp" true
    (Infix "==" Operand1 Operand2)
    (Infix "==" Operand1 Operand2)
    (Infix "==" Operand1 Operand2);
  (* NeboOperators.h:7511-7713 *) Node "InequalCmp" true
    (Infix "!=" Operand1 Operand2)
    (Infix "!=" Operand1 Operand2)
    (Infix "!=" Operand1 Operand2);
  (* NeboOperators.h:8377-8579 *) Node "LessThanCmp" true
    (Infix "<" Operand1 Operand2)
    (Infix "<" Operand1 Operand2)
    (Infix "<" Operand1 Operand2);
  (* NeboOperators.h:9225-9432 *) Node "LessThanEqualCmp" true
    (Infix "<=" Operand1 Operand2)
    (Infix "<=" Operand1 Operand2)
    (Infix "<=" Operand1 Operand2);
  (* NeboOperators.h:10118-10321 *) Node "GreaterThanCmp" true
    (Infix ">" Operand1 Operand2)
    (Infix ">" Operand1 Operand2)
    (Infix ">" Operand1 Operand2);
  (* NeboOperators.h:10978-11190 *) Node "GreaterThanEqualCmp" true
    (Infix ">=" Operand1 Operand2)
    (Infix ">=" Operand1 Operand2)
    (Infix ">=" Operand1 Operand2);
  (* NeboOperators.h:11886-12088 *) Node "AndOp" true
    (Infix "&&" Operand1 Operand2)
    (Infix "&&" Operand1 Operand2)
    (Infix "&&" Operand1 Operand2);
  (* NeboOperators.h:12266-12468 *) Node "OrOp" true
    (Infix "||" Operand1 Operand2)
    (Infix "||" Operand1 Operand2)
    (Infix "||" Operand1 Operand2);
  (* NeboOperators.h:12644-12801 *) Node "NotOp" true
    (Prefix "!" Operand1)
    (Prefix "!" Operand1)
    (Prefix "!" Operand1);
  (* NeboOperators.h:12832-13037 *) Node "MaxFcn" false
    (Choose (Infix ">" Operand1 Operand2) Operand1 Operand2)
    (Choose (Infix ">" Operand1 Operand2) Operand1 Operand2)
    (Choose (Infix ">" Operand1 Operand2) Operand1 Operand2);
  (* NeboOperators.h:13625-13830 *) Node "MinFcn" false
    (Choose (Infix "<" Operand1 Operand2) Operand1 Operand2)
    (Choose (Infix "<" Operand1 Operand2) Operand1 Operand2)
    (Choose (Infix "<" Operand1 Operand2) Operand1 Operand2)
].

(** NeboOperators.h: line, function, parameters, node type, its operands, result. *)
Definition overloads : list overload := [
  Over 232 "operator+" [KScalar; KField] "SumOp" [(WScalar, 0); (WField, 1)]%nat KExpr;
  Over 257 "operator+" [KScalar; KExpr] "SumOp" [(WScalar, 0); (WExpr, 1)]%nat KExpr;
  Over 279 "operator+" [KScalar; KSingle] "SumOp" [(WScalar, 0); (WSingle, 1)]%nat KSExpr;
  Over 307 "operator+" [KScalar; KSExpr] "SumOp" [(WScalar, 0); (WExpr, 1)]%nat KSExpr;
  Over 328 "operator+" [KField; KScalar] "SumOp" [(WField, 0); (WScalar, 1)]%nat KExpr;
  Over 354 "operator+" [KField; KField] "SumOp" [(WField, 0); (WField, 1)]%nat KExpr;
  Over 381 "operator+" [KField; KExpr] "SumOp" [(WField, 0); (WExpr, 1)]%nat KExpr;
  Over 404 "operator+" [KField; KSingle] "SumOp" [(WField, 0); (WSingle, 1)]%nat KExpr;
  Over 440 "operator+" [KField; KSExpr] "SumOp" [(WField, 0); (WExpr, 1)]%nat KExpr;
  Over 465 "operator+" [KExpr; KScalar] "SumOp" [(WExpr, 0); (WScalar, 1)]%nat KExpr;
  Over 488 "operator+" [KExpr; KField] "SumOp" [(WExpr, 0); (WField, 1)]%nat KExpr;
  Over 511 "operator+" [KExpr; KExpr] "SumOp" [(WExpr, 0); (WExpr, 1)]%nat KExpr;
  Over 523 "operator+" [KExpr; KSingle] "SumOp" [(WExpr, 0); (WSingle, 1)]%nat KExpr;
  Over 556 "operator+" [KExpr; KSExpr] "SumOp" [(WExpr, 0); (WExpr, 1)]%nat KExpr;
  Over 570 "operator+" [KSingle; KScalar] "SumOp" [(WSingle, 0); (WScalar, 1)]%nat KSExpr;
  Over 598 "operator+" [KSingle; KField] "SumOp" [(WSingle, 0); (WField, 1)]%nat KExpr;
  Over 633 "operator+" [KSingle; KExpr] "SumOp" [(WSingle, 0); (WExpr, 1)]%nat KExpr;
  Over 665 "operator+" [KSingle; KSingle] "SumOp" [(WSingle, 0); (WSingle, 1)]%nat KSExpr;
  Over 694 "operator+" [KSingle; KSExpr] "SumOp" [(WSingle, 0); (WExpr, 1)]%nat KSExpr;
  Over 718 "operator+" [KSExpr; KScalar] "SumOp" [(WExpr, 0); (WScalar, 1)]%nat KSExpr;
  Over 739 "operator+" [KSExpr; KField] "SumOp" [(WExpr, 0); (WField, 1)]%nat KExpr;
  Over 764 "operator+" [KSExpr; KExpr] "SumOp" [(WExpr, 0); (WExpr, 1)]%nat KExpr;
  Over 778 "operator+" [KSExpr; KSingle] "SumOp" [(WExpr, 0); (WSingle, 1)]%nat KSExpr;
  Over 802 "operator+" [KSExpr; KSExpr] "SumOp" [(WExpr, 0); (WExpr, 1)]%nat KSExpr;
  Over 1017 "operator-" [KScalar; KField] "DiffOp" [(WScalar, 0); (WField, 1)]%nat KExpr;
  Over 1042 "operator-" [KScalar; KExpr] "DiffOp" [(WScalar, 0); (WExpr, 1)]%nat KExpr;
  Over 1064 "operator-" [KScalar; KSingle] "DiffOp" [(WScalar, 0); (WSingle, 1)]%nat KSExpr;
  Over 1092 "operator-" [KScalar; KSExpr] "DiffOp" [(WScalar, 0); (WExpr, 1)]%nat KSExpr;
  Over 1113 "operator-" [KField; KScalar] "DiffOp" [(WField, 0); (WScalar, 1)]%nat KExpr;
  Over 1139 "operator-" [KField; KField] "DiffOp" [(WField, 0); (WField, 1)]%nat KExpr;
  Over 1166 "operator-" [KField; KExpr] "DiffOp" [(WField, 0); (WExpr, 1)]%nat KExpr;
  Over 1189 "operator-" [KField; KSingle] "DiffOp" [(WField, 0); (WSingle, 1)]%nat KExpr;
  Over 1225 "operator-" [KField; KSExpr] "DiffOp" [(WField, 0); (WExpr, 1)]%nat KExpr;
  Over 1250 "operator-" [KExpr; KScalar] "DiffOp" [(WExpr, 0); (WScalar, 1)]%nat KExpr;
  Over 1273 "operator-" [KExpr; KField] "DiffOp" [(WExpr, 0); (WField, 1)]%nat KExpr;
  Over 1296 "operator-" [KExpr; KExpr] "DiffOp" [(WExpr, 0); (WExpr, 1)]%nat KExpr;
  Over 1308 "operator-" [KExpr; KSingle] "DiffOp" [(WExpr, 0); (WSingle, 1)]%nat KExpr;
  Over 1341 "operator-" [KExpr; KSExpr] "DiffOp" [(WExpr, 0); (WExpr, 1)]%nat KExpr;
  Over 1355 "operator-" [KSingle; KScalar] "DiffOp" [(WSingle, 0); (WScalar, 1)]%nat KSExpr;
  Over 1383 "operator-" [KSingle; KField] "DiffOp" [(WSingle, 0); (WField, 1)]%nat KExpr;
  Over 1418 "operator-" [KSingle; KExpr] "DiffOp" [(WSingle, 0); (WExpr, 1)]%nat KExpr;
  Over 1450 "operator-" [KSingle; KSingle] "DiffOp" [(WSingle, 0); (WSingle, 1)]%nat KSExpr;
  Over 1479 "operator-" [KSingle; KSExpr] "DiffOp" [(WSingle, 0); (WExpr, 1)]%nat KSExpr;
  Over 1503 "operator-" [KSExpr; KScalar] "DiffOp" [(WExpr, 0); (WScalar, 1)]%nat KSExpr;
  Over 1524 "operator-" [KSExpr; KField] "DiffOp" [(WExpr, 0); (WField, 1)]%nat KExpr;
  Over 1549 "operator-" [KSExpr; KExpr] "DiffOp" [(WExpr, 0); (WExpr, 1)]%nat KExpr;
  Over 1563 "operator-" [KSExpr; KSingle] "DiffOp" [(WExpr, 0); (WSingle, 1)]%nat KSExpr;
  Over 1587 "operator-" [KSExpr; KSExpr] "DiffOp" [(WExpr, 0); (WExpr, 1)]%nat KSExpr;
  Over 1802 "operator*" [KScalar; KField] "ProdOp" [(WScalar, 0); (WField, 1)]%nat KExpr;
  Over 1827 "operator*" [KScalar; KExpr] "ProdOp" [(WScalar, 0); (WExpr, 1)]%nat KExpr;
  Over 1849 "operator*" [KScalar; KSingle] "ProdOp" [(WScalar, 0); (WSingle, 1)]%nat KSExpr;
  Over 1877 "operator*" [KScalar; KSExpr] "ProdOp" [(WScalar, 0); (WExpr, 1)]%nat KSExpr;
  Over 1898 "operator*" [KField; KScalar] "ProdOp" [(WField, 0); (WScalar, 1)]%nat KExpr;
  Over 1924 "operator*" [KField; KField] "ProdOp" [(WField, 0); (WField, 1)]%nat KExpr;
  Over 1951 "operator*" [KField; KExpr] "ProdOp" [(WField, 0); (WExpr, 1)]%nat KExpr;
  Over 1974 "operator*" [KField; KSingle] "ProdOp" [(WField, 0); (WSingle, 1)]%nat KExpr;
  Over 2010 "operator*" [KField; KSExpr] "ProdOp" [(WField, 0); (WExpr, 1)]%nat KExpr;
  Over 2035 "operator*" [KExpr; KScalar] "ProdOp" [(WExpr, 0); (WScalar, 1)]%nat KExpr;
  Over 2058 "operator*" [KExpr; KField] "ProdOp" [(WExpr, 0); (WField, 1)]%nat KExpr;
  Over 2081 "operator*" [KExpr; KExpr] "ProdOp" [(WExpr, 0); (WExpr, 1)]%nat KExpr;
  Over 2093 "operator*" [KExpr; KSingle] "ProdOp" [(WExpr, 0); (WSingle, 1)]%nat KExpr;
  Over 2126 "operator*" [KExpr; KSExpr] "ProdOp" [(WExpr, 0); (WExpr, 1)]%nat KExpr;
  Over 2140 "operator*" [KSingle; KScalar] "ProdOp" [(WSingle, 0); (WScalar, 1)]%nat KSExpr;
  Over 2168 "operator*" [KSingle; KField] "ProdOp" [(WSingle, 0); (WField, 1)]%nat KExpr;
  Over 2203 "operator*" [KSingle; KExpr] "ProdOp" [(WSingle, 0); (WExpr, 1)]%nat KExpr;
  Over 2235 "operator*" [KSingle; KSingle] "ProdOp" [(WSingle, 0); (WSingle, 1)]%nat KSExpr;
  Over 2264 "operator*" [KSingle; KSExpr] "ProdOp" [(WSingle, 0); (WExpr, 1)]%nat KSExpr;
  Over 2288 "operator*" [KSExpr; KScalar] "ProdOp" [(WExpr, 0); (WScalar, 1)]%nat KSExpr;
  Over 2309 "operator*" [KSExpr; KField] "ProdOp" [(WExpr, 0); (WField, 1)]%nat KExpr;
  Over 2334 "operator*" [KSExpr; KExpr] "ProdOp" [(WExpr, 0); (WExpr, 1)]%nat KExpr;
  Over 2348 "operator*" [KSExpr; KSingle] "ProdOp" [(WExpr, 0); (WSingle, 1)]%nat KSExpr;
  Over 2372 "operator*" [KSExpr; KSExpr] "ProdOp" [(WExpr, 0); (WExpr, 1)]%nat KSExpr;
  Over 2587 "operator/" [KScalar; KField] "DivOp" [(WScalar, 0); (WField, 1)]%nat KExpr;
  Over 2612 "operator/" [KScalar; KExpr] "DivOp" [(WScalar, 0); (WExpr, 1)]%nat KExpr;
  Over 2634 "operator/" [KScalar; KSingle] "DivOp" [(WScalar, 0); (WSingle, 1)]%nat KSExpr;
  Over 2662 "operator/" [KScalar; KSExpr] "DivOp" [(WScalar, 0); (WExpr, 1)]%nat KSExpr;
  Over 2683 "operator/" [KField; KScalar] "DivOp" [(WField, 0); (WScalar, 1)]%nat KExpr;
  Over 2709 "operator/" [KField; KField] "DivOp" [(WField, 0); (WField, 1)]%nat KExpr;
  Over 2736 "operator/" [KField; KExpr] "DivOp" [(WField, 0); (WExpr, 1)]%nat KExpr;
  Over 2759 "operator/" [KField; KSingle] "DivOp" [(WField, 0); (WSingle, 1)]%nat KExpr;
  Over 2795 "operator/" [KField; KSExpr] "DivOp" [(WField, 0); (WExpr, 1)]%nat KExpr;
  Over 2820 "operator/" [KExpr; KScalar] "DivOp" [(WExpr, 0); (WScalar, 1)]%nat KExpr;
  Over 2843 "operator/" [KExpr; KField] "DivOp" [(WExpr, 0); (WField, 1)]%nat KExpr;
  Over 2866 "operator/" [KExpr; KExpr] "DivOp" [(WExpr, 0); (WExpr, 1)]%nat KExpr;
  Over 2878 "operator/" [KExpr; KSingle] "DivOp" [(WExpr, 0); (WSingle, 1)]%nat KExpr;
  Over 2911 "operator/" [KExpr; KSExpr] "DivOp" [(WExpr, 0); (WExpr, 1)]%nat KExpr;
  Over 2925 "operator/" [KSingle; KScalar] "DivOp" [(WSingle, 0); (WScalar, 1)]%nat KSExpr;
  Over 2953 "operator/" [KSingle; KField] "DivOp" [(WSingle, 0); (WField, 1)]%nat KExpr;
  Over 2988 "operator/" [KSingle; KExpr] "DivOp" [(WSingle, 0); (WExpr, 1)]%nat KExpr;
  Over 3020 "operator/" [KSingle; KSingle] "DivOp" [(WSingle, 0); (WSingle, 1)]%nat KSExpr;
  Over 3049 "operator/" [KSingle; KSExpr] "DivOp" [(WSingle, 0); (WExpr, 1)]%nat KSExpr;
  Over 3073 "operator/" [KSExpr; KScalar] "DivOp" [(WExpr, 0); (WScalar, 1)]%nat KSExpr;
  Over 3094 "operator/" [KSExpr; KField] "DivOp" [(WExpr, 0); (WField, 1)]%nat KExpr;
  Over 3119 "operator/" [KSExpr; KExpr] "DivOp" [(WExpr, 0); (WExpr, 1)]%nat KExpr;
  Over 3133 "operator/" [KSExpr; KSingle] "DivOp" [(WExpr, 0); (WSingle, 1)]%nat KSExpr;
  Over 3157 "operator/" [KSExpr; KSExpr] "DivOp" [(WExpr, 0); (WExpr, 1)]%nat KSExpr;
  Over 3331 "sin" [KField] "SinFcn" [(WField, 0)]%nat KExpr;
  Over 3349 "sin" [KExpr] "SinFcn" [(WExpr, 0)]%nat KExpr;
  Over 3362 "sin" [KSingle] "SinFcn" [(WSingle, 0)]%nat KSExpr;
  Over 3380 "sin" [KSExpr] "SinFcn" [(WExpr, 0)]%nat KSExpr;
  Over 3555 "cos" [KField] "CosFcn" [(WField, 0)]%nat KExpr;
  Over 3573 "cos" [KExpr] "CosFcn" [(WExpr, 0)]%nat KExpr;
  Over 3586 "cos" [KSingle] "CosFcn" [(WSingle, 0)]%nat KSExpr;
  Over 3604 "cos" [KSExpr] "CosFcn" [(WExpr, 0)]%nat KSExpr;
  Over 3779 "tan" [KField] "TanFcn" [(WField, 0)]%nat KExpr;
  Over 3797 "tan" [KExpr] "TanFcn" [(WExpr, 0)]%nat KExpr;
  Over 3810 "tan" [KSingle] "TanFcn" [(WSingle, 0)]%nat KSExpr;
  Over 3828 "tan" [KSExpr] "TanFcn" [(WExpr, 0)]%nat KSExpr;
  Over 4003 "exp" [KField] "ExpFcn" [(WField, 0)]%nat KExpr;
  Over 4021 "exp" [KExpr] "ExpFcn" [(WExpr, 0)]%nat KExpr;
  Over 4034 "exp" [KSingle] "ExpFcn" [(WSingle, 0)]%nat KSExpr;
  Over 4052 "exp" [KSExpr] "ExpFcn" [(WExpr, 0)]%nat KSExpr;
  Over 4229 "tanh" [KField] "TanhFcn" [(WField, 0)]%nat KExpr;
  Over 4247 "tanh" [KExpr] "TanhFcn" [(WExpr, 0)]%nat KExpr;
  Over 4260 "tanh" [KSingle] "TanhFcn" [(WSingle, 0)]%nat KSExpr;
  Over 4278 "tanh" [KSExpr] "TanhFcn" [(WExpr, 0)]%nat KSExpr;
  Over 4453 "abs" [KField] "AbsFcn" [(WField, 0)]%nat KExpr;
  Over 4471 "abs" [KExpr] "AbsFcn" [(WExpr, 0)]%nat KExpr;
  Over 4484 "abs" [KSingle] "AbsFcn" [(WSingle, 0)]%nat KSExpr;
  Over 4502 "abs" [KSExpr] "AbsFcn" [(WExpr, 0)]%nat KSExpr;
  Over 4673 "operator-" [KField] "NegFcn" [(WField, 0)]%nat KExpr;
  Over 4691 "operator-" [KExpr] "NegFcn" [(WExpr, 0)]%nat KExpr;
  Over 4705 "operator-" [KSingle] "NegFcn" [(WSingle, 0)]%nat KSExpr;
  Over 4724 "operator-" [KSExpr] "NegFcn" [(WExpr, 0)]%nat KSExpr;
  Over 4941 "pow" [KScalar; KField] "PowFcn" [(WScalar, 0); (WField, 1)]%nat KExpr;
  Over 4966 "pow" [KScalar; KExpr] "PowFcn" [(WScalar, 0); (WExpr, 1)]%nat KExpr;
  Over 4987 "pow" [KScalar; KSingle] "PowFcn" [(WScalar, 0); (WSingle, 1)]%nat KSExpr;
  Over 5014 "pow" [KScalar; KSExpr] "PowFcn" [(WScalar, 0); (WExpr, 1)]%nat KSExpr;
  Over 5035 "pow" [KField; KScalar] "PowFcn" [(WField, 0); (WScalar, 1)]%nat KExpr;
  Over 5061 "pow" [KField; KField] "PowFcn" [(WField, 0); (WField, 1)]%nat KExpr;
  Over 5088 "pow" [KField; KExpr] "PowFcn" [(WField, 0); (WExpr, 1)]%nat KExpr;
  Over 5110 "pow" [KField; KSingle] "PowFcn" [(WField, 0); (WSingle, 1)]%nat KExpr;
  Over 5145 "pow" [KField; KSExpr] "PowFcn" [(WField, 0); (WExpr, 1)]%nat KExpr;
  Over 5170 "pow" [KExpr; KScalar] "PowFcn" [(WExpr, 0); (WScalar, 1)]%nat KExpr;
  Over 5192 "pow" [KExpr; KField] "PowFcn" [(WExpr, 0); (WField, 1)]%nat KExpr;
  Over 5214 "pow" [KExpr; KExpr] "PowFcn" [(WExpr, 0); (WExpr, 1)]%nat KExpr;
  Over 5233 "pow" [KExpr; KSingle] "PowFcn" [(WExpr, 0); (WSingle, 1)]%nat KExpr;
  Over 5264 "pow" [KExpr; KSExpr] "PowFcn" [(WExpr, 0); (WExpr, 1)]%nat KExpr;
  Over 5285 "pow" [KSingle; KScalar] "PowFcn" [(WSingle, 0); (WScalar, 1)]%nat KSExpr;
  Over 5312 "pow" [KSingle; KField] "PowFcn" [(WSingle, 0); (WField, 1)]%nat KExpr;
  Over 5346 "pow" [KSingle; KExpr] "PowFcn" [(WSingle, 0); (WExpr, 1)]%nat KExpr;
  Over 5376 "pow" [KSingle; KSingle] "PowFcn" [(WSingle, 0); (WSingle, 1)]%nat KSExpr;
  Over 5403 "pow" [KSingle; KSExpr] "PowFcn" [(WSingle, 0); (WExpr, 1)]%nat KSExpr;
  Over 5426 "pow" [KSExpr; KScalar] "PowFcn" [(WExpr, 0); (WScalar, 1)]%nat KSExpr;
  Over 5447 "pow" [KSExpr; KField] "PowFcn" [(WExpr, 0); (WField, 1)]%nat KExpr;
  Over 5472 "pow" [KSExpr; KExpr] "PowFcn" [(WExpr, 0); (WExpr, 1)]%nat KExpr;
  Over 5493 "pow" [KSExpr; KSingle] "PowFcn" [(WExpr, 0); (WSingle, 1)]%nat KSExpr;
  Over 5516 "pow" [KSExpr; KSExpr] "PowFcn" [(WExpr, 0); (WExpr, 1)]%nat KSExpr;
  Over 5692 "sqrt" [KField] "SqrtFcn" [(WField, 0)]%nat KExpr;
  Over 5710 "sqrt" [KExpr] "SqrtFcn" [(WExpr, 0)]%nat KExpr;
  Over 5723 "sqrt" [KSingle] "SqrtFcn" [(WSingle, 0)]%nat KSExpr;
  Over 5741 "sqrt" [KSExpr] "SqrtFcn" [(WExpr, 0)]%nat KSExpr;
  Over 5916 "log" [KField] "LogFcn" [(WField, 0)]%nat KExpr;
  Over 5934 "log" [KExpr] "LogFcn" [(WExpr, 0)]%nat KExpr;
  Over 5947 "log" [KSingle] "LogFcn" [(WSingle, 0)]%nat KSExpr;
  Over 5965 "log" [KSExpr] "LogFcn" [(WExpr, 0)]%nat KSExpr;
  Over 6142 "log10" [KField] "Log10Fcn" [(WField, 0)]%nat KExpr;
  Over 6160 "log10" [KExpr] "Log10Fcn" [(WExpr, 0)]%nat KExpr;
  Over 6173 "log10" [KSingle] "Log10Fcn" [(WSingle, 0)]%nat KSExpr;
  Over 6191 "log10" [KSExpr] "Log10Fcn" [(WExpr, 0)]%nat KSExpr;
  Over 6363 "erf" [KField] "ErfFcn" [(WField, 0)]%nat KExpr;
  Over 6381 "erf" [KExpr] "ErfFcn" [(WExpr, 0)]%nat KExpr;
  Over 6394 "erf" [KSingle] "ErfFcn" [(WSingle, 0)]%nat KSExpr;
  Over 6412 "erf" [KSExpr] "ErfFcn" [(WExpr, 0)]%nat KSExpr;
  Over 6585 "erfc" [KField] "ErfcFcn" [(WField, 0)]%nat KExpr;
  Over 6603 "erfc" [KExpr] "ErfcFcn" [(WExpr, 0)]%nat KExpr;
  Over 6616 "erfc" [KSingle] "ErfcFcn" [(WSingle, 0)]%nat KSExpr;
  Over 6634 "erfc" [KSExpr] "ErfcFcn" [(WExpr, 0)]%nat KSExpr;
  Over 6850 "operator==" [KScalar; KField] "EqualCmp" [(WScalar, 0); (WField, 1)]%nat KBExpr;
  Over 6879 "operator==" [KScalar; KExpr] "EqualCmp" [(WScalar, 0); (WExpr, 1)]%nat KBExpr;
  Over 6903 "operator==" [KScalar; KSingle] "EqualCmp" [(WScalar, 0); (WSingle, 1)]%nat KBSExpr;
  Over 6936 "operator==" [KScalar; KSExpr] "EqualCmp" [(WScalar, 0); (WExpr, 1)]%nat KBSExpr;
  Over 6960 "operator==" [KField; KScalar] "EqualCmp" [(WField, 0); (WScalar, 1)]%nat KBExpr;
  Over 6990 "operator==" [KField; KField] "EqualCmp" [(WField, 0); (WField, 1)]%nat KBExpr;
  Over 7021 "operator==" [KField; KExpr] "EqualCmp" [(WField, 0); (WExpr, 1)]%nat KBExpr;
  Over 7046 "operator==" [KField; KSingle] "EqualCmp" [(WField, 0); (WSingle, 1)]%nat KBExpr;
  Over 7087 "operator==" [KField; KSExpr] "EqualCmp" [(WField, 0); (WExpr, 1)]%nat KBExpr;
  Over 7114 "operator==" [KExpr; KScalar] "EqualCmp" [(WExpr, 0); (WScalar, 1)]%nat KBExpr;
  Over 7139 "operator==" [KExpr; KField] "EqualCmp" [(WExpr, 0); (WField, 1)]%nat KBExpr;
  Over 7164 "operator==" [KExpr; KExpr] "EqualCmp" [(WExpr, 0); (WExpr, 1)]%nat KBExpr;
  Over 7180 "operator==" [KExpr; KSingle] "EqualCmp" [(WExpr, 0); (WSingle, 1)]%nat KBExpr;
  Over 7216 "operator==" [KExpr; KSExpr] "EqualCmp" [(WExpr, 0); (WExpr, 1)]%nat KBExpr;
  Over 7234 "operator==" [KSingle; KScalar] "EqualCmp" [(WSingle, 0); (WScalar, 1)]%nat KBSExpr;
  Over 7266 "operator==" [KSingle; KField] "EqualCmp" [(WSingle, 0); (WField, 1)]%nat KBExpr;
  Over 7305 "operator==" [KSingle; KExpr] "EqualCmp" [(WSingle, 0); (WExpr, 1)]%nat KBExpr;
  Over 7339 "operator==" [KSingle; KSingle] "EqualCmp" [(WSingle, 0); (WSingle, 1)]%nat KBSExpr;
  Over 7371 "operator==" [KSingle; KSExpr] "EqualCmp" [(WSingle, 0); (WExpr, 1)]%nat KBSExpr;
  Over 7396 "operator==" [KSExpr; KScalar] "EqualCmp" [(WExpr, 0); (WScalar, 1)]%nat KBSExpr;
  Over 7421 "operator==" [KSExpr; KField] "EqualCmp" [(WExpr, 0); (WField, 1)]%nat KBExpr;
  Over 7448 "operator==" [KSExpr; KExpr] "EqualCmp" [(WExpr, 0); (WExpr, 1)]%nat KBExpr;
  Over 7466 "operator==" [KSExpr; KSingle] "EqualCmp" [(WExpr, 0); (WSingle, 1)]%nat KBSExpr;
  Over 7492 "operator==" [KSExpr; KSExpr] "EqualCmp" [(WExpr, 0); (WExpr, 1)]%nat KBSExpr;
  Over 7713 "operator!=" [KScalar; KField] "InequalCmp" [(WScalar, 0); (WField, 1)]%nat KBExpr;
  Over 7742 "operator!=" [KScalar; KExpr] "InequalCmp" [(WScalar, 0); (WExpr, 1)]%nat KBExpr;
  Over 7766 "operator!=" [KScalar; KSingle] "InequalCmp" [(WScalar, 0); (WSingle, 1)]%nat KBSExpr;
  Over 7799 "operator!=" [KScalar; KSExpr] "InequalCmp" [(WScalar, 0); (WExpr, 1)]%nat KBSExpr;
  Over 7824 "operator!=" [KField; KScalar] "InequalCmp" [(WField, 0); (WScalar, 1)]%nat KBExpr;
  Over 7854 "operator!=" [KField; KField] "InequalCmp" [(WField, 0); (WField, 1)]%nat KBExpr;
  Over 7885 "operator!=" [KField; KExpr] "InequalCmp" [(WField, 0); (WExpr, 1)]%nat KBExpr;
  Over 7910 "operator!=" [KField; KSingle] "InequalCmp" [(WField, 0); (WSingle, 1)]%nat KBExpr;
  Over 7951 "operator!=" [KField; KSExpr] "InequalCmp" [(WField, 0); (WExpr, 1)]%nat KBExpr;
  Over 7978 "operator!=" [KExpr; KScalar] "InequalCmp" [(WExpr, 0); (WScalar, 1)]%nat KBExpr;
  Over 8003 "operator!=" [KExpr; KField] "InequalCmp" [(WExpr, 0); (WField, 1)]%nat KBExpr;
  Over 8028 "operator!=" [KExpr; KExpr] "InequalCmp" [(WExpr, 0); (WExpr, 1)]%nat KBExpr;
  Over 8044 "operator!=" [KExpr; KSingle] "InequalCmp" [(WExpr, 0); (WSingle, 1)]%nat KBExpr;
  Over 8080 "operator!=" [KExpr; KSExpr] "InequalCmp" [(WExpr, 0); (WExpr, 1)]%nat KBExpr;
  Over 8098 "operator!=" [KSingle; KScalar] "InequalCmp" [(WSingle, 0); (WScalar, 1)]%nat KBSExpr;
  Over 8131 "operator!=" [KSingle; KField] "InequalCmp" [(WSingle, 0); (WField, 1)]%nat KBExpr;
  Over 8170 "operator!=" [KSingle; KExpr] "InequalCmp" [(WSingle, 0); (WExpr, 1)]%nat KBExpr;
  Over 8204 "operator!=" [KSingle; KSingle] "InequalCmp" [(WSingle, 0); (WSingle, 1)]%nat KBSExpr;
  Over 8236 "operator!=" [KSingle; KSExpr] "InequalCmp" [(WSingle, 0); (WExpr, 1)]%nat KBSExpr;
  Over 8261 "operator!=" [KSExpr; KScalar] "InequalCmp" [(WExpr, 0); (WScalar, 1)]%nat KBSExpr;
  Over 8287 "operator!=" [KSExpr; KField] "InequalCmp" [(WExpr, 0); (WField, 1)]%nat KBExpr;
  Over 8314 "operator!=" [KSExpr; KExpr] "InequalCmp" [(WExpr, 0); (WExpr, 1)]%nat KBExpr;
  Over 8332 "operator!=" [KSExpr; KSingle] "InequalCmp" [(WExpr, 0); (WSingle, 1)]%nat KBSExpr;
  Over 8358 "operator!=" [KSExpr; KSExpr] "InequalCmp" [(WExpr, 0); (WExpr, 1)]%nat KBSExpr;
  Over 8579 "operator<" [KScalar; KField] "LessThanCmp" [(WScalar, 0); (WField, 1)]%nat KBExpr;
  Over 8607 "operator<" [KScalar; KExpr] "LessThanCmp" [(WScalar, 0); (WExpr, 1)]%nat KBExpr;
  Over 8631 "operator<" [KScalar; KSingle] "LessThanCmp" [(WScalar, 0); (WSingle, 1)]%nat KBSExpr;
  Over 8663 "operator<" [KScalar; KSExpr] "LessThanCmp" [(WScalar, 0); (WExpr, 1)]%nat KBSExpr;
  Over 8687 "operator<" [KField; KScalar] "LessThanCmp" [(WField, 0); (WScalar, 1)]%nat KBExpr;
  Over 8716 "operator<" [KField; KField] "LessThanCmp" [(WField, 0); (WField, 1)]%nat KBExpr;
  Over 8745 "operator<" [KField; KExpr] "LessThanCmp" [(WField, 0); (WExpr, 1)]%nat KBExpr;
  Over 8769 "operator<" [KField; KSingle] "LessThanCmp" [(WField, 0); (WSingle, 1)]%nat KBExpr;
  Over 8808 "operator<" [KField; KSExpr] "LessThanCmp" [(WField, 0); (WExpr, 1)]%nat KBExpr;
  Over 8834 "operator<" [KExpr; KScalar] "LessThanCmp" [(WExpr, 0); (WScalar, 1)]%nat KBExpr;
  Over 8859 "operator<" [KExpr; KField] "LessThanCmp" [(WExpr, 0); (WField, 1)]%nat KBExpr;
  Over 8883 "operator<" [KExpr; KExpr] "LessThanCmp" [(WExpr, 0); (WExpr, 1)]%nat KBExpr;
  Over 8899 "operator<" [KExpr; KSingle] "LessThanCmp" [(WExpr, 0); (WSingle, 1)]%nat KBExpr;
  Over 8934 "operator<" [KExpr; KSExpr] "LessThanCmp" [(WExpr, 0); (WExpr, 1)]%nat KBExpr;
  Over 8952 "operator<" [KSingle; KScalar] "LessThanCmp" [(WSingle, 0); (WScalar, 1)]%nat KBSExpr;
  Over 8984 "operator<" [KSingle; KField] "LessThanCmp" [(WSingle, 0); (WField, 1)]%nat KBExpr;
  Over 9021 "operator<" [KSingle; KExpr] "LessThanCmp" [(WSingle, 0); (WExpr, 1)]%nat KBExpr;
  Over 9054 "operator<" [KSingle; KSingle] "LessThanCmp" [(WSingle, 0); (WSingle, 1)]%nat KBSExpr;
  Over 9086 "operator<" [KSingle; KSExpr] "LessThanCmp" [(WSingle, 0); (WExpr, 1)]%nat KBSExpr;
  Over 9111 "operator<" [KSExpr; KScalar] "LessThanCmp" [(WExpr, 0); (WScalar, 1)]%nat KBSExpr;
  Over 9136 "operator<" [KSExpr; KField] "LessThanCmp" [(WExpr, 0); (WField, 1)]%nat KBExpr;
  Over 9162 "operator<" [KSExpr; KExpr] "LessThanCmp" [(WExpr, 0); (WExpr, 1)]%nat KBExpr;
  Over 9180 "operator<" [KSExpr; KSingle] "LessThanCmp" [(WExpr, 0); (WSingle, 1)]%nat KBSExpr;
  Over 9206 "operator<" [KSExpr; KSExpr] "LessThanCmp" [(WExpr, 0); (WExpr, 1)]%nat KBSExpr;
  Over 9432 "operator<=" [KScalar; KField] "LessThanEqualCmp" [(WScalar, 0); (WField, 1)]%nat KBExpr;
  Over 9463 "operator<=" [KScalar; KExpr] "LessThanEqualCmp" [(WScalar, 0); (WExpr, 1)]%nat KBExpr;
  Over 9488 "operator<=" [KScalar; KSingle] "LessThanEqualCmp" [(WScalar, 0); (WSingle, 1)]%nat KBSExpr;
  Over 9523 "operator<=" [KScalar; KSExpr] "LessThanEqualCmp" [(WScalar, 0); (WExpr, 1)]%nat KBSExpr;
  Over 9549 "operator<=" [KField; KScalar] "LessThanEqualCmp" [(WField, 0); (WScalar, 1)]%nat KBExpr;
  Over 9580 "operator<=" [KField; KField] "LessThanEqualCmp" [(WField, 0); (WField, 1)]%nat KBExpr;
  Over 9612 "operator<=" [KField; KExpr] "LessThanEqualCmp" [(WField, 0); (WExpr, 1)]%nat KBExpr;
  Over 9637 "operator<=" [KField; KSingle] "LessThanEqualCmp" [(WField, 0); (WSingle, 1)]%nat KBExpr;
  Over 9679 "operator<=" [KField; KSExpr] "LessThanEqualCmp" [(WField, 0); (WExpr, 1)]%nat KBExpr;
  Over 9706 "operator<=" [KExpr; KScalar] "LessThanEqualCmp" [(WExpr, 0); (WScalar, 1)]%nat KBExpr;
  Over 9732 "operator<=" [KExpr; KField] "LessThanEqualCmp" [(WExpr, 0); (WField, 1)]%nat KBExpr;
  Over 9759 "operator<=" [KExpr; KExpr] "LessThanEqualCmp" [(WExpr, 0); (WExpr, 1)]%nat KBExpr;
  Over 9775 "operator<=" [KExpr; KSingle] "LessThanEqualCmp" [(WExpr, 0); (WSingle, 1)]%nat KBExpr;
  Over 9812 "operator<=" [KExpr; KSExpr] "LessThanEqualCmp" [(WExpr, 0); (WExpr, 1)]%nat KBExpr;
  Over 9830 "operator<=" [KSingle; KScalar] "LessThanEqualCmp" [(WSingle, 0); (WScalar, 1)]%nat KBSExpr;
  Over 9863 "operator<=" [KSingle; KField] "LessThanEqualCmp" [(WSingle, 0); (WField, 1)]%nat KBExpr;
  Over 9904 "operator<=" [KSingle; KExpr] "LessThanEqualCmp" [(WSingle, 0); (WExpr, 1)]%nat KBExpr;
  Over 9939 "operator<=" [KSingle; KSingle] "LessThanEqualCmp" [(WSingle, 0); (WSingle, 1)]%nat KBSExpr;
  Over 9972 "operator<=" [KSingle; KSExpr] "LessThanEqualCmp" [(WSingle, 0); (WExpr, 1)]%nat KBSExpr;
  Over 9998 "operator<=" [KSExpr; KScalar] "LessThanEqualCmp" [(WExpr, 0); (WScalar, 1)]%nat KBSExpr;
  Over 10024 "operator<=" [KSExpr; KField] "LessThanEqualCmp" [(WExpr, 0); (WField, 1)]%nat KBExpr;
  Over 10053 "operator<=" [KSExpr; KExpr] "LessThanEqualCmp" [(WExpr, 0); (WExpr, 1)]%nat KBExpr;
  Over 10071 "operator<=" [KSExpr; KSingle] "LessThanEqualCmp" [(WExpr, 0); (WSingle, 1)]%nat KBSExpr;
  Over 10099 "operator<=" [KSExpr; KSExpr] "LessThanEqualCmp" [(WExpr, 0); (WExpr, 1)]%nat KBSExpr;
  Over 10321 "operator>" [KScalar; KField] "GreaterThanCmp" [(WScalar, 0); (WField, 1)]%nat KBExpr;
  Over 10349 "operator>" [KScalar; KExpr] "GreaterThanCmp" [(WScalar, 0); (WExpr, 1)]%nat KBExpr;
  Over 10373 "operator>" [KScalar; KSingle] "GreaterThanCmp" [(WScalar, 0); (WSingle, 1)]%nat KBSExpr;
  Over 10407 "operator>" [KScalar; KSExpr] "GreaterThanCmp" [(WScalar, 0); (WExpr, 1)]%nat KBSExpr;
  Over 10432 "operator>" [KField; KScalar] "GreaterThanCmp" [(WField, 0); (WScalar, 1)]%nat KBExpr;
  Over 10461 "operator>" [KField; KField] "GreaterThanCmp" [(WField, 0); (WField, 1)]%nat KBExpr;
  Over 10490 "operator>" [KField; KExpr] "GreaterThanCmp" [(WField, 0); (WExpr, 1)]%nat KBExpr;
  Over 10514 "operator>" [KField; KSingle] "GreaterThanCmp" [(WField, 0); (WSingle, 1)]%nat KBExpr;
  Over 10554 "operator>" [KField; KSExpr] "GreaterThanCmp" [(WField, 0); (WExpr, 1)]%nat KBExpr;
  Over 10580 "operator>" [KExpr; KScalar] "GreaterThanCmp" [(WExpr, 0); (WScalar, 1)]%nat KBExpr;
  Over 10605 "operator>" [KExpr; KField] "GreaterThanCmp" [(WExpr, 0); (WField, 1)]%nat KBExpr;
  Over 10629 "operator>" [KExpr; KExpr] "GreaterThanCmp" [(WExpr, 0); (WExpr, 1)]%nat KBExpr;
  Over 10645 "operator>" [KExpr; KSingle] "GreaterThanCmp" [(WExpr, 0); (WSingle, 1)]%nat KBExpr;
  Over 10681 "operator>" [KExpr; KSExpr] "GreaterThanCmp" [(WExpr, 0); (WExpr, 1)]%nat KBExpr;
  Over 10699 "operator>" [KSingle; KScalar] "GreaterThanCmp" [(WSingle, 0); (WScalar, 1)]%nat KBSExpr;
  Over 10731 "operator>" [KSingle; KField] "GreaterThanCmp" [(WSingle, 0); (WField, 1)]%nat KBExpr;
  Over 10769 "operator>" [KSingle; KExpr] "GreaterThanCmp" [(WSingle, 0); (WExpr, 1)]%nat KBExpr;
  Over 10803 "operator>" [KSingle; KSingle] "GreaterThanCmp" [(WSingle, 0); (WSingle, 1)]%nat KBSExpr;
  Over 10836 "operator>" [KSingle; KSExpr] "GreaterThanCmp" [(WSingle, 0); (WExpr, 1)]%nat KBSExpr;
  Over 10862 "operator>" [KSExpr; KScalar] "GreaterThanCmp" [(WExpr, 0); (WScalar, 1)]%nat KBSExpr;
  Over 10887 "operator>" [KSExpr; KField] "GreaterThanCmp" [(WExpr, 0); (WField, 1)]%nat KBExpr;
  Over 10913 "operator>" [KSExpr; KExpr] "GreaterThanCmp" [(WExpr, 0); (WExpr, 1)]%nat KBExpr;
  Over 10931 "operator>" [KSExpr; KSingle] "GreaterThanCmp" [(WExpr, 0); (WSingle, 1)]%nat KBSExpr;
  Over 10959 "operator>" [KSExpr; KSExpr] "GreaterThanCmp" [(WExpr, 0); (WExpr, 1)]%nat KBSExpr;
  Over 11190 "operator>=" [KScalar; KField] "GreaterThanEqualCmp" [(WScalar, 0); (WField, 1)]%nat KBExpr;
  Over 11221 "operator>=" [KScalar; KExpr] "GreaterThanEqualCmp" [(WScalar, 0); (WExpr, 1)]%nat KBExpr;
  Over 11246 "operator>=" [KScalar; KSingle] "GreaterThanEqualCmp" [(WScalar, 0); (WSingle, 1)]%nat KBSExpr;
  Over 11281 "operator>=" [KScalar; KSExpr] "GreaterThanEqualCmp" [(WScalar, 0); (WExpr, 1)]%nat KBSExpr;
  Over 11307 "operator>=" [KField; KScalar] "GreaterThanEqualCmp" [(WField, 0); (WScalar, 1)]%nat KBExpr;
  Over 11338 "operator>=" [KField; KField] "GreaterThanEqualCmp" [(WField, 0); (WField, 1)]%nat KBExpr;
  Over 11370 "operator>=" [KField; KExpr] "GreaterThanEqualCmp" [(WField, 0); (WExpr, 1)]%nat KBExpr;
  Over 11396 "operator>=" [KField; KSingle] "GreaterThanEqualCmp" [(WField, 0); (WSingle, 1)]%nat KBExpr;
  Over 11438 "operator>=" [KField; KSExpr] "GreaterThanEqualCmp" [(WField, 0); (WExpr, 1)]%nat KBExpr;
  Over 11466 "operator>=" [KExpr; KScalar] "GreaterThanEqualCmp" [(WExpr, 0); (WScalar, 1)]%nat KBExpr;
  Over 11492 "operator>=" [KExpr; KField] "GreaterThanEqualCmp" [(WExpr, 0); (WField, 1)]%nat KBExpr;
  Over 11519 "operator>=" [KExpr; KExpr] "GreaterThanEqualCmp" [(WExpr, 0); (WExpr, 1)]%nat KBExpr;
  Over 11537 "operator>=" [KExpr; KSingle] "GreaterThanEqualCmp" [(WExpr, 0); (WSingle, 1)]%nat KBExpr;
  Over 11574 "operator>=" [KExpr; KSExpr] "GreaterThanEqualCmp" [(WExpr, 0); (WExpr, 1)]%nat KBExpr;
  Over 11594 "operator>=" [KSingle; KScalar] "GreaterThanEqualCmp" [(WSingle, 0); (WScalar, 1)]%nat KBSExpr;
  Over 11628 "operator>=" [KSingle; KField] "GreaterThanEqualCmp" [(WSingle, 0); (WField, 1)]%nat KBExpr;
  Over 11669 "operator>=" [KSingle; KExpr] "GreaterThanEqualCmp" [(WSingle, 0); (WExpr, 1)]%nat KBExpr;
  Over 11704 "operator>=" [KSingle; KSingle] "GreaterThanEqualCmp" [(WSingle, 0); (WSingle, 1)]%nat KBSExpr;
  Over 11737 "operator>=" [KSingle; KSExpr] "GreaterThanEqualCmp" [(WSingle, 0); (WExpr, 1)]%nat KBSExpr;
  Over 11763 "operator>=" [KSExpr; KScalar] "GreaterThanEqualCmp" [(WExpr, 0); (WScalar, 1)]%nat KBSExpr;
  Over 11790 "operator>=" [KSExpr; KField] "GreaterThanEqualCmp" [(WExpr, 0); (WField, 1)]%nat KBExpr;
  Over 11819 "operator>=" [KSExpr; KExpr] "GreaterThanEqualCmp" [(WExpr, 0); (WExpr, 1)]%nat KBExpr;
  Over 11839 "operator>=" [KSExpr; KSingle] "GreaterThanEqualCmp" [(WExpr, 0); (WSingle, 1)]%nat KBSExpr;
  Over 11867 "operator>=" [KSExpr; KSExpr] "GreaterThanEqualCmp" [(WExpr, 0); (WExpr, 1)]%nat KBSExpr;
  Over 12088 "operator&&" [KBool; KBExpr] "AndOp" [(WScalar, 0); (WExpr, 1)]%nat KBExpr;
  Over 12105 "operator&&" [KBool; KMask] "AndOp" [(WScalar, 0); (WMask, 1)]%nat KBExpr;
  Over 12129 "operator&&" [KBExpr; KBool] "AndOp" [(WExpr, 0); (WScalar, 1)]%nat KBExpr;
  Over 12146 "operator&&" [KBExpr; KBExpr] "AndOp" [(WExpr, 0); (WExpr, 1)]%nat KBExpr;
  Over 12162 "operator&&" [KBExpr; KMask] "AndOp" [(WExpr, 0); (WMask, 1)]%nat KBExpr;
  Over 12186 "operator&&" [KMask; KBool] "AndOp" [(WMask, 0); (WScalar, 1)]%nat KBExpr;
  Over 12210 "operator&&" [KMask; KBExpr] "AndOp" [(WMask, 0); (WExpr, 1)]%nat KBExpr;
  Over 12234 "operator&&" [KMask; KMask] "AndOp" [(WMask, 0); (WMask, 1)]%nat KBExpr;
  Over 12468 "operator||" [KBool; KBExpr] "OrOp" [(WScalar, 0); (WExpr, 1)]%nat KBExpr;
  Over 12485 "operator||" [KBool; KMask] "OrOp" [(WScalar, 0); (WMask, 1)]%nat KBExpr;
  Over 12508 "operator||" [KBExpr; KBool] "OrOp" [(WExpr, 0); (WScalar, 1)]%nat KBExpr;
  Over 12525 "operator||" [KBExpr; KBExpr] "OrOp" [(WExpr, 0); (WExpr, 1)]%nat KBExpr;
  Over 12541 "operator||" [KBExpr; KMask] "OrOp" [(WExpr, 0); (WMask, 1)]%nat KBExpr;
  Over 12565 "operator||" [KMask; KBool] "OrOp" [(WMask, 0); (WScalar, 1)]%nat KBExpr;
  Over 12588 "operator||" [KMask; KBExpr] "OrOp" [(WMask, 0); (WExpr, 1)]%nat KBExpr;
  Over 12612 "operator||" [KMask; KMask] "OrOp" [(WMask, 0); (WMask, 1)]%nat KBExpr;
  Over 12801 "operator!" [KBExpr] "NotOp" [(WExpr, 0)]%nat KBExpr;
  Over 12812 "operator!" [KMask] "NotOp" [(WMask, 0)]%nat KBExpr;
  Over 13037 "max" [KScalar; KField] "MaxFcn" [(WScalar, 0); (WField, 1)]%nat KExpr;
  Over 13062 "max" [KScalar; KExpr] "MaxFcn" [(WScalar, 0); (WExpr, 1)]%nat KExpr;
  Over 13083 "max" [KScalar; KSingle] "MaxFcn" [(WScalar, 0); (WSingle, 1)]%nat KSExpr;
  Over 13110 "max" [KScalar; KSExpr] "MaxFcn" [(WScalar, 0); (WExpr, 1)]%nat KSExpr;
  Over 13131 "max" [KField; KScalar] "MaxFcn" [(WField, 0); (WScalar, 1)]%nat KExpr;
  Over 13157 "max" [KField; KField] "MaxFcn" [(WField, 0); (WField, 1)]%nat KExpr;
  Over 13184 "max" [KField; KExpr] "MaxFcn" [(WField, 0); (WExpr, 1)]%nat KExpr;
  Over 13206 "max" [KField; KSingle] "MaxFcn" [(WField, 0); (WSingle, 1)]%nat KExpr;
  Over 13241 "max" [KField; KSExpr] "MaxFcn" [(WField, 0); (WExpr, 1)]%nat KExpr;
  Over 13266 "max" [KExpr; KScalar] "MaxFcn" [(WExpr, 0); (WScalar, 1)]%nat KExpr;
  Over 13288 "max" [KExpr; KField] "MaxFcn" [(WExpr, 0); (WField, 1)]%nat KExpr;
  Over 13310 "max" [KExpr; KExpr] "MaxFcn" [(WExpr, 0); (WExpr, 1)]%nat KExpr;
  Over 13329 "max" [KExpr; KSingle] "MaxFcn" [(WExpr, 0); (WSingle, 1)]%nat KExpr;
  Over 13360 "max" [KExpr; KSExpr] "MaxFcn" [(WExpr, 0); (WExpr, 1)]%nat KExpr;
  Over 13381 "max" [KSingle; KScalar] "MaxFcn" [(WSingle, 0); (WScalar, 1)]%nat KSExpr;
  Over 13408 "max" [KSingle; KField] "MaxFcn" [(WSingle, 0); (WField, 1)]%nat KExpr;
  Over 13442 "max" [KSingle; KExpr] "MaxFcn" [(WSingle, 0); (WExpr, 1)]%nat KExpr;
  Over 13472 "max" [KSingle; KSingle] "MaxFcn" [(WSingle, 0); (WSingle, 1)]%nat KSExpr;
  Over 13499 "max" [KSingle; KSExpr] "MaxFcn" [(WSingle, 0); (WExpr, 1)]%nat KSExpr;
  Over 13522 "max" [KSExpr; KScalar] "MaxFcn" [(WExpr, 0); (WScalar, 1)]%nat KSExpr;
  Over 13543 "max" [KSExpr; KField] "MaxFcn" [(WExpr, 0); (WField, 1)]%nat KExpr;
  Over 13568 "max" [KSExpr; KExpr] "MaxFcn" [(WExpr, 0); (WExpr, 1)]%nat KExpr;
  Over 13589 "max" [KSExpr; KSingle] "MaxFcn" [(WExpr, 0); (WSingle, 1)]%nat KSExpr;
  Over 13612 "max" [KSExpr; KSExpr] "MaxFcn" [(WExpr, 0); (WExpr, 1)]%nat KSExpr;
  Over 13830 "min" [KScalar; KField] "MinFcn" [(WScalar, 0); (WField, 1)]%nat KExpr;
  Over 13855 "min" [KScalar; KExpr] "MinFcn" [(WScalar, 0); (WExpr, 1)]%nat KExpr;
  Over 13876 "min" [KScalar; KSingle] "MinFcn" [(WScalar, 0); (WSingle, 1)]%nat KSExpr;
  Over 13903 "min" [KScalar; KSExpr] "MinFcn" [(WScalar, 0); (WExpr, 1)]%nat KSExpr;
  Over 13924 "min" [KField; KScalar] "MinFcn" [(WField, 0); (WScalar, 1)]%nat KExpr;
  Over 13950 "min" [KField; KField] "MinFcn" [(WField, 0); (WField, 1)]%nat KExpr;
  Over 13977 "min" [KField; KExpr] "MinFcn" [(WField, 0); (WExpr, 1)]%nat KExpr;
  Over 13999 "min" [KField; KSingle] "MinFcn" [(WField, 0); (WSingle, 1)]%nat KExpr;
  Over 14034 "min" [KField; KSExpr] "MinFcn" [(WField, 0); (WExpr, 1)]%nat KExpr;
  Over 14059 "min" [KExpr; KScalar] "MinFcn" [(WExpr, 0); (WScalar, 1)]%nat KExpr;
  Over 14081 "min" [KExpr; KField] "MinFcn" [(WExpr, 0); (WField, 1)]%nat KExpr;
  Over 14103 "min" [KExpr; KExpr] "MinFcn" [(WExpr, 0); (WExpr, 1)]%nat KExpr;
  Over 14122 "min" [KExpr; KSingle] "MinFcn" [(WExpr, 0); (WSingle, 1)]%nat KExpr;
  Over 14153 "min" [KExpr; KSExpr] "MinFcn" [(WExpr, 0); (WExpr, 1)]%nat KExpr;
  Over 14174 "min" [KSingle; KScalar] "MinFcn" [(WSingle, 0); (WScalar, 1)]%nat KSExpr;
  Over 14201 "min" [KSingle; KField] "MinFcn" [(WSingle, 0); (WField, 1)]%nat KExpr;
  Over 14235 "min" [KSingle; KExpr] "MinFcn" [(WSingle, 0); (WExpr, 1)]%nat KExpr;
  Over 14265 "min" [KSingle; KSingle] "MinFcn" [(WSingle, 0); (WSingle, 1)]%nat KSExpr;
  Over 14292 "min" [KSingle; KSExpr] "MinFcn" [(WSingle, 0); (WExpr, 1)]%nat KSExpr;
  Over 14315 "min" [KSExpr; KScalar] "MinFcn" [(WExpr, 0); (WScalar, 1)]%nat KSExpr;
  Over 14336 "min" [KSExpr; KField] "MinFcn" [(WExpr, 0); (WField, 1)]%nat KExpr;
  Over 14361 "min" [KSExpr; KExpr] "MinFcn" [(WExpr, 0); (WExpr, 1)]%nat KExpr;
  Over 14382 "min" [KSExpr; KSingle] "MinFcn" [(WExpr, 0); (WSingle, 1)]%nat KSExpr;
  Over 14405 "min" [KSExpr; KSExpr] "MinFcn" [(WExpr, 0); (WExpr, 1)]%nat KSExpr
].

(** NeboAssignment.h: line, function, destination, right-hand side, with ghosts, operand. *)
Definition assign_overloads : list assign_overload := [
  AOver 29 "operator<<=" KField KScalar true WScalar;
  AOver 41 "operator<<=" KField KField true WField;
  AOver 52 "operator<<=" KField KExpr true WExpr;
  AOver 61 "operator<<=" KField KSingle true WSingle;
  AOver 78 "operator<<=" KField KSExpr true WExpr;
  AOver 90 "operator<<=" KSingle KScalar true WScalar;
  AOver 127 "operator<<=" KSingle KSingle true WSingle;
  AOver 157 "operator<<=" KSingle KSExpr true WExpr;
  AOver 181 "interior_assign" KField KScalar false WScalar;
  AOver 193 "interior_assign" KField KField false WField;
  AOver 204 "interior_assign" KField KExpr false WExpr;
  AOver 214 "interior_assign" KField KSingle false WSingle;
  AOver 232 "interior_assign" KField KSExpr false WExpr;
  AOver 244 "interior_assign" KSingle KScalar false WScalar;
  AOver 283 "interior_assign" KSingle KSingle false WSingle;
  AOver 315 "interior_assign" KSingle KSExpr false WExpr
].
