(** Property C77: operators and functions on fields. *)
From Verif Require Import Prelude WindowM GhostM FieldM MaskM NeboM NeboS NeboE OpM OpTabM OpS OpP OpQ OpE RoundM RedM.
From Coq Require Import String.

(** A formula compiles exactly if [num_ok], and then its value at every point
    is the formula's value there, whatever mixture of numbers, fields, single
    values and expressions it combines. *)
Theorem C77_formula : forall V (A : arith V) (vadd vmul : V -> V -> V) t,
  (compile V A node_types overloads (write V t) <> None <-> num_ok V t) /\
  forall T, compile V A node_types overloads (write V t) = Some T -> term_level V T = num_level V t /\
  exists e, term_num V T = Some e /\ forall h p, denote V vadd vmul h e p = num_value V A vadd vmul h p t.
Proof. exact compiles. Qed.
Print Assumptions C77_formula.

(** The same for logical formulas. *)
Theorem C77_logical : forall V (A : arith V) (vadd vmul : V -> V -> V) t,
  (compile V A node_types overloads (lwrite V t) <> None <-> log_ok V t) /\
  forall T, compile V A node_types overloads (lwrite V t) = Some T -> term_level V T = log_level V t /\
  exists b, term_log V T = Some b /\ forall h p, bdenote V vadd vmul h b p = log_value V A vadd vmul h p t.
Proof. exact lcompiles. Qed.
Print Assumptions C77_logical.

(** f <<= formula: every cell of the region gets the value of the formula,
    nothing else changes.  The conditions and the region are those of C11 for
    the tree of the formula. *)
Theorem C77_assign : forall V (A : arith V) (vadd vmul : V -> V -> V) n h f t,
  num_ok V t -> operands_ok V n h (num_tree V A t) -> destination_ok V n h f -> alias_ok V f (num_tree V A t) ->
  covers_extra V f (num_tree V A t) -> (exists p, region V n f (num_tree V A t) p) ->
  exists N, forall fuel, (N <= fuel)%nat -> exists q h',
    statement V A node_types overloads assign_overloads vadd vmul fuel "operator<<=" (TField V f) (write V t) = Some q /\
    run q h = RDone h' tt /\
    assigned V h h' f (region V n f (num_tree V A t)) (fun p => num_value V A vadd vmul h p t).
Proof. exact assign_formula. Qed.
Print Assumptions C77_assign.

Theorem C77_interior_assign : forall V (A : arith V) (vadd vmul : V -> V -> V) n h f t,
  num_ok V t -> operands_ok V n h (num_tree V A t) -> destination_ok V n h f -> alias_ok V f (num_tree V A t) ->
  (forall p, interior_cell n f p -> expr_known V n (num_tree V A t) p) ->
  exists N, forall fuel, (N <= fuel)%nat -> exists q h',
    statement V A node_types overloads assign_overloads vadd vmul fuel "interior_assign" (TField V f) (write V t) = Some q /\
    run q h = RDone h' tt /\
    assigned V h h' f (interior_cell n f) (fun p => num_value V A vadd vmul h p t).
Proof. exact interior_formula. Qed.
Print Assumptions C77_interior_assign.

(** A single-value field takes formulas without fields only. *)
Theorem C77_single : forall V (A : arith V) (vadd vmul : V -> V -> V) fuel f t,
  (statement V A node_types overloads assign_overloads vadd vmul fuel "operator<<=" (TSingle V f) (write V t) <> None <->
   num_ok V t /\ num_level V t <> OnField) /\
  (statement V A node_types overloads assign_overloads vadd vmul fuel "interior_assign" (TSingle V f) (write V t) <> None <->
   num_ok V t /\ num_level V t <> OnField).
Proof. exact statement_single. Qed.
Print Assumptions C77_single.

(** No call is ambiguous, and a node computes the same in assignments, on a
    GPU and in reductions. *)
Theorem C77_overloads : NoDup (map (fun o => (oname o, opars o)) overloads) /\
  Forall (fun n => ngpu n = nseq n /\ nred n = nseq n) node_types.
Proof. exact (conj unambiguous modes). Qed.
Print Assumptions C77_overloads.

(** Where one of the arguments is NaN, max and min give the second one: NaN is
    lost when it comes first. *)
Theorem C77_max_min_nan : forall (A : arith dbl) vadd vmul,
  (forall x y, ac A PGt x y = dltb y x) -> (forall x y, ac A PLt x y = dltb x y) ->
  forall h p a b,
  is_nan (num_value dbl A vadd vmul h p a) = true \/ is_nan (num_value dbl A vadd vmul h p b) = true ->
  num_value dbl A vadd vmul h p (N2 dbl Max a b) = num_value dbl A vadd vmul h p b /\
  num_value dbl A vadd vmul h p (N2 dbl Min a b) = num_value dbl A vadd vmul h p b.
Proof. exact max_min_nan. Qed.
Print Assumptions C77_max_min_nan.

(** Two conditions that compile, whose combination does not. *)
Theorem C77_combine_refuted : exists a b : log Z, log_ok Z a /\ log_ok Z b /\
  compile Z zarith node_types overloads (lwrite Z (LOr Z a b)) = None.
Proof.
  exists xlog, (LCmp Z PEq (NSingle Z xv) (NVal Z 1)). split; [exact xo_log_ok|]. split; [cbn; intuition discriminate|].
  vm_compute. reflexivity.
Qed.
Print Assumptions C77_combine_refuted.

Example C77_hyps_met :
  num_ok Z xform /\ log_ok Z xlog /\ operands_ok Z xdim xheap xtree /\ destination_ok Z xdim xheap xf /\
  alias_ok Z xf xtree /\ covers_extra Z xf xtree /\ region Z xdim xf xtree (IV 3 1 0) /\
  num_value Z zarith Z.add Z.mul xheap (IV 3 1 0) xform <> num_value Z zarith Z.add Z.mul xheap (IV 2 1 0) xform.
Proof.
  refine (conj xo_ok (conj xo_log_ok (conj xo_operands (conj x_destination (conj xo_alias (conj xo_covers (conj xo_region _))))))).
  vm_compute. discriminate.
Qed.
