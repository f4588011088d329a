(** Property theorems about conditional expressions: C18. *)
From Verif Require Import Prelude WindowM WindowS GhostM FieldM FieldS MaskM MaskS NeboM NeboS NeboC NeboD NeboE NeboF CondM CondS CondP.

(** C18.  [cls] is the list of clauses in the order written. *)
Theorem C18_first_true : forall V (vadd vmul : V -> V -> V) cls final h p,
  result_at V vadd vmul h p (cond_call V cls final)
  = first_true V (map (fun cv => (holds_at V vadd vmul h p (fst cv), value_at V vadd vmul h p (snd cv))) cls)
               (value_at V vadd vmul h p final).
Proof. exact cond_first_true. Qed.
Print Assumptions C18_first_true.

(** A plain number comes out exactly when only bools and numbers went in. *)
Theorem C18_kind : forall V cls (final : varg V),
  (exists d, cond_call V cls final = RNum d) <-> forallb (plain_clause V) cls && plain_value V final = true.
Proof. exact cond_kind. Qed.
Print Assumptions C18_kind.

(** The result is known where all clauses are, selected or not. *)
Theorem C18_known : forall V n p cls (final : varg V) e, cond_call V cls final = RExpr e ->
  (expr_known V n e p <->
   (forall c v, In (c, v) cls -> carg_known V n p c /\ varg_known V n p v) /\ varg_known V n p final).
Proof. exact cond_known. Qed.
Print Assumptions C18_known.

(** f <<= cond(...)...(...) stores the first true clause's value. *)
Theorem C18_assign : forall V (vadd vmul : V -> V -> V) n h f cls final e, cond_call V cls final = RExpr e ->
  operands_ok V n h e -> destination_ok V n h f -> alias_ok V f e -> covers_extra V f e ->
  (exists p, region V n f e p) ->
  exists N, forall fuel, (N <= fuel)%nat -> exists h',
    run (fst (nebo_assign V vadd vmul fuel f e)) h = RDone h' tt /\
    forall p, any_cell n f p ->
      (forall c v, In (c, v) cls -> carg_known V n p c /\ varg_known V n p v) -> varg_known V n p final ->
      value V h' f p
      = first_true V (map (fun cv => (holds_at V vadd vmul h p (fst cv), value_at V vadd vmul h p (snd cv))) cls)
                   (value_at V vadd vmul h p final).
Proof. exact cond_assign. Qed.
Print Assumptions C18_assign.

(** Mixed clauses, starting with plain ones. *)
Definition c18_cls : list (carg Z * varg Z) :=
  [(CBool false, VNum 1); (CMask xm, VNum 7);
   (CExpr (BCmp Z Z.ltb (EField Z xs) (EScalar Z 1015)), VField xt); (CBool true, VExpr (EOp1 Z Z.opp (EField Z xs)))].
Definition c18_e : expr Z := match cond_call Z c18_cls (VNum 5) with RExpr e => e | RNum d => EScalar Z d end.
Example C18_hyps_met :
  cond_call Z c18_cls (VNum 5) = RExpr c18_e /\
  operands_ok Z xdim xheap c18_e /\ destination_ok Z xdim xheap xf /\ alias_ok Z xf c18_e /\
  covers_extra Z xf c18_e /\ region Z xdim xf c18_e (IV 1 1 0) /\
  value_at Z Z.add Z.mul xheap (IV 1 1 0) (VField xt) = 2027 /\
  result_at Z Z.add Z.mul xheap (IV 1 1 0) (RExpr c18_e) = -1024 /\
  result_at Z Z.add Z.mul xheap (IV 0 0 0) (RExpr c18_e) = -1016.
Proof.
  split; [reflexivity|].
  split. { split; [|split].
    - intros f s I. cbn in I. split.
      + destruct I as [E|[E|[E|[]]]]; injection E as <- <-; apply user_field_on_patch; auto using user_xs, user_xt.
      + intros p P. destruct I as [E|[E|[E|[]]]]; injection E as <- <-; apply xcell_ok; auto; cbn; auto.
    - intros m s I. cbn in I. assert (m = xm) by (destruct I as [E|[]]; congruence). subst m.
      split; [apply user_field_on_patch, user_xs|reflexivity].
    - intros f []. }
  split; [exact x_destination|].
  split. { intros g s I. cbn in I. left. destruct I as [E|[E|[E|[]]]]; injection E as <- <-; cbn; discriminate. }
  split. { intros l m u I. cbn in I. repeat (destruct I as [E|I]; [injection E as <- <- <-; cbn; unfold GHOST_MAX; lia|]). destruct I. }
  split. { split; [unfold any_cell, reach, in_region; cbn; lia|].
    intros l m u I q L U. cbn in I. unfold known, in_region, iv_le in *.
    repeat (destruct I as [E|I]; [injection E as <- <- <-; cbn in *; unfold GHOST_MAX; lia|]). destruct I. }
  vm_compute. auto.
Qed.
