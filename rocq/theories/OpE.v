From Verif Require Import Prelude WindowM GhostM FieldM FieldS MaskM NeboM NeboS NeboC NeboE OpM OpS OpTabM.
From Coq Require Import String.

Definition zarith : arith Z :=
  Arith (fun o x => match o with PNeg => - x | PAbs => Z.abs x | PSqrt => Z.sqrt x | PLog => Z.log2 x | _ => x end)
        (fun o => match o with PAdd => Z.add | PSub => Z.sub | PMul => Z.mul | PDiv => Z.quot | PPow => Z.pow end)
        (fun c => match c with PEq => Z.eqb | PNe => fun x y => negb (x =? y) | PLt => Z.ltb | PLe => Z.leb | PGt => Z.gtb | PGe => Z.geb end).
(** max( e / (v + 2), abs(s) - t ) *)
Definition xform : num Z :=
  N2 Z Max (N2 Z Div (NExpr Z xe) (N2 Z Add (NSingle Z xv) (NVal Z 2))) (N2 Z Sub (N1 Z PAbs (NField Z xs)) (NField Z xt)).
(** s < 3 && !m || v == 1: the last comparison cannot be combined *)
Definition xlog : log Z := LAnd Z (LCmp Z PLt (NField Z xs) (NVal Z 3)) (LNot Z (LMask Z xm)).
Definition xbad : log Z := LOr Z xlog (LCmp Z PEq (NSingle Z xv) (NVal Z 1)).

Notation xtree := (num_tree Z zarith xform).
Lemma xo_ok : num_ok Z xform.
Proof. cbn. intuition discriminate. Qed.
Lemma xo_log_ok : log_ok Z xlog.
Proof. cbn. intuition discriminate. Qed.
Lemma xo_operands : operands_ok Z xdim xheap xtree.
Proof.
  split; [|split].
  - intros f s I. cbn in I. split.
    + destruct I as [E|[E|[E|[E|[E|[E|[]]]]]]]; injection E as <- <-; apply user_field_on_patch; auto using user_xs, user_xt, user_xf.
    + intros p P. destruct I as [E|[E|[E|[E|[E|[E|[]]]]]]]; injection E as <- <-; apply xcell_ok; auto; cbn; auto.
  - intros m s I. cbn in I. assert (m = xm) by (destruct I as [E|[E|[]]]; congruence). subst m.
    split; [apply user_field_on_patch, user_xs|reflexivity].
  - intros f [<-|[<-|[]]]; reflexivity.
Qed.
Lemma xo_alias : alias_ok Z xf xtree.
Proof. intros g s I. cbn in I. destruct I as [E|[E|[E|[E|[E|[E|[]]]]]]]; injection E as <- <-; cbn; auto. Qed.
Lemma xo_covers : covers_extra Z xf xtree.
Proof.
  intros l m u I. cbn in I. repeat (destruct I as [E|I]; [injection E as <- <- <-; cbn; unfold GHOST_MAX; lia|]). destruct I.
Qed.
Lemma xo_region : region Z xdim xf xtree (IV 3 1 0).
Proof.
  split; [unfold any_cell, reach, in_region; cbn; lia|].
  intros l m u I q L U. cbn in I. unfold known, in_region, iv_le in *.
  repeat (destruct I as [E|I]; [injection E as <- <- <-; cbn in *; unfold GHOST_MAX; lia|]). destruct I.
Qed.
