(** Sequences of iterator operations, for the property on integer overflow. *)
From Verif Require Import Prelude WindowM OverM.

Inductive move := Inc | Dec | Fwd (n : Z) | Bwd (n : Z).

(** how far each operation moves *)
Definition shift (m : move) : Z :=
  match m with Inc => 1 | Dec => -1 | Fwd n => n | Bwd n => - n end.

(** the position after the moves *)
Fixpoint position (c : Z) (ms : list move) : Z :=
  match ms with [] => c | m :: r => position (c + shift m) r end.

(** no move leaves begin()..end() *)
Fixpoint inside (total c : Z) (ms : list move) : Prop :=
  match ms with
  | [] => True
  | m :: r => 0 <= c + shift m <= total /\ inside total (c + shift m) r
  end.

(** the moves performed with machine integers *)
Definition move32 (it : iter) (m : move) : outcome iter :=
  match m with
  | Inc => it_incr32 it
  | Dec => it_decr32 it
  | Fwd n => it_advance32 it n
  | Bwd n => it_retreat32 it n
  end.
Fixpoint moves32 (it : iter) (ms : list move) : outcome iter :=
  match ms with [] => Ok it | m :: r => do it' <- move32 it m; moves32 it' r end.
