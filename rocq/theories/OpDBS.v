(** Specification of the operator database. *)
From Verif Require Import Prelude OpDBM.

(** The operators of type t registered since the database was last emptied, in
    order. *)
Fixpoint regs_from (t : nat) (acc : list nat) (os : list dop) : list nat :=
  match os with
  | [] => acc
  | DReg u op :: rest => regs_from t (if (u =? t)%nat then acc ++ [op] else acc) rest
  | DEmpty :: rest => regs_from t [] rest
  end.
Definition regs (t : nat) (os : list dop) : list nat := regs_from t [] os.

(** Ids count from 1; -1 asks for the only operator of that type. *)
Definition lookup (rs : list nat) (id : Z) : outcome nat :=
  if id =? -1 then match rs with [op] => Ok op | _ => Throw end
  else if id <=? 0 then Throw
  else match nth_error rs (Z.to_nat (id - 1)) with Some op => Ok op | None => Throw end.

(** All operators handed to the database. *)
Fixpoint registered (os : list dop) : list nat :=
  match os with [] => [] | DReg _ op :: r => op :: registered r | DEmpty :: r => registered r end.
