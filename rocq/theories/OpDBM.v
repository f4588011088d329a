(** Model of the operator database. *)
From Verif Require Import Prelude.

(** OperatorDatabase.h:47-57 (OpStore): idCounter_ and opMap_, a std::map ordered
    by id; ids only grow, so insert appends.  Types and operators (pointers) are
    numbers. *)
Record opstore := OpStore { stype : nat; sctr : Z; smap : list (Z * nat) }.
(** storeList_ *)
Definition opdb := list opstore.

(** OperatorDatabase.h:127-138 (find): first store of that type, as a position. *)
Fixpoint db_find (db : opdb) (t : nat) : option nat :=
  match db with
  | [] => None
  | s :: rest => if (stype s =? t)%nat then Some 0%nat
                 else match db_find rest t with Some i => Some (S i) | None => None end
  end.
(** std::map::insert of key k (no effect if the key exists). *)
Definition map_insert (m : list (Z * nat)) (k : Z) (v : nat) : list (Z * nat) :=
  if existsb (fun e => fst e =? k) m then m else m ++ [(k, v)].
(** OperatorDatabase.h:207-213 (add) *)
Definition store_add (s : opstore) (op : nat) : opstore * Z :=
  let id := sctr s + 1 in
  (OpStore (stype s) id (map_insert (smap s) id op), id).
Fixpoint set_nth (db : opdb) (i : nat) (s : opstore) : opdb :=
  match db, i with
  | [], _ => []
  | _ :: r, O => s :: r
  | x :: r, S j => x :: set_nth r j s
  end.
(** OperatorDatabase.h:142-155 (register_new_operator) *)
Definition db_register (db : opdb) (t op : nat) : opdb * Z :=
  match db_find db t with
  | None => let '(s, id) := store_add (OpStore t 0 []) op in (db ++ [s], id)
  | Some i => let '(s, id) := store_add (nth i db (OpStore t 0 [])) op in (set_nth db i s, id)
  end.
Definition map_find (m : list (Z * nat)) (k : Z) : option nat :=
  match find (fun e => fst e =? k) m with Some e => Some (snd e) | None => None end.
(** OperatorDatabase.h:217-247 (OpStore::get) *)
Definition store_get (s : opstore) (id : Z) : outcome nat :=
  if id =? -1 then
    if (1 <? length (smap s))%nat then Throw
    else match smap s with [] => Throw | (_, op) :: _ => Ok op end
  else match map_find (smap s) id with None => Throw | Some op => Ok op end.
(** OperatorDatabase.h:168-180 (retrieve_operator) *)
Definition db_retrieve (db : opdb) (t : nat) (id : Z) : outcome nat :=
  match db_find db t with
  | None => Throw
  | Some i => store_get (nth i db (OpStore t 0 [])) id
  end.
(** OperatorDatabase.h:184-188, 197-203 (empty_database, ~OpStore): the database
    afterwards and the operators deleted. *)
Definition db_empty (db : opdb) : opdb * list nat := ([], flat_map (fun s => map snd (smap s)) db).

(** Histories. *)
Inductive dop := DReg (t op : nat) | DEmpty.
Definition db_step (x : opdb * list nat) (o : dop) : opdb * list nat :=
  let '(db, del) := x in
  match o with
  | DReg t op => (fst (db_register db t op), del)
  | DEmpty => let '(db', d) := db_empty db in (db', del ++ d)
  end.
Definition db_run (os : list dop) : opdb * list nat := fold_left db_step os ([], []).
