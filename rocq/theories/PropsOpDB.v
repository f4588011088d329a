(** Property theorems about the operator database: C27. *)
From Coq Require Import Permutation.
From Verif Require Import Prelude OpDBM OpDBS OpDBP.

(** After any history, retrieval is lookup among the operators registered under
    that type; unknown types, unknown ids and ambiguous requests throw. *)
Theorem C27_retrieve : forall os t id, db_retrieve (fst (db_run os)) t id = lookup (regs t os) id.
Proof. exact retrieve_spec. Qed.
Print Assumptions C27_retrieve.

(** Registration returns the id under which the operator is found. *)
Theorem C27_register : forall os t op, let '(db', id) := db_register (fst (db_run os)) t op in
  id = Z.of_nat (length (regs t os)) + 1 /\ db_retrieve db' t id = Ok op.
Proof. exact register_id. Qed.
Print Assumptions C27_register.

(** An id keeps its meaning until the database is emptied. *)
Theorem C27_stable : forall os os2 t id op, id <> -1 -> ~ In DEmpty os2 ->
  db_retrieve (fst (db_run os)) t id = Ok op -> db_retrieve (fst (db_run (os ++ os2))) t id = Ok op.
Proof. exact stable. Qed.
Print Assumptions C27_stable.

(** Emptying and destroying deletes every registered operator as often as it was
    registered. *)
Theorem C27_deleted : forall os, let '(db, del) := db_run os in Permutation (del ++ snd (db_empty db)) (registered os).
Proof. exact deleted. Qed.
Print Assumptions C27_deleted.
(** Registering one operator twice therefore deletes it twice. *)
Theorem C27_registered_twice_refuted : exists os op, count_occ Nat.eq_dec (snd (db_empty (fst (db_run os)))) op = 2%nat.
Proof. exists [DReg 0 7; DReg 0 7], 7%nat. reflexivity. Qed.
Print Assumptions C27_registered_twice_refuted.

Example C27_hyps_met :
  let os := [DReg 0 7; DReg 1 8; DEmpty; DReg 1 9; DReg 0 5; DReg 1 6] in
  regs 1 os = [9; 6]%nat /\ db_retrieve (fst (db_run os)) 1 2 = Ok 6%nat /\
  db_retrieve (fst (db_run os)) 1 (-1) = Throw /\ db_retrieve (fst (db_run os)) 0 (-1) = Ok 5%nat /\
  db_retrieve (fst (db_run os)) 3 1 = Throw /\ snd (db_run os) = [7; 8]%nat /\ ~ In DEmpty [DReg 1 4].
Proof. cbn. repeat (split; [reflexivity|]). intros [E|[]]; discriminate. Qed.
