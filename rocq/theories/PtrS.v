(** Specification of field handles: handles are names for fields. *)
From Verif Require Import Prelude PoolM PtrM.

(** Which field each handle variable refers to, and the fields the program made
    with new and has not yet given to a handle. *)
Record hspec := HSpec { starget : amap (option nat); sraw : list nat }.
Definition hspec_new : hspec := HSpec [] [].
Definition target (s : hspec) (h : nat) : option nat :=
  match aget (starget s) h with Some (Some f) => Some f | _ => None end.
Definition drop (f : nat) (l : list nat) : list nat := filter (fun x => negb (x =? f)%nat) l.

Definition spec_step (s : hspec) (o : hop) : hspec :=
  match o with
  | OStore h fa _ _ _ => HSpec (aset (starget s) h (Some fa)) (sraw s)
  | ONewField fa _ _ => HSpec (starget s) (fa :: sraw s)
  | ONewWrap fa _ => HSpec (starget s) (fa :: sraw s)
  | OWrap h None _ => HSpec (aset (starget s) h None) (sraw s)
  | OWrap h (Some f) _ => HSpec (aset (starget s) h (Some f)) (drop f (sraw s))
  | ODefault h => HSpec (aset (starget s) h None) (sraw s)
  | OCopy h g => HSpec (aset (starget s) h (target s g)) (sraw s)
  | OAssign h g => HSpec (aset (starget s) h (target s g)) (sraw s)
  | OAssignRaw h f _ => HSpec (aset (starget s) h (Some f)) (drop f (sraw s))
  | ODetach h => HSpec (aset (starget s) h None) (sraw s)
  | ODestroy h => HSpec (adel (starget s) h) (sraw s)
  end.

(** new returns addresses that are not in use (when it is called); pool blocks
    ever allocated are listed in fsm_. *)
Definition fresh_field (st : mem) (fa : nat) := aget (mfld st) fa = None.
Definition fresh_counter (st : mem) (ca : nat) := aget (mcnt st) ca = None.
Definition fresh_block (st : mem) (ba : nat) := ~ In ba (map fst (pfsm (mpool st))).
Definition unused (s : hspec) (h : nat) := aget (starget s) h = None.
Definition in_scope (s : hspec) (h : nat) := aget (starget s) h <> None.
Definition shared (s : hspec) (h : nat) := exists h', h' <> h /\ target s h' <> None /\ target s h' = target s h.

(** Legal uses.  Null handles are not copied or assigned from, a field is given
    to one handle only, detach is called on a handle that shares with no other,
    and self-assignment on one that shares (see C25/C26 for what happens otherwise). *)
Definition legal (s : hspec) (st : mem) (o : hop) : Prop :=
  match o with
  | OStore h fa ca ba n => unused s h /\ fresh_field st fa /\ fresh_counter st ca /\ fresh_block st ba /\ 0 <= n
  | ONewField fa ba n => fresh_field st fa /\ fresh_block st ba /\ 0 <= n
  | ONewWrap fa _ => fresh_field st fa
  | OWrap h None ca => unused s h /\ fresh_counter st ca
  | OWrap h (Some f) ca => unused s h /\ fresh_counter st ca /\ In f (sraw s)
  | ODefault h => unused s h
  | OCopy h g => unused s h /\ target s g <> None
  | OAssign h g => in_scope s h /\ target s g <> None /\ (h = g -> shared s h)
  | OAssignRaw h f ca => in_scope s h /\ In f (sraw s) /\
      forall st', hstep st (ODestroy h) = Ok st' -> fresh_counter st' ca
  | ODetach h => in_scope s h /\ ~ shared s h
  | ODestroy h => in_scope s h
  end.

(** Legal programs and the memory they lead to. *)
Inductive program : hspec -> mem -> Prop :=
| p_start : program hspec_new mem_new
| p_step s st o st' : program s st -> legal s st o -> hstep st o = Ok st' -> program (spec_step s o) st'.

(** Number of handles that refer to field f. *)
Definition handles_of (s : hspec) (f : nat) : nat :=
  length (filter (fun e => match snd e with Some g => (g =? f)%nat | None => false end) (starget s)).
