(** Model of field handles (SpatFldPtr) and of the field store, on top of the
    memory pool. *)
From Verif Require Import Prelude PoolM.

(** Finite maps from addresses (or variable names) to values. *)
Definition amap (A : Type) := list (nat * A).
Definition aget {A} (m : amap A) (k : nat) : option A :=
  match find (fun e => (fst e =? k)%nat) m with Some e => Some (snd e) | None => None end.
Definition adel {A} (m : amap A) (k : nat) : amap A := filter (fun e => negb (fst e =? k)%nat) m.
Definition aset {A} (m : amap A) (k : nat) (v : A) : amap A := (k, v) :: adel m k.

(** A SpatialField object as far as its destructor is concerned,
    SpatialField.h:543-561: fieldValues_ and builtField_ (mode == InternalStorage).
    [fuser] is not in the code: it tells whether the wrapped array came from
    outside the memory pool. *)
Record hfield := HField { fblock : nat; fbuilt : bool; fuser : bool }.

(** SpatialFieldStore.h:163-167: f_, count_ and builtFromStore_.  NULL is [None].
    memType_ is always LOCAL_RAM and deviceIndex_ always 0 here. *)
Record handle := Handle { hf : option nat; hc : option nat; hst : bool }.

(** Memory: the pool, the live field objects, the live counters, and the live
    handle variables of the program.  Everything not listed is dead. *)
Record mem := Mem {
  mpool : pool; mfld : amap hfield; mcnt : amap Z; mhs : amap handle }.
Definition mem_new : mem := Mem pool_new [] [] [].
Definition set_pool (st : mem) p := Mem p (mfld st) (mcnt st) (mhs st).
Definition set_fld (st : mem) x := Mem (mpool st) x (mcnt st) (mhs st).
Definition set_cnt (st : mem) x := Mem (mpool st) (mfld st) x (mhs st).
Definition set_hs (st : mem) x := Mem (mpool st) (mfld st) (mcnt st) x.

(** SpatialFieldStore.h:496-506 (restore_field): reads the field's array and
    puts it back. *)
Definition restore_field (st : mem) (f : option nat) : outcome mem :=
  match f with
  | None => UB
  | Some f => match aget (mfld st) f with
              | None => UB
              | Some x => do p <- pool_put (mpool st) (fblock x); Ok (set_pool st p)
              end
  end.
(** delete f_, with the destructor SpatialField.h:716-755. *)
Definition delete_field (st : mem) (f : option nat) : outcome mem :=
  match f with
  | None => Ok st
  | Some f =>
      match aget (mfld st) f with
      | None => UB
      | Some x => do p <- (if fbuilt x then pool_put (mpool st) (fblock x) else Ok (mpool st));
                  Ok (set_fld (set_pool st p) (adel (mfld st) f))
      end
  end.

(** The part common to operator= (SpatialFieldStore.h:352-366, 382-397) and
    detach (411-426): drop this handle's share.  The result is the memory and
    the handle afterwards. *)
Definition release (st : mem) (H : handle) : outcome (mem * handle) :=
  match hc H with
  | None => Ok (st, H)
  | Some c =>
      match aget (mcnt st) c with
      | None => UB
      | Some n =>
          let st1 := set_cnt st (aset (mcnt st) c (n - 1)) in
          if n - 1 =? 0 then
            do st2 <- (if hst H then restore_field st1 (hf H) else Ok st1);
            do st3 <- delete_field st2 (hf H);
            Ok (set_cnt st3 (adel (mcnt st3) c), Handle None None (hst H))
          else Ok (st1, H)
      end
  end.
(** ++( *count_) *)
Definition count_up (st : mem) (c : option nat) : outcome mem :=
  match c with
  | None => UB
  | Some c => match aget (mcnt st) c with
              | None => UB
              | Some n => Ok (set_cnt st (aset (mcnt st) c (n + 1)))
              end
  end.

(** Programs.  The addresses returned by new are arguments: [fa] of the field
    object, [ca] of the counter, [ba] of a pool block. *)
Inductive hop :=
| OStore (h fa ca ba : nat) (n : Z)     (* SpatFldPtr h = SpatialFieldStore::get...( n points ) *)
| ONewField (fa ba : nat) (n : Z)       (* f = new FieldT( ..., InternalStorage ) *)
| ONewWrap (fa b : nat)                 (* f = new FieldT( ..., b, ExternalStorage ) *)
| OWrap (h : nat) (f : option nat) (ca : nat)   (* SpatFldPtr h( f ) *)
| ODefault (h : nat)                    (* SpatFldPtr h *)
| OCopy (h g : nat)                     (* SpatFldPtr h( g ) *)
| OAssign (h g : nat)                   (* h = g *)
| OAssignRaw (h f ca : nat)             (* h = f *)
| ODetach (h : nat)                     (* h.detach() *)
| ODestroy (h : nat).                   (* h goes out of scope *)

Definition hstep (st : mem) (o : hop) : outcome mem :=
  match o with
  | OStore h fa ca ba n =>
      (* SpatialFieldStore.h:441-473 and constructor 312-321 *)
      let '(b, _, p) := pool_get (mpool st) ba n in
      Ok (Mem p (aset (mfld st) fa (HField b false false)) (aset (mcnt st) ca 1)
              (aset (mhs st) h (Handle (Some fa) (Some ca) true)))
  | ONewField fa ba n =>
      (* SpatialField.h:600-604 *)
      let '(b, _, p) := pool_get (mpool st) ba n in
      Ok (set_fld (set_pool st p) (aset (mfld st) fa (HField b true false)))
  | ONewWrap fa b => Ok (set_fld st (aset (mfld st) fa (HField b false true)))
  | OWrap h f ca =>
      (* SpatialFieldStore.h:299-308: reads f->device_index() *)
      match f with
      | Some a => match aget (mfld st) a with
                  | None => UB
                  | Some _ => Ok (set_cnt (set_hs st (aset (mhs st) h (Handle f (Some ca) false))) (aset (mcnt st) ca 1))
                  end
      | None => Ok (set_cnt (set_hs st (aset (mhs st) h (Handle f (Some ca) false))) (aset (mcnt st) ca 1))
      end
  | ODefault h => (* 338-345 *) Ok (set_hs st (aset (mhs st) h (Handle None None false)))
  | OCopy h g =>
      (* 325-334 *)
      match aget (mhs st) g with
      | None => UB
      | Some G => do st1 <- count_up st (hc G); Ok (set_hs st1 (aset (mhs st1) h G))
      end
  | OAssign h g =>
      (* 348-377.  For h = g the argument is the handle itself, which release
         has just changed. *)
      match aget (mhs st) h with
      | None => UB
      | Some H =>
          do r <- release st H;
          let '(st1, H1) := r in
          let st2 := set_hs st1 (aset (mhs st1) h H1) in
          match aget (mhs st2) g with
          | None => UB
          | Some G => do st3 <- count_up st2 (hc G); Ok (set_hs st3 (aset (mhs st3) h G))
          end
      end
  | OAssignRaw h f ca =>
      (* 379-407 *)
      match aget (mhs st) h with
      | None => UB
      | Some H =>
          do r <- release st H;
          let '(st1, _) := r in
          match aget (mfld st1) f with
          | None => UB
          | Some _ => Ok (set_cnt (set_hs st1 (aset (mhs st1) h (Handle (Some f) (Some ca) false))) (aset (mcnt st1) ca 1))
          end
      end
  | ODetach h =>
      (* 411-426 *)
      match aget (mhs st) h with
      | None => UB
      | Some H => do r <- release st H; let '(st1, H1) := r in Ok (set_hs st1 (aset (mhs st1) h H1))
      end
  | ODestroy h =>
      (* 430-433 *)
      match aget (mhs st) h with
      | None => UB
      | Some H => do r <- release st H; let '(st1, _) := r in Ok (set_hs st1 (adel (mhs st1) h))
      end
  end.

(** Observers: isnull() 144, count() 148, and reading through the handle. *)
Definition isnull (st : mem) (h : nat) : outcome bool :=
  match aget (mhs st) h with None => UB | Some H => Ok (match hf H with None => true | Some _ => false end) end.
Definition use_count (st : mem) (h : nat) : outcome Z :=
  match aget (mhs st) h with
  | Some (Handle _ (Some c) _) => match aget (mcnt st) c with Some n => Ok n | None => UB end
  | _ => UB
  end.
Definition deref (st : mem) (h : nat) : outcome hfield :=
  match aget (mhs st) h with
  | Some (Handle (Some f) _ _) => match aget (mfld st) f with Some x => Ok x | None => UB end
  | _ => UB
  end.
Fixpoint hrun (st : mem) (os : list hop) : outcome mem :=
  match os with [] => Ok st | o :: os => do st1 <- hstep st o; hrun st1 os end.
