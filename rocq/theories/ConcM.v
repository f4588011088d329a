(** Model of several threads that obtain scratch fields from the field store,
    copy and drop the handles, and build and destroy ordinary fields, with every
    access to shared memory a step of its own (build with ENABLE_THREADS,
    LOCAL_RAM, one instantiation Pool<T>). *)
From Verif Require Import Prelude PoolM PtrM.

(** A handle: the array of its field, its counter (SpatialFieldStore.h:163-164),
    and the number of points asked for.  The field object and the counter are
    deleted together, so the field object has no address of its own. *)
Record hdl := Hdl { hblk : nat; hcnt : nat; hpts : Z }.

(** What a thread does, in order.  Its handles and its ordinary fields are
    numbered in the order in which they were made. *)
Inductive cop :=
| SGet (n : Z)      (* SpatFldPtr h = SpatialFieldStore::get...( n points ) *)
| HCopy (k : nat)   (* SpatFldPtr h( k-th handle ) *)
| HDrop (k : nat)   (* the k-th handle goes out of scope *)
| FNew (n : Z)      (* FieldT f( n points, NULL, InternalStorage ) *)
| FDel (k : nat).   (* the k-th ordinary field goes out of scope *)

(** Who calls the pool: get_from_window (SpatialFieldStore.h:441-492) and
    restore_field (496-506), which hold the mutex of the store, and the
    constructor and destructor of SpatialField (SpatialField.h:599-603, 733-737),
    which do not. *)
Inductive caller := CGet (n : Z) | CRestore (k : nat) | CNew (n : Z) | CDel (k : nat).
(** Where a thread is inside Pool::get (MemoryPool.cpp:113-168) or Pool::put
    (203-224). *)
Inductive qpc :=
| QPad (n : Z)                (* 119: pad_ == 0 ? *)
| QPadSet (n : Z)             (* 119: pad_ = _n/10 *)
| QAdd (n : Z)                (* 120: n = _n + pad_ *)
| QFind (n : Z)               (* 125: lower_bound *)
| QInsert (n : Z)             (* 127 *)
| QEmpty (k : Z)              (* 133: fq.empty() *)
| QHigh (k : Z)               (* 134: ++cpuhighWater_ *)
| QNew (k : Z)                (* 154: new T[n] *)
| QFsm (k : Z) (b : nat)      (* 162: fsm_[field] = n *)
| QTop (k : Z)                (* 165: field = fq.top() *)
| QPop (k : Z) (b : nat)      (* 165: fq.pop() *)
| QGot (b : nat)              (* 167: return *)
| QSize (b : nat)             (* 216: n = fsm_[t] *)
| QSlot (b : nat) (n : Z)     (* 217: lower_bound *)
| QPush (b : nat) (k : Z)     (* 219: push *)
| QPut.                       (* return *)
(** Where a thread is. *)
Inductive pc :=
| PIdle
| PLock (j : caller)          (* SpatialFieldStore.h:453, 501 *)
| PIn (j : caller) (q : qpc)
| PLoad (up : bool) (k : nat)           (* ++( *count_), 333, or --( *count_), 416: reading *)
| PStore (up : bool) (k : nat) (z : Z)  (* the same: writing *)
| PTest (k : nat)                       (* 417: *count_ == 0 *)
| PDelete (k : nat).                    (* 422-423: delete count_; delete f_ *)

(** A thread: its handles, the arrays of its ordinary fields, the rest of its
    program. *)
Record thr := Thr { thdl : list hdl; tfld : list nat; tops : list cop; tpc : pc }.
(** Shared memory: the mutex of the store (SpatialFieldStore.h:284), the pool, the
    counters that exist.  [smem] is not in the code: all arrays ever made, with the
    sizes passed to new. *)
Record shared := Shared { smut : bool; spl : pool; scnt : amap Z; smem : list (nat * Z) }.

Definition remove_nth {A} (l : list A) (k : nat) : list A := firstn k l ++ skipn (S k) l.
(** The stack stored under a key. *)
Definition queue (m : list (Z * list nat)) (k : Z) : list nat :=
  match find (fun e => fst e =? k) m with Some e => snd e | None => [] end.
Definition go (t : thr) (p : pc) : thr := Thr (thdl t) (tfld t) (tops t) p.
Definition with_mut (s : shared) b := Shared b (spl s) (scnt s) (smem s).
Definition with_pl (s : shared) p := Shared (smut s) p (scnt s) (smem s).
Definition with_cnt (s : shared) c := Shared (smut s) (spl s) c (smem s).

(** One step of the pool's code.  [a]: the address new returns. *)
Definition pool_move (a : nat) (s : shared) (q : qpc) : outcome (shared * qpc) :=
  let p := spl s in
  match q with
  | QPad n => Ok (s, if ppad p =? 0 then QPadSet n else QAdd n)
  | QPadSet n => Ok (with_pl s (Pool (pfqm p) (pfsm p) (Z.quot n 10) (phigh p)), QAdd n)
  | QAdd n => Ok (s, QFind (n + ppad p))
  | QFind n => Ok (s, match lower_bound (pfqm p) n with Some (k, _) => QEmpty k | None => QInsert n end)
  | QInsert n => Ok (with_pl s (Pool (pfqm p ++ [(n, [])]) (pfsm p) (ppad p) (phigh p)), QEmpty n)
  | QEmpty k => Ok (s, match queue (pfqm p) k with [] => QHigh k | _ => QTop k end)
  | QHigh k => Ok (with_pl s (Pool (pfqm p) (pfsm p) (ppad p) (phigh p + 1)), QNew k)
  | QNew k => Ok (Shared (smut s) p (scnt s) ((a, k) :: smem s), QFsm k a)
  | QFsm k b => Ok (with_pl s (Pool (pfqm p) ((b, k) :: pfsm p) (ppad p) (phigh p)), QGot b)
  | QTop k => match queue (pfqm p) k with [] => UB | b :: _ => Ok (s, QPop k b) end
  | QPop k b => match queue (pfqm p) k with
                | [] => UB
                | _ :: r => Ok (with_pl s (Pool (set_queue (pfqm p) k r) (pfsm p) (ppad p) (phigh p)), QGot b)
                end
  | QSize b => let fsm := if existsb (fun e => (fst e =? b)%nat) (pfsm p) then pfsm p else (b, 0) :: pfsm p in
               Ok (with_pl s (Pool (pfqm p) fsm (ppad p) (phigh p)), QSlot b (fsm_get fsm b))
  | QSlot b n => match lower_bound (pfqm p) n with None => UB | Some (k, _) => Ok (s, QPush b k) end
  | QPush b k => Ok (with_pl s (Pool (set_queue (pfqm p) k (b :: queue (pfqm p) k)) (pfsm p) (ppad p) (phigh p)), QPut)
  | QGot _ | QPut => Ok (s, q)
  end.

(** One step of a thread; [None]: it is blocked or has finished.  A number that
    names no handle or field cannot be written in C++; such a step is skipped. *)
Definition move (a : nat) (s : shared) (t : thr) : option (outcome (shared * thr)) :=
  match tpc t with
  | PIdle =>
      match tops t with
      | [] => None
      | o :: r =>
          let t1 := Thr (thdl t) (tfld t) r PIdle in
          Some (Ok (s, match o with
            | SGet n => go t1 (PLock (CGet n))
            | HCopy k => match nth_error (thdl t) k with Some _ => go t1 (PLoad true k) | None => t1 end
            | HDrop k => match nth_error (thdl t) k with Some _ => go t1 (PLoad false k) | None => t1 end
            | FNew n => go t1 (PIn (CNew n) (QPad n))
            | FDel k => match nth_error (tfld t) k with Some b => go t1 (PIn (CDel k) (QSize b)) | None => t1 end
            end))
      end
  | PLock j =>
      if smut s then None
      else match j with
           | CRestore k => match nth_error (thdl t) k with
                           | Some H => Some (Ok (with_mut s true, go t (PIn j (QSize (hblk H)))))
                           | None => Some UB
                           end
           | CGet n => Some (Ok (with_mut s true, go t (PIn j (QPad n))))
           | _ => Some UB
           end
  | PIn j (QGot b) =>
      match j with
      | CGet n => (* 472: new FieldT, new int, *count_ = 1; the lock goes out of scope *)
          Some (Ok (with_mut (with_cnt s (aset (scnt s) a 1)) false,
                    Thr (thdl t ++ [Hdl b a n]) (tfld t) (tops t) PIdle))
      | _ => Some (Ok (s, Thr (thdl t) (tfld t ++ [b]) (tops t) PIdle))
      end
  | PIn j QPut =>
      match j with
      | CRestore k => Some (Ok (with_mut s false, go t (PDelete k)))
      | CDel k => Some (Ok (s, Thr (thdl t) (remove_nth (tfld t) k) (tops t) PIdle))
      | _ => Some UB
      end
  | PIn j q => Some (do r <- pool_move a s q; let '(s1, q1) := r in Ok (s1, go t (PIn j q1)))
  | PLoad up k =>
      match nth_error (thdl t) k with
      | None => Some UB
      | Some H => match aget (scnt s) (hcnt H) with None => Some UB | Some z => Some (Ok (s, go t (PStore up k z))) end
      end
  | PStore up k z =>
      match nth_error (thdl t) k with
      | None => Some UB
      | Some H =>
          match aget (scnt s) (hcnt H) with
          | None => Some UB
          | Some _ =>
              if up then Some (Ok (with_cnt s (aset (scnt s) (hcnt H) (z + 1)), Thr (thdl t ++ [H]) (tfld t) (tops t) PIdle))
              else Some (Ok (with_cnt s (aset (scnt s) (hcnt H) (z - 1)), go t (PTest k)))
          end
      end
  | PTest k =>
      match nth_error (thdl t) k with
      | None => Some UB
      | Some H =>
          match aget (scnt s) (hcnt H) with
          | None => Some UB
          | Some z => if z =? 0 then Some (Ok (s, go t (PLock (CRestore k))))
                      else Some (Ok (s, Thr (remove_nth (thdl t) k) (tfld t) (tops t) PIdle))
          end
      end
  | PDelete k =>
      match nth_error (thdl t) k with
      | None => Some UB
      | Some H =>
          match aget (scnt s) (hcnt H) with
          | None => Some UB
          | Some _ => Some (Ok (with_cnt s (adel (scnt s) (hcnt H)), Thr (remove_nth (thdl t) k) (tfld t) (tops t) PIdle))
          end
      end
  end.

(** new returns addresses that are not in use. *)
Definition fresh (s : shared) (a : nat) : Prop := ~ In a (map fst (smem s)) /\ aget (scnt s) a = None.
Record cstate := CState { csh : shared; cthr : list thr }.
Definition cset {A} (l : list A) (i : nat) (t : A) : list A := firstn i l ++ t :: skipn (S i) l.
(** Any thread that can move moves. *)
Inductive cstep : cstate -> outcome cstate -> Prop :=
| cs_ok s ts i t a s' t' : nth_error ts i = Some t -> fresh s a -> move a s t = Some (Ok (s', t')) ->
    cstep (CState s ts) (Ok (CState s' (cset ts i t')))
| cs_ub s ts i t a : nth_error ts i = Some t -> fresh s a -> move a s t = Some UB ->
    cstep (CState s ts) UB.
Inductive creach (st : cstate) : cstate -> Prop :=
| cr_0 : creach st st
| cr_step a b : creach st a -> cstep a (Ok b) -> creach st b.
