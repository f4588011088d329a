(** Model of the consumer copies of a field: a field that lives in one memory
    can be made available in others.  The values of a whole array are one
    value of type [V]; transfers always copy the whole array. *)
From Verif Require Import Prelude.

(** MemoryTypes.h:16-25; the other memory types behave alike *)
Inductive mtype := LOCAL_RAM | EXTERNAL_CUDA_GPU | OTHER_MEMORY.
(** a memory type and a device index *)
Definition place := (mtype * nat)%type.
Definition mtype_eqb (a b : mtype) : bool :=
  match a, b with
  | LOCAL_RAM, LOCAL_RAM | EXTERNAL_CUDA_GPU, EXTERNAL_CUDA_GPU | OTHER_MEMORY, OTHER_MEMORY => true
  | _, _ => false
  end.
Definition place_eqb (p q : place) : bool := mtype_eqb (fst p) (fst q) && Nat.eqb (snd p) (snd q).

Section Consumer.
Variable V : Type.
(** is the library built with ENABLE_CUDA? *)
Variable cuda : bool.

(** ** Memory *)
(** Where a block came from: the pool (for a memory type), the CUDA device
    interface (for a device), or the user. *)
Inductive origin := FromPool (t : mtype) | FromDevice (n : nat) | FromUser.
(** A block: its device, its origin, its values (None: never written). *)
Record cblock := CBlock { cb_at : place; cb_from : origin; cb_val : option V }.
Record cmem := CMem { nextb : nat; blocks : nat -> option cblock }.

Definition bset (m : cmem) (a : nat) (b : option cblock) : cmem :=
  CMem (nextb m) (fun x => if Nat.eqb x a then b else blocks m x).
Definition fresh (m : cmem) (b : cblock) : cmem * nat :=
  (CMem (S (nextb m)) (fun x => if Nat.eqb x (nextb m) then Some b else blocks m x), nextb m).

(** MemoryPool.cpp:113-201 (get).  Reuse of returned blocks is the subject of
    PoolM; here every block is new.  GPU memory comes from device deviceIndex_,
    which is 0 (MemoryPool.cpp:43, 183). *)
Definition pool_get (m : cmem) (t : mtype) : cmem * nat := fresh m (CBlock (t, 0%nat) (FromPool t) None).
(** CUDADeviceInterface::get_raw_pointer (SpatialField.h:610) *)
Definition device_get (m : cmem) (n : nat) (v : V) : cmem * nat :=
  fresh m (CBlock (EXTERNAL_CUDA_GPU, n) (FromDevice n) (Some v)).

(** What a call does: it returns, or throws (the state may have changed), or
    the behaviour is undefined. *)
Inductive reply := Nothing | Value (v : V) | Yes | No | Threw.
Inductive failure := BadObject | BadFree | BadAccess.
Inductive effect (S : Type) := Go (s : S) (r : reply) | Fail (why : failure).
Arguments Go {S}. Arguments Fail {S}.

(** MemoryPool.cpp:206-243 (put): undefined for blocks the pool did not hand
    out, or that were put back before *)
Definition pool_put (m : cmem) (t : mtype) (a : nat) : option cmem :=
  match blocks m a with
  | Some b => match cb_from b with
              | FromPool t' => if mtype_eqb t t' then Some (bset m a None) else None
              | _ => None
              end
  | None => None
  end.
(** CUDADeviceInterface::release *)
Definition device_release (m : cmem) (a : nat) (n : nat) : option cmem :=
  match blocks m a with
  | Some b => match cb_from b with
              | FromDevice n' => if Nat.eqb n n' then Some (bset m a None) else None
              | _ => None
              end
  | None => None
  end.
(** memcpy_to, memcpy_from, memcpy_peer (CudaMemoryAllocator.cu:372-396);
    errors reported by CUDA are not modelled *)
Definition memcpy (m : cmem) (dst src : nat) : option cmem :=
  match blocks m dst, blocks m src with
  | Some d, Some s => Some (bset m dst (Some (CBlock (cb_at d) (cb_from d) (cb_val s))))
  | _, _ => None
  end.

(** ** The field object *)
(** SpatialField.h:108-135: memType_/deviceIndex_, fieldValues_,
    fieldValuesExtDevice_, builtField_, readOnly_, consumerFieldValues_,
    myConsumerFieldValues_, builtCpuConsumer_ *)
Record fobj := FObj {
  o_home : place; o_ram : option nat; o_ext : option nat; o_built : bool; o_ro : bool;
  o_cons : list (nat * nat); o_mine : list (nat * nat); o_builtcpu : bool }.

(** std::map<unsigned short,T*>: find and operator[] with assignment *)
Definition mfind (l : list (nat * nat)) (k : nat) : option nat :=
  match find (fun e => Nat.eqb (fst e) k) l with Some e => Some (snd e) | None => None end.
Definition mset (l : list (nat * nat)) (k a : nat) : list (nat * nat) :=
  (k, a) :: filter (fun e => negb (Nat.eqb (fst e) k)) l.

(** SpatialField.h:536-634 (constructor).  [v] are the initial values
    (reset_values, or what the wrapped array holds); in external mode the
    block is the user's. *)
Definition construct (m : cmem) (internal : bool) (p : place) (v : V) : option (cmem * fobj) :=
  match fst p with
  | LOCAL_RAM =>
      let '(m, a) := fresh m (CBlock p (if internal then FromPool LOCAL_RAM else FromUser) (Some v)) in
      Some (m, FObj p (Some a) None internal false [] [] false)
  | EXTERNAL_CUDA_GPU =>
      if cuda then
        let '(m, a) := if internal then device_get m (snd p) v else fresh m (CBlock p FromUser (Some v)) in
        Some (m, FObj p None (Some a) internal false [] [] false)
      else None
  | OTHER_MEMORY => None
  end.

(** SpatialField.h:638-662 (copy constructor), 666-690 (with a window) *)
Definition shallow (o : fobj) : fobj :=
  FObj (o_home o) (o_ram o) (o_ext o) false (o_ro o) (o_cons o) [] false.

Definition locked (o : fobj) : fobj :=
  FObj (o_home o) (o_ram o) (o_ext o) (o_built o) true (o_cons o) (o_mine o) (o_builtcpu o).
Definition with_ram (o : fobj) (a : nat) : fobj :=
  FObj (o_home o) (Some a) (o_ext o) (o_built o) (o_ro o) (o_cons o) (o_mine o) true.
Definition with_cons (o : fobj) (k a : nat) : fobj :=
  FObj (o_home o) (o_ram o) (o_ext o) (o_built o) (o_ro o) (mset (o_cons o) k a) (mset (o_mine o) k a) (o_builtcpu o).

(** a transfer through possibly NULL pointers *)
Definition transfer (m : cmem) (o : fobj) (dst src : option nat) : effect (cmem * fobj) :=
  match dst, src with
  | Some d, Some s => match memcpy m d s with Some m => Go (m, o) Nothing | None => Fail BadAccess end
  | _, _ => Fail BadAccess
  end.

(** SpatialField.h:904-1026 (add_consumer) *)
Definition add_consumer (m : cmem) (o : fobj) (p : place) : effect (cmem * fobj) :=
  if place_eqb p (o_home o) then Go (m, o) Nothing
  else
    let o := locked o in
    match fst p with
    | LOCAL_RAM =>
        match cuda, fst (o_home o) with
        | true, LOCAL_RAM => Go (m, o) Nothing
        | true, EXTERNAL_CUDA_GPU =>
            let '(m, o) := match o_ram o with
                           | Some _ => (m, o)
                           | None => let '(m, a) := pool_get m LOCAL_RAM in (m, with_ram o a)
                           end in
            transfer m o (o_ram o) (o_ext o)
        | _, _ => Go (m, o) Threw
        end
    | EXTERNAL_CUDA_GPU =>
        if cuda then
          let '(m, o) := match mfind (o_cons o) (snd p) with
                         | Some _ => (m, o)
                         | None => let '(m, a) := pool_get m EXTERNAL_CUDA_GPU in (m, with_cons o (snd p) a)
                         end in
          match fst (o_home o) with
          | LOCAL_RAM => transfer m o (mfind (o_cons o) (snd p)) (o_ram o)
          | EXTERNAL_CUDA_GPU => transfer m o (mfind (o_cons o) (snd p)) (o_ext o)
          | OTHER_MEMORY => Go (m, o) Threw
          end
        else Go (m, o) Threw
    | OTHER_MEMORY => Go (m, o) Threw
    end.

Definition yes (b : bool) : reply := if b then Yes else No.
Definition has {A} (x : option A) : bool := match x with Some _ => true | None => false end.

(** SpatialField.h:1030-1080 (find_consumer) *)
Definition find_consumer (o : fobj) (p : place) : reply :=
  if place_eqb p (o_home o) then Yes
  else match fst p with
       | LOCAL_RAM =>
           match cuda, fst (o_home o) with
           | true, EXTERNAL_CUDA_GPU => yes (has (o_ram o))
           | _, _ => Threw
           end
       | EXTERNAL_CUDA_GPU => if cuda then yes (has (mfind (o_cons o) (snd p))) else Threw
       | OTHER_MEMORY => Threw
       end.

(** SpatialField.h:1084-1109 (has_consumers): only device 0 is looked up *)
Definition has_consumers (o : fobj) : reply :=
  match fst (o_home o) with
  | LOCAL_RAM => yes (has (mfind (o_cons o) 0))
  | EXTERNAL_CUDA_GPU => yes (has (o_ram o))
  | OTHER_MEMORY => Threw
  end.

(** puts the blocks of a map back *)
Fixpoint put_all (m : cmem) (l : list (nat * nat)) : option cmem :=
  match l with
  | [] => Some m
  | e :: l => match pool_put m EXTERNAL_CUDA_GPU (snd e) with Some m => put_all m l | None => None end
  end.
Definition put_ram (m : cmem) (o : fobj) : option cmem :=
  match o_ram o with Some a => pool_put m LOCAL_RAM a | None => None end.

(** SpatialField.h:1113-1142 (remove_consumers).  readOnly_ is reset inside the
    loop, and with the CPU copy. *)
Definition remove_consumers (m : cmem) (o : fobj) : effect (cmem * fobj) :=
  if cuda && o_ro o then
    match put_all m (o_mine o) with
    | None => Fail BadFree
    | Some m =>
        let ro := match o_mine o with [] => o_ro o | _ => false end in
        if mtype_eqb (fst (o_home o)) EXTERNAL_CUDA_GPU && o_builtcpu o then
          match put_ram m o with
          | None => Fail BadFree
          | Some m => Go (m, FObj (o_home o) None (o_ext o) (o_built o) false [] [] false) Nothing
          end
        else Go (m, FObj (o_home o) (o_ram o) (o_ext o) (o_built o) ro [] [] (o_builtcpu o)) Nothing
    end
  else Go (m, o) Nothing.

(** SpatialField.h:707-756 (destructor) *)
Definition destroy (m : cmem) (o : fobj) : option cmem :=
  match (if cuda then
           match put_all m (o_mine o) with
           | Some m => if o_builtcpu o then put_ram m o else Some m
           | None => None
           end
         else Some m) with
  | None => None
  | Some m =>
      if o_built o then
        match fst (o_home o), o_ram o, o_ext o with
        | LOCAL_RAM, Some a, _ => pool_put m LOCAL_RAM a
        | EXTERNAL_CUDA_GPU, _, Some a => device_release m a (snd (o_home o))
        | _, _, _ => None
        end
      else Some m
  end.

(** SpatialField.h:847-898 (const field_values): the pointer for a place *)
Definition pointer (o : fobj) (p : place) : option nat :=
  match fst p with
  | LOCAL_RAM => o_ram o
  | EXTERNAL_CUDA_GPU =>
      if cuda then
        if place_eqb p (o_home o) then o_ext o else mfind (o_cons o) (snd p)
      else None
  | OTHER_MEMORY => None
  end.
(** reading the array through field_values(p) const *)
Definition read_at (m : cmem) (o : fobj) (p : place) : effect (cmem * fobj) :=
  match pointer o p with
  | None => Go (m, o) Threw
  | Some a => match blocks m a with
              | Some b => match cb_val b with Some v => Go (m, o) (Value v) | None => Fail BadAccess end
              | None => Fail BadAccess
              end
  end.
(** SpatialField.h:802-843 (field_values): refused if read-only; writing the
    array through the pointer *)
Definition write_at (m : cmem) (o : fobj) (p : place) (v : V) : effect (cmem * fobj) :=
  if o_ro o then Go (m, o) Threw
  else match pointer o p with
       | None => Go (m, o) Threw
       | Some a => match blocks m a with
                   | Some b => Go (bset m a (Some (CBlock (cb_at b) (cb_from b) (Some v))), o) Nothing
                   | None => Fail BadAccess
                   end
       end.

(** ** Calls on one object *)
Inductive call :=
| Add (p : place) | Remove | FindC (p : place) | HasC | Read (p : place) | Write (p : place) (v : V).
Definition do_call (m : cmem) (o : fobj) (c : call) : effect (cmem * fobj) :=
  match c with
  | Add p => add_consumer m o p
  | Remove => remove_consumers m o
  | FindC p => Go (m, o) (find_consumer o p)
  | HasC => Go (m, o) (has_consumers o)
  | Read p => read_at m o p
  | Write p v => write_at m o p v
  end.
(** the replies to a list of calls; None if one of them is undefined *)
Fixpoint replies (m : cmem) (o : fobj) (cs : list call) : option (list reply) :=
  match cs with
  | [] => Some []
  | c :: cs => match do_call m o c with
               | Go (m, o) r => match replies m o cs with Some rs => Some (r :: rs) | None => None end
               | Fail _ => None
               end
  end.

(** ** Several objects *)
Inductive action :=
| New (internal : bool) (p : place) (v : V) | Copy (i : nat) | Call (i : nat) (c : call) | Destroy (i : nat).
(** the memory, and the objects made so far (None: destroyed) *)
Definition world := (cmem * list (option fobj))%type.
Definition obj (os : list (option fobj)) (i : nat) : option fobj :=
  match nth_error os i with Some (Some o) => Some o | _ => None end.
Definition set_obj (os : list (option fobj)) (i : nat) (o : option fobj) : list (option fobj) :=
  firstn i os ++ o :: skipn (S i) os.
Definition act (w : world) (a : action) : effect world :=
  let '(m, os) := w in
  match a with
  | New internal p v =>
      match construct m internal p v with
      | Some (m, o) => Go (m, os ++ [Some o]) Nothing
      | None => Go (m, os) Threw
      end
  | Copy i => match obj os i with Some o => Go (m, os ++ [Some (shallow o)]) Nothing | None => Fail BadObject end
  | Call i c =>
      match obj os i with
      | Some o => match do_call m o c with
                  | Go (m, o) r => Go (m, set_obj os i (Some o)) r
                  | Fail w => Fail w
                  end
      | None => Fail BadObject
      end
  | Destroy i =>
      match obj os i with
      | Some o => match destroy m o with Some m => Go (m, set_obj os i None) Nothing | None => Fail BadFree end
      | None => Fail BadObject
      end
  end.
Fixpoint acts (w : world) (l : list action) : effect world :=
  match l with
  | [] => Go w Nothing
  | a :: l => match act w a with Go w _ => acts w l | Fail f => Fail f end
  end.
Definition empty_mem : cmem := CMem 0 (fun _ => None).
Definition no_objects : world := (empty_mem, []).
End Consumer.
Arguments Nothing {V}. Arguments Value {V}. Arguments Yes {V}. Arguments No {V}. Arguments Threw {V}.
Arguments Add {V}. Arguments Remove {V}. Arguments FindC {V}. Arguments HasC {V}. Arguments Read {V}. Arguments Write {V}.
Arguments New {V}. Arguments Copy {V}. Arguments Call {V}. Arguments Destroy {V}.
Arguments Go {V S}. Arguments Fail {V S}. Arguments CMem {V}. Arguments nextb {V}. Arguments blocks {V}.
Arguments CBlock {V}. Arguments cb_at {V}. Arguments cb_from {V}. Arguments cb_val {V}.
Arguments bset {V}. Arguments fresh {V}. Arguments pool_get {V}. Arguments device_get {V}. Arguments pool_put {V}.
Arguments device_release {V}. Arguments memcpy {V}. Arguments construct {V}. Arguments transfer {V}.
Arguments add_consumer {V}. Arguments find_consumer {V}. Arguments has_consumers {V}. Arguments put_all {V}.
Arguments put_ram {V}. Arguments remove_consumers {V}. Arguments destroy {V}. Arguments read_at {V}.
Arguments write_at {V}. Arguments do_call {V}. Arguments replies {V}. Arguments act {V}. Arguments acts {V}.
Arguments empty_mem {V}. Arguments no_objects {V}. Arguments yes {V}.
