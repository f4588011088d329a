(** Model of CUDASharedPointer, the reference-counted pointer to memory on a GPU,
    and of the functions of CUDADeviceInterface that allocate and release
    (structured/ExternalAllocators.h, structured/CudaMemoryAllocator.cu).  One
    thread; the contents and sizes of the blocks are left out, and so is running
    out of memory. *)
From Verif Require Import Prelude PoolM PtrM.

(** ExternalAllocators.h:153-156: ptr_, refCount_ and deviceID_, where the
    counter and the device number are ints on the host heap.  NULL is [None]. *)
Record dptr := DPtr { dp : option nat; drc : option nat; ddev : option nat }.

(** The number of devices, the thread's current device, the allocated device
    blocks with the device they are on, the live host ints, and the pointer
    variables in scope.  Device addresses are unique over all devices (unified
    addressing). *)
Record gmem := GMem { gdevs : Z; gcur : Z; gblk : amap Z; gint : amap Z; gvar : amap dptr }.
Definition gmem_new (n cur : Z) : gmem := GMem n cur [] [] [].
Definition g_cur (st : gmem) x := GMem (gdevs st) x (gblk st) (gint st) (gvar st).
Definition g_blk (st : gmem) x := GMem (gdevs st) (gcur st) x (gint st) (gvar st).
Definition g_int (st : gmem) x := GMem (gdevs st) (gcur st) (gblk st) x (gvar st).
Definition g_var (st : gmem) x := GMem (gdevs st) (gcur st) (gblk st) (gint st) x.

(** CudaMemoryAllocator.cu:28-45: an invalid device is an exception *)
Definition cuda_set_device (st : gmem) (k : Z) : outcome gmem :=
  if (0 <=? k) && (k <? gdevs st) then Ok (g_cur st k) else Throw.
(** CudaMemoryAllocator.cu:49-71; [b] is the address cudaMalloc returns *)
Definition cuda_malloc (st : gmem) (b : nat) (k : Z) : outcome gmem :=
  do st1 <- cuda_set_device st k; Ok (g_blk st1 (aset (gblk st1) b k)).
(** CudaMemoryAllocator.cu:75-94.  cudaFree(NULL) does nothing; an address that is
    not allocated is an error, hence an exception. *)
Definition cuda_free (st : gmem) (p : option nat) (k : Z) : outcome gmem :=
  do st1 <- cuda_set_device st k;
  match p with
  | None => Ok st1
  | Some b => match aget (gblk st1) b with
              | None => Throw
              | Some _ => Ok (g_blk st1 (adel (gblk st1) b))
              end
  end.

(** CudaMemoryAllocator.cu:463-481 and 513-531, the first part of both operator=:
    give up this pointer's share.  The result is the memory and the pointer
    afterwards. *)
Definition give_up (st : gmem) (P : dptr) : outcome (gmem * dptr) :=
  match drc P with
  | None => Ok (st, P)
  | Some rc =>
      match aget (gint st) rc with
      | None => UB
      | Some n =>
          let st1 := g_int st (aset (gint st) rc (n - 1)) in
          if n - 1 =? 0 then
            let st2 := g_int st1 (adel (gint st1) rc) in
            match ddev P with
            | None => UB
            | Some dv =>
                match aget (gint st2) dv with
                | None => UB
                | Some k =>
                    do st3 <- cuda_free st2 (dp P) k;
                    Ok (g_int st3 (adel (gint st3) dv), DPtr None None None)
                end
            end
          else Ok (st1, P)
      end
  end.
(** CudaMemoryAllocator.cu:459-492, operator=( void* ); [rc] and [dv] are the
    addresses of the two new ints.  The device is the thread's current one. *)
Definition assign_raw (st : gmem) (v : nat) (x : option nat) (rc dv : nat) : outcome gmem :=
  match aget (gvar st) v with
  | None => UB
  | Some P =>
      do r <- give_up st P;
      let st1 := fst r in
      Ok (g_var (g_int st1 (aset (aset (gint st1) rc 1) dv (gcur st1)))
                (aset (gvar st1) v (DPtr x (Some rc) (Some dv))))
  end.
(** CudaMemoryAllocator.cu:496-501, operator==: the addresses are compared *)
Definition same_opt (a b : option nat) : bool :=
  match a, b with Some x, Some y => (x =? y)%nat | None, None => true | _, _ => false end.
Definition dptr_eqb (P Q : dptr) : bool := same_opt (dp P) (dp Q) && same_opt (ddev P) (ddev Q).
(** CudaMemoryAllocator.cu:505-541, operator=( const CUDASharedPointer& ) *)
Definition assign_ptr (st : gmem) (v w : nat) : outcome gmem :=
  match aget (gvar st) v, aget (gvar st) w with
  | Some P, Some Q =>
      if dptr_eqb P Q then Ok st
      else
        do r <- give_up st P;
        let st1 := fst r in
        match drc Q with
        | None => UB
        | Some rc =>
            match aget (gint st1) rc with
            | None => UB
            | Some n => Ok (g_var (g_int st1 (aset (gint st1) rc (n + 1))) (aset (gvar st1) v Q))
            end
        end
  | _, _ => UB
  end.

(** Programs.  The addresses returned by new and cudaMalloc are arguments. *)
Inductive gop :=
| GMalloc (b : nat) (k : Z)                (* b = get_raw_pointer( N, k ) *)
| GShared (v b rc dv : nat) (k : Z)        (* CUDASharedPointer v( get_shared_pointer( N, k ) ) *)
| GDefault (v : nat)                       (* CUDASharedPointer v *)
| GCopy (v w : nat)                        (* CUDASharedPointer v( w ) *)
| GAssign (v w : nat)                      (* v = w *)
| GAssignRaw (v : nat) (x : option nat) (rc dv : nat)   (* v = x, a void* *)
| GDetach (v rc dv : nat)                  (* v.detach(), release( v ) *)
| GDestroy (v rc dv : nat)                 (* v goes out of scope *)
| GSetDevice (k : Z).                      (* cudaSetDevice( k ) by the thread *)

(** What the two allocation functions throw for a device number that does not
    exist: CudaMemoryAllocator.cu:328-336 (note the >) and 350-358. *)
Inductive gexn := RangeError | RuntimeError.
Definition shared_error (n k : Z) : option gexn :=
  if n <? k then Some RangeError else if k <? n then None else Some RuntimeError.
Definition raw_error (n k : Z) : option gexn :=
  if n <=? k then Some RangeError else if k <? n then None else Some RuntimeError.

Definition gstep (st : gmem) (o : gop) : outcome gmem :=
  match o with
  | GMalloc b k =>
      match raw_error (gdevs st) k with Some _ => Throw | None => cuda_malloc st b k end
  | GShared v b rc dv k =>
      (* 321-339 and the private constructor 443-450; the returned temporary is
         the variable itself (copy elision) *)
      match shared_error (gdevs st) k with
      | Some _ => Throw
      | None => do st1 <- cuda_malloc st b k;
                Ok (g_var (g_int st1 (aset (aset (gint st1) rc 1) dv k))
                          (aset (gvar st1) v (DPtr (Some b) (Some rc) (Some dv))))
      end
  | GDefault v => (* 433-439 *) Ok (g_var st (aset (gvar st) v (DPtr None None None)))
  | GCopy v w => (* 452-455 *) assign_ptr (g_var st (aset (gvar st) v (DPtr None None None))) v w
  | GAssign v w => assign_ptr st v w
  | GAssignRaw v x rc dv => assign_raw st v x rc dv
  | GDetach v rc dv => (* 575-579; release: 413-415 *) assign_raw st v None rc dv
  | GDestroy v rc dv =>
      (* 424-429: the destructor detaches *)
      do st1 <- assign_raw st v None rc dv; Ok (g_var st1 (adel (gvar st1) v))
  | GSetDevice k => cuda_set_device st k
  end.
Fixpoint grun (st : gmem) (os : list gop) : outcome gmem :=
  match os with [] => Ok st | o :: os => do st1 <- gstep st o; grun st1 os end.

(** CudaMemoryAllocator.cu:545-571: operator->, isnull, get_refcount, get_deviceID *)
Definition g_arrow (st : gmem) (v : nat) : outcome (option nat) :=
  match aget (gvar st) v with None => UB | Some P => Ok (dp P) end.
Definition g_isnull (st : gmem) (v : nat) : outcome bool :=
  match aget (gvar st) v with None => UB | Some P => Ok (match dp P with None => true | Some _ => false end) end.
Definition g_read (st : gmem) (a : option nat) : outcome Z :=
  match a with None => UB | Some a => match aget (gint st) a with None => UB | Some n => Ok n end end.
Definition g_refcount (st : gmem) (v : nat) : outcome Z :=
  match aget (gvar st) v with None => UB | Some P => g_read st (drc P) end.
Definition g_deviceID (st : gmem) (v : nat) : outcome Z :=
  match aget (gvar st) v with None => UB | Some P => g_read st (ddev P) end.
