(** Model of CUDADeviceInterface and CUDADeviceManager as a user of raw GPU memory
    sees them (structured/ExternalAllocators.h, structured/CudaMemoryAllocator.cu):
    allocation, release, memset, the copies and the memory statistics.  One thread.
    The CUDA runtime below the wrappers is modelled by what its manual says: a
    current device per thread, blocks of bytes that belong to a device,
    cudaMemGetInfo for the current device.  Unlike DevPtrM.v, blocks have sizes
    and contents here, and an exception leaves a state behind. *)
From Verif Require Import Prelude PoolM PtrM.

(** CUDAMemStats, ExternalAllocators.h:35-39: free, total, in use *)
Record mstats := MStats { ms_f : Z; ms_t : Z; ms_inuse : Z }.
(** A block of device memory: its device, its size in bytes, its bytes.  A byte
    nothing was written to has no known value: [None]. *)
Record gblock := GBlock { gb_dev : Z; gb_size : Z; gb_val : Z -> option Z }.

(** The machine: number of devices (device_count, CudaMemoryAllocator.cu:260), the
    memory of each device, and what a block of n bytes takes up. *)
Record machine := Machine { mc_devs : Z; mc_total : Z -> Z; mc_takes : Z -> Z }.
(** The thread's current device, the blocks, the memory of each device used by
    others, and device_stats. *)
Record gpus := Gpus { gp_cur : Z; gp_blk : amap gblock; gp_other : Z -> Z; gp_stats : list mstats }.
Definition gp_set_cur (s : gpus) x := Gpus x (gp_blk s) (gp_other s) (gp_stats s).
Definition gp_set_blk (s : gpus) x := Gpus (gp_cur s) x (gp_other s) (gp_stats s).
Definition gp_set_other (s : gpus) x := Gpus (gp_cur s) (gp_blk s) x (gp_stats s).
Definition gp_set_stats (s : gpus) x := Gpus (gp_cur s) (gp_blk s) (gp_other s) x.

Inductive rreply := RDone | RThrew | RBytes (l : list (option Z)) | RStats (m : mstats).

(** Calls.  An address is a block and an offset in bytes.  The block number of
    RAlloc is the address cudaMalloc would return, and [grant] says whether it is
    willing to (it may fail although there is memory). *)
Inductive rcall :=
| RAlloc (b : nat) (n k : Z) (grant : bool)         (* get_raw_pointer( n, k ) *)
| RFree (p : option nat) (k : Z)                    (* release( p, k ), p may be NULL *)
| RSet (b : nat) (off v n k : Z)                    (* memset( b+off, v, n, k ) *)
| RTo (b : nat) (off : Z) (l : list Z) (k : Z)      (* memcpy_to( b+off, l, |l|, k ) *)
| RFrom (b : nat) (off n k : Z)                     (* memcpy_from( ..., b+off, n, k ) *)
| RPeer (b : nat) (off dk : Z) (c : nat) (coff sk n : Z) (* memcpy_peer( b+off, dk, c+coff, sk, n ) *)
| RUpdate                                           (* update_memory_statistics() *)
| RStat (k : Z)                                     (* get_memory_statistics( ..., k ) *)
| RCount                                            (* get_device_count() *)
| RSetDevice (k : Z)                                (* cudaSetDevice( k ) by the thread *)
| ROther (k x : Z).                                 (* others now use x bytes of device k *)

Section Machine.
Variable mc : machine.

Definition dev_ok (k : Z) : bool := (0 <=? k) && (k <? mc_devs mc).
Fixpoint used_of (m : amap gblock) (k : Z) : Z :=
  match m with
  | [] => 0
  | (_, B) :: m => (if gb_dev B =? k then mc_takes mc (gb_size B) else 0) + used_of m k
  end.
(** what cudaMemGetInfo answers when [k] is the current device *)
Definition free_of (s : gpus) (k : Z) : Z := mc_total mc k - gp_other s k - used_of (gp_blk s) k.

(** CudaSetDevice, CudaMemoryAllocator.cu:28-45: None is the exception *)
Definition set_device (s : gpus) (k : Z) : option gpus := if dev_ok k then Some (gp_set_cur s k) else None.
(** CudaMalloc, CudaMemoryAllocator.cu:49-71.  The device stays selected when
    cudaMalloc fails.  An address in use is never returned; a request for no
    bytes is left out. *)
Definition r_malloc (s : gpus) (b : nat) (n k : Z) (grant : bool) : outcome (gpus * rreply) :=
  match set_device s k with
  | None => Ok (s, RThrew)
  | Some s1 =>
      match aget (gp_blk s1) b with
      | Some _ => UB
      | None =>
          if 0 <? n then
            if grant && (mc_takes mc n <=? free_of s1 k)
            then Ok (gp_set_blk s1 (aset (gp_blk s1) b (GBlock k n (fun _ => None))), RDone)
            else Ok (s1, RThrew)
          else UB
      end
  end.
(** CudaFree, CudaMemoryAllocator.cu:75-94.  NULL is accepted; an address that is
    not allocated is an error.  Addresses are unique over the devices, and
    cudaFree does not mind which device is selected. *)
Definition r_free (s : gpus) (p : option nat) (k : Z) : outcome (gpus * rreply) :=
  match set_device s k with
  | None => Ok (s, RThrew)
  | Some s1 =>
      match p with
      | None => Ok (s1, RDone)
      | Some b => match aget (gp_blk s1) b with
                  | None => Ok (s1, RThrew)
                  | Some _ => Ok (gp_set_blk s1 (adel (gp_blk s1) b), RDone)
                  end
      end
  end.

(** [n] bytes from [off] on lie in the block, which is on device [k].  Anything
    else is left undefined: the wrappers do not look. *)
Definition range_of (s : gpus) (b : nat) (off n k : Z) : option gblock :=
  match aget (gp_blk s) b with
  | Some B => if (gb_dev B =? k) && (0 <=? off) && (0 <=? n) && (off + n <=? gb_size B) then Some B else None
  | None => None
  end.
Definition store_bytes (v : Z -> option Z) (off n : Z) (g : Z -> option Z) : Z -> option Z :=
  fun i => if (off <=? i) && (i <? off + n) then g (i - off) else v i.
Definition put_block (s : gpus) (b : nat) (B : gblock) (v : Z -> option Z) : gpus :=
  gp_set_blk s (aset (gp_blk s) b (GBlock (gb_dev B) (gb_size B) v)).

(** CudaMemset, CudaMemoryAllocator.cu:143-161: cudaMemset sets bytes *)
Definition r_memset (s : gpus) (b : nat) (off v n k : Z) : outcome (gpus * rreply) :=
  match set_device s k with
  | None => Ok (s, RThrew)
  | Some s1 =>
      match range_of s1 b off n k with
      | None => UB
      | Some B => Ok (put_block s1 b B (store_bytes (gb_val B) off n (fun _ => Some (v mod 256))), RDone)
      end
  end.
(** CudaMemcpy, CudaMemoryAllocator.cu:98-118, as memcpy_to (372-375) calls it *)
Definition r_memcpy_to (s : gpus) (b : nat) (off : Z) (l : list Z) (k : Z) : outcome (gpus * rreply) :=
  match set_device s k with
  | None => Ok (s, RThrew)
  | Some s1 =>
      match range_of s1 b off (Z.of_nat (length l)) k with
      | None => UB
      | Some B => Ok (put_block s1 b B (store_bytes (gb_val B) off (Z.of_nat (length l)) (fun i => nth_error l (Z.to_nat i))), RDone)
      end
  end.
(** CudaMemcpy as memcpy_from (386-389) calls it *)
Definition r_memcpy_from (s : gpus) (b : nat) (off n k : Z) : outcome (gpus * rreply) :=
  match set_device s k with
  | None => Ok (s, RThrew)
  | Some s1 =>
      match range_of s1 b off n k with
      | None => UB
      | Some B => Ok (s1, RBytes (map (fun j => gb_val B (off + Z.of_nat j)) (seq 0 (Z.to_nat n))))
      end
  end.
(** CudaMemcpyPeer, CudaMemoryAllocator.cu:122-139, as memcpy_peer (393-396) calls
    it: no device is selected.  Overlapping ranges are left undefined. *)
Definition r_memcpy_peer (s : gpus) (b : nat) (off dk : Z) (c : nat) (coff sk n : Z) : outcome (gpus * rreply) :=
  if dev_ok dk && dev_ok sk then
    match range_of s b off n dk, range_of s c coff n sk with
    | Some B, Some C =>
        if (b =? c)%nat && (off <? coff + n) && (coff <? off + n) then UB
        else Ok (put_block s b B (store_bytes (gb_val B) off n (fun i => gb_val C (coff + i))), RDone)
    | _, _ => UB
    end
  else Ok (s, RThrew).

(** CUDADeviceManager::update_memory_statistics, CudaMemoryAllocator.cu:191-200:
    no device is selected in the loop, so that cudaMemGetInfo answers for the
    current device each time *)
Definition r_update (s : gpus) : gpus :=
  gp_set_stats s (map (fun _ : nat => let f := free_of s (gp_cur s) in
                                      let t := mc_total mc (gp_cur s) in
                                      MStats f t (t - f))
                      (seq 0 (Z.to_nat (mc_devs mc)))).
(** CUDADeviceManager::get_memory_statistics, CudaMemoryAllocator.cu:179-187 *)
Definition r_stat (s : gpus) (k : Z) : outcome rreply :=
  if (k <? 0) || (mc_devs mc <=? k) then Ok RThrew
  else match nth_error (gp_stats s) (Z.to_nat k) with Some m => Ok (RStats m) | None => UB end.

(** CUDADeviceInterface forwards to the above: CudaMemoryAllocator.cu:297-316,
    343-361, 372-403, 419-421.  get_raw_pointer looks at the device number first
    (350-356). *)
Definition rstep (s : gpus) (c : rcall) : outcome (gpus * rreply) :=
  match c with
  | RAlloc b n k grant => if mc_devs mc <=? k then Ok (s, RThrew) else r_malloc s b n k grant
  | RFree p k => r_free s p k
  | RSet b off v n k => r_memset s b off v n k
  | RTo b off l k => r_memcpy_to s b off l k
  | RFrom b off n k => r_memcpy_from s b off n k
  | RPeer b off dk c coff sk n => r_memcpy_peer s b off dk c coff sk n
  | RUpdate => Ok (r_update s, RDone)
  | RStat k => do r <- r_stat s k; Ok (s, r)
  | RCount => Ok (s, RBytes [Some (mc_devs mc)])
  | RSetDevice k => match set_device s k with Some s1 => Ok (s1, RDone) | None => Ok (s, RThrew) end
  | ROther k x => Ok (gp_set_other s (fun j => if j =? k then x else gp_other s j), RDone)
  end.
(** A program; the result has each call with its answer, the last call first. *)
Fixpoint rrun (s : gpus) (tr : list (rcall * rreply)) (cs : list rcall) : outcome (gpus * list (rcall * rreply)) :=
  match cs with
  | [] => Ok (s, tr)
  | c :: cs => do x <- rstep s c; rrun (fst x) ((c, snd x) :: tr) cs
  end.
(** CUDADeviceManager's constructor, CudaMemoryAllocator.cu:258-278: one
    CUDAMemStats per device, value-initialised, hence all 0.  Device 0 is
    current in a new thread. *)
Definition r_start : gpus :=
  Gpus 0 [] (fun _ => 0) (map (fun _ : nat => MStats 0 0 0) (seq 0 (Z.to_nat (mc_devs mc)))).
End Machine.
