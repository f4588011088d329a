(** Model of the memory of masks: who allocates, shares, copies and releases
    the blocks that hold the bits. *)
From Verif Require Import Prelude WindowM MaskM ConsumerM.
From Verif Require PoolM.

Section MaskLife.
(** is the library built with ENABLE_CUDA? *)
Variable cuda : bool.
(** what word i of a new block holds before it is written *)
Variable junk : nat -> nat -> Z.

(** ** Memory *)
(** MemoryPool.h:36-50: Pool<unsigned int> with ENABLE_CUDA; cpufqm_, gpufqm_,
    fsm_ and pad_ (both shared by the two memories), cpuhighWater_, gpuhighWater_ *)
Record mempool := MemPool {
  mp_cpu : list (Z * list nat); mp_gpu : list (Z * list nat); mp_fsm : list (nat * Z);
  mp_pad : Z; mp_chigh : Z; mp_ghigh : Z }.
Definition cpu_side (p : mempool) : PoolM.pool := PoolM.Pool (mp_cpu p) (mp_fsm p) (mp_pad p) (mp_chigh p).
Definition gpu_side (p : mempool) : PoolM.pool := PoolM.Pool (mp_gpu p) (mp_fsm p) (mp_pad p) (mp_ghigh p).
Definition with_cpu (p : mempool) (c : PoolM.pool) : mempool :=
  MemPool (PoolM.pfqm c) (mp_gpu p) (PoolM.pfsm c) (PoolM.ppad c) (PoolM.phigh c) (mp_ghigh p).
Definition with_gpu (p : mempool) (g : PoolM.pool) : mempool :=
  MemPool (mp_cpu p) (PoolM.pfqm g) (PoolM.pfsm g) (PoolM.ppad g) (mp_chigh p) (PoolM.phigh g).

(** A block lives in RAM or on a GPU (GPU blocks of the pool are all on GPU 0,
    see C52; peer access between GPUs is assumed to work). *)
Record wblock := WBlock { b_at : mtype; b_words : list Z }.
Record mstate := MState { s_pool : mempool; s_next : nat; s_heap : nat -> option wblock }.
(** MemoryPool.cpp:42-52 *)
Definition no_memory : mstate := MState (MemPool [] [] [] 0 0 0) 0 (fun _ => None).
Definition heap_set (s : mstate) (a : nat) (b : wblock) : nat -> option wblock :=
  fun x => if Nat.eqb x a then Some b else s_heap s x.
Definition new_block (t : mtype) (a : nat) (k : Z) : wblock :=
  WBlock t (map (junk a) (seq 0 (Z.to_nat k))).

(** MemoryPool.cpp:110-201 (get): None if it throws *)
Definition mget (s : mstate) (t : mtype) (n : Z) : option nat * mstate :=
  let p := s_pool s in
  match t, cuda with
  | LOCAL_RAM, _ =>
      let '(a, alloc, c) := PoolM.pool_get (cpu_side p) (s_next s) n in
      match alloc with
      | Some k => (Some a, MState (with_cpu p c) (S (s_next s)) (heap_set s a (new_block LOCAL_RAM a k)))
      | None => (Some a, MState (with_cpu p c) (s_next s) (s_heap s))
      end
  | EXTERNAL_CUDA_GPU, true =>
      let '(a, alloc, g) := PoolM.pool_get (gpu_side p) (s_next s) n in
      match alloc with
      | Some k => (Some a, MState (with_gpu p g) (S (s_next s)) (heap_set s a (new_block EXTERNAL_CUDA_GPU a k)))
      | None => (Some a, MState (with_gpu p g) (s_next s) (s_heap s))
      end
  | _, _ =>
      let pad := if mp_pad p =? 0 then Z.quot n 10 else mp_pad p in
      (None, MState (MemPool (mp_cpu p) (mp_gpu p) (mp_fsm p) pad (mp_chigh p) (mp_ghigh p)) (s_next s) (s_heap s))
  end.
(** MemoryPool.cpp:203-241 (put): None if undefined (no bucket is large enough) *)
Definition mput (s : mstate) (t : mtype) (a : nat) : option mstate :=
  let p := s_pool s in
  match t with
  | LOCAL_RAM => match PoolM.pool_put (cpu_side p) a with
                 | Ok c => Some (MState (with_cpu p c) (s_next s) (s_heap s))
                 | _ => None
                 end
  | EXTERNAL_CUDA_GPU => match PoolM.pool_put (gpu_side p) a with
                         | Ok g => Some (MState (with_gpu p g) (s_next s) (s_heap s))
                         | _ => None
                         end
  | OTHER_MEMORY => None
  end.

(** Reading and writing the first words of a block from the processor that
    owns memory [t]; None if the block is in the other memory, or too short.
    (Released blocks stay allocated: the pool keeps them.) *)
Definition load (s : mstate) (t : mtype) (a : nat) (n : nat) : option (list Z) :=
  match s_heap s a with
  | Some b => if mtype_eqb (b_at b) t && (n <=? length (b_words b))%nat then Some (firstn n (b_words b)) else None
  | None => None
  end.
Definition store (s : mstate) (t : mtype) (a : nat) (l : list Z) : option mstate :=
  match s_heap s a with
  | Some b => if mtype_eqb (b_at b) t && (length l <=? length (b_words b))%nat
              then Some (MState (s_pool s) (s_next s) (heap_set s a (WBlock (b_at b) (l ++ skipn (length l) (b_words b)))))
              else None
  | None => None
  end.
(** memcpy_to, memcpy_from, memcpy_peer (CudaMemoryAllocator.cu:372-396), [n] words *)
Definition mcopy (s : mstate) (td : mtype) (dst : option nat) (ts : mtype) (src : option nat) (n : nat) : option mstate :=
  match dst, src with
  | Some d, Some a => match load s ts a n with Some l => store s td d l | None => None end
  | _, _ => None
  end.

(** ** The mask object *)
(** BitField.h:257-276: maskWindow_, memType_/deviceIndex_, bitValues_,
    bitValuesExtDevice_, builtMask_, consumerBitValues_, myConsumerBitValues_,
    builtCpuConsumer_; size_ and bytes_ follow from the window *)
Record bitf := BitF {
  f_win : window; f_home : place; f_ram : option nat; f_ext : option nat; f_built : bool;
  f_cons : list (nat * nat); f_mine : list (nat * nat); f_bcpu : bool }.
Definition words_of (w : window) : nat := Z.to_nat (round_to_int (glob_npts w)).
Definition f_size (o : bitf) : nat := words_of (f_win o).

(** What a call does: it returns, or throws, or the behaviour is undefined. *)
Inductive mreply := Done | Yes | No | Threw.
Inductive mfailure := BadObject | BadFree | BadAccess.
Inductive meffect (S : Type) := Go (s : S) (r : mreply) | Fail (why : mfailure).
Arguments Go {S}. Arguments Fail {S}.
Definition yes (b : bool) : mreply := if b then Yes else No.

(** BitField.h:358-401 (constructor), reset_values (278-297) and add_points
    (342-346); SpatialMask.h:118-131.  A constructor that throws leaves no
    object, so the destructor does not run. *)
Definition mask_new (s : mstate) (w : window) (ps : list ivec) (home : place) : meffect (mstate * option bitf) :=
  let n := words_of w in
  match fst home with
  | LOCAL_RAM =>
      match mget s LOCAL_RAM (Z.of_nat n) with
      | (Some a, s) =>
          match store s LOCAL_RAM a (repeat 0 n) with
          | Some s =>
              match load s LOCAL_RAM a n with
              | Some l => match add_points w l ps with
                          | Ok l => match store s LOCAL_RAM a l with
                                    | Some s => Go (s, Some (BitF w home (Some a) None true [] [] false)) Done
                                    | None => Fail BadAccess
                                    end
                          | _ => Fail BadAccess
                          end
              | None => Fail BadAccess
              end
          | None => Fail BadAccess
          end
      | (None, s) => Go (s, None) Threw
      end
  | EXTERNAL_CUDA_GPU =>
      match mget s EXTERNAL_CUDA_GPU (Z.of_nat n) with
      | (Some a, s) =>
          match store s EXTERNAL_CUDA_GPU a (repeat 0 n) with
          | Some s => match ps with
                      | [] => Go (s, Some (BitF w home None (Some a) true [] [] false)) Done
                      | _ => Go (s, None) Threw
                      end
          | None => Fail BadAccess
          end
      | (None, s) => Go (s, None) Threw
      end
  | OTHER_MEMORY => Go (s, None) Threw
  end.

(** BitField.h:407-419 (copy constructor) *)
Definition mask_copy (o : bitf) : bitf :=
  BitF (f_win o) (f_home o) (f_ram o) (f_ext o) false (f_cons o) [] false.

(** puts the blocks of a map back *)
Fixpoint mput_all (s : mstate) (l : list (nat * nat)) : option mstate :=
  match l with
  | [] => Some s
  | e :: l => match mput s EXTERNAL_CUDA_GPU (snd e) with Some s => mput_all s l | None => None end
  end.
Definition mput_ptr (s : mstate) (t : mtype) (p : option nat) : option mstate :=
  match p with Some a => mput s t a | None => None end.

(** BitField.h:421-458 (destructor).  Line 445 puts the block of a mask on a
    GPU back as LOCAL_RAM. *)
Definition mask_destroy (s : mstate) (o : bitf) : meffect mstate :=
  match (if cuda then
           match mput_all s (f_mine o) with
           | Some s => if f_bcpu o then mput_ptr s LOCAL_RAM (f_ram o) else Some s
           | None => None
           end
         else Some s) with
  | None => Fail BadFree
  | Some s =>
      if f_built o then
        match fst (f_home o), cuda with
        | LOCAL_RAM, _ => match mput_ptr s LOCAL_RAM (f_ram o) with Some s => Go s Done | None => Fail BadFree end
        | EXTERNAL_CUDA_GPU, true => match mput_ptr s LOCAL_RAM (f_ext o) with Some s => Go s Done | None => Fail BadFree end
        | _, _ => Go s Threw
        end
      else Go s Done
  end.

Definition f_with_ram (o : bitf) (a : nat) : bitf :=
  BitF (f_win o) (f_home o) (Some a) (f_ext o) (f_built o) (f_cons o) (f_mine o) true.
Definition f_with_cons (o : bitf) (k a : nat) : bitf :=
  BitF (f_win o) (f_home o) (f_ram o) (f_ext o) (f_built o) (mset (f_cons o) k a) (mset (f_mine o) k a) (f_bcpu o).

Definition copied (o : bitf) (s : option mstate) : meffect (mstate * bitf) :=
  match s with Some s => Go (s, o) Done | None => Fail BadAccess end.
(** BitField.h:514-607 (add_consumer) *)
Definition mask_add (s : mstate) (o : bitf) (p : place) : meffect (mstate * bitf) :=
  if place_eqb p (f_home o) then Go (s, o) Done
  else
    match fst p with
    | LOCAL_RAM =>
        match cuda, fst (f_home o) with
        | true, LOCAL_RAM => Go (s, o) Done
        | true, EXTERNAL_CUDA_GPU =>
            let '(s, o) := match f_ram o with
                           | Some _ => (s, o)
                           | None => match mget s LOCAL_RAM (Z.of_nat (f_size o)) with
                                     | (Some a, s) => (s, f_with_ram o a)
                                     | (None, s) => (s, o)
                                     end
                           end in
            copied o (mcopy s LOCAL_RAM (f_ram o) EXTERNAL_CUDA_GPU (f_ext o) (f_size o))
        | _, _ => Go (s, o) Threw
        end
    | EXTERNAL_CUDA_GPU =>
        if cuda then
          match fst (f_home o) with
          | OTHER_MEMORY => Go (s, o) Threw
          | t =>
              let '(s, o) := match mfind (f_cons o) (snd p) with
                             | Some _ => (s, o)
                             | None => match mget s EXTERNAL_CUDA_GPU (Z.of_nat (f_size o)) with
                                       | (Some a, s) => (s, f_with_cons o (snd p) a)
                                       | (None, s) => (s, o)
                                       end
                             end in
              copied o (mcopy s EXTERNAL_CUDA_GPU (mfind (f_cons o) (snd p)) t
                              (match t with LOCAL_RAM => f_ram o | _ => f_ext o end) (f_size o))
          end
        else Go (s, o) Threw
    | OTHER_MEMORY => Go (s, o) Threw
    end.

(** BitField.h:609-645 (find_consumer) *)
Definition mask_find (o : bitf) (p : place) : mreply :=
  if place_eqb p (f_home o) then Yes
  else match fst p with
       | LOCAL_RAM => match cuda, fst (f_home o) with
                      | true, EXTERNAL_CUDA_GPU => yes (has (f_ram o))
                      | _, _ => Threw
                      end
       | EXTERNAL_CUDA_GPU => if cuda then yes (has (mfind (f_cons o) (snd p))) else Threw
       | OTHER_MEMORY => Threw
       end.
(** BitField.h:647-663 (has_consumers): only device 0 is looked up *)
Definition mask_has (o : bitf) : mreply :=
  match fst (f_home o) with
  | LOCAL_RAM => yes (has (mfind (f_cons o) 0))
  | EXTERNAL_CUDA_GPU => yes (has (f_ram o))
  | OTHER_MEMORY => Threw
  end.
(** BitField.h:665-684 (remove_consumers) *)
Definition mask_remove (s : mstate) (o : bitf) : meffect (mstate * bitf) :=
  if cuda then
    match mput_all s (f_mine o) with
    | None => Fail BadFree
    | Some s =>
        if mtype_eqb (fst (f_home o)) EXTERNAL_CUDA_GPU && f_bcpu o then
          match mput_ptr s LOCAL_RAM (f_ram o) with
          | None => Fail BadFree
          | Some s => Go (s, BitF (f_win o) (f_home o) None (f_ext o) (f_built o) [] [] false) Done
          end
        else Go (s, BitF (f_win o) (f_home o) (f_ram o) (f_ext o) (f_built o) [] [] (f_bcpu o)) Done
    end
  else Go (s, o) Done.

(** BitField.h:690-726 (mask_values): None if it throws *)
Definition mask_values (o : bitf) (p : place) : option nat :=
  match fst p with
  | LOCAL_RAM => f_ram o
  | EXTERNAL_CUDA_GPU =>
      if cuda then if place_eqb p (f_home o) then f_ext o else mfind (f_cons o) (snd p) else None
  | OTHER_MEMORY => None
  end.
(** looking at the bit of a point, in the words at a pointer *)
Definition bit_reply (w : window) (l : option (list Z)) (q : ivec) : option mreply :=
  match l with
  | Some l => match bitfield_query w l q with Ok b => Some (yes b) | _ => None end
  | None => None
  end.
(** BitField.h:465-480 (operator()) *)
Definition mask_at (s : mstate) (o : bitf) (q : ivec) : option mreply :=
  match f_ram o with
  | None => Some Threw
  | Some a => bit_reply (f_win o) (load s LOCAL_RAM a (f_size o)) q
  end.
(** code running at place [p] (a kernel, or the CPU) reads the bit of a point
    through mask_values *)
Definition mask_read (s : mstate) (o : bitf) (p : place) (q : ivec) : option mreply :=
  match mask_values o p with
  | None => Some Threw
  | Some a => bit_reply (f_win o) (load s (fst p) a (f_size o)) q
  end.

(** ** Several objects *)
Inductive maction :=
| New (w : window) (ps : list ivec) (home : place) | Copy (i : nat) | Destroy (i : nat)
| Add (i : nat) (p : place) | Remove (i : nat) | Find (i : nat) (p : place) | Has (i : nat)
| At (i : nat) (q : ivec) | ReadAt (i : nat) (p : place) (q : ivec).
(** the object made by action number i of the News and Copys, if it lives *)
Definition alive {A} (l : list (option A)) (i : nat) : option A :=
  match nth_error l i with Some (Some o) => Some o | _ => None end.
Definition replace {A} (l : list (option A)) (i : nat) (o : option A) : list (option A) :=
  firstn i l ++ o :: skipn (S i) l.
Definition mworld := (mstate * list (option bitf))%type.
Definition with_obj (w : mworld) (i : nat) (f : bitf -> meffect mworld) : meffect mworld :=
  match alive (snd w) i with Some o => f o | None => Fail BadObject end.
Definition update (w : mworld) (i : nat) (e : meffect (mstate * bitf)) : meffect mworld :=
  match e with Go (s, o) r => Go (s, replace (snd w) i (Some o)) r | Fail y => Fail y end.
Definition answer (w : mworld) (r : option mreply) : meffect mworld :=
  match r with Some r => Go w r | None => Fail BadAccess end.
Definition mact (w : mworld) (a : maction) : meffect mworld :=
  match a with
  | New win ps home => match mask_new (fst w) win ps home with
                       | Go (s, o) r => Go (s, snd w ++ [o]) r
                       | Fail y => Fail y
                       end
  | Copy i => with_obj w i (fun o => Go (fst w, snd w ++ [Some (mask_copy o)]) Done)
  | Destroy i => with_obj w i (fun o => match mask_destroy (fst w) o with
                                        | Go s r => Go (s, replace (snd w) i None) r
                                        | Fail y => Fail y
                                        end)
  | Add i p => with_obj w i (fun o => update w i (mask_add (fst w) o p))
  | Remove i => with_obj w i (fun o => update w i (mask_remove (fst w) o))
  | Find i p => with_obj w i (fun o => Go w (mask_find o p))
  | Has i => with_obj w i (fun o => Go w (mask_has o))
  | At i q => with_obj w i (fun o => answer w (mask_at (fst w) o q))
  | ReadAt i p q => with_obj w i (fun o => answer w (mask_read (fst w) o p q))
  end.
(** the replies to a list of actions and the state after them *)
Fixpoint mrun (w : mworld) (l : list maction) : meffect (mworld * list mreply) :=
  match l with
  | [] => Go (w, []) Done
  | a :: l => match mact w a with
              | Go w r => match mrun w l with Go (w, rs) d => Go (w, r :: rs) d | Fail y => Fail y end
              | Fail y => Fail y
              end
  end.
Definition no_masks : mworld := (no_memory, []).
End MaskLife.
Arguments Go {S}. Arguments Fail {S}.
