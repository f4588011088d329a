(** Model of fields on CPU and GPU as arrays: reading and writing their elements
    on the CPU, and assigning a field to another on whatever devices they live.
    Memory, pointers and consumer copies are those of ConsumerM; a block now
    holds an array, index -> element.  The release build (NDEBUG) is modelled. *)
From Verif Require Import Prelude WindowM ConsumerM.

Section DevFld.
Variable T : Type.
(** is the library built with ENABLE_CUDA? *)
Variable cuda : bool.
Notation arr := (Z -> T).
Notation cmem := (cmem arr).

(** SpatialField.h:108-135: the pointers, fieldWindow_, interiorFieldWindow_, disableInterior_ *)
Record dfield := DF { d_obj : fobj; d_win : window; d_int : window; d_noint : bool }.
Definition on_ram (f : dfield) : bool := mtype_eqb (fst (o_home (d_obj f))) LOCAL_RAM.
(** fieldValues_, NULL is None *)
Definition values_ptr (f : dfield) : option nat := o_ram (d_obj f).

(** an access through a pointer: undefined for NULL, for memory given back,
    outside the block, and for reading what was never written *)
Definition inside (f : dfield) (i : Z) : bool := (0 <=? i) && (i <? glob_npts (d_win f)).
Definition load (m : cmem) (f : dfield) (p : option nat) (i : Z) : outcome T :=
  match p with
  | Some a => match blocks m a with
              | Some b => match cb_val b with Some v => if inside f i then Ok (v i) else UB | None => UB end
              | None => UB
              end
  | None => UB
  end.
Definition aset (v : arr) (i : Z) (x : T) : arr := fun j => if j =? i then x else v j.
Definition store (m : cmem) (f : dfield) (p : option nat) (i : Z) (x : T) : outcome cmem :=
  match p with
  | Some a => match blocks m a with
              | Some b => match cb_val b with
                          | Some v => if inside f i then Ok (bset m a (Some (CBlock (cb_at b) (cb_from b) (Some (aset v i x))))) else UB
                          | None => UB
                          end
              | None => UB
              end
  | None => UB
  end.

(** ** Iterators.  The pointer, and the position. *)
Definition diter := (option nat * iter)%type.
Definition iter_end (p : option nat) (w : window) : outcome diter := do e <- it_end 0 w; Ok (p, e).
(** SpatialField.h:267-277 (begin const) *)
Definition cbegin (f : dfield) : outcome diter :=
  if negb (on_ram f) && negb (has (values_ptr f)) && negb (o_ro (d_obj f)) then Throw
  else Ok (values_ptr f, it_begin 0 (d_win f)).
(** SpatialField.h:1146-1163 (end const) *)
Definition cend (f : dfield) : outcome diter :=
  if on_ram f || has (values_ptr f) then iter_end (values_ptr f) (d_win f) else Throw.
(** SpatialField.h:279-297 (begin) *)
Definition nbegin (f : dfield) : outcome diter :=
  if negb (on_ram f) && negb (o_ro (d_obj f)) then Throw
  else if o_ro (d_obj f) then Throw
  else Ok (values_ptr f, it_begin 0 (d_win f)).
(** SpatialField.h:1168-1186 (end) *)
Definition nend (f : dfield) : outcome diter :=
  if on_ram f then iter_end (values_ptr f) (d_win f) else Throw.
(** SpatialField.h:302-318 (interior_begin const) *)
Definition cibegin (f : dfield) : outcome diter :=
  if d_noint f then Throw
  else if negb (on_ram f) && negb (has (values_ptr f)) then Throw
  else Ok (values_ptr f, it_begin 0 (d_int f)).
(** SpatialField.h:1190-1213 (interior_end const) *)
Definition ciend (f : dfield) : outcome diter :=
  if d_noint f then Throw
  else if on_ram f || has (values_ptr f) then iter_end (values_ptr f) (d_int f) else Throw.
(** SpatialField.h:320-345 (interior_begin) *)
Definition nibegin (f : dfield) : outcome diter :=
  if d_noint f then Throw
  else if negb (on_ram f) && negb (o_ro (d_obj f)) then Throw
  else if o_ro (d_obj f) then Throw
  else Ok (values_ptr f, it_begin 0 (d_int f)).
(** SpatialField.h:1217-1245 (interior_end) *)
Definition niend (f : dfield) : outcome diter :=
  if d_noint f then Throw
  else if o_ro (d_obj f) then Throw
  else if on_ram f then iter_end (values_ptr f) (d_int f) else Throw.

(** A loop from begin to end that reads the elements, or writes an element for
    each position.  Without an end within [n] rounds: undefined. *)
Fixpoint load_all (m : cmem) (f : dfield) (p : option nat) (its : list iter) : outcome (list T) :=
  match its with
  | [] => Ok []
  | it :: its => do x <- load m f p (icur it); do l <- load_all m f p its; Ok (x :: l)
  end.
Fixpoint store_all (m : cmem) (f : dfield) (p : option nat) (g : ivec -> T) (its : list iter) : outcome cmem :=
  match its with
  | [] => Ok m
  | it :: its => do m <- store m f p (icur it) (g (it_location it)); store_all m f p g its
  end.
Definition positions (n : nat) (b e : diter) : outcome (list iter) :=
  match it_loop n (snd b) (snd e) with Some its => Ok its | None => UB end.
Definition read_loop (m : cmem) (f : dfield) (w : window) (b e : outcome diter) : outcome (list T) :=
  do b <- b; do e <- e; do its <- positions (Z.to_nat (local_npts w)) b e; load_all m f (fst b) its.
Definition write_loop (m : cmem) (f : dfield) (w : window) (b e : outcome diter) (g : ivec -> T) : outcome cmem :=
  do b <- b; do e <- e; do its <- positions (Z.to_nat (local_npts w)) b e; store_all m f (fst b) g its.

(** ** Elements *)
(** SpatialField.h:1312-1358 (operator() const, both overloads) *)
Definition at_const (m : cmem) (f : dfield) (p : ivec) : outcome T :=
  if on_ram f || has (values_ptr f) then load m f (values_ptr f) (flat_index (d_win f) p) else Throw.
(** SpatialField.h:1249-1308 (operator(), both overloads), and an assignment to the result *)
Definition at_write (m : cmem) (f : dfield) (p : ivec) (x : T) : outcome cmem :=
  if o_ro (d_obj f) then Throw
  else if on_ram f then store m f (values_ptr f) (flat_index (d_win f) p) x else Throw.
(** SpatialField.h:1397-1418 (operator[] const) *)
Definition nth_const (m : cmem) (f : dfield) (i : Z) : outcome T :=
  if (negb (on_ram f) && negb (o_ro (d_obj f))) || negb (has (values_ptr f)) then Throw
  else load m f (values_ptr f) i.
(** SpatialField.h:1362-1390 (operator[]), and an assignment to the result *)
Definition nth_write (m : cmem) (f : dfield) (i : Z) (x : T) : outcome cmem :=
  if o_ro (d_obj f) then Throw
  else if on_ram f then store m f (values_ptr f) i x else Throw.

(** ** operator= *)
Definition copy_block (m : cmem) (d s : option nat) : outcome cmem :=
  match d, s with
  | Some d, Some s => match memcpy m d s with Some m => Ok m | None => UB end
  | _, _ => UB
  end.
Definition ptr_eqb (a b : option nat) : bool :=
  match a, b with Some x, Some y => Nat.eqb x y | None, None => true | _, _ => false end.
(** SpatialField.h:1424-1520.  All of a block is copied (glob_npts elements or
    allocatedBytes_); equal windows have equal blocks. *)
Definition assign (m : cmem) (d s : dfield) : outcome cmem :=
  if o_ro (d_obj d) then Throw
  else if negb (win_eqb (d_win d) (d_win s)) then Throw
  else match fst (o_home (d_obj d)), fst (o_home (d_obj s)) with
       | LOCAL_RAM, LOCAL_RAM =>
           if ptr_eqb (values_ptr d) (values_ptr s) then Ok m
           else copy_block m (values_ptr d) (values_ptr s)
       | LOCAL_RAM, EXTERNAL_CUDA_GPU =>
           if cuda then copy_block m (values_ptr d) (o_ext (d_obj s)) else Throw
       | EXTERNAL_CUDA_GPU, LOCAL_RAM =>
           if cuda then copy_block m (o_ext (d_obj d)) (values_ptr s) else Throw
       | EXTERNAL_CUDA_GPU, EXTERNAL_CUDA_GPU =>
           if cuda then
             if Nat.eqb (snd (o_home (d_obj d))) (snd (o_home (d_obj s))) && ptr_eqb (o_ext (d_obj d)) (o_ext (d_obj s))
             then Ok m
             else copy_block m (o_ext (d_obj d)) (o_ext (d_obj s))
           else Throw
       | _, _ => Throw
       end.

(** ** Calls *)
Inductive fcall :=
| Basic (c : call arr)
| ReadAll | ReadInterior | First | ReadAt (p : ivec) | ReadNth (i : Z)
| WriteAll (g : ivec -> T) | WriteInterior (g : ivec -> T) | WriteAt (p : ivec) (x : T) | WriteNth (i : Z) (x : T).
Inductive freply := FNothing | FThrew | FYes | FNo | FArray (v : arr) | FList (l : list T).
Definition of_reply (r : reply arr) : freply :=
  match r with Nothing => FNothing | Value v => FArray v | Yes => FYes | No => FNo | Threw => FThrew end.

(** what a call does to memory and object, and its reply; None: undefined *)
Definition reading (m : cmem) (f : dfield) (x : outcome (list T)) : option (cmem * dfield * freply) :=
  match x with Ok l => Some (m, f, FList l) | Throw => Some (m, f, FThrew) | UB => None end.
Definition writing (m : cmem) (f : dfield) (x : outcome cmem) : option (cmem * dfield * freply) :=
  match x with Ok m' => Some (m', f, FNothing) | Throw => Some (m, f, FThrew) | UB => None end.
Definition with_obj (f : dfield) (o : fobj) : dfield := DF o (d_win f) (d_int f) (d_noint f).
Definition do_fcall (m : cmem) (f : dfield) (c : fcall) : option (cmem * dfield * freply) :=
  match c with
  | Basic c => match do_call cuda m (d_obj f) c with
               | Go (m, o) r => Some (m, with_obj f o, of_reply r)
               | Fail _ => None
               end
  | ReadAll => reading m f (read_loop m f (d_win f) (cbegin f) (cend f))
  | ReadInterior => reading m f (read_loop m f (d_int f) (cibegin f) (ciend f))
  | First => reading m f (do b <- cbegin f; do x <- load m f (fst b) (icur (snd b)); Ok [x])
  | ReadAt p => reading m f (do x <- at_const m f p; Ok [x])
  | ReadNth i => reading m f (do x <- nth_const m f i; Ok [x])
  | WriteAll g => writing m f (write_loop m f (d_win f) (nbegin f) (nend f) g)
  | WriteInterior g => writing m f (write_loop m f (d_int f) (nibegin f) (niend f) g)
  | WriteAt p x => writing m f (at_write m f p x)
  | WriteNth i x => writing m f (nth_write m f i x)
  end.

(** ** Any number of fields, each with its own block *)
Inductive faction :=
| FNew (internal : bool) (p : place) (w wi : window) (noint : bool) (v : arr)
| On (i : nat) (c : fcall)
| Assign (i j : nat).
Definition fworld := (cmem * list dfield)%type.
Definition set_nth {A} (l : list A) (i : nat) (x : A) : list A := firstn i l ++ x :: skipn (S i) l.
Definition do_faction (w : fworld) (a : faction) : option (fworld * freply) :=
  let '(m, fs) := w in
  match a with
  | FNew internal p win int noint v =>
      match construct cuda m internal p v with
      | Some (m, o) => Some (m, fs ++ [DF o win int noint], FNothing)
      | None => Some (m, fs, FThrew)
      end
  | On i c =>
      match nth_error fs i with
      | Some f => match do_fcall m f c with
                  | Some (m, f, r) => Some (m, set_nth fs i f, r)
                  | None => None
                  end
      | None => None
      end
  | Assign i j =>
      match nth_error fs i, nth_error fs j with
      | Some d, Some s => match assign m d s with
                          | Ok m => Some (m, fs, FNothing)
                          | Throw => Some (m, fs, FThrew)
                          | UB => None
                          end
      | _, _ => None
      end
  end.
Fixpoint do_factions (w : fworld) (l : list faction) : option (list freply) :=
  match l with
  | [] => Some []
  | a :: l => match do_faction w a with
              | Some (w, r) => option_map (cons r) (do_factions w l)
              | None => None
              end
  end.
Definition no_fields : fworld := (empty_mem, []).

(** ** The values of a new field *)
Variable zero : T.
(** SpatialField.h:763-775 (reset_values, RAM): the array's elements go to the
    window's elements, in order.  [junk] is what the block held, [src] the
    user's array, None is NULL. *)
Fixpoint fill (v : arr) (its : list iter) (src : option (list T)) : outcome arr :=
  match its with
  | [] => Ok v
  | it :: its => match src with
                 | None => fill (aset v (icur it) zero) its None
                 | Some (x :: l) => fill (aset v (icur it) x) its (Some l)
                 | Some [] => UB
                 end
  end.
Definition reset_ram (w : window) (junk : arr) (src : option (list T)) : outcome arr :=
  do e <- it_end 0 w;
  match it_loop (Z.to_nat (local_npts w)) (it_begin 0 w) e with
  | Some its => fill junk its src
  | None => UB
  end.
(** SpatialField.h:776-786 (reset_values, GPU): allocatedBytes_ are copied, or set to 0 *)
Definition reset_gpu (w : window) (junk : arr) (src : option (list T)) : outcome arr :=
  match src with
  | None => Ok (fun i => if (0 <=? i) && (i <? glob_npts w) then zero else junk i)
  | Some l => if Z.of_nat (length l) <? glob_npts w then UB
              else Ok (fun i => if (0 <=? i) && (i <? glob_npts w) then nth (Z.to_nat i) l zero else junk i)
  end.
End DevFld.
Arguments aset {T}. Arguments load {T}. Arguments store {T}. Arguments load_all {T}. Arguments store_all {T}.
Arguments read_loop {T}. Arguments write_loop {T}. Arguments at_const {T}. Arguments at_write {T}.
Arguments nth_const {T}. Arguments nth_write {T}. Arguments copy_block {T}. Arguments assign {T}.
Arguments Basic {T}. Arguments ReadAll {T}. Arguments ReadInterior {T}. Arguments First {T}. Arguments ReadAt {T}.
Arguments ReadNth {T}. Arguments WriteAll {T}. Arguments WriteInterior {T}. Arguments WriteAt {T}. Arguments WriteNth {T}.
Arguments FNothing {T}. Arguments FThrew {T}. Arguments FYes {T}. Arguments FNo {T}. Arguments FArray {T}. Arguments FList {T}.
Arguments of_reply {T}. Arguments reading {T}. Arguments writing {T}. Arguments do_fcall {T}.
Arguments FNew {T}. Arguments On {T}. Arguments Assign {T}. Arguments do_faction {T}. Arguments do_factions {T}.
Arguments no_fields {T}. Arguments fill {T}. Arguments reset_ram {T}. Arguments reset_gpu {T}.
