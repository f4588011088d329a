(** Model of the particle operators, particles/ParticleOperators.h, on local
    memory.  Doubles are exact rationals (Qc). *)
From Verif Require Import Prelude WindowM GhostM FieldM MaskM NeboM StencilM LagrangeM IterM CompareM.

(** ParticleOperators.h:112-133, 180-201 (constructors): the mesh spacing dx_.
    xo_ is stored and never used.  The loop compares neighbouring coordinates
    through two iterators one step apart; it has no break. *)
Definition particle_op (fuel : nat) (mesh : field) : prog Qc Qc :=
  let* m1 := get_elem mesh 1 in
  let* m0 := get_elem mesh 0 in
  let dx := (m1 - m0)%Qc in
  let* ix2 := lift (field_cbegin mesh) in
  let* e := lift (field_cend mesh) in
  let* r := for_iter fuel (it_incr ix2) e (true, ix2)
    (fun i2 s => Load (fbuf mesh) (icur i2) (fun b => Load (fbuf mesh) (icur (snd s)) (fun a =>
       Ret ((if quot_gt (qc_abs (dx - (b - a))%Qc) dx (1 / qc_of 1000000)%Qc then false else fst s, it_incr (snd s)), false)))) in
  if fst r then Ret dx else PThrow.

(** int(q): truncation towards zero.  Values outside the range of int are not
    treated as undefined. *)
Definition trunc (q : Qc) : Z := Z.quot (Qnum q) (Zpos (Qden q)).
(** ParticleOperators.h:161, 222: index of the first cell.  Dividing by a zero
    spacing gives an infinity or NaN, whose conversion to int is undefined. *)
Definition first_cell (left dx : Qc) : prog Qc Z :=
  if qc_eqb dx 0 then PUB else Ret (trunc (left / dx)%Qc + 1).
(** ParticleOperators.h:169-170, 230-231 *)
Definition right_bound (c dx right : Qc) : Qc :=
  let rb := (c + dx / qc_of 2)%Qc in if qc_ltb right rb then right else rb.

(** ParticleOperators.h:168-174: while( leftloc < rightloc ).  Line 171 uses
    operator[] of a non-const field, which refuses read-only fields. *)
Fixpoint deposit (fuel : nat) (dx : Qc) (mesh dest : field) (i : Z) (left right v size : Qc) : prog Qc unit :=
  if qc_ltb left right then
    match fuel with
    | O => PFuel
    | S n => let* c := get_elem mesh i in
             let rb := right_bound c dx right in
             let* old := get_elem dest i in
             let* _ := set_elem dest i (old + v * (rb - left) / size)%Qc in
             deposit n dx mesh dest (i + 1) rb right v size
    end
  else Ret tt.
(** ParticleOperators.h:137-176 (ParticleToCell::apply_to_field).  The range
    check of the debug build (147-149, 162-166) is left out. *)
Definition particle_to_cell (fuel : nat) (dx : Qc) (mesh pcoord psize src dest : field) : prog Qc unit :=
  let* _ := fst (nebo_assign Qc Qcplus Qcmult fuel dest (EScalar Qc 0%Qc)) in
  let* ip := lift (field_cbegin pcoord) in
  let* is := lift (field_cbegin psize) in
  let* iv := lift (field_cbegin src) in
  let* e := lift (field_cend pcoord) in
  let* _ := for_iter fuel ip e (is, iv)
    (fun it s => Load (fbuf pcoord) (icur it) (fun x => Load (fbuf psize) (icur (fst s)) (fun size =>
       let left := (x - size / qc_of 2)%Qc in
       let right := (x + half * size)%Qc in
       let* i := first_cell (x - half * size)%Qc dx in
       Load (fbuf src) (icur (snd s)) (fun v =>
       let* _ := deposit fuel dx mesh dest i left right v size in
       Ret ((it_incr (fst s), it_incr (snd s)), false))))) in
  Ret tt.

(** ParticleOperators.h:229-235 *)
Fixpoint collect_at (fuel : nat) (dx : Qc) (mesh src : field) (b : nat) (j i : Z) (left right size : Qc) : prog Qc unit :=
  if qc_ltb left right then
    match fuel with
    | O => PFuel
    | S n => let* c := get_elem mesh i in
             let rb := right_bound c dx right in
             let* s := get_elem src i in
             Load b j (fun old =>
             Store b j (old + s * (rb - left) / size)%Qc
             (collect_at n dx mesh src b j (i + 1) rb right size))
    end
  else Ret tt.
(** ParticleOperators.h:205-237 (CellToParticle::apply_to_field), without the
    debug check (213-215, 223-227) *)
Definition cell_to_particle (fuel : nat) (dx : Qc) (mesh pcoord psize src dest : field) : prog Qc unit :=
  let* ip := lift (field_cbegin pcoord) in
  let* is := lift (field_cbegin psize) in
  let* id := lift (field_begin dest) in
  let* e := lift (field_cend pcoord) in
  let* _ := for_iter fuel ip e (is, id)
    (fun it s => Load (fbuf pcoord) (icur it) (fun x => Load (fbuf psize) (icur (fst s)) (fun size =>
       let left := (x - size / qc_of 2)%Qc in
       let right := (x + size / qc_of 2)%Qc in
       let* i := first_cell left dx in
       Store (fbuf dest) (icur (snd s)) 0%Qc
       (let* _ := collect_at fuel dx mesh src (fbuf dest) (icur (snd s)) i left right size in
        Ret ((it_incr (fst s), it_incr (snd s)), false))))) in
  Ret tt.
