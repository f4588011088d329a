(** The particle operators of particles/ParticleOperators.h in double precision,
    on local memory.  ParticleM has them in exact arithmetic. *)
From Verif Require Import Prelude WindowM GhostM FieldM MaskM NeboM IterM RoundM RedM HeatM Cmp64M.
Open Scope Z_scope.

Definition d_two : dbl := dlit 2 0.
(** the literal 1e-6 (ParticleOperators.h:118, 186) is [d_micro] *)

(** ParticleOperators.h:112-133, 180-201 (constructors): the mesh spacing dx_.
    xo_ is stored and never used.  The loop has no break. *)
Definition particle_op64 (fuel : nat) (mesh : field) : prog dbl dbl :=
  let* m1 := get_elem mesh 1 in
  let* m0 := get_elem mesh 0 in
  let dx := dsub m1 m0 in
  let* ix2 := lift (field_cbegin mesh) in
  let* e := lift (field_cend mesh) in
  let* r := for_iter fuel (it_incr ix2) e (true, ix2)
    (fun i2 s => Load (fbuf mesh) (icur i2) (fun b => Load (fbuf mesh) (icur (snd s)) (fun a =>
       Ret ((if dltb d_micro (ddiv (dabs (dsub dx (dsub b a))) dx) then false else fst s, it_incr (snd s)), false)))) in
  if fst r then Ret dx else PThrow.

(** int(q): truncation towards zero; undefined for NaN, infinities and results
    outside the range of int *)
Definition to_int (q : dbl) : prog dbl Z :=
  if is_finite q && (- 2 ^ 31 <=? Btrunc q) && (Btrunc q <? 2 ^ 31) then Ret (Btrunc q) else PUB.
(** ParticleOperators.h:161, 222: index of the first cell; the sum may overflow *)
Definition first_cell64 (left dx : dbl) : prog dbl Z :=
  let* i := to_int (ddiv left dx) in
  if i + 1 <? 2 ^ 31 then Ret (i + 1) else PUB.
(** ParticleOperators.h:169-170, 230-231 *)
Definition right_bound64 (c dx right : dbl) : dbl :=
  let rb := dadd c (ddiv dx d_two) in if dltb right rb then right else rb.

(** ParticleOperators.h:168-174: while( leftloc < rightloc ).  ++leftcellIx1
    (172) does not overflow while there are fewer than 2^31 cells. *)
Fixpoint deposit64 (fuel : nat) (dx : dbl) (mesh dest : field) (i : Z) (left right v size : dbl) : prog dbl unit :=
  if dltb left right then
    match fuel with
    | O => PFuel
    | S n => let* c := get_elem mesh i in
             let rb := right_bound64 c dx right in
             let* old := get_elem dest i in
             let* _ := set_elem dest i (dadd old (ddiv (dmul v (dsub rb left)) size)) in
             deposit64 n dx mesh dest (i + 1) rb right v size
    end
  else Ret tt.
(** ParticleOperators.h:137-176 (ParticleToCell::apply_to_field), without the
    range check of the debug build (147-149, 162-166) *)
Definition particle_to_cell64 (fuel : nat) (dx : dbl) (mesh pcoord psize src dest : field) : prog dbl unit :=
  let* _ := fst (nebo_assign dbl dadd dmul fuel dest (EScalar dbl d_zero)) in
  let* ip := lift (field_cbegin pcoord) in
  let* is := lift (field_cbegin psize) in
  let* iv := lift (field_cbegin src) in
  let* e := lift (field_cend pcoord) in
  let* _ := for_iter fuel ip e (is, iv)
    (fun it s => Load (fbuf pcoord) (icur it) (fun x => Load (fbuf psize) (icur (fst s)) (fun size =>
       let left := dsub x (ddiv size d_two) in
       let right := dadd x (dmul d_half size) in
       let* i := first_cell64 (dsub x (dmul d_half size)) dx in
       Load (fbuf src) (icur (snd s)) (fun v =>
       let* _ := deposit64 fuel dx mesh dest i left right v size in
       Ret ((it_incr (fst s), it_incr (snd s)), false))))) in
  Ret tt.

(** ParticleOperators.h:229-235 *)
Fixpoint collect64 (fuel : nat) (dx : dbl) (mesh src : field) (b : nat) (j i : Z) (left right size : dbl) : prog dbl unit :=
  if dltb left right then
    match fuel with
    | O => PFuel
    | S n => let* c := get_elem mesh i in
             let rb := right_bound64 c dx right in
             let* s := get_elem src i in
             Load b j (fun old =>
             Store b j (dadd old (ddiv (dmul s (dsub rb left)) size))
             (collect64 n dx mesh src b j (i + 1) rb right size))
    end
  else Ret tt.
(** ParticleOperators.h:205-237 (CellToParticle::apply_to_field), without the
    debug check (213-215, 223-227) *)
Definition cell_to_particle64 (fuel : nat) (dx : dbl) (mesh pcoord psize src dest : field) : prog dbl unit :=
  let* ip := lift (field_cbegin pcoord) in
  let* is := lift (field_cbegin psize) in
  let* id := lift (field_begin dest) in
  let* e := lift (field_cend pcoord) in
  let* _ := for_iter fuel ip e (is, id)
    (fun it s => Load (fbuf pcoord) (icur it) (fun x => Load (fbuf psize) (icur (fst s)) (fun size =>
       let left := dsub x (ddiv size d_two) in
       let right := dadd x (ddiv size d_two) in
       let* i := first_cell64 (dsub x (ddiv size d_two)) dx in
       Store (fbuf dest) (icur (snd s)) d_zero
       (let* _ := collect64 fuel dx mesh src (fbuf dest) (icur (snd s)) i left right size in
        Ret ((it_incr (fst s), it_incr (snd s)), false))))) in
  Ret tt.
