(** Specification vocabulary for C65: the heat equation on a patch. *)
From Verif Require Import Prelude WindowM WindowS GhostM FieldM FieldS MaskM NeboM NeboS StencilM StencilS StoreM StoreS ThinS HeatM RoundM RoundS.

(** The faces of cells normal to a direction; directions with more than one cell. *)
Definition face_of (d : dir) : loc := match d with XDIR => SSurfX | YDIR => SSurfY | ZDIR => SSurfZ end.
Definition wide (n : ivec) (d : dir) : Prop := 1 < comp d n.
(** The cells of the patch, and its faces normal to d: one more layer of them
    than of cells. *)
Definition in_patch (n p : ivec) : Prop := in_region iv_zero n p.
Definition on_face (n : ivec) (d : dir) (p : ivec) : Prop := in_region iv_zero (step d 1 n) p.

Section Spec.
Variable V : Type.
(** f is a field with location l on the patch, and its cells exist in memory. *)
Definition field_at (n : ivec) (bx by_ bz : bool) (g : ghost) (h : heap V) (l : loc) (f : field) : Prop :=
  (exists buf nt, f = built l n bx by_ bz g buf nt) /\
  forall p, any_cell n (real_field n f) p -> bcells (h (fbuf f)) (cell f p) = true.

(** The ghost counts: at least one layer on both sides in every direction with
    more than one cell. *)
Definition ghosts_ok (n : ivec) (g : ghost) : Prop :=
  ginf g = false /\ forall d, 0 <= comp d (gminus g) < GHOST_MAX /\ 0 <= comp d (gplus g) < GHOST_MAX /\
    (wide n d -> 1 <= comp d (gminus g) /\ 1 <= comp d (gplus g)).

(** The fields the program reads only; those it writes. *)
Definition inputs (P : problem V) : list field := [temperature P; thermCond P; rhoCp P].
(** Fields on the patch, all with the same ghosts and boundary flags; results are
    stored in blocks of their own; the operators are those of the database [ops]. *)
Record heat_setup (n : ivec) (bx by_ bz : bool) (g : ghost) (ops : list (optag * loc * loc * builder V))
  (h : heap V) (P : problem V) : Prop := {
  hs_patch : iv_le (IV 1 1 1) n;
  hs_ghosts : ghosts_ok n g;
  hs_cells : forall f, In f (rhs P :: inputs P) -> field_at n bx by_ bz g h SVol f;
  hs_faces : forall d, wide n d -> field_at n bx by_ bz g h (face_of d) (flux P d);
  hs_own_rhs : forall f, In f (inputs P) -> fbuf f <> fbuf (rhs P);
  hs_own_flux : forall d f, wide n d -> In f (rhs P :: inputs P) -> fbuf f <> fbuf (flux P d);
  hs_own_flux2 : forall d e, wide n d -> wide n e -> d <> e -> fbuf (flux P d) <> fbuf (flux P e);
  hs_grad : forall d, wide n d -> In (Gradient, SVol, face_of d, op_grad P d) ops;
  hs_interp : forall d, wide n d -> In (Interpolant, SVol, face_of d, op_interp P d) ops;
  hs_div : forall d, wide n d -> In (Divergence, face_of d, SVol, op_div P d) ops }.
(** The scratch fields of one pass: not in the blocks of the other fields.  They
    may share blocks with one another, and hold anything. *)
Record scratch_ok (n : ivec) (bx by_ bz : bool) (g : ghost) (h : heap V) (P : problem V) (s : (dir -> field) * (dir -> field)) : Prop := {
  sc_face : forall d, wide n d -> field_at n bx by_ bz g h (face_of d) (fst s d);
  sc_cell : forall d, wide n d -> field_at n bx by_ bz g h SVol (snd s d);
  sc_own : forall d f, wide n d -> In f (rhs P :: inputs P) -> fbuf f <> fbuf (fst s d) /\ fbuf f <> fbuf (snd s d);
  sc_own_flux : forall d e, wide n d -> wide n e -> fbuf (flux P e) <> fbuf (fst s d) /\ fbuf (flux P e) <> fbuf (snd s d) }.
(** Blocks the program may write. *)
Definition written (n : ivec) (P : problem V) (scr : list ((dir -> field) * (dir -> field))) (b : nat) : Prop :=
  b = fbuf (rhs P) \/ (exists d, wide n d /\ b = fbuf (flux P d)) \/
  (exists s d, In s scr /\ wide n d /\ (b = fbuf (fst s d) \/ b = fbuf (snd s d))).
(** With enough fuel, whatever it is, the program ends with memory h'. *)
Definition ends_with (c : nat -> prog V unit) (h h' : heap V) : Prop :=
  exists N, forall fuel, (N <= fuel)%nat -> run (c fuel) h = RDone h' tt.
End Spec.

(** ** Exact numbers *)
Definition dirs : list dir := [XDIR; YDIR; ZDIR].
Definition wide_dirs (n : ivec) : list dir := filter (fun d => 1 <? comp d n) dirs.
Section Exact.
Variable dx : dir -> Qc.
Variable T K C : ivec -> Qc.
(** Fourier's law at face p: conductivity between the two cells times the
    temperature difference over the spacing, from warm to cold. *)
Definition heat_flux (d : dir) (p : ivec) : Qc :=
  (- ((K (step d (-1) p) + K p) / qc_of 2) * ((T p - T (step d (-1) p)) / dx d))%Qc.
(** Energy balance of cell p: what enters minus what leaves, in all directions. *)
Definition heating (n : ivec) (p : ivec) : Qc :=
  (qsum (map (fun d => (heat_flux d p - heat_flux d (step d 1 p)) / dx d) (wide_dirs n)) / C p)%Qc.
End Exact.
(** All cells of the patch; the faces normal to d in layer k. *)
Definition cells (n : ivec) : list ivec :=
  flat_map (fun z => flat_map (fun y => map (fun x => IV x y z) (zrange (ix n))) (zrange (iy n))) (zrange (iz n)).
Definition one_layer (d : dir) (n : ivec) : ivec :=
  match d with XDIR => IV 1 (iy n) (iz n) | YDIR => IV (ix n) 1 (iz n) | ZDIR => IV (ix n) (iy n) 1 end.
Definition side (d : dir) (n : ivec) (k : Z) : list ivec := map (step d k) (cells (one_layer d n)).
(** A conductivity that is linear in the coordinates. *)
Definition linear (k0 : Qc) (k : dir -> Qc) (x : point) : Qc := (k0 + k XDIR * x XDIR + k YDIR * x YDIR + k ZDIR * x ZDIR)%Qc.
(** Second derivative of a quadratic function along d. *)
Definition bend (c : quad) (d : dir) : Qc :=
  ((1 + 1) * match d with XDIR => qxx c | YDIR => qyy c | ZDIR => qzz c end)%Qc.

(** ** Doubles: every operation rounded, in this order *)
Section Double.
Variable dx : dir -> dbl.
Variable T K C : ivec -> dbl.
Definition diff64 (d : dir) (a b : dbl) : dbl := dadd (dmul a (ddiv (dopp d_one) (dx d))) (dmul b (ddiv d_one (dx d))).
Definition heat_flux64 (d : dir) (p : ivec) : dbl :=
  dmul (dopp (diff64 d (T (step d (-1) p)) (T p))) (dadd (dmul (K (step d (-1) p)) d_half) (dmul (K p) d_half)).
Definition heating64 (n : ivec) (p : ivec) : dbl :=
  fold_left (fun r d => dsub r (ddiv (diff64 d (heat_flux64 d p) (heat_flux64 d (step d 1 p))) (C p))) (wide_dirs n) zero.
End Double.
