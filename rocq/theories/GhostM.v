(** Model of ghost counts and boundary-cell information. *)
From Verif Require Import Prelude WindowM.

(** GhostData.h:47 *)
Definition GHOST_MAX : Z := 9001.

(** GhostData.h:59-62: minus_, plus_, isInf_ *)
Record ghost := Ghost { gminus : ivec; gplus : ivec; ginf : bool }.

(** GhostData.cpp:55-59 (is_IntVec_infinite), 63-66 (is_ghost_infinite) *)
Definition iv_infinite (v : ivec) : bool :=
  (GHOST_MAX <=? ix v) && (GHOST_MAX <=? iy v) && (GHOST_MAX <=? iz v).
Definition ghost_infinite (m p : ivec) : bool := iv_infinite m && iv_infinite p.

(** GhostData.cpp:70-95 (constructors).  check_valid (40-48) is debug only. *)
Definition mk_ghost (m p : ivec) : ghost := Ghost m p (ghost_infinite m p).
Definition ghost_n (n : Z) : ghost := mk_ghost (IV n n n) (IV n n n).

(** GhostData.cpp:119-131 (set_minus, set_plus) *)
Definition g_set_minus (g : ghost) (m : ivec) : ghost := Ghost m (gplus g) (ghost_infinite m (gplus g)).
Definition g_set_plus (g : ghost) (p : ivec) : ghost := Ghost (gminus g) p (ghost_infinite (gminus g) p).

(** GhostData.cpp:153-163, 135-141 (operator-=, operator-): the infinity flag
    of the left operand is kept. *)
Definition g_sub (a b : ghost) : outcome ghost :=
  if ginf b then Throw
  else Ok (Ghost (iv_sub (gminus a) (gminus b)) (iv_sub (gplus a) (gplus b)) (ginf a)).

(** GhostData.cpp:165-178, 143-149 (operator+=, operator+) *)
Definition g_add (a b : ghost) : ghost :=
  if ginf a then a
  else if ginf b then b
  else Ghost (iv_add (gminus a) (gminus b)) (iv_add (gplus a) (gplus b)) (ginf a).

(** GhostData.cpp:182-186 (operator==) *)
Definition g_eqb (a b : ghost) : bool :=
  iv_eqb (gminus a) (gminus b) && iv_eqb (gplus a) (gplus b).

(** GhostData.cpp:190-195 (min) *)
Definition g_min (a b : ghost) : ghost :=
  mk_ghost (iv_min (gminus a) (gminus b)) (iv_min (gplus a) (gplus b)).

(** GhostData.cpp:199-208 (point_to_ghost) *)
Definition neg_part (v : Z) : Z := if v <? 0 then - v else 0.
Definition pos_part (v : Z) : Z := if 0 <? v then v else 0.
Definition point_to_ghost (p : ivec) : ghost :=
  mk_ghost (IV (neg_part (ix p)) (neg_part (iy p)) (neg_part (iz p)))
           (IV (pos_part (ix p)) (pos_part (iy p)) (pos_part (iz p))).

(** BoundaryCellInfo.h:46-64: isbc_ holds bools converted to int; the extras
    are multiplied by the flags. *)
Record bcinfo := BC { bc_is : ivec; bc_nextra : ivec }.
Definition b2z (b : bool) : Z := if b then 1 else 0.
Definition bc_make (bx by_ bz : bool) (extra : ivec) : bcinfo :=
  let f := IV (b2z bx) (b2z by_) (b2z bz) in BC f (iv_mul f extra).

(** BoundaryCellInfo.h:138 (num_extra()) *)
Definition num_extra (bc : bcinfo) : ivec := bc_nextra bc.
(** BoundaryCellInfo.h:122, 144 (has_bc(dir), has_extra(dir)), 149 (has_extra()) *)
Definition has_extra1 (isbc nextra : Z) : Z := if negb (isbc =? 0) then nextra else 0.
Definition has_extra (bc : bcinfo) : ivec :=
  IV (has_extra1 (ix (bc_is bc)) (ix (bc_nextra bc)))
     (has_extra1 (iy (bc_is bc)) (iy (bc_nextra bc)))
     (has_extra1 (iz (bc_is bc)) (iz (bc_nextra bc))).
