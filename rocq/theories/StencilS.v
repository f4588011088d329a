(** Specification for stencil operators: where the cells of a field sit, which
    cells are neighbours, and the functions the operators should reproduce. *)
From Verif Require Import Prelude WindowM GhostM FieldM FieldS MaskM NeboM NeboS StencilM.

Definition comp (d : dir) (v : ivec) : Z :=
  match d with XDIR => ix v | YDIR => iy v | ZDIR => iz v end.

(** Offsets of staggered locations: 0 (cell centre) or -1 (lower face) in each direction. *)
Definition staggered (o : ivec) : Prop := forall d, comp d o = 0 \/ comp d o = -1.
(** In how many directions two locations differ. *)
Definition differ (a b : ivec) : Z :=
  (if ix a =? ix b then 0 else 1) + (if iy a =? iy b then 0 else 1) + (if iz a =? iz b then 0 else 1).

(** Position of cell p of a field with offset o, in half spacings: cell p spans
    2p..2p+2, its centre is 2p+1, its lower face 2p. *)
Definition place (o p : ivec) : ivec :=
  IV (2 * ix p + 1 + ix o) (2 * iy p + 1 + iy o) (2 * iz p + 1 + iz o).

(** Source cell q is next to destination point p: nowhere more than half a
    spacing away. *)
Definition adjacent (src dst p q : ivec) : Prop :=
  forall d, Z.abs (comp d (place src q) - comp d (place dst p)) <= 1.

(** The cells a stencil reads for destination cell p, in order. *)
Definition cells_read (pts : points) (p : ivec) : list ivec :=
  map (fun v => iv_add p v) (fst pts :: snd pts).

(** The block of 3x3x3 cells around p. *)
Definition near (p q : ivec) : Prop := forall d, Z.abs (comp d q - comp d p) <= 1.

(** ** Coordinates and functions of them *)
Definition point := dir -> Qc.
(** Coordinates of cell p of a field at location l on a grid of spacing dx. *)
Definition coord (dx : dir -> Qc) (l : loc) (p : ivec) : point :=
  fun d => (dx d * half * qc_of (comp d (place (offset l) p)))%Qc.
(** The spacing build_stencils derives from the domain lengths. *)
Definition grid_spacing (n : ivec) (Lx Ly Lz : Qc) (d : dir) : Qc :=
  match d with
  | XDIR => (Lx / qc_of (ix n))%Qc
  | YDIR => (Ly / qc_of (iy n))%Qc
  | ZDIR => (Lz / qc_of (iz n))%Qc
  end.

(** Functions that are linear in each coordinate: all linear functions and
    their cross terms. *)
Record tri := Tri { t0 : Qc; tx : Qc; ty : Qc; tz : Qc; txy : Qc; tyz : Qc; txz : Qc; txyz : Qc }.
Definition trilinear (c : tri) (x : point) : Qc :=
  (t0 c + tx c * x XDIR + ty c * x YDIR + tz c * x ZDIR
   + txy c * x XDIR * x YDIR + tyz c * x YDIR * x ZDIR + txz c * x XDIR * x ZDIR
   + txyz c * x XDIR * x YDIR * x ZDIR)%Qc.

(** Quadratic functions and their partial derivatives. *)
Record quad := Quad { q0 : Qc; qx : Qc; qy : Qc; qz : Qc;
                      qxx : Qc; qyy : Qc; qzz : Qc; qxy : Qc; qyz : Qc; qxz : Qc }.
Definition quadratic (c : quad) (x : point) : Qc :=
  (q0 c + qx c * x XDIR + qy c * x YDIR + qz c * x ZDIR
   + qxx c * x XDIR * x XDIR + qyy c * x YDIR * x YDIR + qzz c * x ZDIR * x ZDIR
   + qxy c * x XDIR * x YDIR + qyz c * x YDIR * x ZDIR + qxz c * x XDIR * x ZDIR)%Qc.
Definition slope (c : quad) (d : dir) (x : point) : Qc :=
  match d with
  | XDIR => (qx c + (1 + 1) * qxx c * x XDIR + qxy c * x YDIR + qxz c * x ZDIR)%Qc
  | YDIR => (qy c + (1 + 1) * qyy c * x YDIR + qxy c * x XDIR + qyz c * x ZDIR)%Qc
  | ZDIR => (qz c + (1 + 1) * qzz c * x ZDIR + qyz c * x YDIR + qxz c * x XDIR)%Qc
  end.

(** Operators that return a value of the field, and operators that return a
    derivative along direction d. *)
Definition averages (t : optag) : Prop :=
  match t with Interpolant | InterpolantD _ | Filter => True | _ => False end.
Definition differentiates (t : optag) (src dst : loc) (d : dir) : Prop :=
  match t with
  | Gradient | Divergence => comp d (offset src) <> comp d (offset dst)
  | GradientD e => d = e
  | _ => False
  end.

(** Sums of rationals. *)
Fixpoint qsum (l : list Qc) : Qc := match l with [] => 0%Qc | x :: l => (x + qsum l)%Qc end.
(** The cell k steps from p in direction d. *)
Definition step (d : dir) (k : Z) (p : ivec) : ivec :=
  match d with
  | XDIR => IV (ix p + k) (iy p) (iz p)
  | YDIR => IV (ix p) (iy p + k) (iz p)
  | ZDIR => IV (ix p) (iy p) (iz p + k)
  end.
