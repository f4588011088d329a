(** Specification of the set of stencil operators and of the small box filters. *)
From Verif Require Import Prelude WindowM StencilM StencilS.

(** The cells around p in the directions ds only: a line of 3, a square of 9. *)
Definition along (ds : list dir) (p q : ivec) : Prop :=
  forall d, (In d ds -> Z.abs (comp d q - comp d p) <= 1) /\ (~ In d ds -> comp d q = comp d p).

(** ** Which operators there are *)
(** The scalar volume, the volumes staggered in direction v, and the faces of
    these volumes with normal d. *)
Definition volume (v : option dir) : loc :=
  match v with None => SVol | Some XDIR => XVol | Some YDIR => YVol | Some ZDIR => ZVol end.
Definition face (v : option dir) (d : dir) : loc :=
  match v, d with
  | None, XDIR => SSurfX | None, YDIR => SSurfY | None, ZDIR => SSurfZ
  | Some XDIR, XDIR => XSurfX | Some XDIR, YDIR => XSurfY | Some XDIR, ZDIR => XSurfZ
  | Some YDIR, XDIR => YSurfX | Some YDIR, YDIR => YSurfY | Some YDIR, ZDIR => YSurfZ
  | Some ZDIR, XDIR => ZSurfX | Some ZDIR, YDIR => ZSurfY | Some ZDIR, ZDIR => ZSurfZ
  end.
(** Between a volume and its faces, between the scalar and a staggered volume, and
    from a staggered volume to the faces of another one with the first one's normal. *)
Definition related (s d : loc) : Prop :=
  (exists v i, s = volume v /\ d = face v i) \/
  (exists i, s = volume None /\ d = volume (Some i) \/ s = volume (Some i) /\ d = volume None) \/
  (exists i j, i <> j /\ s = volume (Some i) /\ d = face (Some j) i).
Inductive available : optag -> loc -> loc -> Prop :=
| av_interpolant s d : related s d -> available Interpolant s d
| av_from_face v i : available Interpolant (face v i) (volume v)
| av_same v : available Interpolant (volume v) (volume v)
| av_coincident_face i : available Interpolant (volume (Some i)) (face None i)
| av_coincident_to i : available Interpolant (volume None) (face (Some i) i)
| av_coincident_from i : available Interpolant (face (Some i) i) (volume None)
| av_corner_to i j : i <> j -> available Interpolant (volume None) (face (Some i) j)
| av_corner_from i j : i <> j -> available Interpolant (face (Some i) j) (volume None)
| av_staggered i j : i <> j -> available Interpolant (volume (Some i)) (volume (Some j))
| av_gradient s d : related s d -> available Gradient s d
| av_divergence v i : available Divergence (face v i) (volume v)
| av_filter v : available Filter (volume v) (volume v)
| av_interpolant_d e v : available (InterpolantD e) (volume v) (volume v)
| av_gradient_d e v : available (GradientD e) (volume v) (volume v).
