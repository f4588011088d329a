(** Property theorems about the staggered stencil operators: C34-C37. *)
From Verif Require Import Prelude WindowM WindowS GhostM FieldM FieldS MaskM NeboM NeboS NeboE StencilM StencilS CatalogS StencilP StencilQ StencilR.

(** C34.  Positions are in half spacings ([place]); [adjacent] means nowhere
    more than half a spacing away. *)
Theorem C34_two_points : forall src dst, staggered src -> staggered dst -> differ src dst = 1 -> forall p,
  length (cells_read (stencil2 src dst) p) = 2%nat /\
  NoDup (cells_read (stencil2 src dst) p) /\
  (forall q, In q (cells_read (stencil2 src dst) p) <-> adjacent src dst p q) /\
  exists d lo hi, cells_read (stencil2 src dst) p = [lo; hi] /\
    comp d (place src lo) = comp d (place dst p) - 1 /\
    comp d (place src hi) = comp d (place dst p) + 1 /\
    forall e, e <> d -> comp e (place src lo) = comp e (place dst p) /\ comp e (place src hi) = comp e (place dst p).
Proof. exact two_points. Qed.
Print Assumptions C34_two_points.

Theorem C34_four_points : forall src dst, staggered src -> staggered dst -> differ src dst = 2 -> forall p,
  length (cells_read (stencil4 src dst) p) = 4%nat /\
  NoDup (cells_read (stencil4 src dst) p) /\
  (forall q, In q (cells_read (stencil4 src dst) p) <-> adjacent src dst p q) /\
  (forall q, In q (cells_read (stencil4 src dst) p) ->
     exists q', In q' (cells_read (stencil4 src dst) p) /\
                iv_add (place src q) (place src q') = iv_add (place dst p) (place dst p)).
Proof. exact four_points. Qed.
Print Assumptions C34_four_points.

(** Every registered interpolant, gradient and divergence reads exactly the
    adjacent cells of its source ([reads] lists fields and shifts). *)
Theorem C34_registered : forall n Lx Ly Lz t s d b f v p,
  In (t, s, d, b) (build_stencils n Lx Ly Lz) -> t = Interpolant \/ t = Gradient \/ t = Divergence ->
  (In (f, v) (reads Qc (apply_op b (EField Qc f)) iv_zero) <-> adjacent (offset s) (offset d) p (iv_add p v)).
Proof. exact staggered_reads. Qed.
Print Assumptions C34_registered.

(** The finite-difference operators read the two neighbours along their direction. *)
Theorem C34_same_place : forall n Lx Ly Lz t s d b f v e,
  In (t, s, d, b) (build_stencils n Lx Ly Lz) -> t = InterpolantD e \/ t = GradientD e ->
  (In (f, v) (reads Qc (apply_op b (EField Qc f)) iv_zero) <-> v = step e (-1) iv_zero \/ v = step e 1 iv_zero).
Proof. exact same_place_reads. Qed.
Print Assumptions C34_same_place.

Example C34_hyps_met :
  (forall l, staggered (offset l)) /\ differ (offset SVol) (offset XVol) = 1 /\ differ (offset XVol) (offset YVol) = 2 /\
  (exists b, In (Gradient, SVol, SSurfX, b) (build_stencils kn kL kL kL)) /\
  cells_read (stencil4 (offset XVol) (offset YVol)) (IV 5 5 5) = [IV 5 4 5; IV 6 4 5; IV 5 5 5; IV 6 5 5].
Proof.
  split; [exact offset_staggered|]. split; [reflexivity|]. split; [reflexivity|]. split; [|reflexivity].
  destruct k_gradient as (b & I & _). eauto.
Qed.

(** C35.  All 131 registrations build an operator; each either averages or
    differentiates along exactly one direction. *)
Theorem C35_all_build : forall n Lx Ly Lz,
  length (build_stencils n Lx Ly Lz) = 131%nat /\
  forall t s d b, In (t, s, d, b) (build_stencils n Lx Ly Lz) ->
    averages t \/ exists e, differentiates t s d e /\ forall e', differentiates t s d e' -> e' = e.
Proof. exact (fun n Lx Ly Lz => conj (registered_all n Lx Ly Lz) (registered_direction n Lx Ly Lz)). Qed.
Print Assumptions C35_all_build.

(** Exactly the operators of [available] are registered, each once. *)
Theorem C35_catalogue : forall n Lx Ly Lz t s d,
  ((exists b, In (t, s, d, b) (build_stencils n Lx Ly Lz)) <-> available t s d) /\
  forall b b', In (t, s, d, b) (build_stencils n Lx Ly Lz) -> In (t, s, d, b') (build_stencils n Lx Ly Lz) -> b = b'.
Proof. exact build_catalogue. Qed.
Print Assumptions C35_catalogue.

(** For any operand expression a that agrees with a trilinear function around
    p, the averaging operators return that function at p's own location. *)
Theorem C35_interpolate : forall n Lx Ly Lz t s d b h a p c,
  In (t, s, d, b) (build_stencils n Lx Ly Lz) -> averages t ->
  (forall q, near p q -> denote Qc Qcplus Qcmult h a q = trilinear c (coord (grid_spacing n Lx Ly Lz) s q)) ->
  denote Qc Qcplus Qcmult h (apply_op b a) p = trilinear c (coord (grid_spacing n Lx Ly Lz) d p).
Proof. exact interpolate_exact. Qed.
Print Assumptions C35_interpolate.

(** Gradients and divergences are exact even for quadratics. *)
Theorem C35_differentiate : forall n Lx Ly Lz t s d b h a p c e,
  iv_le (IV 1 1 1) n -> Lx <> 0%Qc -> Ly <> 0%Qc -> Lz <> 0%Qc ->
  In (t, s, d, b) (build_stencils n Lx Ly Lz) -> differentiates t s d e ->
  (forall q, near p q -> denote Qc Qcplus Qcmult h a q = quadratic c (coord (grid_spacing n Lx Ly Lz) s q)) ->
  denote Qc Qcplus Qcmult h (apply_op b a) p = slope c e (coord (grid_spacing n Lx Ly Lz) d p).
Proof. exact differentiate_exact. Qed.
Print Assumptions C35_differentiate.

Theorem C35_gradient_of_constant : forall n Lx Ly Lz t s d b e h a p k,
  iv_le (IV 1 1 1) n -> Lx <> 0%Qc -> Ly <> 0%Qc -> Lz <> 0%Qc ->
  In (t, s, d, b) (build_stencils n Lx Ly Lz) -> differentiates t s d e ->
  (forall q, near p q -> denote Qc Qcplus Qcmult h a q = k) ->
  denote Qc Qcplus Qcmult h (apply_op b a) p = 0%Qc.
Proof. exact gradient_constant. Qed.
Print Assumptions C35_gradient_of_constant.

(** Linearity, for any operator whatever its points and coefficients. *)
Theorem C35_linear : forall b h a1 a2 al be p,
  denote Qc Qcplus Qcmult h (apply_op b (EOp2 Qc (fun x y => al * x + be * y)%Qc a1 a2)) p =
  (al * denote Qc Qcplus Qcmult h (apply_op b a1) p + be * denote Qc Qcplus Qcmult h (apply_op b a2) p)%Qc.
Proof. exact apply_linear. Qed.
Print Assumptions C35_linear.

(** apply_to_field on fields in memory: if the source's valid cells hold a
    trilinear function of their coordinates, the destination's assigned cells
    hold the same function of theirs. *)
Theorem C35_interpolate_fields : forall n Lx Ly Lz t s d b np h src dst c,
  In (t, s, d, b) (build_stencils n Lx Ly Lz) -> averages t ->
  on_patch np src -> (forall p, valid_cell np src p -> bcells (h (fbuf src)) (cell src p) = true) ->
  destination_ok Qc np h dst -> fbuf src <> fbuf dst -> covers_extra Qc dst (apply_op b (EField Qc src)) ->
  (exists p, region Qc np dst (apply_op b (EField Qc src)) p) ->
  (forall q, valid_cell np src q -> value Qc h src q = trilinear c (coord (grid_spacing n Lx Ly Lz) s q)) ->
  exists N, forall fuel, (N <= fuel)%nat -> exists h',
    run (apply_to_field fuel b src dst) h = RDone h' tt /\
    forall p, region Qc np dst (apply_op b (EField Qc src)) p ->
      value Qc h' dst p = trilinear c (coord (grid_spacing n Lx Ly Lz) d p).
Proof. exact interpolate_in_memory. Qed.
Print Assumptions C35_interpolate_fields.

Theorem C35_differentiate_fields : forall n Lx Ly Lz t s d b e np h src dst c,
  iv_le (IV 1 1 1) n -> Lx <> 0%Qc -> Ly <> 0%Qc -> Lz <> 0%Qc ->
  In (t, s, d, b) (build_stencils n Lx Ly Lz) -> differentiates t s d e ->
  on_patch np src -> (forall p, valid_cell np src p -> bcells (h (fbuf src)) (cell src p) = true) ->
  destination_ok Qc np h dst -> fbuf src <> fbuf dst -> covers_extra Qc dst (apply_op b (EField Qc src)) ->
  (exists p, region Qc np dst (apply_op b (EField Qc src)) p) ->
  (forall q, valid_cell np src q -> value Qc h src q = quadratic c (coord (grid_spacing n Lx Ly Lz) s q)) ->
  exists N, forall fuel, (N <= fuel)%nat -> exists h',
    run (apply_to_field fuel b src dst) h = RDone h' tt /\
    forall p, region Qc np dst (apply_op b (EField Qc src)) p ->
      value Qc h' dst p = slope c e (coord (grid_spacing n Lx Ly Lz) d p).
Proof. exact differentiate_in_memory. Qed.
Print Assumptions C35_differentiate_fields.

(** The 3 x 2 patch of NeboE: a cell field with two ghost layers interpolated
    to x faces with a boundary extra cell, for a function with a cross term. *)
Example C35_hyps_met :
  exists b g, In (Interpolant, SVol, SSurfX, b) (build_stencils kn kL kL kL) /\
    In (Gradient, SVol, SSurfX, g) (build_stencils kn kL kL kL) /\
    averages Interpolant /\ differentiates Gradient SVol SSurfX XDIR /\ iv_le (IV 1 1 1) kn /\ kL <> 0%Qc /\
    (let h := kheap (fun q => trilinear ktri (coord kdx SVol q)) in
     on_patch xdim xs /\ (forall p, valid_cell xdim xs p -> bcells (h (fbuf xs)) (cell xs p) = true) /\
     destination_ok Qc xdim h xf /\ fbuf xs <> fbuf xf /\ covers_extra Qc xf (apply_op b (EField Qc xs)) /\
     region Qc xdim xf (apply_op b (EField Qc xs)) (IV 3 1 0) /\
     forall q, valid_cell xdim xs q -> value Qc h xs q = trilinear ktri (coord kdx SVol q)) /\
    (let h := kheap (fun q => quadratic kquad (coord kdx SVol q)) in
     on_patch xdim xs /\ (forall p, valid_cell xdim xs p -> bcells (h (fbuf xs)) (cell xs p) = true) /\
     destination_ok Qc xdim h xf /\ fbuf xs <> fbuf xf /\ covers_extra Qc xf (apply_op g (EField Qc xs)) /\
     region Qc xdim xf (apply_op g (EField Qc xs)) (IV 3 1 0) /\
     forall q, valid_cell xdim xs q -> value Qc h xs q = quadratic kquad (coord kdx SVol q)).
Proof.
  destruct k_registered as (b & Ib & Sb), k_gradient as (g & Ig & Sg). exists b, g.
  split; [exact Ib|]. split; [exact Ig|]. split; [exact I|]. split; [discriminate|]. split; [cbv; intuition discriminate|].
  split; [discriminate|]. split.
  - intros h. destruct (k_instance (fun q => trilinear ktri (coord kdx SVol q)) b Sb) as (A & B & C & D & E & F).
    refine (conj A (conj B (conj C (conj D (conj E (conj F _)))))). intros q V. exact (kvalue _ q V).
  - intros h. destruct (k_instance (fun q => quadratic kquad (coord kdx SVol q)) g Sg) as (A & B & C & D & E & F).
    refine (conj A (conj B (conj C (conj D (conj E (conj F _)))))). intros q V. exact (kvalue _ q V).
Qed.

(** C36.  [first] is the face half a spacing below the first cell of the row,
    [last] the face half a spacing above its last cell. *)
Theorem C36_row : forall n Lx Ly Lz s d b h a e,
  iv_le (IV 1 1 1) n -> Lx <> 0%Qc -> Ly <> 0%Qc -> Lz <> 0%Qc ->
  In (Divergence, s, d, b) (build_stencils n Lx Ly Lz) -> comp e (offset s) <> comp e (offset d) ->
  forall p first last m, 0 <= m ->
  place (offset s) first = step e (-1) (place (offset d) p) ->
  place (offset s) last = step e (-1) (place (offset d) (step e m p)) ->
  qsum (map (fun k => denote Qc Qcplus Qcmult h (apply_op b a) (step e k p)) (zrange m)) =
  ((denote Qc Qcplus Qcmult h a last - denote Qc Qcplus Qcmult h a first) / grid_spacing n Lx Ly Lz e)%Qc.
Proof. exact divergence_row. Qed.
Print Assumptions C36_row.

(** Over any set of rows of the same length: only the boundary faces remain. *)
Theorem C36_rows : forall n Lx Ly Lz s d b h a e,
  iv_le (IV 1 1 1) n -> Lx <> 0%Qc -> Ly <> 0%Qc -> Lz <> 0%Qc ->
  In (Divergence, s, d, b) (build_stencils n Lx Ly Lz) -> comp e (offset s) <> comp e (offset d) ->
  forall rows m, 0 <= m ->
  (forall p first last, In (p, first, last) rows ->
     place (offset s) first = step e (-1) (place (offset d) p) /\
     place (offset s) last = step e (-1) (place (offset d) (step e m p))) ->
  qsum (map (fun r => qsum (map (fun k => denote Qc Qcplus Qcmult h (apply_op b a) (step e k (fst (fst r)))) (zrange m))) rows) =
  ((qsum (map (fun r => denote Qc Qcplus Qcmult h a (snd r)) rows)
    - qsum (map (fun r => denote Qc Qcplus Qcmult h a (snd (fst r))) rows))
     / grid_spacing n Lx Ly Lz e)%Qc.
Proof. exact divergence_rows. Qed.
Print Assumptions C36_rows.

Example C36_hyps_met :
  iv_le (IV 1 1 1) kn /\ kL <> 0%Qc /\ (exists b, In (Divergence, SSurfX, SVol, b) (build_stencils kn kL kL kL)) /\
  comp XDIR (offset SSurfX) <> comp XDIR (offset SVol) /\
  place (offset SSurfX) (IV 0 1 0) = step XDIR (-1) (place (offset SVol) (IV 0 1 0)) /\
  place (offset SSurfX) (IV 3 1 0) = step XDIR (-1) (place (offset SVol) (step XDIR 3 (IV 0 1 0))).
Proof.
  split; [cbv; intuition discriminate|]. split; [discriminate|]. split; [exact k_divergence|].
  split; [discriminate|]. split; reflexivity.
Qed.

(** C37.  l is the 3 x 3 x 3 block around p in any order. *)
Theorem C37_mean : forall n Lx Ly Lz s d b h a p l,
  In (Filter, s, d, b) (build_stencils n Lx Ly Lz) ->
  NoDup l -> (forall q, In q l <-> near p q) ->
  denote Qc Qcplus Qcmult h (apply_op b a) p = (qsum (map (fun q => denote Qc Qcplus Qcmult h a q) l) / qc_of 27)%Qc.
Proof. exact filter_mean. Qed.
Print Assumptions C37_mean.

Theorem C37_bounds : forall n Lx Ly Lz s d b h a p lo hi,
  In (Filter, s, d, b) (build_stencils n Lx Ly Lz) ->
  (forall q, near p q -> (lo <= denote Qc Qcplus Qcmult h a q)%Qc /\ (denote Qc Qcplus Qcmult h a q <= hi)%Qc) ->
  (lo <= denote Qc Qcplus Qcmult h (apply_op b a) p)%Qc /\ (denote Qc Qcplus Qcmult h (apply_op b a) p <= hi)%Qc.
Proof. exact filter_bounds. Qed.
Print Assumptions C37_bounds.

(** The same bounds for an average over any points (the 2D and 1D boxes). *)
Theorem C37_bounds_any_box : forall pts h a p lo hi,
  (forall q, In q (cells_read pts p) -> (lo <= denote Qc Qcplus Qcmult h a q)%Qc /\ (denote Qc Qcplus Qcmult h a q <= hi)%Qc) ->
  (lo <= denote Qc Qcplus Qcmult h (apply_op (AverageOp pts) a) p)%Qc /\
  (denote Qc Qcplus Qcmult h (apply_op (AverageOp pts) a) p <= hi)%Qc.
Proof. exact average_bounds. Qed.
Print Assumptions C37_bounds_any_box.

(** What the 2D and 1D boxes average: the 9 or 3 cells around p in their
    directions. *)
Theorem C37_small_boxes : forall pts ds,
  In (pts, ds) [(box2d_xy, [XDIR; YDIR]); (box2d_xz, [XDIR; ZDIR]); (box2d_yz, [YDIR; ZDIR]);
                (box1d_x, [XDIR]); (box1d_y, [YDIR]); (box1d_z, [ZDIR])] ->
  forall h a p l, NoDup l -> (forall q, In q l <-> along ds p q) ->
  denote Qc Qcplus Qcmult h (apply_op (AverageOp pts) a) p =
  (qsum (map (fun q => denote Qc Qcplus Qcmult h a q) l) / qc_of (3 ^ Z.of_nat (length ds)))%Qc.
Proof. exact (fun pts ds I h a p l => small_box_mean pts ds h a p l I). Qed.
Print Assumptions C37_small_boxes.

Theorem C37_constant : forall n Lx Ly Lz s d b h a p k,
  In (Filter, s, d, b) (build_stencils n Lx Ly Lz) ->
  (forall q, near p q -> denote Qc Qcplus Qcmult h a q = k) ->
  denote Qc Qcplus Qcmult h (apply_op b a) p = k.
Proof. exact filter_constant. Qed.
Print Assumptions C37_constant.

Theorem C37_linear : forall n Lx Ly Lz s d b h a1 a2 al be p,
  In (Filter, s, d, b) (build_stencils n Lx Ly Lz) ->
  denote Qc Qcplus Qcmult h (apply_op b (EOp2 Qc (fun x y => al * x + be * y)%Qc a1 a2)) p =
  (al * denote Qc Qcplus Qcmult h (apply_op b a1) p + be * denote Qc Qcplus Qcmult h (apply_op b a2) p)%Qc.
Proof. exact (fun _ _ _ _ _ _ b h a1 a2 al be p _ => apply_linear b h a1 a2 al be p). Qed.
Print Assumptions C37_linear.

Example C37_hyps_met :
  (exists b, In (Filter, SVol, SVol, b) (build_stencils kn kL kL kL)) /\
  (forall p, NoDup (cells_read box3d p) /\ forall q, In q (cells_read box3d p) <-> near p q) /\
  (forall p, NoDup (cells_read box2d_xz p) /\ forall q, In q (cells_read box2d_xz p) <-> along [XDIR; ZDIR] p q) /\
  forall h p q, near p q -> denote Qc Qcplus Qcmult h (EScalar Qc kL) q = kL.
Proof.
  split; [exact k_filter_reg|]. split; [intros p; split; [apply box3d_nodup|intros q; apply box3d_near]|].
  split; [|reflexivity]. intros p. destruct (small_box_cells box2d_xz [XDIR; ZDIR] p) as (A & _ & B); [cbn; tauto|auto].
Qed.
