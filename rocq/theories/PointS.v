(** Specification of the point operators. *)
From Verif Require Import Prelude WindowM GhostM FieldM MaskM NeboM StencilM LagrangeM IterM IterS.

(** Values of the listed elements of the block behind a field. *)
Definition elems (h : heap Qc) (f : field) (idx : list Z) : list Qc := map (bdata (h (fbuf f))) idx.
(** Values of the second list standing beside a non-zero entry of the first. *)
Definition at_marks (marks vals : list Qc) : list Qc :=
  map snd (filter (fun mv => negb (qc_eqb (fst mv) 0)) (combine marks vals)).
