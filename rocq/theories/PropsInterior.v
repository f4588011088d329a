(** Property theorems about interior iteration: C51. *)
From Verif Require Import Prelude WindowM WindowS GhostM FieldM FieldS InteriorS InteriorP.

(** A view, however it was reached, one of whose windows misses an interior
    cell gives no interior iterators. *)
Theorem C51_refused : forall w bc g buf nt os, let f := field_make w bc g buf nt in let v := view f os in
  pos_dims (wext (fint f)) -> (exists u, In (VWindow u) os /\ misses u (fint f)) ->
  field_interior_cbegin v = Throw /\ field_interior_cend v = Throw /\ field_interior_begin v = Throw /\ field_interior_end v = Throw.
Proof. exact interior_refused. Qed.
Print Assumptions C51_refused.
(** Otherwise interior iteration visits the interior cells of the original
    field, each once, in order. *)
Theorem C51_walk : forall w bc g buf nt os, let f := field_make w bc g buf nt in let v := view f os in
  pos_dims (wext (fint f)) -> fits (fint f) -> (forall u p, In (VWindow u) os -> covers (fint f) p -> covers u p) ->
  exists b e its, field_interior_cbegin v = Ok b /\ field_interior_cend v = Ok e /\ field_interior_begin v = Ok b /\ field_interior_end v = Ok e /\
    it_loop (length its) b e = Some its /\
    map icur its = map (addr (fint f)) (box_points (wext (fint f))) /\
    Forall (fun it => 0 <= icur it < glob_npts (fint f)) its.
Proof. exact interior_walk. Qed.
Print Assumptions C51_walk.
(** The cells visited belong to the view. *)
Theorem C51_inside : forall w wi, wglob w = wglob wi -> (forall p, covers wi p -> covers w p) ->
  forall p, in_box (wext wi) p -> exists q, in_box (wext w) q /\ addr w q = addr wi p.
Proof. exact interior_in_view. Qed.
Print Assumptions C51_inside.

Definition c51_field := field_make (Win (IV 6 5 4) iv_zero (IV 6 5 4)) (bc_make false false false iv_zero) (ghost_n 1) 0 1.
Example C51_hyps_met : fint c51_field = Win (IV 6 5 4) (IV 1 1 1) (IV 4 3 2) /\ fits (fint c51_field) /\
  (forall p, covers (fint c51_field) p -> covers (Win (IV 6 5 4) (IV 1 0 1) (IV 4 5 2)) p) /\
  misses (Win (IV 6 5 4) (IV 0 0 0) (IV 6 5 2)) (fint c51_field).
Proof.
  split; [reflexivity|]. split; [unfold fits; cbn; lia|]. split; [intros p; unfold covers; cbn; lia|].
  exists (IV 1 1 2). unfold covers. cbn. lia.
Qed.
