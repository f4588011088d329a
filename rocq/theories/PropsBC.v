(** Property theorems about boundary conditions and in-place assignment: C38, C39, C47, C48. *)
From Verif Require Import Prelude WindowM WindowS GhostM FieldM FieldS MaskM NeboM NeboS NeboE NeboG StencilM StencilS StencilP BCM BCS BCP BCQ BCE BCR.

(** C38, Nebo form.  The operator has points D (to be set) and S with
    coefficients b_destcoef and b_srccoef; [next_to] says that D leads to the
    cell on the chosen side of gamma's point.  The last hypothesis excludes that
    a cell already used as source is overwritten later in the same sweep. *)
Theorem C38_nebo : forall n h b m phi gamma minus,
  let D := b_dest b in let S := b_src b in let e := bc_expr b m phi gamma minus in
  operands_ok Qc n h e -> destination_ok Qc n h phi -> covers_extra Qc phi e -> (exists p, region Qc n phi e p) ->
  (forall g s, In (g, s) (reads Qc gamma iv_zero) -> fbuf g <> fbuf phi) ->
  (forall g, In g (singles Qc gamma) -> fbuf g <> fbuf phi) ->
  (forall g, next_to minus (offset (b_gamma b)) (offset (b_phi b)) g (iv_add g D)) ->
  b_destcoef b <> 0%Qc -> S <> D ->
  (forall g g', holds m g = true -> holds m g' = true -> region Qc n phi e (iv_add g D) -> region Qc n phi e (iv_add g' D) ->
     before (iv_add g D) (iv_add g' D) -> iv_add g S <> iv_add g' D) ->
  exists N, forall fuel, (N <= fuel)%nat -> exists h',
    run (bc_apply fuel b m phi gamma minus) h = RDone h' tt /\
    (forall g, holds m g = true -> region Qc n phi e (iv_add g D) ->
       two_point h' phi D S (b_destcoef b) (b_srccoef b) g = denote Qc Qcplus Qcmult h gamma g) /\
    only_changed h h' (fun c i => c = fbuf phi /\
       exists g, holds m g = true /\ region Qc n phi e (iv_add g D) /\ i = cell phi (iv_add g D)).
Proof. exact nebo_bc. Qed.
Print Assumptions C38_nebo.

Theorem C38_chained_refuted : exists n h b m phi gamma g,
  let e := bc_expr b m phi gamma true in
  operands_ok Qc n h e /\ destination_ok Qc n h phi /\ covers_extra Qc phi e /\ reads Qc gamma iv_zero = [] /\ singles Qc gamma = [] /\
  (forall g, next_to true (offset (b_gamma b)) (offset (b_phi b)) g (iv_add g (b_dest b))) /\
  b_destcoef b <> 0%Qc /\ b_src b <> b_dest b /\ holds m g = true /\ region Qc n phi e (iv_add g (b_dest b)) /\
  exists h', run (bc_apply 100 b m phi gamma true) h = RDone h' tt /\
    two_point h' phi (b_dest b) (b_src b) (b_destcoef b) (b_srccoef b) g <> denote Qc Qcplus Qcmult h gamma g.
Proof. exact b_chained. Qed.
Print Assumptions C38_chained_refuted.

Example C38_nebo_hyps_met :
  let e := bc_expr bbc bmask bphi bgamma true in
  operands_ok Qc bdim bheap e /\ destination_ok Qc bdim bheap bphi /\ covers_extra Qc bphi e /\
  (forall g, next_to true (offset (b_gamma bbc)) (offset (b_phi bbc)) g (iv_add g (b_dest bbc))) /\
  b_destcoef bbc <> 0%Qc /\ b_src bbc <> b_dest bbc /\
  (forall g g', holds bmask g = true -> holds bmask g' = true ->
     region Qc bdim bphi e (iv_add g (b_dest bbc)) -> region Qc bdim bphi e (iv_add g' (b_dest bbc)) ->
     before (iv_add g (b_dest bbc)) (iv_add g' (b_dest bbc)) -> iv_add g (b_src bbc) <> iv_add g' (b_dest bbc)) /\
  holds bmask (IV 0 0 0) = true /\ region Qc bdim bphi e (iv_add (IV 0 0 0) (b_dest bbc)).
Proof.
  refine (conj (b_operands _ (or_introl eq_refl)) (conj b_destination (conj (b_covers _ (or_introl eq_refl)) (conj b_side
    (conj _ (conj _ (conj b_chain (conj eq_refl (b_region _ _ (or_introl eq_refl) _))))))))).
  - apply qc_neq. reflexivity.
  - discriminate.
  - cbn. lia.
Qed.

(** The overloads for a field and for a scalar: the operator at a masked point
    then gives the value the field had there, or the scalar. *)
Theorem C38_field : forall n h b m phi gamma minus,
  let D := b_dest b in let S := b_src b in let e := bc_expr b m phi (EField Qc gamma) minus in
  operands_ok Qc n h e -> destination_ok Qc n h phi -> covers_extra Qc phi e -> (exists p, region Qc n phi e p) ->
  fbuf gamma <> fbuf phi ->
  (forall g, next_to minus (offset (b_gamma b)) (offset (b_phi b)) g (iv_add g D)) ->
  b_destcoef b <> 0%Qc -> S <> D ->
  (forall g g', holds m g = true -> holds m g' = true -> region Qc n phi e (iv_add g D) -> region Qc n phi e (iv_add g' D) ->
     before (iv_add g D) (iv_add g' D) -> iv_add g S <> iv_add g' D) ->
  exists N, forall fuel, (N <= fuel)%nat -> exists h',
    run (bc_apply_field fuel b m phi gamma minus) h = RDone h' tt /\
    (forall g, holds m g = true -> region Qc n phi e (iv_add g D) ->
       two_point h' phi D S (b_destcoef b) (b_srccoef b) g = value Qc h gamma g) /\
    only_changed h h' (fun c i => c = fbuf phi /\
       exists g, holds m g = true /\ region Qc n phi e (iv_add g D) /\ i = cell phi (iv_add g D)).
Proof. exact nebo_bc_field. Qed.
Print Assumptions C38_field.
Theorem C38_scalar : forall n h b m phi gamma minus,
  let D := b_dest b in let S := b_src b in let e := bc_expr b m phi (EScalar Qc gamma) minus in
  operands_ok Qc n h e -> destination_ok Qc n h phi -> covers_extra Qc phi e -> (exists p, region Qc n phi e p) ->
  (forall g, next_to minus (offset (b_gamma b)) (offset (b_phi b)) g (iv_add g D)) ->
  b_destcoef b <> 0%Qc -> S <> D ->
  (forall g g', holds m g = true -> holds m g' = true -> region Qc n phi e (iv_add g D) -> region Qc n phi e (iv_add g' D) ->
     before (iv_add g D) (iv_add g' D) -> iv_add g S <> iv_add g' D) ->
  exists N, forall fuel, (N <= fuel)%nat -> exists h',
    run (bc_apply_scalar fuel b m phi gamma minus) h = RDone h' tt /\
    (forall g, holds m g = true -> region Qc n phi e (iv_add g D) ->
       two_point h' phi D S (b_destcoef b) (b_srccoef b) g = gamma) /\
    only_changed h h' (fun c i => c = fbuf phi /\
       exists g, holds m g = true /\ region Qc n phi e (iv_add g D) /\ i = cell phi (iv_add g D)).
Proof. exact nebo_bc_scalar. Qed.
Print Assumptions C38_scalar.
(** The scalar form's hypotheses are those of C38_nebo_hyps_met (its gamma is a
    scalar); here those of the field form. *)
Example C38_field_hyps_met :
  let e := bc_expr bbc bmask bphi (EField Qc bgam) true in
  operands_ok Qc bdim bheap e /\ destination_ok Qc bdim bheap bphi /\ covers_extra Qc bphi e /\ fbuf bgam <> fbuf bphi /\
  (forall g, next_to true (offset (b_gamma bbc)) (offset (b_phi bbc)) g (iv_add g (b_dest bbc))) /\
  b_destcoef bbc <> 0%Qc /\ b_src bbc <> b_dest bbc /\
  (forall g g', holds bmask g = true -> holds bmask g' = true ->
     region Qc bdim bphi e (iv_add g (b_dest bbc)) -> region Qc bdim bphi e (iv_add g' (b_dest bbc)) ->
     before (iv_add g (b_dest bbc)) (iv_add g' (b_dest bbc)) -> iv_add g (b_src bbc) <> iv_add g' (b_dest bbc)) /\
  holds bmask (IV 0 0 0) = true /\ region Qc bdim bphi e (iv_add (IV 0 0 0) (b_dest bbc)).
Proof.
  refine (conj bf_operands (conj b_destination (conj bf_covers (conj _ (conj b_side
    (conj _ (conj _ (conj bf_chain (conj eq_refl (bf_region _ _)))))))))).
  - discriminate.
  - apply qc_neq. reflexivity.
  - discriminate.
  - cbn. lia.
Qed.

(** The coefficients of an operator, by number: past the end the access is
    refused, except that a collection of one coefficient also has a number 1. *)
Theorem C38_get_coef : forall (c : coefs Qc) i,
  (forall x, nth_error (fst c :: snd c) i = Some x -> get_coef c i = Ok x) /\
  (nth_error (fst c :: snd c) i = None -> get_coef c i = match i, snd c with 1%nat, [] => Ok (fst c) | _, _ => Throw end).
Proof. exact coef_access. Qed.
Print Assumptions C38_get_coef.

(** C38, BoundaryConditionOp on one point: any two-point operator, any field
    window arrangement; the points are 0-based on the field's interior. *)
Theorem C38_op : forall p0 p1 c0 c1 p s v f h fuel,
  finite_ghosts f -> freadonly f = false -> block_exists h f ->
  in_block f (iv_add p p0) -> in_block f (iv_add p p1) -> p0 <> p1 ->
  (match s with PLUS_SIDE => c1 | _ => c0 end) <> 0%Qc -> (1 <= fuel)%nat ->
  exists o h', bc_single (p0, [p1]) (c0, [c1]) p s v = Some (Ok o) /\
    run (bc_run fuel o f) h = RDone h' tt /\
    two_point h' f p0 p1 c0 c1 p = v /\
    only_changed h h' (fun b i => b = fbuf f /\ i = cell f (iv_add p (match s with PLUS_SIDE => p1 | _ => p0 end))).
Proof. exact bc_single_run. Qed.
Print Assumptions C38_op.

(** [two_point] is what applying the operator computes. *)
Theorem C38_two_point : forall h phi p0 p1 c0 c1 g,
  denote Qc Qcplus Qcmult h (apply_op (StencilOp (p0, [p1]) (c0, [c1])) (EField Qc phi)) g = two_point h phi p0 p1 c0 c1 g.
Proof. exact two_point_op. Qed.
Print Assumptions C38_two_point.

(** The cell set is the one next to the point on the chosen side (a), the
    other one (b) is across. *)
Theorem C38_op_side : forall src dst s p v c, staggered src -> staggered dst -> differ src dst = 1 ->
  exists lo hi, stencil2 src dst = (lo, [hi]) /\ lo <> hi /\
  forall o, bc_single (stencil2 src dst) c p s v = Some (Ok o) ->
  exists a b, o_where o = Single a b /\ a = iv_add p (match s with PLUS_SIDE => hi | _ => lo end) /\
    next_to (minus_like s) dst src p a /\ next_to (negb (minus_like s)) dst src p b.
Proof. exact bc_single_side. Qed.
Print Assumptions C38_op_side.

Example C38_op_hyps_met :
  finite_ghosts bphi /\ freadonly bphi = false /\ block_exists bheap bphi /\
  stencil2 (offset SVol) (offset SSurfX) = (IV (-1) 0 0, [IV 0 0 0]) /\
  in_block bphi (iv_add (IV 0 0 0) (IV (-1) 0 0)) /\ in_block bphi (iv_add (IV 0 0 0) (IV 0 0 0)).
Proof.
  refine (conj b_finite (conj eq_refl (conj b_block (conj eq_refl _)))). unfold in_block, in_box. cbn. lia.
Qed.

(** C39.  With a window that numbers exactly the interior cells, and the cells
    involved inside the interior, the list operator has the effect of the
    single-point operators applied in order. *)
Theorem C39_list : forall fuel pts c w ps s v f h,
  s <> NO_SIDE -> wglob w = wext (fint f) -> woff w = iv_zero ->
  finite_ghosts f -> freadonly f = false -> block_exists h f -> fits (fint f) -> (1 <= fuel)%nat ->
  (length (snd c) = 1)%nat ->
  (exists p0 p1, pts = (p0, [p1]) /\ forall p, In p ps -> in_box (wext (fint f)) (iv_add p p0) /\ in_box (wext (fint f)) (iv_add p p1)) ->
  exists o h', bc_list pts c w ps s v = Some (Ok o) /\
    run (bc_run fuel o f) h = RDone h' tt /\ run (singles_in_turn fuel pts c ps s v f) h = RDone h' tt.
Proof. exact list_run. Qed.
Print Assumptions C39_list.

(** With the field's own interior window and a ghost cell to set, the list
    operator leaves the ghost cell alone and changes an interior cell. *)
Theorem C39_ghost_refuted : exists f h w ps c pts o o1 h' h1 p,
  finite_ghosts f /\ freadonly f = false /\ block_exists h f /\ w = fint f /\ ps = [p] /\
  (forall q, In q (fst pts :: snd pts) -> in_block f (iv_add p q)) /\
  bc_single pts c p MINUS_SIDE (qc_of 10) = Some (Ok o1) /\ run (bc_run 1 o1 f) h = RDone h1 tt /\
  bc_list pts c w ps MINUS_SIDE (qc_of 10) = Some (Ok o) /\ run (bc_run 1 o f) h = RDone h' tt /\
  value Qc h1 f (iv_add p (fst pts)) <> value Qc h f (iv_add p (fst pts)) /\
  value Qc h' f (iv_add p (fst pts)) = value Qc h f (iv_add p (fst pts)) /\
  value Qc h' f p <> value Qc h f p.
Proof. exact list_ghost_refuted. Qed.
Print Assumptions C39_ghost_refuted.

(** NO_SIDE: the single-point operator sets the lower cell, the list operator the upper. *)
Theorem C39_no_side_refuted : exists f h w ps c pts o o1 h' h1 p,
  finite_ghosts f /\ freadonly f = false /\ block_exists h f /\ wglob w = wext (fint f) /\ woff w = iv_zero /\ ps = [p] /\
  (forall q, In q (fst pts :: snd pts) -> in_box (wext (fint f)) (iv_add p q)) /\
  bc_single pts c p NO_SIDE (qc_of 10) = Some (Ok o1) /\ run (bc_run 1 o1 f) h = RDone h1 tt /\
  bc_list pts c w ps NO_SIDE (qc_of 10) = Some (Ok o) /\ run (bc_run 1 o f) h = RDone h' tt /\
  value Qc h1 f (iv_add p (fst pts)) <> value Qc h f (iv_add p (fst pts)) /\
  value Qc h' f (iv_add p (fst pts)) = value Qc h f (iv_add p (fst pts)) /\
  value Qc h' f p <> value Qc h f p.
Proof. exact list_no_side_refuted. Qed.
Print Assumptions C39_no_side_refuted.

Example C39_hyps_met :
  wglob (win_full bdim) = wext (fint bphi) /\ woff (win_full bdim) = iv_zero /\ finite_ghosts bphi /\ block_exists bheap bphi /\
  fits (fint bphi) /\ bpts = (IV (-1) 0 0, [IV 0 0 0]) /\
  forall p, In p [IV 1 0 0; IV 3 0 0] -> in_box (wext (fint bphi)) (iv_add p (IV (-1) 0 0)) /\ in_box (wext (fint bphi)) (iv_add p (IV 0 0 0)).
Proof.
  refine (conj eq_refl (conj eq_refl (conj b_finite (conj b_block (conj _ (conj eq_refl _)))))).
  - unfold fits. cbn. lia.
  - intros p [<-|[<-|[]]]; unfold in_box; cbn; lia.
Qed.

(** C47.  No condition on what e reads: the points are assigned one after the
    other in memory order, each from the memory left by the previous ones. *)
Theorem C47_in_turn : forall V (vadd vmul : V -> V -> V) n h f e,
  operands_ok V n h e -> destination_ok V n h f -> (forall g, In g (singles V e) -> fbuf g <> fbuf f) ->
  covers_extra V f e -> (exists p, region V n f e p) ->
  exists N l, lists_in_order (region V n f e) l /\ forall fuel, (N <= fuel)%nat ->
    run (fst (nebo_assign V vadd vmul fuel f e)) h = RDone (in_turn V vadd vmul f e l h) tt.
Proof. exact assign_in_turn. Qed.
Print Assumptions C47_in_turn.

Theorem C47_simultaneous_refuted : exists n h f (e : expr Qc) h' p,
  operands_ok Qc n h e /\ destination_ok Qc n h f /\ covers_extra Qc f e /\ singles Qc e = [] /\ region Qc n f e p /\
  run (fst (nebo_assign Qc Qcplus Qcmult 100 f e)) h = RDone h' tt /\
  value Qc h' f p <> denote Qc Qcplus Qcmult h e p.
Proof. exact not_simultaneous. Qed.
Print Assumptions C47_simultaneous_refuted.

Example C47_hyps_met :
  operands_ok Qc bdim bheap bshift /\ destination_ok Qc bdim bheap bphi /\ covers_extra Qc bphi bshift /\
  region Qc bdim bphi bshift (IV 0 0 0) /\ In (bphi, IV (-1) 0 0) (reads Qc bshift iv_zero).
Proof.
  refine (conj bs_operands (conj b_destination (conj bs_covers (conj (bs_region 0 _) _)))); [lia|]. cbn. auto.
Qed.

(** C48.  BoundaryCondition. *)
Theorem C48_single : forall f p v (h : heap Qc), freadonly f = false -> block_exists h f -> in_block f p ->
  run (bcond_single p v f) h = RDone (upd h (fbuf f) (cell f p) v) tt.
Proof. exact bcond_single_run. Qed.
Print Assumptions C48_single.

Theorem C48_list : forall f ps v h, freadonly f = false -> block_exists h f -> (forall p, In p ps -> in_block f p) ->
  exists h', run (bcond_list (fint f) ps v f) h = RDone h' tt /\
    (forall p, In p ps -> value Qc h' f p = v) /\
    only_changed h h' (fun b i => b = fbuf f /\ exists p, In p ps /\ i = cell f p).
Proof. exact bcond_list_sets. Qed.
Print Assumptions C48_list.

Example C48_hyps_met : freadonly bphi = false /\ block_exists bheap bphi /\
  forall p, In p [IV (-1) 0 0; IV 4 0 0] -> in_block bphi p.
Proof. refine (conj eq_refl (conj b_block _)). intros p [<-|[<-|[]]]; unfold in_block, in_box; cbn; lia. Qed.
