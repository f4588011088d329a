(** Property theorems about patches with a single cell in some directions: C64. *)
From Verif Require Import Prelude WindowM WindowS WindowP GhostM FieldM FieldS FieldP MaskM MaskS MaskP NeboM NeboS NeboP NeboE ParM ParS ThinS ThinP ThinQ ThinR ThinE.

(** C64.  n: cells of the patch; a, b: the ghost counts declared below and
    above in its one-cell directions, whatever they are.  [real_field] and
    [real_expr] describe the same fields by the ghost cells they really have. *)
Theorem C64_assign : forall V (vadd vmul : V -> V -> V) n a b h f e,
  thin_operands V n a b h e -> thin_destination V n a b h f -> alias_ok V f e ->
  covers_extra V (real_field n f) (real_expr V n e) ->
  (exists p, region V n (real_field n f) (real_expr V n e) p) ->
  exists N, forall fuel, (N <= fuel)%nat -> exists h',
    run (fst (nebo_assign V vadd vmul fuel f e)) h = RDone h' tt /\
    assigned V h h' f (region V n (real_field n f) (real_expr V n e)) (denote V vadd vmul h e).
Proof. exact thin_assign_ok. Qed.
Print Assumptions C64_assign.

(** Every interior cell is among the assigned ones if the expression is known there. *)
Theorem C64_interior_assigned : forall V n a b h f (e : expr V), thin_destination V n a b h f ->
  (forall p, interior_cell n f p -> expr_known V n (real_expr V n e) p) ->
  forall p, interior_cell n f p -> region V n (real_field n f) (real_expr V n e) p.
Proof. exact thin_interior. Qed.
Print Assumptions C64_interior_assigned.

(** The same with threads, on every schedule. *)
Theorem C64_parallel : forall V (vadd vmul : V -> V -> V) n a b h f e,
  thin_operands V n a b h e -> thin_destination V n a b h f -> alias_ok V f e ->
  covers_extra V (real_field n f) (real_expr V n e) ->
  (exists p, region V n (real_field n f) (real_expr V n e) p) -> 0 < fparts f ->
  parallel_ok V vadd vmul h f e true (region V n (real_field n f) (real_expr V n e)).
Proof. exact thin_parallel_ok. Qed.
Print Assumptions C64_parallel.

Theorem C64_fold : forall V (vadd vmul : V -> V -> V) n a b h e,
  thin_operands V n a b h e -> has_leaf V e = true -> (exists p, expr_known V n (real_expr V n e) p) ->
  exists N p0 rest, lists_in_order (expr_known V n (real_expr V n e)) (p0 :: rest) /\
    (forall A (proc : A -> V -> A) a0 fuel, (N <= fuel)%nat ->
       run (nebo_fold V vadd vmul fuel proc a0 e) h
       = RDone h (fold_left (fun a p => proc a (denote V vadd vmul h e p)) (p0 :: rest) a0)) /\
    (forall (proc : V -> V -> V) fuel, (N <= fuel)%nat ->
       run (nebo_reduce V vadd vmul fuel proc e) h
       = RDone h (fold_left (fun a p => proc a (denote V vadd vmul h e p)) rest (denote V vadd vmul h e p0))).
Proof. exact thin_fold_ok. Qed.
Print Assumptions C64_fold.

(** What such a field stores: no layer beyond the one cell. *)
Theorem C64_storage : forall n a b f, thin_field n a b f ->
  glob_npts (fint f) = (ix n + ix (has_extra (fbc f)) + drop1 (ix n) (ix (gminus (fghosts f))) + drop1 (ix n) (ix (gplus (fghosts f)))) *
    (iy n + iy (has_extra (fbc f)) + drop1 (iy n) (iy (gminus (fghosts f))) + drop1 (iy n) (iy (gplus (fghosts f)))) *
    (iz n + iz (has_extra (fbc f)) + drop1 (iz n) (iz (gminus (fghosts f))) + drop1 (iz n) (iz (gplus (fghosts f)))).
Proof. exact thin_cells. Qed.
Print Assumptions C64_storage.

(** interior_assign on such a field: interior cells keep their old values and
    ghost cells are overwritten; *)
Theorem C64_interior_refuted :
  exists n f e h, thin_operands Z n tone tone h e /\ thin_destination Z n tone tone h f /\ alias_ok Z f e /\
    match run (fst (interior_assign Z Z.add Z.mul 100 f e)) h with
    | RDone h' _ =>
        (exists p, interior_cell n f p /\ value Z h' f p <> denote Z Z.add Z.mul h e p) /\
        (exists p, any_cell n (real_field n f) p /\ ~ interior_cell n f p /\ value Z h' f p <> value Z h f p)
    | _ => False
    end.
Proof. exact interior_wrong. Qed.
Print Assumptions C64_interior_refuted.
(** or it, and the interior sum, access memory outside the blocks. *)
Theorem C64_interior_outside_refuted :
  exists n f e h, thin_operands Z n tone tone h e /\ thin_destination Z n tone tone h f /\ alias_ok Z f e /\
    run (fst (interior_assign Z Z.add Z.mul 100 f e)) h = RUB /\
    run (nebo_sum_interior Z Z.add Z.mul 100 e) h = RUB.
Proof. exact interior_outside. Qed.
Print Assumptions C64_interior_outside_refuted.
(** A stencil across the plane: the assignment returns normally and assigns nothing. *)
Theorem C64_out_of_plane_refuted :
  exists n f s c0 p1 c1, thin_destination Z n tone tone tmem f /\ thin_operands Z n tone tone tmem (EField Z s) /\
    fbuf s <> fbuf f /\
    match run (fst (nebo_assign Z Z.add Z.mul 100 f (EStencil Z iv_zero c0 [(p1, c1)] (EField Z s)))) tmem with
    | RDone h' _ => forall p, any_cell n (real_field n f) p -> value Z h' f p = value Z tmem f p
    | _ => False
    end.
Proof. exact out_of_plane. Qed.
Print Assumptions C64_out_of_plane_refuted.

Example C64_hyps_met :
  thin_operands Z tdim tone tone theap texp /\ thin_destination Z tdim tone tone theap tdst /\ alias_ok Z tdst texp /\
  covers_extra Z (real_field tdim tdst) (real_expr Z tdim texp) /\
  region Z tdim (real_field tdim tdst) (real_expr Z tdim texp) (IV 3 1 0) /\
  (forall p, interior_cell tdim tdst p -> expr_known Z tdim (real_expr Z tdim texp) p) /\
  0 < fparts tdst /\ has_leaf Z texp = true /\ iz (gminus (fghosts tdst)) = 1.
Proof.
  exact (conj t_operands (conj t_destination (conj t_alias (conj t_covers (conj t_region (conj t_known (conj eq_refl (conj eq_refl eq_refl)))))))).
Qed.
