(** C83: single-value fields are variables. *)
From Verif Require Import Prelude WindowM WindowS GhostM FieldM FieldS NeboM NeboS NeboE SingleM SingleS SingleP SingleT.

(** Any program of assignments between single-value fields of one cell without
    ghosts has the effect of the same program with plain variables, and changes no
    other memory. *)
Theorem C83_program : forall V (vadd vmul : V -> V -> V) fs p h env, variables V h fs env ->
  exists N, forall fuel, (N <= fuel)%nat -> exists h',
    sv_run V vadd vmul fuel fs p h = RDone h' tt /\ variables V h' fs (srun V env p) /\
    (forall b, (forall j, b <> fbuf (fs j)) -> forall k, bcells (h' b) k = bcells (h b) k /\ bdata (h' b) k = bdata (h b) k).
Proof. exact program. Qed.
Print Assumptions C83_program.

(** In an assignment to any field of a patch, a single-value field acts as the
    number its block starts with when the assignment begins. *)
Theorem C83_like_constants : forall V (vadd vmul : V -> V -> V) n h f e,
  operands_ok V n h e -> destination_ok V n h f -> alias_ok V f e -> covers_extra V f e ->
  (exists p, region V n f e p) ->
  exists N, forall fuel, (N <= fuel)%nat -> exists h1 h2,
    run (fst (nebo_assign V vadd vmul fuel f e)) h = RDone h1 tt /\
    run (fst (nebo_assign V vadd vmul fuel f (consts V (fun s => bdata (h (fbuf s)) 0) e))) h = RDone h2 tt /\
    forall b i, bcells (h1 b) i = bcells (h2 b) i /\ bdata (h1 b) i = bdata (h2 b) i.
Proof. exact like_constants. Qed.
Print Assumptions C83_like_constants.

(** That number is the one *s.begin(), *s.interior_begin() and s(0,0,0) name, and
    iterating over the field visits it alone. *)
Theorem C83_element : forall f, proper f ->
  (exists it, field_begin f = Ok it /\ icur it = 0 /\ exists e, field_end f = Ok e /\ it_loop 2 it e = Some [it]) /\
  (exists it, field_interior_begin f = Ok it /\ icur it = 0 /\ exists e, field_interior_end f = Ok e /\ it_loop 2 it e = Some [it]) /\
  flat_index (fwin f) iv_zero = 0 /\ fwin f = fint f.
Proof. exact accesses_agree. Qed.
Print Assumptions C83_element.

(** What the check of a debug build refuses. *)
Theorem C83_check : forall w g, single_check true w g = false <->
  (1 < ix (wext w) /\ 1 < iy (wext w) /\ 1 < iz (wext w)) \/
  (0 < ix (gminus g) /\ 0 < iy (gminus g) /\ 0 < iz (gminus g) /\ 0 < ix (gplus g) /\ 0 < iy (gplus g) /\ 0 < iz (gplus g)).
Proof. exact check_spec. Qed.
Print Assumptions C83_check.

(** So a field with two elements passes it, *)
Theorem C83_wide_refuted : single_make true (win_full (IV 2 1 1)) sbc (ghost_n 0) 0 1 = Ok swide /\
  bdata (sheap 0%nat) (addr (fwin swide) (IV 0 0 0)) = 1 /\ bdata (sheap 0%nat) (addr (fwin swide) (IV 1 0 0)) = 2.
Proof. exact wide_wrong. Qed.
Print Assumptions C83_wide_refuted.
(** and one with a ghost cell in x, for which interior_assign is undefined. *)
Theorem C83_ghosts_refuted : let g := mk_ghost (IV 1 0 0) (IV 1 0 0) in
  single_make true (win_full (IV 1 1 1)) sbc g 1 1 = Ok (field_make (win_full (IV 1 1 1)) sbc g 1 1) /\
  forall fuel, (2 <= fuel)%nat -> run (fst (interior_assign Z Z.add Z.mul fuel (field_make (win_full (IV 1 1 1)) sbc g 1 1) (EScalar Z 7))) sheap = RUB.
Proof. exact ghosts_wrong. Qed.
Print Assumptions C83_ghosts_refuted.
(** A one-cell view v of the second element of a block: after v <<= 7 its
    element is 7, but in an expression v means the first element, 1. *)
Theorem C83_view_refuted : single_window true (Win (IV 2 1 1) (IV 1 0 0) (IV 1 1 1)) swide = Ok ssecond /\
  exists h1 h2, run (fst (nebo_assign Z Z.add Z.mul 10 ssecond (EScalar Z 7))) sheap = RDone h1 tt /\
    run (fst (nebo_assign Z Z.add Z.mul 10 (sfield 1) (ESingle Z ssecond))) h1 = RDone h2 tt /\
    (exists it, field_begin ssecond = Ok it /\ bdata (h2 0%nat) (icur it) = 7) /\ bdata (h2 1%nat) 0 = 1.
Proof. exact view_wrong. Qed.
Print Assumptions C83_view_refuted.

Example C83_hyps_met : variables Z vheap sfield Z.of_nat /\ proper (sfield 3) /\
  map (srun Z Z.of_nat vprog) [0%nat; 1%nat; 2%nat; 3%nat] = [0; 11; 22; 3] /\
  operands_ok Z xdim xheap xe /\ destination_ok Z xdim xheap xf /\ alias_ok Z xf xe /\
  covers_extra Z xf xe /\ region Z xdim xf xe (IV 3 1 0) /\ singles Z xe <> [].
Proof.
  refine (conj vheap_variables (conj (sfield_proper 3) (conj _ (conj x_operands (conj x_destination (conj x_alias (conj x_covers (conj x_region _)))))))).
  - reflexivity.
  - discriminate.
Qed.
