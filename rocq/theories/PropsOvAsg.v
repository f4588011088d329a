(** Property C58, continued: whole assignments with machine integers. *)
From Verif Require Import Prelude WindowM WindowS OverM GhostM FieldM FieldS MaskM MaskS NeboM NeboS OvAsgM OvAsgS OvAsgT NeboE.

(** The assignment of C11 with every int overflow undefined and size_t wrapping:
    it still stores the value of the expression on the whole region, if no
    field or mask has more than 2^28 points. *)
Theorem C58_assign : forall (V : Type) (vadd vmul : V -> V -> V) n h f (e : expr V),
  operands_ok V n h e -> destination_ok V n h f -> alias_ok V f e -> covers_extra V f e ->
  (exists p, region V n f e p) ->
  glob_npts (fwin f) <= 2 ^ 28 -> small_operands V e ->
  exists N, forall fuel, (N <= fuel)%nat -> exists h',
    run (sequential_assign32 V vadd vmul fuel true f e) h = RDone h' tt /\
    assigned V h h' f (region V n f e) (denote V vadd vmul h e).
Proof. exact assign32_ok. Qed.
Print Assumptions C58_assign.

(** The same for interior_assign. *)
Theorem C58_interior_assign : forall (V : Type) (vadd vmul : V -> V -> V) n h f (e : expr V),
  operands_ok V n h e -> destination_ok V n h f -> alias_ok V f e ->
  (forall p, interior_cell n f p -> expr_known V n e p) ->
  glob_npts (fwin f) <= 2 ^ 28 -> small_operands V e ->
  exists N, forall fuel, (N <= fuel)%nat -> exists h',
    run (sequential_assign32 V vadd vmul fuel false f e) h = RDone h' tt /\
    assigned V h h' f (interior_cell n f) (denote V vadd vmul h e).
Proof. exact interior32_ok. Qed.
Print Assumptions C58_interior_assign.

(** A mask iterator stepped from begin() up to end(). *)
Theorem C58_mask_steps : forall w, fits w -> pos_dims (wglob w) -> glob_npts w <= 2 ^ 28 ->
  0 < ix (wext w) /\ 0 < iy (wext w) /\ 0 < iz (wext w) ->
  forall k, Z.of_nat k <= local_npts w ->
  (do m <- mit_make32 w; mit_steps32 k m) = Ok (Nat.iter k mit_incr (mit_begin w)).
Proof. exact mask_steps. Qed.
Print Assumptions C58_mask_steps.

(** Unlike for field iterators, 2^31 - 1 points are too many here: the step from
    the last cell of a small view to end() overflows. *)
Theorem C58_mask_steps_refuted : exists w, fits w /\ pos_dims (wglob w) /\
  ix (wglob w) * iy (wglob w) * iz (wglob w) <= 2 ^ 31 - 1 /\
  0 < ix (wext w) /\ 0 < iy (wext w) /\ 0 < iz (wext w) /\
  (exists m, mit_make32 w = Ok m) /\
  (do m <- mit_make32 w; mit_steps32 (Z.to_nat (local_npts w)) m) = UB.
Proof.
  exists (Win (IV 32767 32767 2) (IV 32766 32766 1) (IV 1 1 1)).
  unfold fits, pos_dims. repeat split; cbn [wglob woff wext ix iy iz iv_add]; try lia.
  eexists. vm_compute. reflexivity.
Qed.
Print Assumptions C58_mask_steps_refuted.

Example C58_assign_hyps_met :
  operands_ok Z xdim xheap xe /\ destination_ok Z xdim xheap xf /\ alias_ok Z xf xe /\
  covers_extra Z xf xe /\ region Z xdim xf xe (IV 3 1 0) /\ glob_npts (fwin xf) <= 2 ^ 28 /\ small_operands Z xe.
Proof.
  refine (conj x_operands (conj x_destination (conj x_alias (conj x_covers (conj x_region _))))).
  split; [vm_compute; discriminate|].
  split; cbn; intros x s I; repeat (destruct I as [[= <- <-]|I]; [vm_compute; discriminate|]); destruct I.
Qed.
