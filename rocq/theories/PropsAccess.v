(** Property theorems about element access (C49) and about copying and setting
    whole fields (C50).  The values may be of any type V. *)
From Verif Require Import Prelude WindowM WindowS GhostM FieldM FieldS MaskM NeboM IterM IterS AccessM AccessS AccessP.

(** f(i,j,k) is the element of the field with these indices, counted in the
    field's own window: the rank-th value in iteration order. *)
Theorem C49_read : forall V (h : heap V) f p, live h f -> in_box (wext (fwin f)) p ->
  exists v, run (get_at f p) h = RDone h v /\ nth_error (contents h f) (Z.to_nat (rank (wext (fwin f)) p)) = Some v.
Proof. exact get_at_ok. Qed.
Print Assumptions C49_read.
(** f(i,j,k) = v changes this one element. *)
Theorem C49_write : forall V (h : heap V) f p v, live h f -> in_box (wext (fwin f)) p -> freadonly f = false ->
  exists h', run (set_at f p v) h = RDone h' tt /\ run (get_at f p) h' = RDone h' v /\
    (forall q, in_box (wext (fwin f)) q -> q <> p -> forall x, run (get_at f q) h = RDone h x -> run (get_at f q) h' = RDone h' x) /\
    differs_only h h' (fun b i => b = fbuf f /\ nth_error (cells_of f) (Z.to_nat (rank (wext (fwin f)) p)) = Some i).
Proof. exact set_at_ok. Qed.
Print Assumptions C49_write.
Theorem C49_readonly : forall V (h : heap V) f p i v, freadonly f = true -> run (set_at f p v) h = RThrow /\ run (set_elem f i v) h = RThrow.
Proof. exact readonly_refuses. Qed.
Print Assumptions C49_readonly.
(** f[i] on a field covering its block is the i-th value. *)
Theorem C49_flat : forall V (h : heap V) f i, live h f -> whole_block f -> 0 <= i < local_npts (fwin f) ->
  exists v, run (get_elem f i) h = RDone h v /\ nth_error (contents h f) (Z.to_nat i) = Some v.
Proof. exact elem_ok. Qed.
Print Assumptions C49_flat.
(** Debug builds: what the assertions let through is right, and if the window
    starts at the block's origin they let through all the field's elements ... *)
Theorem C49_debug : forall V (h : heap V) f p, live h f -> index_asserts f p = true ->
  exists v, run (get_at_debug f p) h = RDone h v /\ nth_error (contents h f) (Z.to_nat (rank (wext (fwin f)) p)) = Some v.
Proof. exact debug_ok. Qed.
Print Assumptions C49_debug.
Theorem C49_debug_origin : forall f p, woff (fwin f) = iv_zero -> index_asserts f p = true <-> in_box (wext (fwin f)) p.
Proof. exact asserts_origin. Qed.
Print Assumptions C49_debug_origin.
(** ... but on every other view they reject the field's first element. *)
Theorem C49_debug_view_refuted : forall V (h : heap V) f, live h f -> woff (fwin f) <> iv_zero ->
  in_box (wext (fwin f)) iv_zero /\ run (get_at_debug (V:=V) f iv_zero) h = RUB.
Proof. exact debug_view. Qed.
Print Assumptions C49_debug_view_refuted.

(** f = other: afterwards both have the values of [other]; only the target's
    block changes. *)
Theorem C50_copy : forall V (h : heap V) f o, pos_dims (wext (fwin f)) -> fits (fwin f) -> block_exists h f -> block_exists h o ->
  freadonly f = false -> fwin f = fwin o ->
  exists h', run (field_copy_assign f o) h = RDone h' tt /\ contents h' f = contents h o /\ contents h' o = contents h o /\
    differs_only h h' (fun b i => b = fbuf f /\ 0 <= i < glob_npts (fwin f)).
Proof. exact assign_ok. Qed.
Print Assumptions C50_copy.
(** All of the target's block is overwritten, also outside its window. *)
Theorem C50_copies_block : forall V (h : heap V) f o, glob_npts (fwin f) >= 0 -> block_exists h f -> block_exists h o -> freadonly f = false -> fwin f = fwin o ->
  exists h', run (field_copy_assign f o) h = RDone h' tt /\ forall i, 0 <= i < glob_npts (fwin f) -> bdata (h' (fbuf f)) i = bdata (h (fbuf o)) i.
Proof. exact assign_all. Qed.
Print Assumptions C50_copies_block.
Theorem C50_refused : forall V (h : heap V) f o, freadonly f = true \/ fwin f <> fwin o -> run (field_copy_assign f o) h = RThrow.
Proof. exact assign_refused. Qed.
Print Assumptions C50_refused.
(** reset_values from an array: the field's values are the array's, in iteration
    order; nothing else changes. *)
Theorem C50_reset : forall V (zero : V) (h : heap V) f b i, live h f -> freadonly f = false -> b <> fbuf f ->
  (forall j, i <= j < i + local_npts (fwin f) -> bcells (h b) j = true) ->
  exists N, forall fuel, (N <= fuel)%nat -> exists h', run (reset_values zero fuel f (Some (b, i))) h = RDone h' tt /\
    contents h' f = map (fun k => bdata (h b) (i + k)) (zrange (local_npts (fwin f))) /\
    differs_only h h' (fun c j => c = fbuf f /\ In j (cells_of f)).
Proof. exact reset_array. Qed.
Print Assumptions C50_reset.
(** reset_values without array: all zero. *)
Theorem C50_reset_null : forall V (zero : V) (h : heap V) f, live h f -> freadonly f = false ->
  exists N, forall fuel, (N <= fuel)%nat -> exists h', run (reset_values zero fuel f None) h = RDone h' tt /\
    contents h' f = map (fun _ => zero) (zrange (local_npts (fwin f))) /\
    differs_only h h' (fun c j => c = fbuf f /\ In j (cells_of f)).
Proof. exact reset_null. Qed.
Print Assumptions C50_reset_null.
Theorem C50_reset_readonly : forall V (zero : V) (h : heap V) f v fuel, freadonly f = true -> run (reset_values zero fuel f v) h = RThrow.
Proof. exact reset_readonly. Qed.
Print Assumptions C50_reset_readonly.

(** A 3x2x1 view into a 4x3x2 block, 24 elements. *)
Definition c49_view (b : nat) : field :=
  Field (Win (IV 4 3 2) (IV 1 1 0) (IV 3 2 1)) (Win (IV 4 3 2) (IV 1 1 0) (IV 3 2 1)) (bc_make false false false iv_zero) (ghost_n 0) (ghost_n 0) b false false 1.
Definition c49_heap : heap Z := fun b => Block (fun i => (0 <=? i) && (i <? 24)) (fun i => 100 * Z.of_nat b + i).
Example C49_hyps_met : live c49_heap (c49_view 0) /\ in_box (wext (fwin (c49_view 0))) (IV 2 1 0) /\
  rank (wext (fwin (c49_view 0))) (IV 2 1 0) = 5 /\ contents c49_heap (c49_view 0) = [5; 6; 7; 9; 10; 11] /\
  (exists h, run (get_at (c49_view 0) (IV 2 1 0)) c49_heap = RDone h 11) /\
  index_asserts (c49_view 0) (IV 2 0 0) = false /\ index_asserts (c49_view 0) (IV 1 1 0) = true /\ woff (fwin (c49_view 0)) <> iv_zero.
Proof.
  split. { split; [repeat split|]. split; [repeat split; discriminate|]. intros i I. change (In i [5; 6; 7; 9; 10; 11]) in I. cbn in I. intuition (subst; reflexivity). }
  split; [repeat split; discriminate|]. split; [reflexivity|]. split; [reflexivity|]. split; [eexists; reflexivity|]. split; [reflexivity|]. split; [reflexivity|]. discriminate.
Qed.
Example C50_hyps_met : pos_dims (wext (fwin (c49_view 0))) /\ fits (fwin (c49_view 0)) /\ block_exists c49_heap (c49_view 0) /\ block_exists c49_heap (c49_view 1) /\
  fwin (c49_view 0) = fwin (c49_view 1) /\
  exists h', run (field_copy_assign (c49_view 0) (c49_view 1)) c49_heap = RDone h' tt /\ contents h' (c49_view 0) = [105; 106; 107; 109; 110; 111] /\
    bdata (h' 0%nat) 23 = 123 /\ ~ In 23 (cells_of (c49_view 0)).
Proof.
  split; [repeat split|]. split; [repeat split; discriminate|].
  assert (B : forall b, block_exists c49_heap (c49_view b)) by (intros b i I; change (0 <= i < 24) in I; cbn; lia).
  split; [apply B|]. split; [apply B|]. split; [reflexivity|].
  destruct (C50_copy Z c49_heap (c49_view 0) (c49_view 1)) as (h' & E & C & _); [repeat split|repeat split; discriminate|apply B|apply B|reflexivity|reflexivity|].
  destruct (C50_copies_block Z c49_heap (c49_view 0) (c49_view 1)) as (h2 & E2 & A); [discriminate|apply B|apply B|reflexivity|reflexivity|].
  rewrite E in E2. injection E2 as <-. exists h'. split; [exact E|]. split; [exact C|]. split; [exact (A 23 ltac:(cbn; lia))|].
  change (cells_of (c49_view 0)) with [5; 6; 7; 9; 10; 11]. cbn. intuition discriminate.
Qed.
