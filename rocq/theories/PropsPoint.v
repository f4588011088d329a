(** Property theorems about the point operators: C45. *)
From Verif Require Import Prelude WindowM WindowS GhostM FieldM MaskM NeboM StencilM LagrangeM IterM IterS PointM PointS PointP.

(** Built from a field, an operator remembers exactly the positions (counted
    in iteration order) holding a non-zero value, in increasing order. *)
Theorem C45_positions : forall h locs, live h locs -> exists N, forall fuel, (N <= fuel)%nat -> exists idx,
  run (collect_indices fuel locs) h = RDone h idx /\
  (forall k, In k idx <-> 0 <= k /\ exists v, nth_error (contents h locs) (Z.to_nat k) = Some v /\ v <> 0%Qc) /\
  (forall i j a b, (i < j)%nat -> nth_error idx i = Some a -> nth_error idx j = Some b -> a < b).
Proof. exact positions_ok. Qed.
Print Assumptions C45_positions.
(** Gathering: the points receive, in order, the values of the marked cells. *)
Theorem C45_gather : forall h locs fld pts, live h locs -> live h fld -> live h pts -> fwin fld = fwin locs -> whole_block locs ->
  let marked := at_marks (contents h locs) (contents h fld) in
  length (contents h pts) = length marked -> fbuf fld <> fbuf pts -> freadonly pts = false ->
  exists N, forall fuel, (N <= fuel)%nat -> exists idx h',
    run (collect_indices fuel locs) h = RDone h idx /\ run (field_to_point fuel idx fld pts) h = RDone h' tt /\
    contents h' pts = marked /\ differs_only h h' (fun b i => b = fbuf pts /\ In i (cells_of pts)).
Proof. exact gather_marked. Qed.
Print Assumptions C45_gather.
(** Scattering: the marked cells receive the points' values, in order; every
    other cell of the field, and every other field, is left alone. *)
Theorem C45_scatter : forall h locs fld pts, live h locs -> live h fld -> live h pts -> fwin fld = fwin locs -> whole_block locs ->
  length (contents h pts) = length (filter (fun m => negb (qc_eqb m 0)) (contents h locs)) -> fbuf pts <> fbuf fld -> freadonly fld = false ->
  exists N, forall fuel, (N <= fuel)%nat -> exists idx h',
    run (collect_indices fuel locs) h = RDone h idx /\ run (point_to_field fuel idx pts fld) h = RDone h' tt /\
    at_marks (contents h locs) (contents h' fld) = contents h pts /\
    (forall k m v, nth_error (contents h locs) k = Some m -> m = 0%Qc -> nth_error (contents h fld) k = Some v -> nth_error (contents h' fld) k = Some v) /\
    differs_only h h' (fun b i => b = fbuf fld /\ In i (cells_of fld)).
Proof. exact scatter_marked. Qed.
Print Assumptions C45_scatter.
(** Round trips, for any list of distinct existing positions. *)
Theorem C45_scatter_gather : forall h idx src fld back, live h src -> live h back ->
  length idx = length (contents h src) -> length idx = length (contents h back) -> NoDup idx ->
  fbuf src <> fbuf fld -> fbuf back <> fbuf fld -> freadonly fld = false -> freadonly back = false -> (forall j, In j idx -> bcells (h (fbuf fld)) j = true) ->
  forall fuel, (length idx <= fuel)%nat -> exists h1 h2,
    run (point_to_field fuel idx src fld) h = RDone h1 tt /\ run (field_to_point fuel idx fld back) h1 = RDone h2 tt /\
    contents h2 back = contents h src.
Proof. exact scatter_gather. Qed.
Print Assumptions C45_scatter_gather.
Theorem C45_gather_scatter : forall h idx fld pts, live h pts -> length idx = length (contents h pts) -> NoDup idx ->
  fbuf pts <> fbuf fld -> freadonly fld = false -> freadonly pts = false -> (forall j, In j idx -> bcells (h (fbuf fld)) j = true) ->
  forall fuel, (length idx <= fuel)%nat -> exists h1 h2,
    run (field_to_point fuel idx fld pts) h = RDone h1 tt /\ run (point_to_field fuel idx pts fld) h1 = RDone h2 tt /\
    forall i, bdata (h2 (fbuf fld)) i = bdata (h (fbuf fld)) i.
Proof. exact gather_scatter. Qed.
Print Assumptions C45_gather_scatter.
(** Fewer positions than points: the scatter reads past the end of its list. *)
Theorem C45_too_few_positions : forall h idx src dest, live h src -> (length idx < length (contents h src))%nat ->
  freadonly dest = false -> (forall j, In j idx -> bcells (h (fbuf dest)) j = true) ->
  forall fuel, (Z.to_nat (local_npts (fwin src)) <= fuel)%nat -> run (point_to_field fuel idx src dest) h = RUB.
Proof. exact few_indices. Qed.
Print Assumptions C45_too_few_positions.
(** On a view of part of a block the positions do not denote the marked cells:
    with only the second cell of the view marked (value 12), the point
    receives the first one's value. *)
Theorem C45_view_refuted : exists h locs fld pts, live h locs /\ live h fld /\ live h pts /\ fwin locs = fwin fld /\
  contents h locs = [0%Qc; 1%Qc] /\ contents h fld = [qc_of 11; qc_of 12] /\
  exists idx h', run (collect_indices 10 locs) h = RDone h idx /\ run (field_to_point 10 idx fld pts) h = RDone h' tt /\
    contents h' pts = [qc_of 11].
Proof. exact (ex_intro _ pheap (ex_intro _ (pview 0) (ex_intro _ (pview 1) (ex_intro _ (ppts 2) view_wrong)))). Qed.
Print Assumptions C45_view_refuted.

Example C45_hyps_met : live pheap (pfull 0) /\ live pheap (pfull 1) /\ live pheap (ppts 2) /\ fwin (pfull 1) = fwin (pfull 0) /\ whole_block (pfull 0) /\
  length (contents pheap (ppts 2)) = length (filter (fun m => negb (qc_eqb m 0)) (contents pheap (pfull 0))) /\
  at_marks (contents pheap (pfull 0)) (contents pheap (pfull 1)) = [qc_of 12].
Proof. exact p_example. Qed.
