(** Property theorems about Nebo assignments and reductions: C11-C14, C17, C19. *)
From Verif Require Import Prelude WindowM WindowS WindowP GhostM FieldM FieldS FieldP MaskM MaskS MaskP NeboM NeboS NeboP NeboQ NeboA NeboB NeboC NeboD NeboE NeboF NeboH NeboI.

(** C11.  V, its + and *, and all element functions are arbitrary.  [region]
    and [denote] are in NeboS.  Fuel is only there to make the loop total: from
    some amount on the result does not depend on it. *)
Theorem C11_assign : forall V (vadd vmul : V -> V -> V) n h f e,
  operands_ok V n h e -> destination_ok V n h f -> alias_ok V f e -> covers_extra V f e ->
  (exists p, region V n f e p) ->
  exists N, forall fuel, (N <= fuel)%nat -> exists h',
    run (fst (nebo_assign V vadd vmul fuel f e)) h = RDone h' tt /\
    assigned V h h' f (region V n f e) (denote V vadd vmul h e).
Proof. exact assign_correct. Qed.
Print Assumptions C11_assign.

(** If the expression cannot reach the boundary extra cells of f, the
    assignment throws before writing anything. *)
Theorem C11_assign_throws : forall V (vadd vmul : V -> V -> V) n h f e fuel,
  operands_ok V n h e -> ~ covers_extra V f e ->
  run (fst (nebo_assign V vadd vmul fuel f e)) h = RThrow.
Proof. exact assign_throws_true. Qed.
Print Assumptions C11_assign_throws.

(** The interior is assigned whenever every operand has enough valid ghosts there. *)
Theorem C11_region_has_interior : forall V n h f (e : expr V),
  destination_ok V n h f -> (forall p, interior_cell n f p -> expr_known V n e p) ->
  forall p, interior_cell n f p -> region V n f e p.
Proof. exact region_interior. Qed.
Print Assumptions C11_region_has_interior.

Example C11_hyps_met :
  operands_ok Z xdim xheap xe /\ destination_ok Z xdim xheap xf /\ alias_ok Z xf xe /\
  covers_extra Z xf xe /\ region Z xdim xf xe (IV 3 1 0) /\ interior_cell xdim xf (IV 3 1 0).
Proof.
  refine (conj x_operands (conj x_destination (conj x_alias (conj x_covers (conj x_region _))))).
  vm_compute; intuition congruence.
Qed.
(** and a case that throws: the source has no ghosts for the extra cell *)
Example C11_throws_hyps_met :
  let s := patch_field xdim false false false iv_zero (xg 0) 1 4 in
  operands_ok Z xdim xheap (EField Z s) /\ ~ covers_extra Z xf (EField Z s).
Proof. exact x_throw_case. Qed.

(** C12.  All loads hit valid cells of the field being read (or the cell of a
    single-value field), inside its block; all stores hit cells of f; shifted
    masks are asked at valid cells only. *)
Theorem C12_accesses : forall V (vadd vmul : V -> V -> V) n h f e,
  operands_ok V n h e -> destination_ok V n h f -> alias_ok V f e -> covers_extra V f e ->
  (exists p, region V n f e p) ->
  exists N, forall fuel, (N <= fuel)%nat ->
    (forall b i, In (ALoad b i) (accesses V (fst (nebo_assign V vadd vmul fuel f e)) h) ->
       (exists g s p, In (g, s) (reads V e iv_zero) /\ b = fbuf g /\ i = cell g p /\
          valid_cell n g p /\ 0 <= i < glob_npts (fint g)) \/
       (exists g, In g (singles V e) /\ b = fbuf g /\ i = 0)) /\
    (forall b i, In (AStore b i) (accesses V (fst (nebo_assign V vadd vmul fuel f e)) h) ->
       b = fbuf f /\ exists p, region V n f e p /\ any_cell n f p /\ i = cell f p) /\
    (forall m s p, In (m, s) (masks V e iv_zero) -> region V n f e p ->
       valid_cell n (mgeo m) (iv_add p s) /\ 0 <= cell (mgeo m) (iv_add p s) < glob_npts (fint (mgeo m))).
Proof. exact assign_accesses. Qed.
Print Assumptions C12_accesses.

Example C12_hyps_met :
  operands_ok Z xdim xheap xe /\ destination_ok Z xdim xheap xf /\ alias_ok Z xf xe /\
  covers_extra Z xf xe /\ region Z xdim xf xe (IV 3 1 0) /\
  (0 < length (accesses Z (fst (nebo_assign Z Z.add Z.mul 100 xf xe)) xheap))%nat.
Proof.
  refine (conj x_operands (conj x_destination (conj x_alias (conj x_covers (conj x_region _))))).
  apply Nat.ltb_lt; vm_compute; reflexivity.
Qed.

(** C13.  f and g are any two fields of the patch, with any ghosts, boundary
    extras and history of valid-ghost resets. *)
Theorem C13_windows_agree : forall V n f g (useGhost : bool) (e : expr V) rg lg s,
  user_field n f -> user_field n g -> assign_ghosts V useGhost f e = Ok (rg, lg) ->
  let wl := fwin (reset_valid_ghosts f (mk_ghost (gminus lg) (gplus lg))) in
  let wt := fwin (resize_ghost f (gminus lg) (gplus lg)) in
  let wr := fwin (resize_ghost_and_shift_window g (gminus rg) (iv_sub (gplus rg) (has_extra (fbc g))) s) in
  wl = wt /\ wext wl = wext wr /\ wext wl = iv_add (iv_add n (gminus rg)) (gplus rg) /\
  forall k p, 0 <= k < local_npts wl -> 0 < ix (wext wl) -> 0 < iy (wext wl) -> 0 < iz (wext wl) ->
    let pt := iv_sub (dec (ix (wext wl)) (iy (wext wl)) k) (gminus rg) in
    p = pt ->
    icur (Nat.iter (Z.to_nat k) it_incr (it_begin 0 wl)) = cell f p /\
    icur (Nat.iter (Z.to_nat k) it_incr (it_begin 0 wr)) = cell g (iv_add p s).
Proof. exact windows_agree. Qed.
Print Assumptions C13_windows_agree.

Theorem C13_user_fields : forall n f, user_field n f ->
  on_patch n f /\ forall p, any_cell n f p -> 0 <= cell f p < glob_npts (fint f).
Proof. exact user_field_cells. Qed.
Print Assumptions C13_user_fields.

Example C13_hyps_met :
  user_field xdim xf /\ user_field xdim xt /\
  exists rg lg, assign_ghosts Z true xf xe = Ok (rg, lg) /\ gplus rg = IV 1 1 0 /\ gminus rg = IV 1 1 0.
Proof. split; [exact user_xf|]. split; [exact user_xt|]. vm_compute. do 2 eexists. split; [reflexivity|]. split; reflexivity. Qed.

(** C14 *)
Theorem C14_interior_assign : forall V (vadd vmul : V -> V -> V) n h f e,
  operands_ok V n h e -> destination_ok V n h f -> alias_ok V f e ->
  (forall p, interior_cell n f p -> expr_known V n e p) ->
  exists N, forall fuel, (N <= fuel)%nat -> exists h',
    run (fst (interior_assign V vadd vmul fuel f e)) h = RDone h' tt /\
    assigned V h h' f (interior_cell n f) (denote V vadd vmul h e).
Proof. exact interior_correct. Qed.
Print Assumptions C14_interior_assign.

(** Without the hypothesis on the operands a release build reads outside the
    block of the source. *)
Theorem C14_unchecked_refuted : exists n h f e,
  operands_ok Z n h e /\ destination_ok Z n h f /\ alias_ok Z f e /\ covers_extra Z f e /\
  (forall fuel, (2 <= fuel)%nat -> run (fst (interior_assign Z Z.add Z.mul fuel f e)) h = RUB) /\
  exists g s, In (g, s) (reads Z e iv_zero) /\
    In (ALoad (fbuf g) (glob_npts (fint g))) (accesses Z (fst (interior_assign Z Z.add Z.mul 2 f e)) h).
Proof. exact interior_unchecked. Qed.
Print Assumptions C14_unchecked_refuted.

Example C14_hyps_met :
  operands_ok Z xdim xheap xe /\ destination_ok Z xdim xheap xf /\ alias_ok Z xf xe /\
  (forall p, interior_cell xdim xf p -> expr_known Z xdim xe p).
Proof. exact (conj x_operands (conj x_destination (conj x_alias x_interior))). Qed.

(** C17.  [p0 :: rest] is the list of all points where the expression is
    known, in memory order. *)
Theorem C17_fold : forall V (vadd vmul : V -> V -> V) n h e,
  operands_ok V n h e -> has_leaf V e = true -> (exists p, expr_known V n e p) ->
  exists N p0 rest, lists_in_order (expr_known V n e) (p0 :: rest) /\
    (forall A (proc : A -> V -> A) a0 fuel, (N <= fuel)%nat ->
       run (nebo_fold V vadd vmul fuel proc a0 e) h
       = RDone h (fold_left (fun a p => proc a (denote V vadd vmul h e p)) (p0 :: rest) a0)) /\
    (forall (proc : V -> V -> V) fuel, (N <= fuel)%nat ->
       run (nebo_reduce V vadd vmul fuel proc e) h
       = RDone h (fold_left (fun a p => proc a (denote V vadd vmul h e p)) rest (denote V vadd vmul h e p0))).
Proof. exact reduction_ok. Qed.
Print Assumptions C17_fold.

(** The interior variants cover the n cells of the patch. *)
Theorem C17_fold_interior : forall V (vadd vmul : V -> V -> V) n h e,
  pos_dims n -> operands_ok V n h e -> has_leaf V e = true ->
  (forall p, in_box n p -> expr_known V n e p) ->
  exists N p0 rest, lists_in_order (in_box n) (p0 :: rest) /\
    (forall A (proc : A -> V -> A) a0 fuel, (N <= fuel)%nat ->
       run (nebo_fold_interior V vadd vmul fuel proc a0 e) h
       = RDone h (fold_left (fun a p => proc a (denote V vadd vmul h e p)) (p0 :: rest) a0)) /\
    (forall (proc : V -> V -> V) fuel, (N <= fuel)%nat ->
       run (nebo_reduce_interior V vadd vmul fuel proc e) h
       = RDone h (fold_left (fun a p => proc a (denote V vadd vmul h e p)) rest (denote V vadd vmul h e p0))).
Proof. exact reduction_interior_ok. Qed.
Print Assumptions C17_fold_interior.

Theorem C17_max_min : forall V (vadd vmul : V -> V -> V) n h e ltb,
  operands_ok V n h e -> has_leaf V e = true -> (exists p, expr_known V n e p) -> strict_order V ltb ->
  let val := denote V vadd vmul h e in
  exists N hi lo, (forall fuel, (N <= fuel)%nat ->
      run (nebo_max V vadd vmul fuel ltb e) h = RDone h hi /\ run (nebo_min V vadd vmul fuel ltb e) h = RDone h lo) /\
    (exists p, expr_known V n e p /\ hi = val p) /\ (exists p, expr_known V n e p /\ lo = val p) /\
    forall p, expr_known V n e p -> ltb hi (val p) = false /\ ltb (val p) lo = false.
Proof. exact max_min_correct. Qed.
Print Assumptions C17_max_min.

(** Sum and norm: the norm is the root of the sum of squares. *)
Theorem C17_sum_norm : forall V (vadd vmul : V -> V -> V) n h e vsqrt vsquare,
  operands_ok V n h e -> has_leaf V e = true -> (exists p, expr_known V n e p) ->
  let val := denote V vadd vmul h e in
  exists N p0 rest, lists_in_order (expr_known V n e) (p0 :: rest) /\
    forall fuel, (N <= fuel)%nat ->
      run (nebo_sum V vadd vmul fuel e) h = RDone h (fold_left vadd (map val rest) (val p0)) /\
      run (nebo_norm V vadd vmul fuel vsqrt vsquare e) h
      = RDone h (vsqrt (fold_left vadd (map (fun p => vsquare (val p)) rest) (vsquare (val p0)))).
Proof. exact sum_norm_correct. Qed.
Print Assumptions C17_sum_norm.

(** The same over the n cells of the patch. *)
Theorem C17_max_min_interior : forall V (vadd vmul : V -> V -> V) n h e ltb,
  pos_dims n -> operands_ok V n h e -> has_leaf V e = true -> (forall p, in_box n p -> expr_known V n e p) -> strict_order V ltb ->
  let val := denote V vadd vmul h e in
  exists N hi lo, (forall fuel, (N <= fuel)%nat ->
      run (nebo_max_interior V vadd vmul fuel ltb e) h = RDone h hi /\ run (nebo_min_interior V vadd vmul fuel ltb e) h = RDone h lo) /\
    (exists p, in_box n p /\ hi = val p) /\ (exists p, in_box n p /\ lo = val p) /\
    forall p, in_box n p -> ltb hi (val p) = false /\ ltb (val p) lo = false.
Proof. exact max_min_interior. Qed.
Print Assumptions C17_max_min_interior.
Theorem C17_sum_norm_interior : forall V (vadd vmul : V -> V -> V) n h e vsqrt vsquare,
  pos_dims n -> operands_ok V n h e -> has_leaf V e = true -> (forall p, in_box n p -> expr_known V n e p) ->
  let val := denote V vadd vmul h e in
  exists N p0 rest, lists_in_order (in_box n) (p0 :: rest) /\
    forall fuel, (N <= fuel)%nat ->
      run (nebo_sum_interior V vadd vmul fuel e) h = RDone h (fold_left vadd (map val rest) (val p0)) /\
      run (nebo_norm_interior V vadd vmul fuel vsqrt vsquare e) h
      = RDone h (vsqrt (fold_left vadd (map (fun p => vsquare (val p)) rest) (vsquare (val p0)))).
Proof. exact sum_norm_interior. Qed.
Print Assumptions C17_sum_norm_interior.

(** "Interior" means different things: a field with boundary extra cells has
    interior cells that interior_assign writes and the interior reductions skip. *)
Theorem C17_interior_extra_refuted : exists n f p, user_field n f /\ interior_cell n f p /\ ~ in_box n p.
Proof. exact interior_extra. Qed.
Print Assumptions C17_interior_extra_refuted.

(** With no field or mask in the expression nothing ends the loop: no reduction
    returns, in any memory; over a number it runs for ever. *)
Theorem C17_no_field_refuted : forall V (vadd vmul : V -> V -> V) h e, has_leaf V e = false -> forall fuel h',
  (forall A (proc : A -> V -> A) a0 r, run (nebo_fold V vadd vmul fuel proc a0 e) h <> RDone h' r /\
     run (nebo_fold_interior V vadd vmul fuel proc a0 e) h <> RDone h' r) /\
  (forall (proc : V -> V -> V) r, run (nebo_reduce V vadd vmul fuel proc e) h <> RDone h' r /\
     run (nebo_reduce_interior V vadd vmul fuel proc e) h <> RDone h' r).
Proof. exact no_field. Qed.
Print Assumptions C17_no_field_refuted.
Example C17_no_field_case : has_leaf Z (EScalar Z 3) = false /\
  forall h proc fuel, run (nebo_reduce Z Z.add Z.mul fuel proc (EScalar Z 3)) h = RFuel.
Proof. split; [reflexivity|]. intros h proc fuel. exact (one_number Z Z.add Z.mul h 3 proc fuel). Qed.

Example C17_hyps_met :
  operands_ok Z xdim xheap xe /\ has_leaf Z xe = true /\ expr_known Z xdim xe (IV (-1) 0 0) /\
  (forall p, in_box xdim p -> expr_known Z xdim xe p) /\ strict_order Z Z.ltb /\ pos_dims xdim.
Proof. exact x_reduction. Qed.

(** C19.  The full statement would be: after f <<= e, every cell that f's
    record calls valid has been assigned.  It is false. *)
Theorem C19_valid_ghosts_refuted : exists n h f e,
  operands_ok Z n h e /\ destination_ok Z n h f /\ alias_ok Z f e /\ covers_extra Z f e /\
  (exists p, region Z n f e p) /\
  exists p, valid_cell n (snd (nebo_assign Z Z.add Z.mul 20 f e)) p /\ ~ region Z n f e p /\
    forall h', run (fst (nebo_assign Z Z.add Z.mul 20 f e)) h = RDone h' tt ->
      value Z h' f p = value Z h f p /\ value Z h' f p <> denote Z Z.add Z.mul h e p.
Proof. exact valid_ghosts_stale. Qed.
Print Assumptions C19_valid_ghosts_refuted.

(** What does hold: the record is right when the expression covers all of f's
    valid cells, and a caller who resets it to the counts of the assignment
    gets exactly the assigned cells. *)
Theorem C19_record_covered : forall V (vadd vmul : V -> V -> V) n h f e,
  operands_ok V n h e -> destination_ok V n h f -> alias_ok V f e -> covers_extra V f e ->
  (exists p, valid_cell n f p) -> (forall p, valid_cell n f p -> expr_known V n e p) ->
  exists N, forall fuel, (N <= fuel)%nat -> exists h',
    run (fst (nebo_assign V vadd vmul fuel f e)) h = RDone h' tt /\
    forall p, valid_cell n (snd (nebo_assign V vadd vmul fuel f e)) p -> value V h' f p = denote V vadd vmul h e p.
Proof. exact record_covered. Qed.
Print Assumptions C19_record_covered.

Theorem C19_record_repaired : forall V n h f (e : expr V),
  operands_ok V n h e -> destination_ok V n h f -> covers_extra V f e ->
  exists rg lg, assign_ghosts V true f e = Ok (rg, lg) /\
    forall p, valid_cell n (reset_valid_ghosts f (mk_ghost (gminus lg) (gplus lg))) p <-> region V n f e p.
Proof. exact record_repaired. Qed.
Print Assumptions C19_record_repaired.

Example C19_hyps_met :
  let e := EField Z xt in
  operands_ok Z xdim xheap e /\ destination_ok Z xdim xheap xf /\ alias_ok Z xf e /\ covers_extra Z xf e /\
  valid_cell xdim xf (IV (-1) 0 0) /\ forall p, valid_cell xdim xf p -> expr_known Z xdim e p.
Proof. exact x_covered_case. Qed.
