(** Properties C07-C10: ghost counts and field windows. *)
From Verif Require Import Prelude WindowM WindowS GhostM FieldM FieldS FieldP.

Theorem C07_min_laws : forall a b c,
  g_min a b = g_min b a /\ g_min a (g_min b c) = g_min (g_min a b) c /\
  (g_wf a -> g_min a a = a) /\ g_eqb (g_min a a) a = true /\
  g_le (g_min a b) a /\ g_le (g_min a b) b /\
  (g_le c a -> g_le c b -> g_le c (g_min a b)).
Proof. exact ghost_min_laws. Qed.
Print Assumptions C07_min_laws.

Theorem C07_finite_add_laws : forall a b c, ginf a = false -> ginf b = false -> ginf c = false ->
  g_add a b = g_add b a /\ g_add a (g_add b c) = g_add (g_add a b) c /\
  gminus (g_add a b) = iv_add (gminus a) (gminus b) /\ gplus (g_add a b) = iv_add (gplus a) (gplus b) /\
  g_sub (g_add a b) b = Ok a.
Proof. exact ghost_add_laws. Qed.
Print Assumptions C07_finite_add_laws.

Theorem C07_infinite_laws : forall i a, g_wf i -> ginf i = true -> ginf a = false ->
  g_add i a = i /\ g_add a i = i /\ g_sub a i = Throw /\
  (g_wf a -> g_le a (ghost_n 9001) -> g_min i a = a /\ g_min a i = a).
Proof. exact ghost_inf_laws. Qed.
Print Assumptions C07_infinite_laws.

(** Ghost counts built by the constructors satisfy the hypotheses. *)
Theorem C07_constructed_wf : forall m p, g_wf (mk_ghost m p).
Proof. exact mk_ghost_wf. Qed.
Print Assumptions C07_constructed_wf.

(** Changing one side of a count keeps the other side and the flag right, and
    two counts compare equal when all six numbers agree. *)
Theorem C07_setters : forall g m,
  (gminus (g_set_minus g m) = m /\ gplus (g_set_minus g m) = gplus g /\ g_wf (g_set_minus g m)) /\
  (gplus (g_set_plus g m) = m /\ gminus (g_set_plus g m) = gminus g /\ g_wf (g_set_plus g m)).
Proof. exact ghost_setters. Qed.
Print Assumptions C07_setters.

Theorem C07_equality : forall a b, g_eqb a b = true <-> gminus a = gminus b /\ gplus a = gplus b.
Proof. exact ghost_eqb_iff. Qed.
Print Assumptions C07_equality.

Example C07_hyps_met : let a := mk_ghost (IV 1 2 3) (IV 4 5 6) in let i := ghost_n GHOST_MAX in
  ginf a = false /\ ginf i = true /\ g_le a i.
Proof. unfold g_le, iv_le, GHOST_MAX; cbn. repeat split; discriminate || lia. Qed.

(** Two different infinite counts do not commute (the left one wins). *)
Theorem C07_infinite_add_commutes_refuted : exists a b,
  g_wf a /\ g_wf b /\ ginf a = true /\ ginf b = true /\ g_eqb (g_add a b) (g_add b a) = false.
Proof.
  exists (ghost_n 9001), (ghost_n 9002).
  split; [apply mk_ghost_wf|]. split; [apply mk_ghost_wf|]. vm_compute. auto.
Qed.
Print Assumptions C07_infinite_add_commutes_refuted.

Theorem C08_point_to_ghost_exact : forall p g n, g_nonneg g -> pos_dims n ->
  (g_le (point_to_ghost p) g <->
   forall i, in_box n i ->
     covers (grown (Win n iv_zero n) (gminus g) (gplus g)) (iv_add i p)).
Proof. exact point_to_ghost_exact. Qed.
Print Assumptions C08_point_to_ghost_exact.

Example C08_hyps_met : g_nonneg (mk_ghost (IV 2 0 1) (IV 0 3 1)) /\ pos_dims (IV 5 1 7) /\
  g_le (point_to_ghost (IV (-2) 3 0)) (mk_ghost (IV 2 0 1) (IV 0 3 1)).
Proof. unfold g_nonneg, g_le, iv_le, pos_dims; cbn; lia. Qed.

Theorem C09_field_layout : forall dim bx by_ bz extra g buf nt,
  iv_le (IV 1 1 1) dim -> iv_le iv_zero extra -> g_nonneg g ->
  let f := patch_field dim bx by_ bz extra g buf nt in
  layout1 (ix dim) (ix (gminus g)) (ix (gplus g)) (if bx then ix extra else 0)
          (ix (wglob (fwin f))) (ix (woff (fint f))) (ix (wext (fint f))) /\
  layout1 (iy dim) (iy (gminus g)) (iy (gplus g)) (if by_ then iy extra else 0)
          (iy (wglob (fwin f))) (iy (woff (fint f))) (iy (wext (fint f))) /\
  layout1 (iz dim) (iz (gminus g)) (iz (gplus g)) (if bz then iz extra else 0)
          (iz (wglob (fwin f))) (iz (woff (fint f))) (iz (wext (fint f))) /\
  woff (fwin f) = iv_zero /\ wext (fwin f) = wglob (fwin f) /\ wglob (fint f) = wglob (fwin f) /\
  fits (fwin f) /\ fits (fint f) /\
  (0 < ix (wext (fint f)) /\ 0 < iy (wext (fint f)) /\ 0 < iz (wext (fint f))).
Proof. exact patch_field_layout. Qed.
Print Assumptions C09_field_layout.

(** What num_extra() and has_extra() report: the extra cells of the location in
    the directions with a boundary, none in the others. *)
Theorem C09_extra_counts : forall bx by_ bz extra,
  num_extra (bc_make bx by_ bz extra) = IV (if bx then ix extra else 0) (if by_ then iy extra else 0) (if bz then iz extra else 0) /\
  has_extra (bc_make bx by_ bz extra) = IV (if bx then ix extra else 0) (if by_ then iy extra else 0) (if bz then iz extra else 0).
Proof. exact extra_counts. Qed.
Print Assumptions C09_extra_counts.

Example C09_hyps_met :
  iv_le (IV 1 1 1) (IV 10 1 3) /\ iv_le iv_zero (IV 1 0 0) /\ g_nonneg (ghost_n 2) /\
  fint (patch_field (IV 10 1 3) true false true (IV 1 0 0) (ghost_n 2) 0 4)
  = Win (IV 15 1 7) (IV 2 0 2) (IV 11 1 3).
Proof. unfold g_nonneg, iv_le; cbn. repeat split; lia. Qed.

Theorem C10_reset_history : forall gs f g,
  fold_left reset_valid_ghosts (gs ++ [g]) f = reset_valid_ghosts f g /\
  fold_left reset_valid_ghosts (gs ++ [fvalid f]) f = f.
Proof. exact resets_history. Qed.
Print Assumptions C10_reset_history.

Theorem C10_active_window : forall dim bx by_ bz extra g buf nt gs h,
  full_3d dim -> iv_le iv_zero extra -> g_nonneg g ->
  let f0 := patch_field dim bx by_ bz extra g buf nt in
  let f := fold_left reset_valid_ghosts (gs ++ [h]) f0 in
  fwin f = grown (fint f0) (gminus h) (gplus h) /\ fint f = fint f0 /\ fvalid f = h /\
  fghosts f = g /\ fbuf f = buf /\
  (g_nonneg h -> g_le h g -> fits (fwin f)).
Proof. exact resets_window. Qed.
Print Assumptions C10_active_window.

Example C10_hyps_met : full_3d (IV 4 5 6) /\ iv_le iv_zero (IV 1 0 0) /\ g_nonneg (ghost_n 2) /\
  g_nonneg (ghost_n 1) /\ g_le (ghost_n 1) (ghost_n 2) /\
  fwin (fold_left reset_valid_ghosts [ghost_n 0; ghost_n 1]
          (patch_field (IV 4 5 6) true false false (IV 1 0 0) (ghost_n 2) 0 4))
  = Win (IV 9 9 10) (IV 1 1 1) (IV 7 7 8).
Proof. unfold full_3d, g_nonneg, g_le, iv_le; cbn. repeat split; lia. Qed.

(** In a direction with a single cell the ghosts are counted but not stored, so
    dropping them makes the active window's extent negative. *)
Theorem C10_degenerate_direction_refuted : exists dim g h,
  iv_le (IV 1 1 1) dim /\ g_nonneg g /\ g_nonneg h /\ g_le h g /\
  let f := reset_valid_ghosts (patch_field dim false false false iv_zero g 0 1) h in
  fwin f <> fint f /\ gminus h = iv_zero /\ gplus h = iv_zero /\ iz (wext (fwin f)) < 0.
Proof.
  exists (IV 4 4 1), (ghost_n 1), (ghost_n 0). unfold g_nonneg, g_le, iv_le; cbn.
  repeat split; try lia. intros H. discriminate H.
Qed.
Print Assumptions C10_degenerate_direction_refuted.
