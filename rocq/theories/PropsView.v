(** Property C10, continued: valid ghosts of views. *)
From Verif Require Import Prelude WindowM WindowS GhostM FieldM FieldS InteriorS ViewS.
From Verif Require ViewP.

(** C10.  Copies, partition counts and views of the whole field keep window and
    valid ghosts in step: a view starts with all ghosts valid, and after that
    the last reset decides. *)
Theorem C10_views : forall dim bx by_ bz extra g buf nt os,
  full_3d dim -> iv_le iv_zero extra -> g_nonneg g ->
  let f0 := patch_field dim bx by_ bz extra g buf nt in
  views_of (fwin f0) os ->
  let f := view f0 os in let h := valid_after g g os in
  fvalid f = h /\ fwin f = grown (fint f0) (gminus h) (gplus h) /\ fint f = fint f0 /\ fghosts f = g /\ fbuf f = buf.
Proof. exact ViewP.views_window. Qed.
Print Assumptions C10_views.

Example C10_views_hyps_met : let f0 := patch_field (IV 4 5 6) true false false (IV 1 0 0) (ghost_n 2) 0 4 in
  let os := [VReset (ghost_n 0); VWindow (fwin f0); VReset (ghost_n 1); VParts 2; VCopy] in
  full_3d (IV 4 5 6) /\ iv_le iv_zero (IV 1 0 0) /\ g_nonneg (ghost_n 2) /\ views_of (fwin f0) os /\ valid_after (ghost_n 2) (ghost_n 2) os = ghost_n 1.
Proof.
  unfold full_3d, g_nonneg, iv_le. split; [cbn; lia|]. split; [cbn; lia|]. split; [cbn; lia|]. split; [|reflexivity].
  intros u I. cbn in I. repeat (destruct I as [E|I]; [first [discriminate E|injection E as <-; reflexivity]|]). destruct I.
Qed.

(** A view of the active window of a field with fewer valid ghosts counts all ghosts
    as valid again: resetting it to the same counts changes its window. *)
Theorem C10_reduced_view_refuted : exists dim g h, full_3d dim /\ g_nonneg g /\ g_nonneg h /\ g_le h g /\
  let f := reset_valid_ghosts (patch_field dim false false false iv_zero g 0 1) h in
  let v := view f [VWindow (fwin f)] in
  fwin v = fwin f /\ fvalid v = g /\ h <> g /\ fwin (reset_valid_ghosts v h) <> fwin f.
Proof. exact ViewP.reduced_view. Qed.
Print Assumptions C10_reduced_view_refuted.
