(** Property theorems about masks: C20, C21. *)
From Verif Require Import Prelude WindowM WindowS WindowP GhostM FieldM FieldS FieldP MaskM MaskS MaskP.

(** Points are counted from the first interior cell; any cell of the block,
    interior or ghost, may be listed or asked for.  The blocks stay 32-bit. *)
Theorem C20_mask_membership : forall proto ps,
  pos_dims (wglob (fint proto)) -> Forall (in_block (fint proto)) ps ->
  exists m, mask_make proto ps = Ok m /\ mgeo m = proto /\
    Forall (fun word => 0 <= word < 2 ^ 32) (mwords m) /\
    forall q, in_block (fint proto) q ->
      (In q ps -> mask_query m q = Ok true) /\ (~ In q ps -> mask_query m q = Ok false).
Proof. exact mask_make_query. Qed.
Print Assumptions C20_mask_membership.

Example C20_hyps_met :
  let f := patch_field (IV 5 4 3) true false false (IV 1 1 1) (ghost_n 1) 0 1 in
  pos_dims (wglob (fint f)) /\
  Forall (in_block (fint f)) [IV 0 0 0; IV (-1) (-1) (-1); IV 5 4 3; IV 2 1 1; IV 2 1 1] /\
  glob_npts (fint f) = 240.
Proof.
  cbv zeta. split; [unfold pos_dims; cbn; lia|]. split; [|reflexivity].
  repeat (apply Forall_cons; [unfold in_block, in_box; cbn; lia|]). apply Forall_nil.
Qed.

(** [w] is any window on the mask's block (the mask window, its interior, or a
    resized/shifted/partitioned window as used in an assignment). *)
Theorem C21_mask_iteration : forall proto ps w c n,
  pos_dims (wglob (fint proto)) -> Forall (in_block (fint proto)) ps ->
  fits w -> (0 < ix (wext w) /\ 0 < iy (wext w) /\ 0 < iz (wext w)) ->
  wglob w = wglob (fint proto) ->
  exists m, mask_make proto ps = Ok m /\
  let at_ k := Nat.iter (Z.to_nat k) mit_incr (mit_begin w) in
  (0 <= c < local_npts w ->
   exists p, nth_error (box_points (wext w)) (Z.to_nat c) = Some p /\
     mit_deref (mwords m) (at_ c) = mask_query m (iv_sub (iv_add (woff w) p) (woff (fint proto))) /\
     (exists b, mit_deref (mwords m) (at_ c) = Ok b) /\
     mit_deref_ok (at_ c) = true) /\
  (0 <= c <= local_npts w -> 0 <= c + n <= local_npts w ->
   mit_advance (at_ c) n = Ok (at_ (c + n)) /\
   (0 < c -> mit_decr (at_ c) = at_ (c - 1)) /\
   mit_eqb (at_ c) (at_ (c + n)) = (n =? 0)) /\
  mit_end w = Ok (at_ (local_npts w)).
Proof. exact mask_make_iterate. Qed.
Print Assumptions C21_mask_iteration.

Example C21_hyps_met :
  let f := patch_field (IV 9 8 7) true false false (IV 1 1 1) (ghost_n 1) 0 1 in
  let w := Win (wglob (fint f)) (IV 2 1 0) (IV 7 6 5) in
  pos_dims (wglob (fint f)) /\ Forall (in_block (fint f)) [IV (-1) 0 3; IV 4 4 4] /\
  fits w /\ 0 <= 100 < local_npts w /\ 0 <= 100 + -63 <= local_npts w.
Proof.
  cbv zeta. split; [unfold pos_dims; cbn; lia|]. split; [|unfold fits, local_npts; cbn; lia].
  repeat (apply Forall_cons; [unfold in_block, in_box; cbn; lia|]). apply Forall_nil.
Qed.
