(** Property C58: machine integers. *)
From Verif Require Import Prelude WindowM WindowS MaskM OverM OverS OverP OverQ.

(** Sizes, flat indices, coordinates and splitting: same results as with
    unbounded integers. *)
Theorem C58_windows : forall w, fits w -> pos_dims (wglob w) ->
  ix (wglob w) * iy (wglob w) * iz (wglob w) <= 2 ^ 31 - 1 ->
  glob_npts32 w = Ok (ix (wglob w) * iy (wglob w) * iz (wglob w)) /\
  local_npts32 w = Ok (ix (wext w) * iy (wext w) * iz (wext w)) /\
  (forall p, in_box (wext w) p -> flat_index32 w p = Ok (flat_index w p)) /\
  (forall p, in_box (wglob w) p -> ijk_to_flat32 (wglob w) p = Ok (ijk_to_flat (wglob w) p)) /\
  (forall c, 0 <= c < glob_npts w -> flat_to_ijk32 (wglob w) c = flat_to_ijk (wglob w) c) /\
  (forall s l, 0 < ix s <= ix (wext w) -> 0 < iy s <= iy (wext w) -> 0 < iz s <= iz (wext w) -> in_box s l ->
     refine32 w s l = refine w s l).
Proof. exact windows32. Qed.
Print Assumptions C58_windows.

(** Any sequence of ++, --, += and -= that stays between begin() and end(). *)
Theorem C58_iterators : forall w, fits w -> pos_dims (wglob w) ->
  ix (wglob w) * iy (wglob w) * iz (wglob w) <= 2 ^ 31 - 1 ->
  0 < ix (wext w) /\ 0 < iy (wext w) /\ 0 < iz (wext w) ->
  forall base ms, inside (local_npts w) 0 ms ->
  moves32 (it_make32 base w) ms = Ok (Nat.iter (Z.to_nat (position 0 ms)) it_incr (it_begin base w)).
Proof. exact script. Qed.
Print Assumptions C58_iterators.

Theorem C58_differences : forall w, fits w -> pos_dims (wglob w) ->
  ix (wglob w) * iy (wglob w) * iz (wglob w) <= 2 ^ 31 - 1 ->
  0 < ix (wext w) /\ 0 < iy (wext w) /\ 0 < iz (wext w) ->
  forall base ms ns a b, inside (local_npts w) 0 ms -> inside (local_npts w) 0 ns ->
  moves32 (it_make32 base w) ms = Ok a -> moves32 (it_make32 base w) ns = Ok b ->
  it_diff32 a b = Ok (position 0 ms - position 0 ns).
Proof. exact diffs. Qed.
Print Assumptions C58_differences.

(** The loop from begin() to end(): every cell once, x fastest. *)
Theorem C58_traversal : forall w, fits w -> pos_dims (wglob w) ->
  ix (wglob w) * iy (wglob w) * iz (wglob w) <= 2 ^ 31 - 1 ->
  0 < ix (wext w) /\ 0 < iy (wext w) /\ 0 < iz (wext w) ->
  forall base, exists e its,
    it_end32 base w = Ok e /\
    it_loop32 (length its) (it_make32 base w) e = Ok (Some its) /\
    map icur its = map (fun p => base + flat_index w p) (box_points (wext w)).
Proof. exact traversal. Qed.
Print Assumptions C58_traversal.

(** Bytes requested for elements of up to 4 GB. *)
Theorem C58_bytes : forall w size_of, pos_dims (wglob w) ->
  ix (wglob w) * iy (wglob w) * iz (wglob w) <= 2 ^ 31 - 1 -> 0 <= size_of <= 2 ^ 32 ->
  allocated_bytes32 size_of w = Ok (size_of * (ix (wglob w) * iy (wglob w) * iz (wglob w))).
Proof. exact bytes32. Qed.
Print Assumptions C58_bytes.

(** Positions of mask points, ghost points included, and the number of blocks. *)
Theorem C58_masks : forall w p, pos_dims (wglob w) ->
  ix (wglob w) * iy (wglob w) * iz (wglob w) <= 2 ^ 31 - 1 ->
  in_box (wglob w) (iv_add (woff w) p) ->
  find_position32 w p = Ok (find_position w p) /\
  round_to_int32 (glob_npts w) = round_to_int (glob_npts w).
Proof. exact (fun w p G Sz I => conj (masks32 w p G Sz I) (blocks32 w G Sz)). Qed.
Print Assumptions C58_masks.

(** The bound cannot be raised: with more points, computing the size of the
    window is undefined behaviour. *)
Theorem C58_sharp : forall w, pos_dims (wglob w) ->
  (glob_npts32 w <> UB <-> ix (wglob w) * iy (wglob w) * iz (wglob w) <= 2 ^ 31 - 1).
Proof. exact sharp. Qed.
Print Assumptions C58_sharp.

Theorem C58_large_refuted : exists w, fits w /\ pos_dims (wglob w) /\ sanity_check w = true /\
  glob_npts w * 8 < 2 ^ 35 /\ glob_npts32 w = UB /\ allocated_bytes32 8 w = UB.
Proof.
  exists (Win (IV 2048 1024 1024) (IV 0 0 0) (IV 2048 1024 1024)).
  unfold fits, pos_dims. repeat split; cbn; lia.
Qed.
Print Assumptions C58_large_refuted.

Example C58_hyps_met : let w := Win (IV 2047 1024 1024) (IV 1 1 1) (IV 2045 1022 1022) in
  fits w /\ pos_dims (wglob w) /\ ix (wglob w) * iy (wglob w) * iz (wglob w) <= 2 ^ 31 - 1 /\
  (0 < ix (wext w) /\ 0 < iy (wext w) /\ 0 < iz (wext w)) /\
  inside (local_npts w) 0 [Inc; Fwd 2135969779; Dec; Bwd 2000000000; Fwd 1000] /\
  in_box (wglob w) (iv_add (woff w) (IV (-1) 1022 1022)).
Proof. unfold fits, pos_dims, in_box, local_npts; cbn. repeat split; lia. Qed.
