(** Properties C01-C06: index arithmetic, memory windows, field iterators. *)
From Verif Require Import Prelude WindowM WindowS WindowP WindowQ.

Theorem C01_ijk_flat_roundtrip : forall d p, in_box d p ->
  0 <= ijk_to_flat d p < ix d * iy d * iz d /\ flat_to_ijk d (ijk_to_flat d p) = Ok p.
Proof. exact ijk_flat_inverse. Qed.
Print Assumptions C01_ijk_flat_roundtrip.

Theorem C01_flat_ijk_roundtrip : forall d c, pos_dims d -> 0 <= c < ix d * iy d * iz d ->
  exists p, flat_to_ijk d c = Ok p /\ in_box d p /\ ijk_to_flat d p = c.
Proof. exact flat_ijk_inverse. Qed.
Print Assumptions C01_flat_ijk_roundtrip.

Theorem C01_order : forall d p q, in_box d p -> in_box d q ->
  (before p q <-> ijk_to_flat d p < ijk_to_flat d q).
Proof. exact ijk_order. Qed.
Print Assumptions C01_order.

(** A window decodes positions of its block and of itself. *)
Theorem C01_window_indices : forall w p,
  (in_box (wglob w) p -> ijk_index_from_global w (ijk_to_flat (wglob w) p) = Ok p) /\
  (in_box (wext w) p -> ijk_index_from_local w (ijk_to_flat (wext w) p) = Ok p).
Proof. exact window_indices. Qed.
Print Assumptions C01_window_indices.

Example C01_hyps_met : in_box (IV 4 3 5) (IV 3 2 4) /\ pos_dims (IV 4 3 5) /\
  ijk_to_flat (IV 4 3 5) (IV 3 2 4) = 59.
Proof. unfold in_box, pos_dims; cbn; lia. Qed.

Theorem C02_window_addressing : forall w, fits w ->
  (forall p, in_box (wext w) p ->
     flat_index w p = addr w p /\ 0 <= flat_index w p < glob_npts w) /\
  (forall p q, in_box (wext w) p -> in_box (wext w) q ->
     flat_index w p = flat_index w q -> p = q).
Proof. exact flat_index_facts. Qed.
Print Assumptions C02_window_addressing.

Theorem C02_sanity_check_refuted : exists w p,
  sanity_check w = true /\ in_box (wext w) p /\ ~ (0 <= flat_index w p < glob_npts w).
Proof.
  exists (Win (IV 4 4 4) (IV 0 0 3) (IV 4 4 4)), (IV 0 0 2).
  unfold in_box. vm_compute. repeat split; try discriminate. intros [_ H]. discriminate.
Qed.
Print Assumptions C02_sanity_check_refuted.

(** What the check of a debug build does accept, and when two windows compare equal. *)
Theorem C02_sanity_check : forall w, sanity_check w = true <->
  pos_dims (wglob w) /\
  (0 <= ix (woff w) /\ 0 <= iy (woff w) /\ 0 <= iz (woff w)) /\
  0 <= ix (wext w) <= ix (wglob w) /\ 0 <= iy (wext w) <= iy (wglob w) /\ 0 <= iz (wext w) <= iz (wglob w).
Proof. exact sanity_check_iff. Qed.
Print Assumptions C02_sanity_check.

Theorem C02_equality : forall a b, win_eqb a b = true <-> a = b.
Proof. exact win_eqb_iff. Qed.
Print Assumptions C02_equality.

Example C02_hyps_met : fits (Win (IV 6 5 4) (IV 1 2 1) (IV 3 3 2)) /\
  in_box (IV 3 3 2) (IV 2 2 1).
Proof. unfold fits, in_box; cbn; lia. Qed.

Theorem C03_refine_partition : forall w s,
  0 < ix s <= ix (wext w) -> 0 < iy s <= iy (wext w) -> 0 < iz s <= iz (wext w) ->
  exists sub : ivec -> window,
    (forall l, in_box s l -> refine w s l = Ok (sub l)) /\
    (forall p, covers w p -> exists! l, in_box s l /\ covers (sub l) p) /\
    (forall l p, in_box s l -> covers (sub l) p -> covers w p) /\
    (forall l, in_box s l -> wglob (sub l) = wglob w /\ (fits w -> fits (sub l)) /\
       0 < ix (wext (sub l)) /\ 0 < iy (wext (sub l)) /\ 0 < iz (wext (sub l))) /\
    (forall l m, in_box s l -> in_box s m ->
       ix (wext (sub l)) <= ix (wext (sub m)) + 1 /\
       iy (wext (sub l)) <= iy (wext (sub m)) + 1 /\
       iz (wext (sub l)) <= iz (wext (sub m)) + 1).
Proof. exact refine_partitions. Qed.
Print Assumptions C03_refine_partition.

Example C03_hyps_met : let w := Win (IV 9 9 9) (IV 1 1 1) (IV 7 5 3) in let s := IV 3 2 2 in
  (0 < ix s <= ix (wext w) /\ 0 < iy s <= iy (wext w) /\ 0 < iz s <= iz (wext w)) /\
  refine w s (IV 1 0 1) = Ok (Win (IV 9 9 9) (IV 4 1 3) (IV 2 3 1)).
Proof. cbn; lia || (split; [lia|reflexivity]). Qed.

Theorem C04_forward_iteration : forall base w, fits w ->
  0 < ix (wext w) /\ 0 < iy (wext w) /\ 0 < iz (wext w) ->
  exists e its,
    it_end base w = Ok e /\
    it_loop (length its) (it_begin base w) e = Some its /\
    (forall n, (n < length its)%nat -> it_loop n (it_begin base w) e = None) /\
    Z.of_nat (length its) = ix (wext w) * iy (wext w) * iz (wext w) /\
    map icur its = map (fun p => base + flat_index w p) (box_points (wext w)) /\
    map it_location its = box_points (wext w) /\
    Forall (fun it => it_deref_ok it = true) its /\
    Forall (fun it => base <= icur it < base + glob_npts w) its.
Proof. exact forward_iteration. Qed.
Print Assumptions C04_forward_iteration.

(** The specification list really is "every point once, x fastest". *)
Theorem C04_spec_enumeration : forall e,
  (forall p, In p (box_points e) <-> in_box e p) /\ NoDup (box_points e).
Proof. exact (fun e => conj (in_box_points e) (box_points_NoDup e)). Qed.
Print Assumptions C04_spec_enumeration.

Example C04_hyps_met : let w := Win (IV 6 5 4) (IV 1 2 1) (IV 3 2 2) in
  fits w /\ (0 < ix (wext w) /\ 0 < iy (wext w) /\ 0 < iz (wext w)) /\
  box_points (wext w) = [IV 0 0 0; IV 1 0 0; IV 2 0 0; IV 0 1 0; IV 1 1 0; IV 2 1 0;
                         IV 0 0 1; IV 1 0 1; IV 2 0 1; IV 0 1 1; IV 1 1 1; IV 2 1 1].
Proof. unfold fits; cbn. repeat split; lia. Qed.

(** [at_ k] is the iterator reached from begin() by k increments. *)
Theorem C05_random_access : forall base w c n, fits w ->
  0 < ix (wext w) /\ 0 < iy (wext w) /\ 0 < iz (wext w) ->
  let at_ k := Nat.iter (Z.to_nat k) it_incr (it_begin base w) in
  0 <= c <= local_npts w -> 0 <= c + n <= local_npts w ->
  it_advance (at_ c) n = Ok (at_ (c + n)) /\
  it_retreat (at_ c) (- n) = Ok (at_ (c + n)) /\
  it_diff (at_ (c + n)) (at_ c) = n /\
  it_decr (it_incr (at_ c)) = at_ c /\
  (0 < c -> it_incr (it_decr (at_ c)) = at_ c /\ it_decr (at_ c) = at_ (c - 1)) /\
  it_eqb (at_ c) (at_ (c + n)) = (0 =? n) /\
  it_ltb (at_ c) (at_ (c + n)) = (0 <? n) /\
  it_leb (at_ c) (at_ (c + n)) = (0 <=? n) /\
  it_gtb (at_ c) (at_ (c + n)) = (n <? 0) /\
  it_geb (at_ c) (at_ (c + n)) = (n <=? 0).
Proof. exact random_access. Qed.
Print Assumptions C05_random_access.

(** it[n] is the element n places further in the order of the points; a debug
    build throws when that is end(). *)
Theorem C05_index : forall debug base w c n p, fits w ->
  0 < ix (wext w) /\ 0 < iy (wext w) /\ 0 < iz (wext w) ->
  let at_ k := Nat.iter (Z.to_nat k) it_incr (it_begin base w) in
  0 <= c <= local_npts w -> 0 <= c + n -> nth_error (box_points (wext w)) (Z.to_nat (c + n)) = Some p ->
  it_index debug (at_ c) n = Ok (base + addr w p).
Proof. exact iter_index. Qed.
Print Assumptions C05_index.

Theorem C05_index_end : forall base w c, fits w ->
  0 < ix (wext w) /\ 0 < iy (wext w) /\ 0 < iz (wext w) -> 0 <= c <= local_npts w ->
  it_index true (Nat.iter (Z.to_nat c) it_incr (it_begin base w)) (local_npts w - c) = Throw.
Proof. exact iter_index_end. Qed.
Print Assumptions C05_index_end.

Example C05_hyps_met : let w := Win (IV 6 5 4) (IV 1 2 1) (IV 3 2 2) in
  fits w /\ 0 <= 7 <= local_npts w /\ 0 <= 7 + -5 <= local_npts w /\
  nth_error (box_points (wext w)) (Z.to_nat (7 + -5)) = Some (IV 2 0 0).
Proof. unfold fits, local_npts. cbn. split; [lia|]. split; [lia|]. split; [lia|]. reflexivity. Qed.

(** Outside that range the two ways of stepping disagree: from begin(),
    += -1 and -- give different pointers. *)
Theorem C05_before_begin_refuted : exists base w j, fits w /\
  (0 < ix (wext w) /\ 0 < iy (wext w) /\ 0 < iz (wext w)) /\
  it_advance (it_begin base w) (-1) = Ok j /\ icur j <> icur (it_decr (it_begin base w)).
Proof.
  exists 100, (Win (IV 6 5 4) (IV 1 2 1) (IV 3 2 2)). eexists.
  split; [unfold fits; cbn; lia|]. split; [cbn; lia|]. split; [vm_compute; reflexivity|].
  vm_compute. discriminate.
Qed.
Print Assumptions C05_before_begin_refuted.

Theorem C06_empty_window_refuted : forall base w,
  ix (wext w) = 0 \/ iy (wext w) = 0 -> it_end base w = UB.
Proof. exact end_of_empty_ub. Qed.
Print Assumptions C06_empty_window_refuted.

Example C06_hyps_met : let w := Win (IV 4 4 4) (IV 0 0 0) (IV 0 4 4) in
  sanity_check w = true /\ fits w /\ ix (wext w) = 0.
Proof. unfold fits; cbn; repeat split; lia. Qed.

Theorem C06_empty_in_z : forall base w,
  0 < ix (wext w) -> 0 < iy (wext w) -> iz (wext w) = 0 -> it_end base w = Ok (it_begin base w).
Proof. exact end_of_empty_z. Qed.
Print Assumptions C06_empty_in_z.

Example C06_z_hyps_met : let w := Win (IV 4 4 4) (IV 0 0 1) (IV 4 4 0) in
  0 < ix (wext w) /\ 0 < iy (wext w) /\ iz (wext w) = 0 /\ fits w.
Proof. unfold fits; cbn; lia. Qed.
