(** C80: fields on CPU and GPU as arrays. *)
From Verif Require Import Prelude WindowM WindowS ConsumerM ConsumerS DevFldM DevFldS DevFldQ DevFldR DevFldT.

(** Any number of fields on any devices, any calls on them: whenever the
    specification gives replies, the code gives the same replies.  In
    particular elements are only ever read from memory that holds the values
    the field has now. *)
Theorem C80_replies : forall (T : Type) (cuda : bool) (l : list (faction T)) rs,
  Forall windows_ok l -> expect_as cuda [] l = Some rs -> do_factions cuda no_fields l = Some rs.
Proof. exact devices_replies. Qed.
Print Assumptions C80_replies.

(** What a loop that writes does: each element in the window gets its value,
    the others keep theirs. *)
Theorem C80_put : forall (T : Type) w (g : ivec -> T) v p, fits w -> in_box (wext w) p -> put w g v (addr w p) = g p.
Proof. exact put_inside. Qed.
Print Assumptions C80_put.
Theorem C80_put_rest : forall (T : Type) w (g : ivec -> T) v i, (forall p, in_box (wext w) p -> addr w p <> i) -> put w g v i = v i.
Proof. exact put_outside. Qed.
Print Assumptions C80_put_rest.

(** After any history, a field that has no consumers can be assigned any field
    with the same window, wherever the two live: then both have the values of
    the second. *)
Theorem C80_assign : forall (T : Type) (cuda : bool) (l : list (faction T)) rs ss i j d s,
  Forall windows_ok l -> expect_as cuda [] l = Some rs -> after cuda [] l = Some ss ->
  nth_error ss i = Some d -> nth_error ss j = Some s -> s_locked (sf_seen d) = false -> sf_win d = sf_win s ->
  do_factions cuda no_fields (l ++ [Assign i j; On i (Basic (Read (s_home (sf_seen d)))); On j (Basic (Read (s_home (sf_seen s))))])
  = Some (rs ++ [FNothing; FArray (s_values (sf_seen s)); FArray (s_values (sf_seen s))]).
Proof. exact assign_any. Qed.
Print Assumptions C80_assign.

(** A new field built from an array has the array's values in iteration order,
    on CPU and GPU, if its window is the whole block; *)
Theorem C80_new : forall (T : Type) (zero : T) w junk l, window_ok w -> whole w -> local_npts w <= Z.of_nat (length l) ->
  exists vr vg, reset_ram zero w junk (Some l) = Ok vr /\ reset_gpu zero w junk (Some l) = Ok vg /\
    elements w vr = firstn (Z.to_nat (local_npts w)) l /\ elements w vg = elements w vr.
Proof. exact new_whole. Qed.
Print Assumptions C80_new.
(** without an array it is zero, for every window. *)
Theorem C80_new_zero : forall (T : Type) (zero : T) w junk, window_ok w ->
  exists vr vg, reset_ram zero w junk None = Ok vr /\ reset_gpu zero w junk None = Ok vg /\
    elements w vr = map (fun _ => zero) (box_points (wext w)) /\ elements w vg = elements w vr.
Proof. exact new_zero. Qed.
Print Assumptions C80_new_zero.

(** With a smaller window, an array that has the field's number of elements
    works on the CPU, and on the GPU memory after its end is read, always; *)
Theorem C80_new_part_refuted : forall (T : Type) (zero : T) w junk l, window_ok w -> local_npts w < glob_npts w ->
  Z.of_nat (length l) = local_npts w ->
  (exists vr, reset_ram zero w junk (Some l) = Ok vr /\ elements w vr = l) /\ reset_gpu zero w junk (Some l) = UB.
Proof. exact new_part. Qed.
Print Assumptions C80_new_part_refuted.
(** and if the array is as large as the block, the field gets other elements of
    it on the GPU than on the CPU. *)
Theorem C80_new_values_refuted : exists w l vr vg, window_ok w /\ reset_ram 0 w (fun _ => 9) (Some l) = Ok vr /\
  reset_gpu 0 w (fun _ => 9) (Some l) = Ok vg /\ elements w vr = [10; 20] /\ elements w vg = [20; 30].
Proof.
  exists (Win (IV 4 1 1) (IV 1 0 0) (IV 2 1 1)), [10; 20; 30; 40]. do 2 eexists.
  split; [repeat split; cbn; lia|]. split; [reflexivity|]. split; [reflexivity|]. split; reflexivity.
Qed.
Print Assumptions C80_new_values_refuted.

(** begin() const of a read-only field on a GPU that is not available on the
    CPU does not throw: its element is read through a NULL pointer.  end()
    const throws in the same situation. *)
Theorem C80_null_begin_refuted : forall (T : Type) w (v : Z -> T) k n, k <> n ->
  let l := [FNew true (EXTERNAL_CUDA_GPU, k) w w false v; On 0 (Basic (Add (EXTERNAL_CUDA_GPU, n)))] in
  do_factions true no_fields (l ++ [On 0 First]) = None /\
  do_factions true no_fields (l ++ [On 0 ReadAll]) = Some [FNothing; FNothing; FThrew].
Proof.
  intros T w v k n N. cbn. unfold add_consumer, place_eqb. cbn. rewrite (proj2 (Nat.eqb_neq n k)) by congruence. cbn.
  unfold mfind. cbn. rewrite Nat.eqb_refl. cbn. split; reflexivity.
Qed.
Print Assumptions C80_null_begin_refuted.

(** A 3x2x1 window in a 5x3x1 block: a field in RAM, one on GPU 1; written on
    the CPU, assigned to the GPU, read back through a consumer, refused writes,
    assigned back. *)
Example C80_hyps_met :
  let w := Win (IV 5 3 1) (IV 1 1 0) (IV 3 2 1) in let wi := Win (IV 5 3 1) (IV 2 1 0) (IV 1 2 1) in
  let l := [FNew true (LOCAL_RAM, 0%nat) w wi false (fun i => i); FNew true (EXTERNAL_CUDA_GPU, 1%nat) w wi false (fun _ => 7);
            On 0 ReadAll; On 1 ReadAll; On 0 (WriteInterior (fun p => 100 + ix p + 10 * iy p)); On 0 (WriteAt (IV 2 1 0) 55); Assign 1 0;
            On 0 (WriteNth 6 1); On 1 (Basic (Add (LOCAL_RAM, 0%nat))); On 1 ReadAll; On 1 ReadInterior; On 1 First; On 1 (ReadAt (IV 2 1 0));
            On 1 (WriteNth 6 1); Assign 1 0; Assign 0 1; On 0 (ReadNth 6)] in
  Forall windows_ok l /\
  expect_as true [] l = Some [FNothing; FNothing; FList [6; 7; 8; 11; 12; 13]; FThrew; FNothing; FNothing; FNothing;
    FNothing; FNothing; FList [6; 100; 8; 11; 110; 55]; FList [100; 110]; FList [6]; FList [55]; FThrew; FThrew; FNothing; FList [6]].
Proof. split; [repeat constructor; cbn; try lia|reflexivity]. Qed.
(** The hypotheses of C80_assign: from GPU 1 to GPU 0. *)
Example C80_hyps_met_assign :
  let w := Win (IV 5 3 1) (IV 1 1 0) (IV 3 2 1) in
  let l := [FNew true (EXTERNAL_CUDA_GPU, 0%nat) w w true (fun i => i); FNew true (EXTERNAL_CUDA_GPU, 1%nat) w w true (fun i => 2 * i);
            On 1 (Basic (Add (LOCAL_RAM, 0%nat)))] in
  Forall windows_ok l /\ expect_as true [] l = Some [FNothing; FNothing; FNothing] /\
  exists ss d s, after true [] l = Some ss /\ nth_error ss 0 = Some d /\ nth_error ss 1 = Some s /\ s_locked (sf_seen d) = false /\
    sf_win d = sf_win s /\ s_values (sf_seen s) 3 = 6.
Proof. split; [repeat constructor; cbn; try lia; discriminate|]. split; [reflexivity|]. do 3 eexists. repeat split. Qed.
Example C80_hyps_met_new : window_ok (Win (IV 3 2 1) (IV 0 0 0) (IV 3 2 1)) /\ whole (Win (IV 3 2 1) (IV 0 0 0) (IV 3 2 1)) /\
  local_npts (Win (IV 3 2 1) (IV 0 0 0) (IV 3 2 1)) <= Z.of_nat (length [1; 2; 3; 4; 5; 6; 7]).
Proof. repeat split; cbn; lia. Qed.
Example C80_hyps_met_part : window_ok (Win (IV 4 1 1) (IV 1 0 0) (IV 2 1 1)) /\
  local_npts (Win (IV 4 1 1) (IV 1 0 0) (IV 2 1 1)) < glob_npts (Win (IV 4 1 1) (IV 1 0 0) (IV 2 1 1)) /\
  Z.of_nat (length [10; 20]) = local_npts (Win (IV 4 1 1) (IV 1 0 0) (IV 2 1 1)).
Proof. repeat split; cbn; lia. Qed.
