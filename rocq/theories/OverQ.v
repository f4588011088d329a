From Verif Require Import Prelude WindowM WindowS WindowP MaskM OverM OverS OverP.

Section Script.
Variable w : window.
Hypothesis F : fits w.
Hypothesis G : pos_dims (wglob w).
Hypothesis Sz : glob_npts w <= INT_MAX.
Hypothesis P : 0 < ix (wext w) /\ 0 < iy (wext w) /\ 0 < iz (wext w).
Variable base : Z.
Let Px := proj1 P.
Let Py := proj1 (proj2 P).
Let Pz := proj2 (proj2 P).

Lemma move_32 c m : 0 <= c <= local_npts w -> 0 <= c + shift m <= local_npts w ->
  move32 (iter_at base w c) m = Ok (iter_at base w (c + shift m)).
Proof.
  intros C N. pose proof (total_le w F Sz Px Py Pz) as T. unfold total in T.
  destruct m as [| |n|n]; cbn [move32 shift] in *.
  - rewrite (incr32 w F G Sz Px Py Pz) by (unfold total; lia). rewrite (iter_at_incr base w Px Py). reflexivity.
  - rewrite (decr32 w F G Sz Px Py Pz) by (unfold total; lia).
    replace c with ((c + -1) + 1) at 1 by ring. rewrite (iter_at_decr base w Px Py). reflexivity.
  - rewrite (advance32 w F G Sz Px Py Pz) by (unfold total; lia). apply (iter_at_advance base w Px Py); lia.
  - unfold it_retreat32, ineg. rewrite i32_abs by lia. cbn [obind].
    rewrite (advance32 w F G Sz Px Py Pz) by (unfold total; lia). apply (iter_at_advance base w Px Py); lia.
Qed.
Lemma moves_32 ms : forall c, 0 <= c <= local_npts w -> inside (local_npts w) c ms ->
  moves32 (iter_at base w c) ms = Ok (iter_at base w (position c ms)).
Proof.
  induction ms as [|m r IH]; intros c C I; [reflexivity|]. destruct I as (I & J). cbn [moves32 position].
  rewrite move_32 by assumption. cbn [obind]. apply IH; assumption.
Qed.
Lemma position_in ms : forall c, 0 <= c <= local_npts w -> inside (local_npts w) c ms -> 0 <= position c ms <= local_npts w.
Proof. induction ms as [|m r IH]; intros c C I; [exact C|]. destruct I as (I & J). apply IH; assumption. Qed.

Lemma script ms : inside (local_npts w) 0 ms ->
  moves32 (it_make32 base w) ms = Ok (Nat.iter (Z.to_nat (position 0 ms)) it_incr (it_begin base w)).
Proof.
  intros I. pose proof (total_le w F Sz Px Py Pz) as T. unfold total in T.
  pose proof (position_in ms 0 ltac:(lia) I) as B.
  rewrite (make32 w F G Sz Px Py Pz). unfold it_begin. rewrite (iter_at_0 base w Px Py).
  rewrite moves_32 by (assumption || lia). rewrite (iter_at_iter base w Px Py). do 2 f_equal. lia.
Qed.
Lemma diffs ms ns a b : inside (local_npts w) 0 ms -> inside (local_npts w) 0 ns ->
  moves32 (it_make32 base w) ms = Ok a -> moves32 (it_make32 base w) ns = Ok b ->
  it_diff32 a b = Ok (position 0 ms - position 0 ns).
Proof.
  intros I J A B. pose proof (total_le w F Sz Px Py Pz) as T. unfold total in T.
  pose proof (position_in ms 0 ltac:(lia) I) as PI. pose proof (position_in ns 0 ltac:(lia) J) as PJ.
  rewrite (make32 w F G Sz Px Py Pz), (iter_at_0 base w Px Py) in A, B. rewrite moves_32 in A, B by (assumption || lia).
  injection A as <-. injection B as <-. unfold it_diff32, isub. rewrite !(iter_at_cnt base w Px Py). apply i32_abs. lia.
Qed.

Lemma loop_32 n : forall c, 0 <= c <= local_npts w -> (n <= Z.to_nat (local_npts w - c))%nat ->
  it_loop32 n (iter_at base w c) (iter_at base w (local_npts w)) =
  Ok (it_loop n (iter_at base w c) (iter_at base w (local_npts w))).
Proof.
  induction n as [|n IH]; intros c C N; cbn [it_loop32 it_loop]; rewrite (iter_at_eqb base w Px Py F) by lia;
    destruct (c =? local_npts w) eqn:E; try reflexivity.
  rewrite (incr32 w F G Sz Px Py Pz) by (unfold total; lia). cbn [obind]. rewrite (iter_at_incr base w Px Py).
  rewrite IH by lia. reflexivity.
Qed.

Lemma traversal : exists e its,
    it_end32 base w = Ok e /\
    it_loop32 (length its) (it_make32 base w) e = Ok (Some its) /\
    map icur its = map (fun p => base + flat_index w p) (box_points (wext w)).
Proof.
  pose proof (total_le w F Sz Px Py Pz) as T. unfold total in T.
  destruct (forward_iteration base w F P) as (e & its & E & L & _ & N & M & _).
  exists e, its. rewrite (end32 w F G Sz Px Py Pz), (make32 w F G Sz Px Py Pz). split; [exact E|]. split; [|exact M].
  unfold it_begin in L. unfold it_end in E. rewrite (iter_at_0 base w Px Py) in *. fold (local_npts w) in *.
  rewrite (iter_at_advance base w Px Py) in E by lia. injection E as <-.
  rewrite loop_32 by lia. rewrite L. reflexivity.
Qed.
End Script.

Lemma windows32 w : fits w -> pos_dims (wglob w) -> glob_npts w <= INT_MAX ->
  glob_npts32 w = Ok (glob_npts w) /\
  local_npts32 w = Ok (local_npts w) /\
  (forall p, in_box (wext w) p -> flat_index32 w p = Ok (flat_index w p)) /\
  (forall p, in_box (wglob w) p -> ijk_to_flat32 (wglob w) p = Ok (ijk_to_flat (wglob w) p)) /\
  (forall c, 0 <= c < glob_npts w -> flat_to_ijk32 (wglob w) c = flat_to_ijk (wglob w) c) /\
  (forall s l, 0 < ix s <= ix (wext w) -> 0 < iy s <= iy (wext w) -> 0 < iz s <= iz (wext w) -> in_box s l ->
     refine32 w s l = refine w s l).
Proof.
  intros F G Sz. split; [apply glob32; assumption|]. split; [apply local32; assumption|].
  split; [intros; apply index32; assumption|]. split; [intros; apply ijk32; assumption|].
  split; [intros; apply flat32; assumption|]. intros; apply refine_32; assumption.
Qed.

(** the bound is sharp *)
Lemma sharp w : pos_dims (wglob w) -> (glob_npts32 w <> UB <-> glob_npts w <= INT_MAX).
Proof.
  intros (Gx & Gy & Gz). unfold glob_npts32, glob_npts, imul.
  assert (0 < ix (wglob w) * iy (wglob w)) by nia. set (xy := ix (wglob w) * iy (wglob w)) in *.
  assert (M : xy <= xy * iz (wglob w)) by nia. pose proof min_max. pose proof max_pos. split.
  - intros N. destruct (i32 xy) eqn:E; try (exfalso; apply N; reflexivity).
    + unfold i32 in E. destruct (is_int xy); [|discriminate]. injection E as <-. cbn [obind] in N.
      assert (Q : i32 (xy * iz (wglob w)) <> UB) by (intros Q; rewrite Q in N; apply N; reflexivity).
      apply i32_iff in Q. lia.
    + unfold i32 in E. destruct (is_int xy); discriminate.
  - intros L. rewrite i32_abs by lia. cbn [obind]. rewrite i32_abs by lia. discriminate.
Qed.

Lemma bytes32 w n : pos_dims (wglob w) -> glob_npts w <= INT_MAX -> 0 <= n <= 2 ^ 32 ->
  allocated_bytes32 n w = Ok (n * glob_npts w).
Proof.
  intros G Sz N. unfold allocated_bytes32. rewrite glob32 by assumption. cbn [obind]. f_equal. unfold u64.
  assert (0 <= glob_npts w) by (unfold glob_npts; destruct G as (? & ? & ?); nia).
  apply Z.mod_small. unfold INT_MAX in Sz. nia.
Qed.

(** masks *)
Lemma masks32 w p : pos_dims (wglob w) -> glob_npts w <= INT_MAX -> in_box (wglob w) (iv_add (woff w) p) ->
  find_position32 w p = Ok (find_position w p).
Proof.
  intros G Sz (X & Y & Z). cbn [iv_add ix iy iz] in X, Y, Z.
  pose proof G as (Gx & Gy & Gz).
  pose proof (one_x w G Sz (ix (woff w) + ix p) ltac:(lia)). pose proof (one_y w G Sz (iy (woff w) + iy p) ltac:(lia)).
  pose proof (one_z w G Sz (iz (woff w) + iz p) ltac:(lia)).
  unfold find_position32, find_position, iadd, imul. cbv zeta.
  set (x := ix (woff w) + ix p) in *. set (y := iy (woff w) + iy p) in *. set (z := iz (woff w) + iz p) in *.
  set (gx := ix (wglob w)) in *. set (gy := iy (wglob w)) in *. set (gz := iz (wglob w)) in *.
  assert (B : 0 <= x + gx * (y + gy * z) < gx * gy * gz).
  { assert (0 <= y + gy * z <= gy * gz - 1) by nia. split; [nia|]. nia. }
  change (gx * gy * gz) with (glob_npts w) in B.
  assert (0 <= gy * z) by nia. assert (y + gy * z <= gx * (y + gy * z)) by nia.
  rewrite (i32_abs x) by lia. cbn [obind]. rewrite (i32_abs y) by lia. cbn [obind]. rewrite (i32_abs z) by lia. cbn [obind].
  rewrite (i32_abs (gy * z)) by lia. cbn [obind]. rewrite (i32_abs (y + gy * z)) by lia. cbn [obind].
  rewrite (i32_abs (gx * (y + gy * z))) by lia. cbn [obind]. apply i32_abs. lia.
Qed.
Lemma blocks32 w : pos_dims (wglob w) -> glob_npts w <= INT_MAX -> round_to_int32 (glob_npts w) = round_to_int (glob_npts w).
Proof.
  intros G Sz. assert (0 < glob_npts w) by (unfold glob_npts; destruct G as (? & ? & ?); nia).
  unfold round_to_int32, round_to_int, INT_BIT. unfold u64. rewrite Z.mod_small by (unfold INT_MAX in Sz; lia).
  apply to_int_ok. rewrite Z.quot_div_nonneg by lia.
  assert (0 <= (glob_npts w + 32 - 1) / 32 <= INT_MAX).
  { split; [apply Z.div_pos; lia|]. apply Z.div_le_upper_bound; unfold INT_MAX in *; lia. }
  lia.
Qed.
