(** More about windows and iterators: what the sanity check accepts, equality
    of windows, the two index decoders of a window, and operator[]. *)
From Verif Require Import Prelude WindowM WindowS WindowP.

Lemma sanity_check_iff w : sanity_check w = true <->
  pos_dims (wglob w) /\
  (0 <= ix (woff w) /\ 0 <= iy (woff w) /\ 0 <= iz (woff w)) /\
  0 <= ix (wext w) <= ix (wglob w) /\ 0 <= iy (wext w) <= iy (wglob w) /\ 0 <= iz (wext w) <= iz (wglob w).
Proof.
  unfold sanity_check, iv_positive, iv_ge_zero, iv_sub, pos_dims. cbn [ix iy iz].
  rewrite !andb_true_iff, !Z.ltb_lt, !Z.leb_le. lia.
Qed.

Lemma win_eqb_iff a b : win_eqb a b = true <-> a = b.
Proof.
  unfold win_eqb. rewrite !andb_true_iff, !iv_eqb_eq. destruct a, b; cbn. split.
  - intros ((-> & ->) & ->). reflexivity.
  - intros E. injection E as -> -> ->. auto.
Qed.

Lemma window_indices w p :
  (in_box (wglob w) p -> ijk_index_from_global w (ijk_to_flat (wglob w) p) = Ok p) /\
  (in_box (wext w) p -> ijk_index_from_local w (ijk_to_flat (wext w) p) = Ok p).
Proof. split; intros H; apply ijk_flat_inverse; exact H. Qed.

Lemma nth_error_zrange n k : 0 <= k < n -> nth_error (zrange n) (Z.to_nat k) = Some k.
Proof.
  intros H. unfold zrange. rewrite nth_error_map.
  assert (E : nth_error (seq 0 (Z.to_nat n)) (Z.to_nat k) = Some (Z.to_nat k)).
  { rewrite nth_error_nth' with (d := 0%nat) by (rewrite seq_length; lia).
    rewrite seq_nth by lia. reflexivity. }
  rewrite E. cbn. f_equal. lia.
Qed.

Lemma iter_index debug base w c n p : fits w -> nonempty w ->
  let at_ k := Nat.iter (Z.to_nat k) it_incr (it_begin base w) in
  0 <= c <= local_npts w -> 0 <= c + n -> nth_error (box_points (wext w)) (Z.to_nat (c + n)) = Some p ->
  it_index debug (at_ c) n = Ok (base + addr w p).
Proof.
  intros F (Hx & Hy & Hz) at_ Hc Hn E.
  assert (Hl : c + n < local_npts w).
  { assert (B : (Z.to_nat (c + n) < length (box_points (wext w)))%nat) by (apply nth_error_Some; congruence).
    pose proof (box_points_length (wext w) ltac:(lia) ltac:(lia) ltac:(lia)). unfold local_npts. lia. }
  assert (P : p = dec (ix (wext w)) (iy (wext w)) (c + n)).
  { destruct (wext w) as [ex ey ez] eqn:Ew. cbn [ix iy iz] in *.
    rewrite box_points_dec in E by lia. rewrite nth_error_map in E.
    rewrite nth_error_zrange in E by (unfold local_npts in Hl; rewrite Ew in Hl; cbn in Hl; lia).
    cbn in E. congruence. }
  unfold it_index, at_, it_begin. rewrite iter_at_0 by assumption. rewrite iter_at_iter by assumption.
  rewrite iter_at_advance by lia. cbn [obind].
  replace (0 + Z.of_nat (Z.to_nat c) + n) with (c + n) by lia.
  unfold iter_at. rewrite <- P.
  rewrite it_deref_ok_pt by (apply in_box_points; eapply nth_error_In; exact E).
  rewrite andb_false_r. reflexivity.
Qed.

(** The debug build does not dereference end(). *)
Lemma iter_index_end base w c : fits w -> nonempty w -> 0 <= c <= local_npts w ->
  it_index true (Nat.iter (Z.to_nat c) it_incr (it_begin base w)) (local_npts w - c) = Throw.
Proof.
  intros F (Hx & Hy & Hz) Hc.
  unfold it_index, it_begin. rewrite iter_at_0 by assumption. rewrite iter_at_iter by assumption.
  rewrite iter_at_advance by lia. cbn [obind].
  replace (0 + Z.of_nat (Z.to_nat c) + (local_npts w - c)) with (local_npts w) by lia.
  replace (local_npts w) with (0 + ix (wext w) * (0 + iy (wext w) * iz (wext w))) by (unfold local_npts; ring).
  rewrite iter_at_pt by lia. unfold it_deref_ok, iter_pt; cbn [icnt ixi iyi izi ixe iye ize ixye ix iy iz].
  replace (iz (wext w) <=? iz (wext w)) with true by lia. rewrite !orb_true_r, !orb_true_l. rewrite andb_false_r. reflexivity.
Qed.
