(** Proofs about ghost counts and field windows. *)
From Verif Require Import Prelude WindowM WindowS WindowP GhostM FieldM FieldS.

Lemma ghost_ext a b : gminus a = gminus b -> gplus a = gplus b -> ginf a = ginf b -> a = b.
Proof. destruct a, b; cbn; intros; subst; reflexivity. Qed.
Lemma win_ext a b : wglob a = wglob b -> woff a = woff b -> wext a = wext b -> a = b.
Proof. destruct a, b; cbn; intros; subst; reflexivity. Qed.

Ltac iv_solve := apply iv_ext; cbn; try lia.

Lemma iv_min_eq a b : iv_min a b = IV (Z.min (ix a) (ix b)) (Z.min (iy a) (iy b)) (Z.min (iz a) (iz b)).
Proof.
  unfold iv_min. f_equal.
  - destruct (ix a <? ix b) eqn:E; lia.
  - destruct (iy a <? iy b) eqn:E; lia.
  - destruct (iz a <? iz b) eqn:E; lia.
Qed.
Lemma neg_part_eq v : neg_part v = Z.max 0 (- v).
Proof. unfold neg_part. destruct (v <? 0) eqn:E; lia. Qed.
Lemma pos_part_eq v : pos_part v = Z.max 0 v.
Proof. unfold pos_part. destruct (0 <? v) eqn:E; lia. Qed.
Lemma iv_min_comm a b : iv_min a b = iv_min b a.
Proof. rewrite !iv_min_eq. iv_solve. Qed.
Lemma iv_min_assoc a b c : iv_min a (iv_min b c) = iv_min (iv_min a b) c.
Proof. rewrite !iv_min_eq. iv_solve. Qed.
Lemma iv_min_id a : iv_min a a = a.
Proof. rewrite !iv_min_eq. iv_solve. Qed.

Lemma mk_ghost_wf m p : g_wf (mk_ghost m p).
Proof. unfold g_wf, mk_ghost, ghost_infinite, iv_infinite; cbn. lia. Qed.

Lemma g_wf_mk g : g_wf g -> mk_ghost (gminus g) (gplus g) = g.
Proof.
  intros H. apply ghost_ext; try reflexivity. unfold mk_ghost, ghost_infinite, iv_infinite; cbn.
  destruct H as [H1 H2]. destruct (ginf g) eqn:E.
  - specialize (H1 eq_refl). lia.
  - apply not_true_is_false. intros H. cut (false = true); [discriminate|]. apply H2. lia.
Qed.

Lemma ghost_min_laws a b c :
  g_min a b = g_min b a /\ g_min a (g_min b c) = g_min (g_min a b) c /\
  (g_wf a -> g_min a a = a) /\ g_eqb (g_min a a) a = true /\
  g_le (g_min a b) a /\ g_le (g_min a b) b /\
  (g_le c a -> g_le c b -> g_le c (g_min a b)).
Proof.
  unfold g_min. split; [rewrite (iv_min_comm (gminus a)), (iv_min_comm (gplus a)); reflexivity|].
  split; [cbn; rewrite !iv_min_assoc; reflexivity|].
  split; [intros H; rewrite !iv_min_id; apply g_wf_mk; exact H|].
  split; [cbn; unfold g_eqb; cbn; rewrite !iv_min_id; apply andb_true_iff; rewrite !iv_eqb_eq; auto|].
  unfold g_le, iv_le, mk_ghost; cbn [gminus gplus]; rewrite !iv_min_eq; cbn. lia.
Qed.

Lemma iv_add_comm a b : iv_add a b = iv_add b a.
Proof. iv_solve. Qed.
Lemma iv_add_assoc a b c : iv_add a (iv_add b c) = iv_add (iv_add a b) c.
Proof. iv_solve. Qed.
Lemma iv_add_sub a b : iv_sub (iv_add a b) b = a.
Proof. iv_solve. Qed.

Lemma ghost_add_laws a b c : ginf a = false -> ginf b = false -> ginf c = false ->
  g_add a b = g_add b a /\ g_add a (g_add b c) = g_add (g_add a b) c /\
  gminus (g_add a b) = iv_add (gminus a) (gminus b) /\ gplus (g_add a b) = iv_add (gplus a) (gplus b) /\
  g_sub (g_add a b) b = Ok a.
Proof.
  intros Ha Hb Hc. unfold g_add, g_sub. rewrite Ha, Hb, Hc; cbn.
  rewrite ?Ha, ?Hb; cbn. repeat split.
  - apply ghost_ext; cbn; apply iv_add_comm || reflexivity.
  - apply ghost_ext; cbn; apply iv_add_assoc || reflexivity.
  - f_equal. rewrite !iv_add_sub. apply ghost_ext; cbn; congruence.
Qed.

Lemma ghost_inf_laws i a : g_wf i -> ginf i = true -> ginf a = false ->
  g_add i a = i /\ g_add a i = i /\ g_sub a i = Throw /\
  (g_wf a -> g_le a (ghost_n GHOST_MAX) -> g_min i a = a /\ g_min a i = a).
Proof.
  intros W Hi Ha. unfold g_add, g_sub. rewrite Hi, Ha. repeat split; try reflexivity.
  - apply W in Hi. rewrite <- (g_wf_mk a) at 2 by assumption. unfold g_min.
    unfold g_le, iv_le in *; cbn in *. rewrite !iv_min_eq; f_equal; iv_solve.
  - apply W in Hi. rewrite <- (g_wf_mk a) at 2 by assumption. unfold g_min.
    unfold g_le, iv_le in *; cbn in *. rewrite !iv_min_eq; f_equal; iv_solve.
Qed.

Lemma point_to_ghost_exact p g n : g_nonneg g -> pos_dims n ->
  (g_le (point_to_ghost p) g <->
   forall i, in_box n i ->
     covers (grown (Win n iv_zero n) (gminus g) (gplus g)) (iv_add i p)).
Proof.
  unfold g_nonneg, g_le, iv_le, pos_dims, in_box, covers, point_to_ghost; cbn.
  rewrite !neg_part_eq, !pos_part_eq. intros G N. split.
  - intros H i Hi. lia.
  - intros H. pose proof (H (IV 0 0 0)) as H0. pose proof (H (IV (ix n - 1) (iy n - 1) (iz n - 1))) as H1.
    cbn in *. specialize (H0 ltac:(lia)). specialize (H1 ltac:(lia)). lia.
Qed.

Lemma has_extra_make bx by_ bz e :
  has_extra (bc_make bx by_ bz e) =
  IV (if bx then ix e else 0) (if by_ then iy e else 0) (if bz then iz e else 0).
Proof. destruct bx, by_, bz, e as [e1 e2 e3]; unfold has_extra, has_extra1, bc_make; cbn [b2z bc_is bc_nextra iv_mul ix iy iz Z.eqb negb]; f_equal; lia. Qed.

Lemma extra_counts bx by_ bz e :
  num_extra (bc_make bx by_ bz e) = IV (if bx then ix e else 0) (if by_ then iy e else 0) (if bz then iz e else 0) /\
  has_extra (bc_make bx by_ bz e) = IV (if bx then ix e else 0) (if by_ then iy e else 0) (if bz then iz e else 0).
Proof.
  split; [|apply has_extra_make].
  unfold num_extra, bc_make, iv_mul. cbn [bc_nextra ix iy iz]. destruct bx, by_, bz; unfold b2z; rewrite ?Z.mul_1_l, ?Z.mul_0_l; reflexivity.
Qed.

Lemma layout1_ok n gm gp e : 1 <= n -> 0 <= gm -> 0 <= gp -> 0 <= e ->
  let blk := get_dim_with_ghost n gm gp e in
  layout1 n gm gp e blk (int_off1 0 blk gm) (int_ext1 blk gm gp) /\
  0 < blk /\ 0 <= int_off1 0 blk gm /\ 0 < int_ext1 blk gm gp /\
  int_off1 0 blk gm + int_ext1 blk gm gp <= blk.
Proof.
  intros. unfold blk, layout1, get_dim_with_ghost, int_off1, int_ext1.
  destruct (1 <? n) eqn:E; [destruct (1 <? n + gm + gp + e) eqn:E2|change (1 <? 1) with false]; cbn; lia.
Qed.

Lemma patch_field_layout dim bx by_ bz extra g buf nt :
  iv_le (IV 1 1 1) dim -> iv_le iv_zero extra -> g_nonneg g ->
  let f := patch_field dim bx by_ bz extra g buf nt in
  layout1 (ix dim) (ix (gminus g)) (ix (gplus g)) (if bx then ix extra else 0)
          (ix (wglob (fwin f))) (ix (woff (fint f))) (ix (wext (fint f))) /\
  layout1 (iy dim) (iy (gminus g)) (iy (gplus g)) (if by_ then iy extra else 0)
          (iy (wglob (fwin f))) (iy (woff (fint f))) (iy (wext (fint f))) /\
  layout1 (iz dim) (iz (gminus g)) (iz (gplus g)) (if bz then iz extra else 0)
          (iz (wglob (fwin f))) (iz (woff (fint f))) (iz (wext (fint f))) /\
  woff (fwin f) = iv_zero /\ wext (fwin f) = wglob (fwin f) /\ wglob (fint f) = wglob (fwin f) /\
  fits (fwin f) /\ fits (fint f) /\
  (0 < ix (wext (fint f)) /\ 0 < iy (wext (fint f)) /\ 0 < iz (wext (fint f))).
Proof.
  intros (Dx & Dy & Dz) (Ex & Ey & Ez) ((Mx & My & Mz) & (Px & Py & Pz)) f.
  cbn [ix iy iz iv_zero] in *.
  assert (Hx : 0 <= if bx then ix extra else 0) by (destruct bx; lia).
  assert (Hy : 0 <= if by_ then iy extra else 0) by (destruct by_; lia).
  assert (Hz : 0 <= if bz then iz extra else 0) by (destruct bz; lia).
  unfold f, patch_field, field_make, get_window_with_ghost, win_full, interior_window, fits.
  cbn [fwin fint wglob woff wext ix iy iz iv_zero]. rewrite has_extra_make. cbn [ix iy iz].
  pose proof (layout1_ok _ _ _ _ Dx Mx Px Hx) as Lx.
  pose proof (layout1_ok _ _ _ _ Dy My Py Hy) as Ly.
  pose proof (layout1_ok _ _ _ _ Dz Mz Pz Hz) as Lz. cbn zeta in *.
  repeat (split; [first [apply Lx|apply Ly|apply Lz|reflexivity|lia]|]); lia.
Qed.

(** reset_valid_ghosts *)
Lemma field_ext a b : fwin a = fwin b -> fint a = fint b -> fbc a = fbc b -> fghosts a = fghosts b ->
  fvalid a = fvalid b -> fbuf a = fbuf b -> freadonly a = freadonly b -> fdisint a = fdisint b ->
  fparts a = fparts b -> a = b.
Proof. destruct a, b; cbn; intros; subst; reflexivity. Qed.

Lemma reset_reset f g h : reset_valid_ghosts (reset_valid_ghosts f g) h = reset_valid_ghosts f h.
Proof.
  apply field_ext; try reflexivity. cbn. apply win_ext; cbn; [reflexivity|iv_solve|iv_solve].
Qed.
Lemma reset_same f : reset_valid_ghosts f (fvalid f) = f.
Proof.
  apply field_ext; try reflexivity. cbn. apply win_ext; cbn; [reflexivity|iv_solve|iv_solve].
Qed.

Lemma resets_last gs f g :
  reset_valid_ghosts (fold_left reset_valid_ghosts gs f) g = reset_valid_ghosts f g.
Proof.
  revert f. induction gs as [|h gs IH]; intros f; cbn [fold_left]; [reflexivity|].
  rewrite IH, reset_reset. reflexivity.
Qed.

Lemma resets_history gs f g :
  fold_left reset_valid_ghosts (gs ++ [g]) f = reset_valid_ghosts f g /\
  fold_left reset_valid_ghosts (gs ++ [fvalid f]) f = f.
Proof. rewrite !fold_left_app; cbn. rewrite !resets_last, reset_same. auto. Qed.

Lemma patch_full_window dim bx by_ bz extra g buf nt :
  full_3d dim -> iv_le iv_zero extra -> g_nonneg g ->
  let f := patch_field dim bx by_ bz extra g buf nt in
  fwin f = grown (fint f) (gminus g) (gplus g).
Proof.
  intros D E G f.
  destruct (patch_field_layout dim bx by_ bz extra g buf nt) as (Lx & Ly & Lz & O & W & GG & _); try assumption.
  { unfold full_3d, iv_le in *; cbn; lia. }
  fold f in Lx, Ly, Lz, O, W, GG. clearbody f. unfold layout1, full_3d in *. unfold grown.
  apply win_ext; cbn; [symmetry; exact GG| |].
  - rewrite O. iv_solve.
  - rewrite W. iv_solve.
Qed.

Lemma resets_window dim bx by_ bz extra g buf nt gs h :
  full_3d dim -> iv_le iv_zero extra -> g_nonneg g ->
  let f0 := patch_field dim bx by_ bz extra g buf nt in
  let f := fold_left reset_valid_ghosts (gs ++ [h]) f0 in
  fwin f = grown (fint f0) (gminus h) (gplus h) /\ fint f = fint f0 /\ fvalid f = h /\
  fghosts f = g /\ fbuf f = buf /\
  (g_nonneg h -> g_le h g -> fits (fwin f)).
Proof.
  intros D E G f0 f. unfold f. rewrite (proj1 (resets_history gs f0 h)).
  assert (W : fwin (reset_valid_ghosts f0 h) = grown (fint f0) (gminus h) (gplus h)).
  { unfold reset_valid_ghosts; cbn [fwin]. unfold f0 at 1 2 3 4 5 6.
    rewrite (patch_full_window dim bx by_ bz extra g buf nt D E G). unfold f0. cbn [patch_field field_make fvalid fint].
    apply win_ext; cbn; [reflexivity|iv_solve|iv_solve]. }
  repeat (split; [exact W || reflexivity|]). intros H L. rewrite W.
  destruct (patch_field_layout dim bx by_ bz extra g buf nt) as (Lx & Ly & Lz & O & W0 & GG & _ & F & P); try assumption.
  { unfold full_3d, iv_le in *; cbn; lia. }
  fold f0 in Lx, Ly, Lz, O, W0, GG, F, P. clear W f. clearbody f0. unfold layout1, full_3d, fits, grown, g_nonneg, g_le, iv_le in *.
  cbn. cbn in H. rewrite GG. lia.
Qed.

Lemma ghost_setters g m :
  (gminus (g_set_minus g m) = m /\ gplus (g_set_minus g m) = gplus g /\ g_wf (g_set_minus g m)) /\
  (gplus (g_set_plus g m) = m /\ gminus (g_set_plus g m) = gminus g /\ g_wf (g_set_plus g m)).
Proof. split; (split; [reflexivity|]; split; [reflexivity|]; apply (mk_ghost_wf _ _)). Qed.

Lemma ghost_eqb_iff a b : g_eqb a b = true <-> gminus a = gminus b /\ gplus a = gplus b.
Proof. unfold g_eqb. rewrite andb_true_iff, !iv_eqb_eq. reflexivity. Qed.
