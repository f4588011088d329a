From Verif Require Import Prelude WindowM WindowS WindowP GhostM FieldM FieldS FieldP MaskM MaskS MaskP NeboM NeboS NeboP NeboQ NeboA NeboB NeboC NeboD NeboE NeboF ThinS.
#[local] Arguments has_extra : simpl never.

(** ** Fields *)
(** What the equality of programs needs to know about a field. *)
Definition even1 (n a v : Z) : Prop := (1 <? n) = false -> v = a /\ 0 <= v < GHOST_MAX.
Definition even (n a b : ivec) (g : ghost) : Prop :=
  even1 (ix n) (ix a) (ix (gminus g)) /\ even1 (iy n) (iy a) (iy (gminus g)) /\ even1 (iz n) (iz a) (iz (gminus g)) /\
  even1 (ix n) (ix b) (ix (gplus g)) /\ even1 (iy n) (iy b) (iy (gplus g)) /\ even1 (iz n) (iz b) (iz (gplus g)).
Definition evenf (n a b : ivec) (f : field) : Prop :=
  even n a b (fvalid f) /\ even n a b (fghosts f) /\ ginf (fvalid f) = false /\ ginf (fghosts f) = false /\
  in_plane n (has_extra (fbc f)) /\ iv_le iv_zero (has_extra (fbc f)).

Lemma drop1_wide n v : (1 <? n) = true -> drop1 n v = v.
Proof. unfold drop1; intros ->; reflexivity. Qed.
Lemma drop1_thin n v : (1 <? n) = false -> drop1 n v = 0.
Proof. unfold drop1; intros ->; reflexivity. Qed.
Lemma in_plane_comp n p : in_plane n p ->
  ((1 <? ix n) = false -> ix p = 0) /\ ((1 <? iy n) = false -> iy p = 0) /\ ((1 <? iz n) = false -> iz p = 0).
Proof.
  unfold in_plane, drop, drop1. intros E. destruct p as [x y z]; cbn in *. injection E as A B C.
  repeat split; intros T; rewrite T in *; auto.
Qed.

Lemma declares_even n a b g : iv_le (IV 1 1 1) n -> g_nonneg g -> declares n a b g -> even n a b g.
Proof.
  unfold declares, even, declares1, even1, g_nonneg, iv_le; cbn. intros (N1 & N2 & N3) ((A1 & A2 & A3) & (B1 & B2 & B3)) (D1 & D2 & D3 & D4 & D5 & D6).
  repeat split; try (destruct D1; lia); try (destruct D2; lia); try (destruct D3; lia);
    try (destruct D4; lia); try (destruct D5; lia); try (destruct D6; lia).
Qed.

Lemma thin_dims n a b f : thin_field n a b f -> iv_le (IV 1 1 1) n.
Proof. induction 1; auto. Qed.

(** [real_field] of a user's field is a field built with no ghosts in the one-cell directions. *)
Lemma real_make n a b bx by_ bz extra g buf nt :
  iv_le (IV 1 1 1) n -> declares n a b g -> no_thin_extra n bx by_ bz extra ->
  real_field n (patch_field n bx by_ bz extra g buf nt) = patch_field n bx by_ bz extra (real_ghosts n g) buf nt.
Proof.
  intros (N1 & N2 & N3) D (E1 & E2 & E3). cbn in N1, N2, N3. unfold real_field, patch_field, field_make. cbn.
  assert (W : forall bc, get_window_with_ghost n g bc = get_window_with_ghost n (real_ghosts n g) bc).
  { intros bc. unfold get_window_with_ghost, real_ghosts, drop, drop1, get_dim_with_ghost. cbn.
    destruct (1 <? ix n), (1 <? iy n), (1 <? iz n); reflexivity. }
  rewrite W. f_equal. unfold interior_window, real_ghosts, drop, drop1; cbn.
  unfold get_dim_with_ghost. destruct (1 <? ix n), (1 <? iy n), (1 <? iz n); reflexivity.
Qed.
Lemma extra_eq bx by_ bz extra : has_extra (bc_make bx by_ bz extra) =
  IV (if bx then ix extra else 0) (if by_ then iy extra else 0) (if bz then iz extra else 0).
Proof. apply has_extra_make. Qed.

Lemma thin_evenf n a b f : thin_field n a b f -> evenf n a b f.
Proof.
  intros T. induction T as [bx by_ bz extra g buf nt N E G I D X|f g T IH G L I D|f k T IH].
  - assert (EV := declares_even _ _ _ _ N G D). unfold evenf, patch_field, field_make; cbn -[has_extra bc_make].
    repeat (split; [assumption|]). rewrite extra_eq. destruct N as (N1 & N2 & N3), X as (X1 & X2 & X3), E as (E1 & E2 & E3). cbn in *. split.
    + unfold in_plane, drop, drop1; cbn. f_equal.
      * destruct (1 <? ix n) eqn:?; [reflexivity|]. destruct bx; [|reflexivity]. symmetry; apply X1; [lia|reflexivity].
      * destruct (1 <? iy n) eqn:?; [reflexivity|]. destruct by_; [|reflexivity]. symmetry; apply X2; [lia|reflexivity].
      * destruct (1 <? iz n) eqn:?; [reflexivity|]. destruct bz; [|reflexivity]. symmetry; apply X3; [lia|reflexivity].
    + unfold iv_le; cbn. destruct bx, by_, bz; lia.
  - destruct IH as (A & B & C & F & P). unfold evenf; cbn. split; [|tauto].
    apply declares_even; auto. eapply thin_dims; eauto.
  - exact IH.
Qed.

Lemma real_user n a b f : thin_field n a b f -> user_field n (real_field n f).
Proof.
  intros T. induction T as [bx by_ bz extra g buf nt N E G I D X|f g T IH G L I D|f k T IH].
  - rewrite (real_make n a b); auto. apply uf_make; auto.
    + unfold g_nonneg, real_ghosts, drop, drop1, iv_le in *; cbn in *. destruct (1 <? ix n), (1 <? iy n), (1 <? iz n); lia.
    + destruct N as (N1 & N2 & N3), X as (X1 & X2 & X3). cbn in *.
      unfold regular, regular1, real_ghosts, drop, drop1; cbn. repeat split.
      * destruct (1 <? ix n) eqn:?; [left; lia|right]. repeat split; try lia. destruct bx; [apply X1; [lia|reflexivity]|reflexivity].
      * destruct (1 <? iy n) eqn:?; [left; lia|right]. repeat split; try lia. destruct by_; [apply X2; [lia|reflexivity]|reflexivity].
      * destruct (1 <? iz n) eqn:?; [left; lia|right]. repeat split; try lia. destruct bz; [apply X3; [lia|reflexivity]|reflexivity].
  - assert (EV := thin_evenf _ _ _ _ T). destruct EV as (EV & _).
    assert (EG := declares_even _ _ _ _ (thin_dims _ _ _ _ T) G D).
    assert (Q : real_field n (reset_valid_ghosts f g) = reset_valid_ghosts (real_field n f) (real_ghosts n g)).
    { unfold reset_valid_ghosts, real_field; cbn. f_equal. unfold iv_add, iv_sub, drop, drop1; cbn.
      destruct EV as (V1 & V2 & V3 & V4 & V5 & V6), EG as (G1 & G2 & G3 & G4 & G5 & G6).
      unfold even1 in *. f_equal; f_equal.
      - destruct (1 <? ix n); [lia|]. destruct V1, G1; auto; lia.
      - destruct (1 <? iy n); [lia|]. destruct V2, G2; auto; lia.
      - destruct (1 <? iz n); [lia|]. destruct V3, G3; auto; lia.
      - destruct (1 <? ix n); [lia|]. destruct V1, G1, V4, G4; auto; lia.
      - destruct (1 <? iy n); [lia|]. destruct V2, G2, V5, G5; auto; lia.
      - destruct (1 <? iz n); [lia|]. destruct V3, G3, V6, G6; auto; lia. }
    rewrite Q. apply uf_reset; auto.
    + unfold g_nonneg, real_ghosts, drop, drop1, iv_le in *; cbn in *. destruct (1 <? ix n), (1 <? iy n), (1 <? iz n); lia.
    + clear - L. unfold g_le, iv_le in *. cbn. unfold drop1. destruct (1 <? ix n), (1 <? iy n), (1 <? iz n); lia.
  - change (real_field n (set_partition_count f k)) with (set_partition_count (real_field n f) k). apply uf_parts, IH.
Qed.

(** ** Ghost counts *)
(** The counts found with declared and with real ghosts: the same in wide
    directions; in thin ones either the declared count and 0, or no field limits them. *)
Definition rel1 (n a g g' : Z) : Prop := if 1 <? n then g' = g else (g = a /\ g' = 0 /\ 0 <= a < GHOST_MAX) \/ (g = GHOST_MAX /\ g' = GHOST_MAX).
Definition sel1 (n a g g' : Z) : Prop := if 1 <? n then g' = g else g = a /\ g' = 0 /\ 0 <= a < GHOST_MAX.
Definition vrel (R : Z -> Z -> Z -> Z -> Prop) (n a v v' : ivec) : Prop :=
  R (ix n) (ix a) (ix v) (ix v') /\ R (iy n) (iy a) (iy v) (iy v') /\ R (iz n) (iz a) (iz v) (iz v').
Definition grel R (n a b : ivec) (g g' : ghost) : Prop :=
  vrel R n a (gminus g) (gminus g') /\ vrel R n b (gplus g) (gplus g').

Lemma sel_rel n a b g g' : grel sel1 n a b g g' -> grel rel1 n a b g g'.
Proof.
  unfold grel, vrel, sel1, rel1. intros ((A & B & C) & (D & E & F)).
  repeat split; [destruct (1 <? ix n)|destruct (1 <? iy n)|destruct (1 <? iz n)|destruct (1 <? ix n)|destruct (1 <? iy n)|destruct (1 <? iz n)]; auto.
Qed.
Lemma min_rel1 n a g g' k k' : rel1 n a g g' -> rel1 n a k k' -> rel1 n a (Z.min g k) (Z.min g' k').
Proof. unfold rel1. destruct (1 <? n); [lia|]. intros [?|?] [?|?]; [left|left|left|right]; lia. Qed.
Lemma min_sel1 n a g g' k k' : sel1 n a g g' -> rel1 n a k k' -> sel1 n a (Z.min g k) (Z.min g' k').
Proof. unfold rel1, sel1. destruct (1 <? n); [lia|]. intros ? [?|?]; lia. Qed.
Lemma min_sel1' n a g g' k k' : rel1 n a g g' -> sel1 n a k k' -> sel1 n a (Z.min g k) (Z.min g' k').
Proof. unfold rel1, sel1. destruct (1 <? n); [lia|]. intros [?|?] ?; lia. Qed.
Lemma if_min x y : (if x <? y then x else y) = Z.min x y.
Proof. destruct (x <? y) eqn:E; lia. Qed.
Lemma min_grel n a b g g' k k' : grel rel1 n a b g g' -> grel rel1 n a b k k' -> grel rel1 n a b (g_min g k) (g_min g' k').
Proof. intros ((?&?&?)&(?&?&?)) ((?&?&?)&(?&?&?)). unfold grel, vrel; cbn -[rel1 sel1]. rewrite !if_min. repeat split; apply min_rel1; assumption. Qed.
Lemma min_gsel n a b g g' k k' : grel sel1 n a b g g' -> grel rel1 n a b k k' -> grel sel1 n a b (g_min g k) (g_min g' k').
Proof. intros ((?&?&?)&(?&?&?)) ((?&?&?)&(?&?&?)). unfold grel, vrel; cbn -[rel1 sel1]. rewrite !if_min. repeat split; apply min_sel1; assumption. Qed.
Lemma min_gsel' n a b g g' k k' : grel rel1 n a b g g' -> grel sel1 n a b k k' -> grel sel1 n a b (g_min g k) (g_min g' k').
Proof. intros ((?&?&?)&(?&?&?)) ((?&?&?)&(?&?&?)). unfold grel, vrel; cbn -[rel1 sel1]. rewrite !if_min. repeat split; apply min_sel1'; assumption. Qed.

Lemma ptg_plain p : ginf (point_to_ghost p) = ghost_infinite (gminus (point_to_ghost p)) (gplus (point_to_ghost p)).
Proof. reflexivity. Qed.
Lemma ptg_plane n p : in_plane n p -> in_plane n (gminus (point_to_ghost p)) /\ in_plane n (gplus (point_to_ghost p)).
Proof.
  intros P. apply in_plane_comp in P. destruct P as (A & B & C). unfold in_plane, drop, drop1; cbn.
  split; f_equal.
  1, 4: destruct (1 <? ix n); [reflexivity|rewrite A by reflexivity; reflexivity].
  1, 3: destruct (1 <? iy n); [reflexivity|rewrite B by reflexivity; reflexivity].
  1, 2: destruct (1 <? iz n); [reflexivity|rewrite C by reflexivity; reflexivity].
Qed.
(** relation on outcomes *)
Definition orel {A} (R : A -> A -> Prop) (o o' : outcome A) : Prop :=
  match o, o' with Ok g, Ok g' => R g g' | Throw, Throw => True | UB, UB => True | _, _ => False end.
Lemma sub_rel1 n a g g' k : rel1 n a g g' -> ((1 <? n) = false -> k = 0) -> rel1 n a (g - k) (g' - k).
Proof. unfold rel1. destruct (1 <? n); [lia|]. intros [?|?] K; rewrite K by reflexivity; [left|right]; lia. Qed.
Lemma sub_sel1 n a g g' k : sel1 n a g g' -> ((1 <? n) = false -> k = 0) -> sel1 n a (g - k) (g' - k).
Proof. unfold sel1. destruct (1 <? n); [lia|]. intros ? K; rewrite K by reflexivity; lia. Qed.
Lemma sub_orel n a b g g' p : in_plane n p -> grel rel1 n a b g g' ->
  orel (grel rel1 n a b) (g_sub g (point_to_ghost p)) (g_sub g' (point_to_ghost p)).
Proof.
  intros P ((?&?&?)&(?&?&?)). unfold g_sub. destruct (ginf (point_to_ghost p)); cbn; [exact I|].
  destruct (ptg_plane n p P) as (M & L). apply in_plane_comp in M, L. destruct M as (?&?&?), L as (?&?&?).
  unfold grel, vrel; cbn -[rel1 sel1 neg_part pos_part] in *. repeat split; apply sub_rel1; assumption.
Qed.
Lemma sub_osel n a b g g' p : in_plane n p -> grel sel1 n a b g g' ->
  orel (grel sel1 n a b) (g_sub g (point_to_ghost p)) (g_sub g' (point_to_ghost p)).
Proof.
  intros P ((?&?&?)&(?&?&?)). unfold g_sub. destruct (ginf (point_to_ghost p)); cbn; [exact I|].
  destruct (ptg_plane n p P) as (M & L). apply in_plane_comp in M, L. destruct M as (?&?&?), L as (?&?&?).
  unfold grel, vrel; cbn -[rel1 sel1 neg_part pos_part] in *. repeat split; apply sub_sel1; assumption.
Qed.

Lemma even_sel n a b g k : even n a b g -> in_plane n k ->
  vrel sel1 n a (gminus g) (drop n (gminus g)) /\ vrel sel1 n b (iv_add (gplus g) k) (iv_add (drop n (gplus g)) k).
Proof.
  intros (E1&E2&E3&E4&E5&E6) K. apply in_plane_comp in K. destruct K as (K1&K2&K3).
  unfold vrel, sel1, drop, drop1, even1 in *; cbn. repeat split.
  - destruct (1 <? ix n); [reflexivity|]. destruct E1; auto. lia.
  - destruct (1 <? iy n); [reflexivity|]. destruct E2; auto. lia.
  - destruct (1 <? iz n); [reflexivity|]. destruct E3; auto. lia.
  - destruct (1 <? ix n); [reflexivity|]. rewrite K1 by auto. destruct E4; auto. lia.
  - destruct (1 <? iy n); [reflexivity|]. rewrite K2 by auto. destruct E5; auto. lia.
  - destruct (1 <? iz n); [reflexivity|]. rewrite K3 by auto. destruct E6; auto. lia.
Qed.
Lemma neg_part_0 v : 0 <= v -> neg_part v = 0.
Proof. unfold neg_part. destruct (v <? 0) eqn:E; lia. Qed.
Lemma pos_part_id v : 0 <= v -> pos_part v = v.
Proof. unfold pos_part. destruct (0 <? v) eqn:E; lia. Qed.
Lemma ptg_nonneg v : iv_le iv_zero v -> point_to_ghost v = Ghost iv_zero v false.
Proof.
  intros (A & B & C). cbn in A, B, C. destruct v as [x y z]; cbn in *. unfold point_to_ghost, mk_ghost; cbn.
  rewrite !neg_part_0, !pos_part_id by assumption. reflexivity.
Qed.
Lemma iv_add_zero v : iv_add v iv_zero = v.
Proof. destruct v; unfold iv_add; cbn; f_equal; lia. Qed.
Lemma add_sel n a b g x : even n a b g -> ginf g = false -> in_plane n x -> iv_le iv_zero x ->
  grel sel1 n a b (g_add g (point_to_ghost x)) (g_add (real_ghosts n g) (point_to_ghost x)).
Proof.
  intros E I P L. rewrite ptg_nonneg by assumption. unfold g_add; cbn. rewrite I. cbn.
  destruct (even_sel n a b g x E P) as (A & B). split; cbn; [|exact B].
  rewrite !iv_add_zero. exact A.
Qed.
Lemma leaf_sel n a b f : evenf n a b f -> grel sel1 n a b (leaf_ghosts f) (leaf_ghosts (real_field n f)).
Proof. intros (E & _ & I & _ & P & L). unfold leaf_ghosts; cbn. apply add_sel; assumption. Qed.
