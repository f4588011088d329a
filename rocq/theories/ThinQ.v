From Verif Require Import Prelude WindowM WindowS WindowP GhostM FieldM FieldS FieldP MaskM MaskS MaskP NeboM NeboS NeboP NeboQ NeboA NeboB NeboC NeboD NeboE NeboF ThinS ThinP.
#[local] Arguments has_extra : simpl never.

(** ** Declared and real ghosts give the same programs *)
Section ThinQ.
Variable V : Type.
Variable vadd vmul : V -> V -> V.
Notation expr := (expr V). Notation bexpr := (bexpr V). Notation heap := (heap V).
Variables n a b : ivec.
Notation rel := (grel rel1 n a b). Notation sel := (grel sel1 n a b).

Lemma orel_bind {A B} (R : A -> A -> Prop) (Q : B -> B -> Prop) o o' f f' :
  orel R o o' -> (forall x y, R x y -> orel Q (f x) (f' y)) -> orel Q (obind o f) (obind o' f').
Proof. destruct o, o'; cbn; try tauto. intros; auto. Qed.
Lemma orel_fold {A} (pts : A -> ivec) rest g g' acc acc' :
  (forall p, In p rest -> in_plane n (pts p)) -> rel g g' -> orel rel acc acc' ->
  orel rel
    (fold_left (fun acc p => do earlier <- acc; do gp <- g_sub g (point_to_ghost (pts p)); Ok (g_min gp earlier)) rest acc)
    (fold_left (fun acc p => do earlier <- acc; do gp <- g_sub g' (point_to_ghost (pts p)); Ok (g_min gp earlier)) rest acc').
Proof.
  revert acc acc'. induction rest as [|p rest IH]; intros acc acc' P G A'; cbn [fold_left]; [exact A'|].
  apply IH; [intros q Q; apply P; right; exact Q|exact G|].
  eapply orel_bind; [exact A'|]. intros x y X. eapply orel_bind; [apply sub_orel; [apply P; left; reflexivity|exact G]|].
  intros u v U. cbn. apply min_grel; assumption.
Qed.
Lemma osel_fold {A} (pts : A -> ivec) rest g g' acc acc' :
  (forall p, In p rest -> in_plane n (pts p)) -> sel g g' -> orel sel acc acc' ->
  orel sel
    (fold_left (fun acc p => do earlier <- acc; do gp <- g_sub g (point_to_ghost (pts p)); Ok (g_min gp earlier)) rest acc)
    (fold_left (fun acc p => do earlier <- acc; do gp <- g_sub g' (point_to_ghost (pts p)); Ok (g_min gp earlier)) rest acc').
Proof.
  revert acc acc'. induction rest as [|p rest IH]; intros acc acc' P G A'; cbn [fold_left]; [exact A'|].
  apply IH; [intros q Q; apply P; right; exact Q|exact G|].
  eapply orel_bind; [exact A'|]. intros x y X. eapply orel_bind; [apply sub_osel; [apply P; left; reflexivity|exact G]|].
  intros u v U. cbn. apply min_gsel; [exact U|apply sel_rel, X].
Qed.
Lemma const_rel : rel (ghost_n GHOST_MAX) (ghost_n GHOST_MAX).
Proof. unfold grel, vrel, rel1; cbn. repeat split; destruct (1 <? _); auto. Qed.
Lemma osel_orel o o' : orel sel o o' -> orel rel o o'.
Proof. destruct o, o'; cbn; auto using sel_rel. Qed.

Lemma ghosts_rel :
  (forall e : expr, thin_expr V n a b e ->
     orel rel (possible_ghosts V e) (possible_ghosts V (real_expr V n e)) /\
     (has_leaf V e = true -> orel sel (possible_ghosts V e) (possible_ghosts V (real_expr V n e)))) /\
  (forall e : bexpr, thin_bexpr V n a b e ->
     orel rel (bpossible_ghosts V e) (bpossible_ghosts V (real_bexpr V n e)) /\
     (bhas_leaf V e = true -> orel sel (bpossible_ghosts V e) (bpossible_ghosts V (real_bexpr V n e)))).
Proof.
  assert (LEAF : forall f, thin_field n a b f -> sel (leaf_ghosts f) (leaf_ghosts (real_field n f))).
  { intros f T. apply leaf_sel, thin_evenf, T. }
  assert (TWO : forall o o' k k' x y,
    (orel rel o o' /\ (x = true -> orel sel o o')) -> (orel rel k k' /\ (y = true -> orel sel k k')) ->
    orel rel (do u <- o; do v <- k; Ok (g_min u v)) (do u <- o'; do v <- k'; Ok (g_min u v)) /\
    (x || y = true -> orel sel (do u <- o; do v <- k; Ok (g_min u v)) (do u <- o'; do v <- k'; Ok (g_min u v)))).
  { intros o o' k k' x y (A1 & A2) (B1 & B2). split.
    - eapply orel_bind; [exact A1|]. intros u v U. eapply orel_bind; [exact B1|]. intros s t T. cbn. apply min_grel; assumption.
    - intros X. destruct x.
      + eapply orel_bind; [apply A2; reflexivity|]. intros u v U. eapply orel_bind; [exact B1|]. intros s t T. cbn. apply min_gsel; assumption.
      + eapply orel_bind; [exact A1|]. intros u v U. eapply orel_bind; [apply B2; exact X|]. intros s t T. cbn. apply min_gsel'; assumption. }
  apply expr_bexpr_ind; cbn [thin_expr thin_bexpr real_expr real_bexpr possible_ghosts bpossible_ghosts has_leaf bhas_leaf].
  - intros v _. split; [apply const_rel|discriminate].
  - intros f T. split; [apply sel_rel, LEAF, T|intros _; apply LEAF, T].
  - intros f _. split; [apply const_rel|discriminate].
  - intros op x IH T. auto.
  - intros op x IHx y IHy (T1 & T2). apply TWO; auto.
  - intros c IHc x IHx o IHo (T1 & T2 & T3).
    specialize (IHc T1). specialize (IHx T2). specialize (IHo T3).
    assert (ASSOC : forall gc gx go, (do u <- gc; do v <- gx; do w <- go; Ok (g_min (g_min u v) w)) =
                    (do u <- (do u <- gc; do v <- gx; Ok (g_min u v)); do w <- go; Ok (g_min u w))).
    { intros [?| |] [?| |] [?| |]; reflexivity. }
    rewrite !ASSOC. apply TWO; [apply TWO; assumption|assumption].
  - intros p0 c0 rest x IH (P & R & T). specialize (IH T). destruct IH as (I1 & I2). split.
    + eapply orel_bind; [exact I1|]. intros u v U. apply (orel_fold fst); [exact R|exact U|apply sub_orel; assumption].
    + intros L. eapply orel_bind; [apply I2, L|]. intros u v U. apply (osel_fold fst); [exact R|exact U|apply sub_osel; assumption].
  - intros p0 rest x IH (P & R & T). specialize (IH T). destruct IH as (I1 & I2). split.
    + eapply orel_bind; [exact I1|]. intros u v U. apply (orel_fold (fun p => p)); [exact R|exact U|apply sub_orel; assumption].
    + intros L. eapply orel_bind; [apply I2, L|]. intros u v U. apply (osel_fold (fun p => p)); [exact R|exact U|apply sub_osel; assumption].
  - intros v _. split; [apply const_rel|discriminate].
  - intros m T. split; [apply sel_rel, LEAF, T|intros _; apply LEAF, T].
  - intros c x IHx y IHy (T1 & T2). apply TWO; auto.
  - intros x IHx y IHy (T1 & T2). apply TWO; auto.
  - intros x IHx y IHy (T1 & T2). apply TWO; auto.
  - intros x IH T. auto.
  - intros p x IH (P & T). specialize (IH T). destruct IH as (I1 & I2). split.
    + eapply orel_bind; [exact I1|]. intros u v U. apply sub_orel; assumption.
    + intros L. eapply orel_bind; [apply I2, L|]. intros u v U. apply sub_osel; assumption.
Qed.

(** Windows *)
Notation vsela := (vrel sel1 n a). Notation vselb := (vrel sel1 n b).
Lemma window_same f m m' p p' : evenf n a b f -> vsela m m' -> vselb p p' ->
  fwin (resize_ghost f m (iv_sub p (has_extra (fbc f)))) = fwin (resize_ghost (real_field n f) m' (iv_sub p' (has_extra (fbc (real_field n f))))).
Proof.
  intros (E & _ & _ & _ & P & L) (M1 & M2 & M3) (P1 & P2 & P3). destruct E as (E1&E2&E3&E4&E5&E6).
  apply in_plane_comp in P. destruct P as (X1 & X2 & X3).
  unfold resize_ghost, reshape, field_window; cbn. unfold sel1, even1, drop, drop1, iv_add, iv_sub in *; cbn in *.
  f_equal; f_equal.
  - destruct (1 <? ix n); [lia|]. destruct E1; auto. lia.
  - destruct (1 <? iy n); [lia|]. destruct E2; auto. lia.
  - destruct (1 <? iz n); [lia|]. destruct E3; auto. lia.
  - destruct (1 <? ix n); [lia|]. rewrite X1 by auto. destruct E1, E4; auto. lia.
  - destruct (1 <? iy n); [lia|]. rewrite X2 by auto. destruct E2, E5; auto. lia.
  - destruct (1 <? iz n); [lia|]. rewrite X3 by auto. destruct E3, E6; auto. lia.
Qed.
Lemma fold_ext {A B} (f g : A -> B -> A) l x y : x = y -> (forall z p, f z p = g z p) -> fold_left f l x = fold_left g l y.
Proof. intros -> E. revert y. induction l as [|p l IH]; intros y; cbn; [reflexivity|]. rewrite E. apply IH. Qed.

Lemma init_same red m m' p p' : vsela m m' -> vselb p p' ->
  (forall e : expr, thin_expr V n a b e -> forall s, init V vadd vmul red e m p s = init V vadd vmul red (real_expr V n e) m' p' s) /\
  (forall e : bexpr, thin_bexpr V n a b e -> forall s, binit V vadd vmul red e m p s = binit V vadd vmul red (real_bexpr V n e) m' p' s).
Proof.
  intros M P.
  apply expr_bexpr_ind; cbn [thin_expr thin_bexpr real_expr real_bexpr init binit].
  - reflexivity.
  - intros f T s. unfold walk_field, resize_ghost_and_shift_window, shift_window, reshape. cbn [fwin field_window fbuf].
    rewrite (window_same f m m' p p' (thin_evenf _ _ _ _ T) M P). reflexivity.
  - reflexivity.
  - intros op x IH T s. rewrite (IH T). reflexivity.
  - intros op x IHx y IHy (T1 & T2) s. rewrite (IHx T1), (IHy T2). reflexivity.
  - intros c IHc x IHx o IHo (T1 & T2 & T3) s. rewrite (IHc T1), (IHx T2), (IHo T3). reflexivity.
  - intros p0 c0 rest x IH (_ & _ & T) s. apply fold_ext; [rewrite (IH T); reflexivity|]. intros z q. rewrite (IH T). reflexivity.
  - intros p0 rest x IH (_ & _ & T) s. apply fold_ext; [rewrite (IH T); reflexivity|]. intros z q. rewrite (IH T). reflexivity.
  - reflexivity.
  - intros k T s. unfold walk_mask, mask_resize_ghost_and_shift_window, mask_shift_window, mask_resize_ghost, shift_window, reshape.
    cbn [fwin field_window fbuf mgeo mwords real_mask].
    rewrite (window_same (mgeo k) m m' p p' (thin_evenf _ _ _ _ T) M P). reflexivity.
  - intros c x IHx y IHy (T1 & T2) s. rewrite (IHx T1), (IHy T2). reflexivity.
  - intros x IHx y IHy (T1 & T2) s. rewrite (IHx T1), (IHy T2). reflexivity.
  - intros x IHx y IHy (T1 & T2) s. rewrite (IHx T1), (IHy T2). reflexivity.
  - intros x IH T s. rewrite (IH T). reflexivity.
  - intros q x IH (_ & T) s. apply IH, T.
Qed.

(** The ghost bookkeeping of an assignment *)
Lemma if_and_same (c d d' : bool) (A : Type) (x y y' : A) : (c = true -> d = d') -> y = y' ->
  (if c && d then x else y) = (if c && d' then x else y').
Proof. intros H ->. destruct c; cbn; [rewrite H by reflexivity|]; reflexivity. Qed.
Lemma valid_ghost_rel f g g' : evenf n a b f -> rel g g' ->
  orel sel (calculate_valid_ghost true (fghosts f) (fbc f) g) (calculate_valid_ghost true (fghosts (real_field n f)) (fbc (real_field n f)) g').
Proof.
  intros E R. assert (E' := E). destruct E as (_ & E & _ & I & P & L).
  assert (S1 := add_sel n a b (fghosts f) _ E I P L).
  apply in_plane_comp in P. destruct P as (X1 & X2 & X3).
  unfold calculate_valid_ghost. cbn [fbc fghosts real_field].
  destruct R as ((R1 & R2 & R3) & (R4 & R5 & R6)).
  assert (Q4 : (ix (gplus g) <? ix (has_extra (fbc f))) = (ix (gplus g') <? ix (has_extra (fbc f)))).
  { unfold rel1 in R4. destruct (1 <? ix n); [rewrite R4; reflexivity|]. rewrite X1 by reflexivity. unfold GHOST_MAX in R4. destruct R4; lia. }
  assert (Q5 : (iy (gplus g) <? iy (has_extra (fbc f))) = (iy (gplus g') <? iy (has_extra (fbc f)))).
  { unfold rel1 in R5. destruct (1 <? iy n); [rewrite R5; reflexivity|]. rewrite X2 by reflexivity. unfold GHOST_MAX in R5. destruct R5; lia. }
  assert (Q6 : (iz (gplus g) <? iz (has_extra (fbc f))) = (iz (gplus g') <? iz (has_extra (fbc f)))).
  { unfold rel1 in R6. destruct (1 <? iz n); [rewrite R6; reflexivity|]. rewrite X3 by reflexivity. unfold GHOST_MAX in R6. destruct R6; lia. }
  rewrite Q4, Q5, Q6.
  destruct (negb (ix (bc_is (fbc f)) =? 0) && (ix (gplus g') <? ix (has_extra (fbc f)))); [exact Logic.I|].
  destruct (negb (iy (bc_is (fbc f)) =? 0) && (iy (gplus g') <? iy (has_extra (fbc f)))); [exact Logic.I|].
  destruct (negb (iz (bc_is (fbc f)) =? 0) && (iz (gplus g') <? iz (has_extra (fbc f)))); [exact Logic.I|].
  cbn. apply min_gsel; [exact S1|]. repeat split; assumption.
Qed.
Definition pair_rel (x y : ghost * ghost) : Prop := sel (fst x) (fst y) /\ sel (snd x) (snd y).
Lemma assign_ghosts_rel f e : thin_field n a b f -> thin_expr V n a b e ->
  orel pair_rel (assign_ghosts V true f e) (assign_ghosts V true (real_field n f) (real_expr V n e)).
Proof.
  intros T X. unfold assign_ghosts. eapply orel_bind; [exact (proj1 (proj1 ghosts_rel e X))|]. intros g g' G.
  eapply orel_bind; [apply valid_ghost_rel; [apply thin_evenf, T|exact G]|]. intros r r' R.
  eapply orel_bind; [apply sub_osel; [apply (thin_evenf _ _ _ _ T)|exact R]|]. intros l l' L. cbn. split; assumption.
Qed.
Lemma reset_same f l l' : evenf n a b f -> sel l l' ->
  fwin (reset_valid_ghosts f (mk_ghost (gminus l) (gplus l))) =
  fwin (reset_valid_ghosts (real_field n f) (mk_ghost (gminus l') (gplus l'))).
Proof.
  intros (E & _) ((M1 & M2 & M3) & (P1 & P2 & P3)). destruct E as (E1&E2&E3&E4&E5&E6).
  unfold reset_valid_ghosts; cbn. unfold sel1, even1, drop, drop1, iv_add, iv_sub in *; cbn in *.
  f_equal; f_equal.
  - destruct (1 <? ix n); [lia|]. destruct E1; auto. lia.
  - destruct (1 <? iy n); [lia|]. destruct E2; auto. lia.
  - destruct (1 <? iz n); [lia|]. destruct E3; auto. lia.
  - destruct (1 <? ix n); [lia|]. destruct E1, E4; auto. lia.
  - destruct (1 <? iy n); [lia|]. destruct E2, E5; auto. lia.
  - destruct (1 <? iz n); [lia|]. destruct E3, E6; auto. lia.
Qed.

Lemma assign_same fuel f e : thin_field n a b f -> thin_expr V n a b e ->
  sequential_assign V vadd vmul fuel true f e = sequential_assign V vadd vmul fuel true (real_field n f) (real_expr V n e).
Proof.
  intros T X. unfold sequential_assign. assert (G := assign_ghosts_rel f e T X).
  destruct (assign_ghosts V true f e) as [(r & l)| |], (assign_ghosts V true (real_field n f) (real_expr V n e)) as [(r' & l')| |];
    cbn in G |- *; try contradiction; try reflexivity.
  destruct G as (R & L). cbn in R, L. destruct R as (R1 & R2).
  rewrite (proj1 (init_same false _ _ _ _ R1 R2) e X).
  unfold assign_walk, field_begin, field_end.
  rewrite (reset_same f l l' (thin_evenf _ _ _ _ T) L). reflexivity.
Qed.
Lemma fold_same {R} fuel (proc : R -> V -> R) v0 e : thin_expr V n a b e -> has_leaf V e = true ->
  nebo_fold V vadd vmul fuel proc v0 e = nebo_fold V vadd vmul fuel proc v0 (real_expr V n e).
Proof.
  intros X L. unfold nebo_fold. assert (G := proj2 (proj1 ghosts_rel e X) L).
  destruct (possible_ghosts V e), (possible_ghosts V (real_expr V n e)); cbn in G |- *; try contradiction; try reflexivity.
  unfold fold_with. destruct G as (G1 & G2). rewrite (proj1 (init_same true _ _ _ _ G1 G2) e X). reflexivity.
Qed.
Lemma reduce_same fuel (proc : V -> V -> V) e : thin_expr V n a b e -> has_leaf V e = true ->
  nebo_reduce V vadd vmul fuel proc e = nebo_reduce V vadd vmul fuel proc (real_expr V n e).
Proof.
  intros X L. unfold nebo_reduce. assert (G := proj2 (proj1 ghosts_rel e X) L).
  destruct (possible_ghosts V e), (possible_ghosts V (real_expr V n e)); cbn in G |- *; try contradiction; try reflexivity.
  unfold reduce_with. destruct G as (G1 & G2). rewrite (proj1 (init_same true _ _ _ _ G1 G2) e X). reflexivity.
Qed.

(** Partition jobs *)
Definition same_jobs (x y : expr) : Prop := forall s split loc, rinit V vadd vmul x s split loc = rinit V vadd vmul y s split loc.
Definition same_bjobs (x y : bexpr) : Prop := forall s split loc, brinit V vadd vmul x s split loc = brinit V vadd vmul y s split loc.
Definition rrel {A} (h : heap) (R : A -> A -> Prop) (o o' : result V A) : Prop :=
  match o, o' with
  | RDone h1 x, RDone h2 y => h1 = h /\ h2 = h /\ R x y
  | RUB, RUB | RThrow, RThrow | RFuel, RFuel => True
  | _, _ => False
  end.
Lemma run_pbind {A B} (p : prog V A) (f : A -> prog V B) h :
  run (pbind p f) h = match run p h with RDone h' x => run (f x) h' | RThrow => RThrow | RUB => RUB | RFuel => RFuel end.
Proof.
  revert h. induction p as [r| | | |bk i k IH|bk i v k IH]; intros h; cbn; try reflexivity.
  - destruct (bcells (h bk) i); [apply IH|reflexivity].
  - destruct (bcells (h bk) i); [apply IH|reflexivity].
Qed.
Lemma rrel_bind {A B} h (R : A -> A -> Prop) (Q : B -> B -> Prop) p p' f f' :
  rrel h R (run p h) (run p' h) -> (forall x y, R x y -> rrel h Q (run (f x) h) (run (f' y) h)) ->
  rrel h Q (run (pbind p f) h) (run (pbind p' f') h).
Proof.
  intros X Y. rewrite !run_pbind. destruct (run p h), (run p' h); cbn in X |- *; try contradiction; try exact X.
  destruct X as (-> & -> & X). apply Y, X.
Qed.
Lemma resize_same h m m' p p' : vsela m m' -> vselb p p' ->
  (forall e : expr, thin_expr V n a b e -> rrel h same_jobs (run (resize V e m p) h) (run (resize V (real_expr V n e) m' p') h)) /\
  (forall e : bexpr, thin_bexpr V n a b e -> rrel h same_bjobs (run (bresize V e m p) h) (run (bresize V (real_bexpr V n e) m' p') h)).
Proof.
  intros M P.
  apply expr_bexpr_ind; cbn [thin_expr thin_bexpr real_expr real_bexpr resize bresize].
  - intros v _. cbn. split; [reflexivity|]. split; [reflexivity|]. intros s sp l; reflexivity.
  - intros f T. cbn -[resize_ghost]. split; [reflexivity|]. split; [reflexivity|]. intros s sp l. cbn [rinit].
    unfold walk_field, shift_window, reshape. cbn [fwin field_window fbuf].
    rewrite (window_same f m m' p p' (thin_evenf _ _ _ _ T) M P). reflexivity.
  - intros f _. cbn. destruct (bcells (h (fbuf f)) 0); cbn; [|exact I]. split; [reflexivity|]. split; [reflexivity|]. intros s sp l; reflexivity.
  - intros op x IH T. eapply rrel_bind; [apply IH, T|]. intros u v U. cbn. repeat (split; [reflexivity|]). intros s sp l; cbn. rewrite U. reflexivity.
  - intros op x IHx y IHy (T1 & T2). eapply rrel_bind; [apply IHx, T1|]. intros u v U. eapply rrel_bind; [apply IHy, T2|]. intros u' v' U'.
    cbn. repeat (split; [reflexivity|]). intros s sp l; cbn. rewrite U, U'. reflexivity.
  - intros c IHc x IHx o IHo (T1 & T2 & T3). eapply rrel_bind; [apply IHc, T1|]. intros u v U. eapply rrel_bind; [apply IHx, T2|]. intros u' v' U'.
    eapply rrel_bind; [apply IHo, T3|]. intros u2 v2 U2.
    cbn. repeat (split; [reflexivity|]). intros s sp l; cbn. rewrite U, U', U2. reflexivity.
  - intros p0 c0 rest x IH (_ & _ & T). eapply rrel_bind; [apply IH, T|]. intros u v U. cbn. repeat (split; [reflexivity|]). intros s sp l; cbn.
    apply fold_ext; [rewrite U; reflexivity|]. intros z q. rewrite U. reflexivity.
  - intros p0 rest x IH (_ & _ & T). eapply rrel_bind; [apply IH, T|]. intros u v U. cbn. repeat (split; [reflexivity|]). intros s sp l; cbn.
    apply fold_ext; [rewrite U; reflexivity|]. intros z q. rewrite U. reflexivity.
  - intros v _. cbn. split; [reflexivity|]. split; [reflexivity|]. intros s sp l; reflexivity.
  - intros k T. cbn -[resize_ghost mask_resize_ghost]. split; [reflexivity|]. split; [reflexivity|]. intros s sp l. cbn [brinit].
    unfold walk_mask, mask_shift_window, mask_window, mask_resize_ghost, shift_window, reshape. cbn [fwin field_window fbuf mgeo mwords real_mask].
    rewrite (window_same (mgeo k) m m' p p' (thin_evenf _ _ _ _ T) M P). reflexivity.
  - intros c x IHx y IHy (T1 & T2). eapply rrel_bind; [apply IHx, T1|]. intros u v U. eapply rrel_bind; [apply IHy, T2|]. intros u' v' U'.
    cbn. repeat (split; [reflexivity|]). intros s sp l; cbn. rewrite U, U'. reflexivity.
  - intros x IHx y IHy (T1 & T2). eapply rrel_bind; [apply IHx, T1|]. intros u v U. eapply rrel_bind; [apply IHy, T2|]. intros u' v' U'.
    cbn. repeat (split; [reflexivity|]). intros s sp l; cbn. rewrite U, U'. reflexivity.
  - intros x IHx y IHy (T1 & T2). eapply rrel_bind; [apply IHx, T1|]. intros u v U. eapply rrel_bind; [apply IHy, T2|]. intros u' v' U'.
    cbn. repeat (split; [reflexivity|]). intros s sp l; cbn. rewrite U, U'. reflexivity.
  - intros x IH T. eapply rrel_bind; [apply IH, T|]. intros u v U. cbn. repeat (split; [reflexivity|]). intros s sp l; cbn. rewrite U. reflexivity.
  - intros q x IH (_ & T). eapply rrel_bind; [apply IH, T|]. intros u v U. cbn. repeat (split; [reflexivity|]). intros s sp l; cbn. apply U.
Qed.
Lemma schedule_same k fuel lhs lhs' x y split loc : fwin lhs = fwin lhs' -> fbuf lhs = fbuf lhs' -> freadonly lhs = freadonly lhs' -> same_jobs x y ->
  schedule_jobs V vadd vmul k fuel lhs x split loc = schedule_jobs V vadd vmul k fuel lhs' y split loc.
Proof.
  intros W B R J. revert loc. induction k as [|k IH]; intros loc; [reflexivity|]. cbn [schedule_jobs]. rewrite IH. f_equal.
  unfold partition_job. rewrite J. rewrite W. unfold assign_walk, field_begin, field_end, field_window. cbn [fwin freadonly fbuf].
  rewrite B, R. reflexivity.
Qed.
Lemma resize_win_same f l l' : evenf n a b f -> sel l l' ->
  wext (fwin (resize_ghost f (gminus l) (gplus l))) = wext (fwin (resize_ghost (real_field n f) (gminus l') (gplus l'))).
Proof.
  intros (E & _) ((M1 & M2 & M3) & (P1 & P2 & P3)). destruct E as (E1&E2&E3&E4&E5&E6).
  unfold resize_ghost, reshape, field_window; cbn. unfold sel1, even1, drop, drop1, iv_add, iv_sub in *; cbn in *.
  f_equal.
  - destruct (1 <? ix n); [lia|]. destruct E1, E4; auto. lia.
  - destruct (1 <? iy n); [lia|]. destruct E2, E5; auto. lia.
  - destruct (1 <? iz n); [lia|]. destruct E3, E6; auto. lia.
Qed.
Lemma jobs_same fuel f e h jobs : thin_field n a b f -> thin_expr V n a b e ->
  run (thread_parallel_jobs V vadd vmul fuel true (real_field n f) (real_expr V n e)) h = RDone h jobs ->
  run (thread_parallel_jobs V vadd vmul fuel true f e) h = RDone h jobs.
Proof.
  intros T X. unfold thread_parallel_jobs. assert (G := assign_ghosts_rel f e T X).
  destruct (assign_ghosts V true f e) as [(r & l)| |], (assign_ghosts V true (real_field n f) (real_expr V n e)) as [(r' & l')| |];
    cbn [orel lift pbind] in G |- *; try contradiction; try (cbn; discriminate).
  destruct G as (R & L). cbn [fst snd] in R, L. destruct R as (R1 & R2).
  rewrite !run_pbind. assert (Z := proj1 (resize_same h _ _ _ _ R1 R2) e X).
  destruct (run (resize V e (gminus r) (gplus r)) h) as [h1 x| | |], (run (resize V (real_expr V n e) (gminus r') (gplus r')) h) as [h2 y| | |];
    cbn [rrel] in Z; try contradiction; try discriminate.
  destruct Z as (-> & -> & J). cbn [run]. intros Q. injection Q as <-. f_equal.
  assert (EV := thin_evenf _ _ _ _ T).
  rewrite (resize_win_same f l l' EV L).
  apply schedule_same; [apply reset_same; assumption|reflexivity|reflexivity|exact J].
Qed.
End ThinQ.
