From Verif Require Import Prelude WindowM WindowS WindowP GhostM FieldM FieldS FieldP MaskM MaskS MaskP NeboM NeboS NeboP NeboQ NeboA NeboB NeboC ParM ParS ParP.
#[local] Arguments has_extra : simpl never.

(** ** Enumerating the locations of a split *)
Definition loc_at (s : ivec) (k : Z) : ivec :=
  let d := dec (iz s) (iy s) k in IV (iz d) (iy d) (ix d).
Definition locations (s : ivec) : list ivec := map (loc_at s) (zrange (partition_count s)).

Lemma loc_next s k : pos_dims s -> 0 <= k -> next_partition (loc_at s k) s = loc_at s (k + 1).
Proof.
  intros (Sx & Sy & Sz) Hk. destruct (flat_decomp (iz s) (iy s) k Sz Sy) as (E & X & Y).
  set (a := k mod iz s) in *. set (b := (k / iz s) mod iy s) in *. set (c := k / (iz s * iy s)) in *.
  assert (K : loc_at s k = IV c b a) by reflexivity. rewrite K. clearbody a b c. clear K.
  unfold next_partition. cbn [ix iy iz].
  destruct (a <? iz s - 1) eqn:A.
  - replace (k + 1) with ((1 + a) + iz s * (b + iy s * c)) by lia. unfold loc_at. rewrite dec_flat by lia. reflexivity.
  - assert (a = iz s - 1) by lia. destruct (b <? iy s - 1) eqn:B.
    + replace (k + 1) with (0 + iz s * ((1 + b) + iy s * c)) by lia. unfold loc_at. rewrite dec_flat by lia. reflexivity.
    + assert (b = iy s - 1) by lia. replace (k + 1) with (0 + iz s * (0 + iy s * (1 + c))) by nia.
      unfold loc_at. rewrite dec_flat by lia. reflexivity.
Qed.
Lemma loc_0 s : pos_dims s -> loc_at s 0 = iv_zero.
Proof.
  intros (Sx & Sy & Sz). unfold loc_at. replace 0 with (0 + iz s * (0 + iy s * 0)) by lia. rewrite dec_flat by lia. reflexivity.
Qed.
Lemma loc_iter s k : pos_dims s -> Nat.iter k (fun l => next_partition l s) iv_zero = loc_at s (Z.of_nat k).
Proof.
  intros S. induction k as [|k IH]; [symmetry; apply loc_0; exact S|].
  change (next_partition (Nat.iter k (fun l => next_partition l s) iv_zero) s = loc_at s (Z.of_nat (Datatypes.S k))).
  rewrite IH, loc_next by (assumption || lia). f_equal. lia.
Qed.
Lemma loc_box s k : pos_dims s -> 0 <= k < partition_count s -> in_box s (loc_at s k).
Proof.
  intros (Sx & Sy & Sz) Hk. unfold partition_count in Hk.
  pose proof (dec_range (iz s) (iy s) (ix s) k Sz Sy ltac:(lia)) as (A & B & C). unfold loc_at, in_box; cbn in *. lia.
Qed.
Lemma loc_inj s j k : pos_dims s -> loc_at s j = loc_at s k -> j = k.
Proof.
  intros (Sx & Sy & Sz) E. destruct (flat_decomp (iz s) (iy s) j Sz Sy) as (Ej & _). destruct (flat_decomp (iz s) (iy s) k Sz Sy) as (Ek & _).
  unfold loc_at, dec in E; cbn in E. injection E as E1 E2 E3. rewrite Ej, Ek, E1, E2, E3. reflexivity.
Qed.
Lemma loc_onto s l : pos_dims s -> in_box s l -> exists k, 0 <= k < partition_count s /\ loc_at s k = l.
Proof.
  intros (Sx & Sy & Sz) (A & B & C). exists (iz l + iz s * (iy l + iy s * ix l)). split.
  - unfold partition_count. pose proof (flat_range (iz s) (iy s) (ix s) (iz l) (iy l) (ix l)). nia.
  - unfold loc_at. rewrite dec_flat by lia. destruct l; reflexivity.
Qed.

Lemma partition_visits s : pos_dims s ->
  let visit := map (fun k => Nat.iter k (fun l => next_partition l s) iv_zero) (seq 0 (Z.to_nat (partition_count s))) in
  NoDup visit /\ forall l, In l visit <-> in_box s l.
Proof.
  intros S visit. assert (E : visit = locations s).
  { unfold visit, locations, zrange. rewrite map_map. apply map_ext. intros k. apply loc_iter. exact S. }
  rewrite E. split.
  - apply FinFun.Injective_map_NoDup; [|apply zrange_NoDup]. intros j k H. eapply loc_inj; eauto.
  - intros l. unfold locations. rewrite in_map_iff. split.
    + intros (k & <- & I). apply in_zrange in I. apply loc_box; assumption.
    + intros B. destruct (loc_onto s l S B) as (k & K & <-). exists k. split; [reflexivity|apply in_zrange; exact K].
Qed.

Lemma find_partition_ok ext tc : pos_dims ext -> 0 < tc ->
  let s := find_partition ext tc in
  pos_dims s /\ iv_le s ext /\ (partition_count s = tc \/ partition_count s = 1).
Proof.
  intros (X & Y & Z) T. unfold find_partition, pos_dims, iv_le, partition_count.
  destruct (tc <=? iz ext) eqn:A; [cbn [ix iy iz]; lia|]. destruct (tc <=? iy ext) eqn:B; [cbn [ix iy iz]; lia|].
  destruct (tc <=? ix ext) eqn:C; cbn [ix iy iz]; lia.
Qed.

Section Jobs.
Variable V : Type.
Variable vadd vmul : V -> V -> V.
Notation expr := (expr V). Notation bexpr := (bexpr V). Notation heap := (heap V).
Notation job := (prog V unit).
Notation denote := (denote V vadd vmul). Notation bdenote := (bdenote V vadd vmul).
Notation reads := (reads V). Notation breads := (breads V).
Notation masks := (masks V). Notation bmasks := (bmasks V).
Notation singles := (singles V). Notation bsingles := (bsingles V).
Notation operands_ok := (operands_ok V). Notation destination_ok := (destination_ok V).
Notation alias_ok := (alias_ok V). Notation assigned := (assigned V).
Notation expr_known := (expr_known V). Notation region := (region V). Notation covers_extra := (covers_extra V).
Notation partition_job := (partition_job V vadd vmul). Notation schedule_jobs := (schedule_jobs V vadd vmul).
Notation thread_parallel_jobs := (thread_parallel_jobs V vadd vmul).
Notation assign_ghosts := (assign_ghosts V).

Lemma schedule_nth fuel lhs rhs s n : pos_dims s -> forall k, 0 <= k ->
  length (schedule_jobs n fuel lhs rhs s (loc_at s k)) = n /\
  forall i p, nth_error (schedule_jobs n fuel lhs rhs s (loc_at s k)) i = Some p ->
    p = partition_job fuel lhs rhs s (loc_at s (k + Z.of_nat i)).
Proof.
  intros S. induction n as [|n IH]; intros k Hk; cbn [NeboM.schedule_jobs].
  - split; [reflexivity|]. intros [|i] p; discriminate.
  - rewrite loc_next by assumption. destruct (IH (k + 1) ltac:(lia)) as (L & N). split; [cbn; lia|].
    intros [|i] p H; cbn [nth_error] in H.
    + injection H as <-. f_equal. f_equal. lia.
    + rewrite (N i p H). f_equal. f_equal. lia.
Qed.

(** ** The resized right-hand side *)
Section Resize.
Variable h0 : heap.
Variable minus plus : ivec.
Definition rzf (g : field) : field := resize_ghost g minus (iv_sub plus (has_extra (fbc g))).
Definition rzm (m : mask) : mask := mask_resize_ghost m minus (iv_sub plus (has_extra (fbc (mgeo m)))).
Fixpoint rz (e : expr) : expr :=
  match e with
  | EScalar _ v => EScalar V v
  | EField _ f => EField V (rzf f)
  | ESingle _ f => EScalar V (bdata (h0 (fbuf f)) 0)
  | EOp1 _ op a => EOp1 V op (rz a)
  | EOp2 _ op a b => EOp2 V op (rz a) (rz b)
  | ECond _ c x o => ECond V (brz c) (rz x) (rz o)
  | EStencil _ p0 c0 rest a => EStencil V p0 c0 rest (rz a)
  | ESumStencil _ p0 rest a => ESumStencil V p0 rest (rz a)
  end
with brz (e : bexpr) : bexpr :=
  match e with
  | BScalar _ b => BScalar V b
  | BMask _ m => BMask V (rzm m)
  | BCmp _ c a b => BCmp V c (rz a) (rz b)
  | BAnd _ a b => BAnd V (brz a) (brz b)
  | BOr _ a b => BOr V (brz a) (brz b)
  | BNot _ a => BNot V (brz a)
  | BShift _ p a => BShift V p (brz a)
  end.

Lemma resize_all rd wr :
  (forall e, singles_ok V h0 rd (singles e) -> solo rd wr (resize V e minus plus) h0 h0 (rz e)) /\
  (forall e, singles_ok V h0 rd (bsingles e) -> solo rd wr (bresize V e minus plus) h0 h0 (brz e)).
Proof.
  apply expr_bexpr_ind; cbn [resize bresize rz brz NeboS.singles NeboS.bsingles].
  - intros. apply solo_ret.
  - intros. apply solo_ret.
  - intros f S. destruct (S f (or_introl eq_refl)) as (A & B). apply solo_load; [exact A|exact B|]. apply solo_ret.
  - intros op a IH S. eapply solo_bind; [apply IH; exact S|apply solo_ret].
  - intros op a IHa b IHb S. apply singles_ok_app in S as [S1 S2].
    eapply solo_bind; [apply IHa; exact S1|]. eapply solo_bind; [apply IHb; exact S2|apply solo_ret].
  - intros c IHc x IHx o IHo S. apply singles_ok_app in S as [S1 S]. apply singles_ok_app in S as [S2 S3].
    eapply solo_bind; [apply IHc; exact S1|]. eapply solo_bind; [apply IHx; exact S2|]. eapply solo_bind; [apply IHo; exact S3|apply solo_ret].
  - intros p0 c0 rest a IH S. eapply solo_bind; [apply IH; exact S|apply solo_ret].
  - intros p0 rest a IH S. eapply solo_bind; [apply IH; exact S|apply solo_ret].
  - intros. apply solo_ret.
  - intros. apply solo_ret.
  - intros c a IHa b IHb S. apply singles_ok_app in S as [S1 S2].
    eapply solo_bind; [apply IHa; exact S1|]. eapply solo_bind; [apply IHb; exact S2|apply solo_ret].
  - intros a IHa b IHb S. apply singles_ok_app in S as [S1 S2].
    eapply solo_bind; [apply IHa; exact S1|]. eapply solo_bind; [apply IHb; exact S2|apply solo_ret].
  - intros a IHa b IHb S. apply singles_ok_app in S as [S1 S2].
    eapply solo_bind; [apply IHa; exact S1|]. eapply solo_bind; [apply IHb; exact S2|apply solo_ret].
  - intros a IH S. eapply solo_bind; [apply IH; exact S|apply solo_ret].
  - intros p a IH S. eapply solo_bind; [apply IH; exact S|apply solo_ret].
Qed.

Lemma flat_map_map {A B C} (f : B -> C) (g : A -> list B) l : flat_map (fun x => map f (g x)) l = map f (flat_map g l).
Proof. induction l as [|a l IH]; cbn; [reflexivity|]. rewrite IH, map_app. reflexivity. Qed.

Lemma reads_rz_all :
  (forall e s, reads (rz e) s = map (fun gs => (rzf (fst gs), snd gs)) (reads e s)) /\
  (forall e s, breads (brz e) s = map (fun gs => (rzf (fst gs), snd gs)) (breads e s)).
Proof.
  apply expr_bexpr_ind; cbn [rz brz NeboS.reads NeboS.breads map fst snd]; auto.
  - intros op a IHa b IHb s. rewrite map_app, IHa, IHb. reflexivity.
  - intros c IHc x IHx o IHo s. rewrite !map_app, IHc, IHx, IHo. reflexivity.
  - intros p0 c0 rest a IH s. rewrite map_app, IH. f_equal. rewrite <- flat_map_map. apply flat_map_ext. intros; apply IH.
  - intros p0 rest a IH s. rewrite map_app, IH. f_equal. rewrite <- flat_map_map. apply flat_map_ext. intros; apply IH.
  - intros c a IHa b IHb s. rewrite map_app, IHa, IHb. reflexivity.
  - intros a IHa b IHb s. rewrite map_app, IHa, IHb. reflexivity.
  - intros a IHa b IHb s. rewrite map_app, IHa, IHb. reflexivity.
Qed.
Lemma masks_rz_all :
  (forall e s, masks (rz e) s = map (fun gs => (rzm (fst gs), snd gs)) (masks e s)) /\
  (forall e s, bmasks (brz e) s = map (fun gs => (rzm (fst gs), snd gs)) (bmasks e s)).
Proof.
  apply expr_bexpr_ind; cbn [rz brz NeboS.masks NeboS.bmasks map fst snd]; auto.
  - intros op a IHa b IHb s. rewrite map_app, IHa, IHb. reflexivity.
  - intros c IHc x IHx o IHo s. rewrite !map_app, IHc, IHx, IHo. reflexivity.
  - intros p0 c0 rest a IH s. rewrite map_app, IH. f_equal. rewrite <- flat_map_map. apply flat_map_ext. intros; apply IH.
  - intros p0 rest a IH s. rewrite map_app, IH. f_equal. rewrite <- flat_map_map. apply flat_map_ext. intros; apply IH.
  - intros c a IHa b IHb s. rewrite map_app, IHa, IHb. reflexivity.
  - intros a IHa b IHb s. rewrite map_app, IHa, IHb. reflexivity.
  - intros a IHa b IHb s. rewrite map_app, IHa, IHb. reflexivity.
Qed.
Lemma singles_rz_all : (forall e, singles (rz e) = []) /\ (forall e, bsingles (brz e) = []).
Proof.
  apply expr_bexpr_ind; cbn [rz brz NeboS.singles NeboS.bsingles]; auto.
  - intros op a IHa b IHb. rewrite IHa, IHb. reflexivity.
  - intros c IHc x IHx o IHo. change (bsingles (brz c) ++ singles (rz x) ++ singles (rz o) = []). rewrite IHc, IHx, IHo. reflexivity.
  - intros op a IHa b IHb. change (singles (rz a) ++ singles (rz b) = []). rewrite IHa, IHb. reflexivity.
  - intros a IHa b IHb. rewrite IHa, IHb. reflexivity.
  - intros a IHa b IHb. rewrite IHa, IHb. reflexivity.
Qed.
Lemma fold_ext {A B} (f g : A -> B -> A) l a : (forall x y, f x y = g x y) -> fold_left f l a = fold_left g l a.
Proof. intros E. revert a. induction l as [|b l IH]; intros a; cbn; [reflexivity|]. rewrite E. apply IH. Qed.
Lemma denote_rz_all :
  (forall e p, denote h0 (rz e) p = denote h0 e p) /\ (forall e p, bdenote h0 (brz e) p = bdenote h0 e p).
Proof.
  apply expr_bexpr_ind; cbn [rz brz]; try reflexivity.
  - intros op a IH p. cbn. rewrite IH. reflexivity.
  - intros op a IHa b IHb p. cbn. rewrite IHa, IHb. reflexivity.
  - intros c IHc x IHx o IHo p.
    change (denote h0 (ECond V (brz c) (rz x) (rz o)) p) with (if bdenote h0 (brz c) p then denote h0 (rz x) p else denote h0 (rz o) p).
    rewrite IHc, IHx, IHo. reflexivity.
  - intros p0 c0 rest a IH p. cbn [NeboS.denote]. rewrite IH. apply fold_ext. intros; rewrite IH; reflexivity.
  - intros p0 rest a IH p. cbn [NeboS.denote]. rewrite IH. apply fold_ext. intros; rewrite IH; reflexivity.
  - intros c a IHa b IHb p.
    change (bdenote h0 (BCmp V c (rz a) (rz b)) p) with (c (denote h0 (rz a) p) (denote h0 (rz b) p)). rewrite IHa, IHb. reflexivity.
  - intros a IHa b IHb p. cbn. rewrite IHa, IHb. reflexivity.
  - intros a IHa b IHb p. cbn. rewrite IHa, IHb. reflexivity.
  - intros a IH p. cbn. rewrite IH. reflexivity.
  - intros q a IH p. cbn. apply IH.
Qed.
End Resize.

(** ** One partition job *)
Lemma roff_shift a b ext split l : roff (a + b) ext split l = a + roff b ext split l.
Proof. unfold roff. lia. Qed.

Definition part_box (lo ext split l : ivec) : window := refined (Win ext lo ext) split l.
Lemma refined_leaf lo ext split l g :
  refined (leafwin lo ext g iv_zero) split l = leafwin (woff (part_box lo ext split l)) (wext (part_box lo ext split l)) g iv_zero.
Proof.
  unfold refined, part_box, refined, leafwin; cbn [wglob woff wext ix iy iz iv_add iv_zero].
  apply win_ext; cbn [wglob woff wext]; [reflexivity| |reflexivity].
  unfold iv_add; cbn [ix iy iz]. rewrite !Z.add_0_r, !roff_shift. reflexivity.
Qed.

Lemma resized_window n g minus plus : on_patch n g ->
  fwin (rzf minus plus g) = leafwin (iv_neg minus) (iv_add (iv_add n minus) plus) g iv_zero.
Proof.
  intros O. rewrite <- (leaf_window n g _ _ minus plus iv_zero O eq_refl eq_refl).
  unfold rzf, resize_ghost_and_shift_window, shift_window, reshape, resize_ghost, reshape, field_window; cbn [fwin].
  apply win_ext; cbn [wglob woff wext]; [reflexivity|iv_solve|iv_solve].
Qed.

Section Parts.
Variable n : ivec.
Variable h0 : heap.
Variable f : field.
Variable e : expr.
Variable rg lg : ghost.
Hypothesis O : operands_ok n h0 e.
Hypothesis D : destination_ok n h0 f.
Hypothesis Al : alias_ok f e.
Hypothesis Lm : gminus lg = gminus rg.
Hypothesis Lp : gplus lg = iv_sub (gplus rg) (has_extra (fbc f)).
Hypothesis K : forall p, box_of n rg p -> any_cell n f p /\ expr_known n e p.
Hypothesis Ex : 0 < ix (box_ext n rg).
Hypothesis Ey : 0 < iy (box_ext n rg).
Hypothesis Ez : 0 < iz (box_ext n rg).
Variable split : ivec.
Hypothesis Sp : pos_dims split.
Hypothesis Sl : iv_le split (box_ext n rg).

Definition lo0 := box_lo rg.
Definition ext0 := box_ext n rg.
Definition plo (l : ivec) := woff (part_box lo0 ext0 split l).
Definition pext (l : ivec) := wext (part_box lo0 ext0 split l).
(** the points of partition l *)
Definition part (l p : ivec) : Prop := in_region (plo l) (box_hi (plo l) (pext l)) p.
Definition prd (l : ivec) (b : nat) (i : Z) : Prop := exists g s p,
  In (g, s) (reads e iv_zero) /\ part l p /\ b = fbuf g /\ i = cell g (iv_add p s).
Definition pwr (l : ivec) : nat -> Z -> Prop := wr_of f (part l).

Lemma part_covers l p : part l p <-> covers (part_box lo0 ext0 split l) p.
Proof. unfold part, in_region, covers, plo, pext, box_hi. cbn [ix iy iz iv_add]. reflexivity. Qed.
Lemma part_tile p : box_of n rg p <-> exists l, in_box split l /\ part l p.
Proof.
  transitivity (covers (Win ext0 lo0 ext0) p).
  - rewrite box_of_eq. unfold in_region, covers, box_hi, lo0, ext0. cbn [woff wext ix iy iz iv_add]. reflexivity.
  - rewrite (refined_tile (Win ext0 lo0 ext0) split p) by (cbn [wext]; unfold ext0; first [assumption|lia]).
    split; intros (l & B & C); exists l; (split; [exact B|]); apply part_covers; exact C.
Qed.
Lemma part_unique p l l' : part l p -> part l' p -> l = l'.
Proof.
  rewrite !part_covers. unfold part_box. apply refined_unique; cbn [wext]; unfold ext0; first [assumption|lia].
Qed.
Lemma pext_pos l : 0 < ix (pext l) /\ 0 < iy (pext l) /\ 0 < iz (pext l).
Proof.
  destruct Sp as (? & ? & ?), Sl as (? & ? & ?). unfold pext, part_box, refined; cbn [wext ix iy iz]. unfold ext0.
  split; [|split]; apply rext_pos; lia.
Qed.
Lemma part_box_of l p : in_box split l -> part l p -> box_of n rg p.
Proof. intros B P. apply part_tile. eauto. Qed.
Lemma any_cell_inj p q : any_cell n f p -> any_cell n f q -> cell f p = cell f q -> p = q.
Proof.
  intros P Q E. destruct D as ((_ & _ & W & _ & _ & _ & _ & _ & F) & _).
  set (w := grown (fint f) (gminus (fghosts f)) (gplus (fghosts f))) in *.
  assert (C : forall r, cell f r = addr w (iv_add r (gminus (fghosts f)))).
  { intros r. unfold addr, cell, addr, w, grown; cbn [wglob woff iv_add iv_sub ix iy iz].
    f_equal; [lia|]. f_equal. f_equal; [lia|]. f_equal. lia. }
  assert (B : forall r, any_cell n f r -> in_box (wext w) (iv_add r (gminus (fghosts f)))).
  { intros r A. unfold any_cell, reach, in_region, in_box, w, grown in *; cbn -[has_extra] in *. rewrite W; cbn -[has_extra]. lia. }
  rewrite !C in E. apply addr_inj in E; [|exact F|apply B; assumption..].
  apply iv_ext; [apply (f_equal ix) in E|apply (f_equal iy) in E|apply (f_equal iz) in E]; cbn in E; lia.
Qed.

Let rhs := rz h0 (gminus rg) (gplus rg) e.
Let lhs := reset_valid_ghosts f (mk_ghost (gminus lg) (gplus lg)).

Lemma rhs_read g s : In (g, s) (reads rhs iv_zero) ->
  exists g0, In (g0, s) (reads e iv_zero) /\ g = rzf (gminus rg) (gplus rg) g0.
Proof.
  unfold rhs. rewrite (proj1 (reads_rz_all h0 (gminus rg) (gplus rg))). rewrite in_map_iff. intros ((g0 & t) & E & I).
  cbn in E. injection E as <- <-. eauto.
Qed.
Lemma rhs_mask m s : In (m, s) (masks rhs iv_zero) ->
  exists m0, In (m0, s) (masks e iv_zero) /\ m = rzm (gminus rg) (gplus rg) m0.
Proof.
  unfold rhs. rewrite (proj1 (masks_rz_all h0 (gminus rg) (gplus rg))). rewrite in_map_iff. intros ((g0 & t) & E & I).
  cbn in E. injection E as <- <-. eauto.
Qed.
Lemma lhs_window : fwin lhs = leafwin lo0 ext0 f iv_zero.
Proof.
  destruct D as ((_ & _ & W & E & _) & _). unfold lhs, reset_valid_ghosts, leafwin; cbn [fwin]. rewrite E.
  apply win_ext; cbn [wglob woff wext grown mk_ghost gminus gplus]; [reflexivity| |];
  rewrite ?W, ?Lm, ?Lp; unfold lo0, ext0, box_lo, box_ext; iv_solve.
Qed.
Lemma leaf_lhs lo ext g : lhswin lo ext g = leafwin lo ext g iv_zero.
Proof. unfold lhswin, leafwin. rewrite iv_add_0_r. reflexivity. Qed.

Lemma job_solo l fuel : in_box split l -> (Z.to_nat (npts ext0) <= fuel)%nat ->
  exists h', solo (prd l) (pwr l) (partition_job fuel lhs rhs split l) h0 h' tt /\
    forall p, part l p -> value V h' f p = denote h0 e p.
Proof.
  intros Hl Hf. destruct O as (Ro & Mo & So). pose proof D as (Df & Dr & Dc). destruct (pext_pos l) as (Px & Py & Pz).
  assert (KV : forall g s p, In (g, s) (reads e iv_zero) -> part l p -> valid_cell n g (iv_add p s)).
  { intros g s p I P. eapply known_read; [apply K; eapply part_box_of; eauto|exact I]. }
  assert (KM : forall k s p, In (k, s) (masks e iv_zero) -> part l p -> valid_cell n (mgeo k) (iv_add p s)).
  { intros g s p I P. eapply known_mask; [apply K; eapply part_box_of; eauto|exact I]. }
  assert (KA : forall p, part l p -> any_cell n f p) by (intros p P; apply K; eapply part_box_of; eauto).
  assert (Nr : npts (pext l) <= npts ext0).
  { destruct Hl as (? & ? & ?), Sp as (? & ? & ?).
    unfold npts, pext, part_box, refined; cbn [wext ix iy iz].
    pose proof (roff_bounds 0 (ix ext0) (ix split) (ix l)). pose proof (roff_bounds 0 (iy ext0) (iy split) (iy l)).
    pose proof (roff_bounds 0 (iz ext0) (iz split) (iz l)). unfold pext, part_box, refined in Px, Py, Pz; cbn [wext ix iy iz] in Px, Py, Pz.
    unfold ext0 in *. apply Z.mul_le_mono_nonneg; [apply Z.mul_nonneg_nonneg; lia| |lia|lia].
    apply Z.mul_le_mono_nonneg; lia. }
  assert (Fl : fits (lhswin (plo l) (pext l) f)).
  { destruct Df as (_ & _ & W & _ & _ & _ & _ & _ & (FG & FO & FE)).
    assert (K0 := KA (plo l)). assert (K1 := KA (iv_sub (box_hi (plo l) (pext l)) (IV 1 1 1))).
    unfold part, any_cell, reach, in_region, box_hi, fits, grown, iv_le, lhswin, pos_dims in *; cbn [wglob woff wext] in *.
    set (a := plo l) in *. set (b := pext l) in *. clearbody a b. clear Nr KV KM KA. cbn in *. rewrite W in FG, FO, FE. cbn in *.
    specialize (K0 ltac:(lia)). specialize (K1 ltac:(lia)). lia. }
  assert (MF : forall k s, In (k, s) (masks e iv_zero) -> fits (leafwin (plo l) (pext l) (mgeo k) s)).
  { intros k s I. apply (leaf_fits n); [exact (proj1 (Mo k s I))|assumption..|]. intros p P. exact (KM k s p I P). }
  destruct (assign_walk_solo V vadd vmul (plo l) (pext l) Px Py Pz h0 false f Fl rhs) with
    (fl := field_window (leafwin (plo l) (pext l) f iv_zero) lhs) (fuel := fuel) as (h' & S & A).
  - intros g s p I P. destruct (rhs_read g s I) as (g0 & I0 & ->). apply (Ro g0 s I0). apply (KV g0 s p I0 P).
  - intros k s I. destruct (rhs_mask k s I) as (k0 & I0 & ->). split; [apply (MF k0 s I0)|apply (Mo k0 s I0)].
  - intros p P. apply Dc, KA, P.
  - intros g s I. destruct (rhs_read g s I) as (g0 & I0 & ->). exact (Al g0 s I0).
  - cbn [fwin field_window]. symmetry. apply leaf_lhs.
  - reflexivity.
  - exact Dr.
  - lia.
  - exists h'. split.
    + unfold NeboM.partition_job. eapply solo_bind.
      * apply (proj1 (rinit_all V vadd vmul (plo l) (pext l) Px Py Pz h0 (prd l) (pwr l) split l) rhs iv_zero).
        -- intros g s I. destruct (rhs_read g s I) as (g0 & I0 & ->). destruct (Ro g0 s I0) as (Og & _).
           rewrite (resized_window n g0 (gminus rg) (gplus rg) Og). eexists. split.
           ++ apply refine_eq; [cbn; unfold box_ext in *; cbn in *; lia..|exact Sp].
           ++ change (iv_neg (gminus rg)) with lo0. change (iv_add (iv_add n (gminus rg)) (gplus rg)) with ext0.
              rewrite refined_leaf. unfold leafwin; cbn [wglob woff wext]. fold (plo l) (pext l).
              apply win_ext; cbn [wglob woff wext rzf resize_ghost reshape field_window fint]; [reflexivity|iv_solve|reflexivity].
        -- intros k s I. destruct (rhs_mask k s I) as (k0 & I0 & ->). destruct (Mo k0 s I0) as (Og & _).
           change (mgeo (rzm (gminus rg) (gplus rg) k0)) with (rzf (gminus rg) (gplus rg) (mgeo k0)).
           rewrite (resized_window n (mgeo k0) (gminus rg) (gplus rg) Og). eexists. split; [|split].
           ++ apply refine_eq; [cbn; unfold box_ext in *; cbn in *; lia..|exact Sp].
           ++ change (iv_neg (gminus rg)) with lo0. change (iv_add (iv_add n (gminus rg)) (gplus rg)) with ext0.
              rewrite refined_leaf. unfold leafwin; cbn [wglob woff wext]. fold (plo l) (pext l).
              apply win_ext; cbn [wglob woff wext rzf resize_ghost reshape field_window fint]; [reflexivity|iv_solve|reflexivity].
           ++ exact (MF k0 s I0).
        -- unfold rhs. rewrite (proj1 (singles_rz_all h0 (gminus rg) (gplus rg))). intros g [].
      * eapply solo_bind.
        -- apply solo_lift. rewrite lhs_window. rewrite refine_eq; [rewrite refined_leaf; reflexivity|unfold leafwin; cbn [wext]; unfold ext0; lia..|exact Sp].
        -- eapply solo_mono; [| |exact S].
           ++ intros b i (g & s & p & I & P & -> & ->). destruct (rhs_read g s I) as (g0 & I0 & ->). exists g0, s, p. auto.
           ++ intros b i (-> & p & P & ->). split; [reflexivity|]. exists p. auto.
    + intros p P. destruct A as (_ & A & _). rewrite A by exact P. unfold rhs. apply denote_rz_all.
Qed.

Lemma parts_parallel fuel : (Z.to_nat (npts ext0) <= fuel)%nat ->
  let jobs := schedule_jobs (Z.to_nat (partition_count split)) fuel lhs rhs split iv_zero in
  bounded (par_start h0 jobs) /\ (length jobs = Z.to_nat (partition_count split)) /\
  jobs_disjoint h0 jobs /\
  forall st, reachable (par_start h0 jobs) st ->
    no_failure st /\ race_free st /\ (returned st \/ exists st', pstep st st') /\
    (returned st -> assigned h0 (pheap st) f (box_of n rg) (denote h0 e)).
Proof.
  intros Hf jobs. set (N := Z.to_nat (partition_count split)).
  assert (Pc : 0 < partition_count split).
  { destruct Sp as (? & ? & ?). unfold partition_count. apply Z.mul_pos_pos; [apply Z.mul_pos_pos|]; assumption. }
  assert (Ej : jobs = schedule_jobs N fuel lhs rhs split (loc_at split 0)) by (unfold jobs; rewrite loc_0 by exact Sp; reflexivity).
  destruct (schedule_nth fuel lhs rhs split N Sp 0 ltac:(lia)) as (L & J). rewrite <- Ej in L, J.
  assert (LB : forall i, (i < N)%nat -> in_box split (loc_at split (Z.of_nat i))) by (intros i Hi; apply loc_box; [exact Sp|unfold N in Hi; lia]).
  assert (Sepp : forall i k b c, (i < N)%nat -> (k < N)%nat -> i <> k -> pwr (loc_at split (Z.of_nat i)) b c ->
    ~ prd (loc_at split (Z.of_nat k)) b c /\ ~ pwr (loc_at split (Z.of_nat k)) b c).
  { intros i k b c Hi Hk N' (-> & p & P & ->).
    assert (LN : loc_at split (Z.of_nat i) <> loc_at split (Z.of_nat k)) by (intros E; apply (loc_inj _ _ _ Sp) in E; lia).
    assert (AP : any_cell n f p) by (apply K; eapply part_box_of; [|exact P]; apply LB, Hi).
    split.
    + intros (g & s & q & I & Q & Eb & Ec). destruct (Al g s I) as [X|(-> & X)]; [congruence|].
      rewrite iv_add_0_r in Ec. assert (Ec' : cell f p = cell f q) by (unfold cell in *; rewrite <- X; rewrite X; rewrite X in Ec; exact Ec).
      apply any_cell_inj in Ec'; [|exact AP|apply K; eapply part_box_of; [|exact Q]; apply LB, Hk].
      subst q. apply LN. eapply part_unique; eauto.
    + intros (_ & q & Q & Ec). apply any_cell_inj in Ec; [|exact AP|apply K; eapply part_box_of; [|exact Q]; apply LB, Hk].
      subst q. apply LN. eapply part_unique; eauto. }
  destruct (disjoint_parallel V h0 N (fun i => prd (loc_at split (Z.of_nat i))) (fun i => pwr (loc_at split (Z.of_nat i)))
    (fun i h => forall p, part (loc_at split (Z.of_nat i)) p -> value V h f p = denote h0 e p)) with (jobs := jobs) as (B & R).
  - exact Sepp.
  - intros i h h' Hi E P p Pp. rewrite <- (P p Pp). unfold value. apply E. split; [reflexivity|]. eauto.
  - exact L.
  - intros i p E. assert (Hi : (i < N)%nat) by (rewrite <- L; apply nth_error_Some; congruence).
    rewrite (J i p E). replace (0 + Z.of_nat i) with (Z.of_nat i) by lia. apply job_solo; [apply LB, Hi|exact Hf].
  - split; [exact B|]. split; [exact L|]. split.
    { intros i k p q b c Nik Ei Ek I.
      assert (Hi : (i < N)%nat) by (rewrite <- L; apply nth_error_Some; congruence).
      assert (Hk : (k < N)%nat) by (rewrite <- L; apply nth_error_Some; congruence).
      pose proof (J i p Ei) as Ji. pose proof (J k q Ek) as Jk.
      replace (0 + Z.of_nat i) with (Z.of_nat i) in Ji by lia. replace (0 + Z.of_nat k) with (Z.of_nat k) in Jk by lia.
      destruct (job_solo _ fuel (LB i Hi) Hf) as (hi & Si & _). destruct (job_solo _ fuel (LB k Hk) Hf) as (hk & Sk & _).
      rewrite Ji in I. rewrite Jk. destruct (solo_accesses V _ _ _ _ _ _ Si) as (_ & Wi). destruct (solo_accesses V _ _ _ _ _ _ Sk) as (Rk & Wk).
      destruct (Sepp i k b c Hi Hk Nik (Wi b c I)) as (S1 & S2).
      split; intros X; [apply S1, Rk, X|apply S2, Wk, X]. }
    intros st Rs. destruct (R st Rs) as (R1 & R2 & R3 & R4 & R5 & R6).
    split; [exact R1|]. split; [exact R2|]. split; [exact R3|]. intros Rt. split; [exact R4|]. split.
    + intros p P. apply part_tile in P as (l & Bl & Pl). destruct (loc_onto split l Sp Bl) as (k & Hk & <-).
      apply (R6 Rt (Z.to_nat k)); [unfold N; lia|]. rewrite Z2Nat.id by lia. exact Pl.
    + intros b c H. apply R5. intros i Hi (-> & p & P & ->). destruct H as [H|H]; [congruence|].
      apply (H p); [|reflexivity]. eapply part_box_of; [apply LB, Hi|exact P].
Qed.
End Parts.


(** two heaps with the same contents *)
Lemma assigned_same n h h1 h2 f rg R v : (forall p, box_of n rg p <-> R p) ->
  assigned h h1 f R v -> assigned h h2 f R v -> same_heap h1 h2.
Proof.
  intros B (A1 & A2 & A3) (C1 & C2 & C3). split; [intros; rewrite A1, C1; reflexivity|]. intros b i.
  destruct (Nat.eq_dec b (fbuf f)) as [->|Nb]; [|rewrite A3, C3 by auto; reflexivity].
  destruct (in_dec Z.eq_dec i (map (fun q => cell f (iv_add (box_lo rg) q)) (box_points (box_ext n rg)))) as [I|I].
  - apply in_map_iff in I as (q & <- & I). apply in_box_points in I.
    assert (P : R (iv_add (box_lo rg) q)).
    { apply B, box_of_eq. unfold in_region, in_box, box_hi in *. cbn [ix iy iz iv_add] in *. lia. }
    pose proof (A2 _ P) as E1. pose proof (C2 _ P) as E2. unfold value in *. rewrite E1, E2. reflexivity.
  - assert (Q : forall p, R p -> i <> cell f p).
    { intros p P ->. apply I, in_map_iff. exists (iv_sub p (box_lo rg)). split.
      - f_equal. iv_solve.
      - apply in_box_points. apply B, box_of_eq in P. unfold in_region, in_box, box_hi in *. cbn [ix iy iz iv_add iv_sub] in *. lia. }
    rewrite A3, C3 by auto. reflexivity.
Qed.

Lemma jobs_of_ghosts n h f e ug rg lg fuel : operands_ok n h e -> on_patch n f -> assign_ghosts ug f e = Ok (rg, lg) ->
  gminus lg = gminus rg -> gplus lg = iv_sub (gplus rg) (has_extra (fbc f)) ->
  let split := find_partition (box_ext n rg) (fparts f) in
  run (thread_parallel_jobs fuel ug f e) h
  = RDone h (schedule_jobs (Z.to_nat (partition_count split)) fuel (reset_valid_ghosts f (mk_ghost (gminus lg) (gplus lg)))
       (rz h (gminus rg) (gplus rg) e) split iv_zero).
Proof.
  intros O D E L1 L2 split. unfold NeboM.thread_parallel_jobs. rewrite E. cbn [lift pbind].
  replace (wext (fwin (resize_ghost f (gminus lg) (gplus lg)))) with (box_ext n rg).
  2:{ destruct D as (_ & _ & W & Ew & _). unfold resize_ghost, reshape, field_window; cbn [fwin wext].
      rewrite Ew. cbn [grown wext]. rewrite W, L1, L2. unfold box_ext. iv_solve. }
  fold split. eapply solo_run. eapply solo_bind.
  + apply (proj1 (resize_all h (gminus rg) (gplus rg) (fun _ _ => True) (fun _ _ => True))). intros g I. split; [apply O; exact I|exact Logic.I].
  + apply solo_ret.
Qed.

Lemma core_parallel n h f e ug rg lg R : operands_ok n h e -> destination_ok n h f -> alias_ok f e ->
  assign_ghosts ug f e = Ok (rg, lg) -> gminus lg = gminus rg -> gplus lg = iv_sub (gplus rg) (has_extra (fbc f)) ->
  (forall p, box_of n rg p -> any_cell n f p /\ expr_known n e p) ->
  (forall p, box_of n rg p <-> R p) ->
  0 < ix (box_ext n rg) -> 0 < iy (box_ext n rg) -> 0 < iz (box_ext n rg) -> 0 < fparts f ->
  exists N, forall fuel, (N <= fuel)%nat -> exists jobs h',
    run (thread_parallel_jobs fuel ug f e) h = RDone h jobs /\
    run (NeboM.sequential_assign V vadd vmul fuel ug f e) h = RDone h' tt /\
    (0 < length jobs)%nat /\ Z.of_nat (length jobs) <= fparts f /\
    jobs_disjoint h jobs /\ bounded (par_start h jobs) /\
    forall st, reachable (par_start h jobs) st ->
      no_failure st /\ race_free st /\ (returned st \/ exists st', pstep st st') /\
      (returned st -> same_heap (pheap st) h' /\ assigned h (pheap st) f R (denote h e)).
Proof.
  intros O D Al E L1 L2 K B Ex Ey Ez Hp.
  exists (Z.to_nat (npts (box_ext n rg))). intros fuel Hf.
  set (split := find_partition (box_ext n rg) (fparts f)).
  destruct (find_partition_ok (box_ext n rg) (fparts f) (conj Ex (conj Ey Ez)) Hp) as (Sp & Sl & Sc). fold split in Sp, Sl, Sc.
  destruct (parts_parallel n h f e rg lg O D Al L1 L2 K Ex Ey Ez split Sp Sl fuel Hf) as (Bd & Ln & Dj & Rr).
  destruct (core_assign V vadd vmul n h f e ug rg lg O D Al E L1 L2 K Ex Ey Ez fuel Hf) as (h' & Sq & A).
  eexists. exists h'. split; [exact (jobs_of_ghosts n h f e ug rg lg fuel O (proj1 D) E L1 L2)|].
  fold split. split; [eapply solo_run; exact Sq|].
  split; [lia|]. split; [lia|]. split; [exact Dj|]. split; [exact Bd|]. intros st Rs. destruct (Rr st Rs) as (R1 & R2 & R3 & R4).
  split; [exact R1|]. split; [exact R2|]. split; [exact R3|]. intros Rt. split.
  - eapply (assigned_same n h _ _ f rg (box_of n rg)); [intros; reflexivity|apply R4; exact Rt|exact A].
  - eapply assigned_ext; [exact B|apply R4; exact Rt].
Qed.

Notation parallel_ok := (parallel_ok V vadd vmul).
Lemma assign_parallel n h f e : operands_ok n h e -> destination_ok n h f -> alias_ok f e -> covers_extra f e ->
  (exists p, region n f e p) -> 0 < fparts f -> parallel_ok h f e true (region n f e).
Proof.
  intros O D Al Cx (p0 & P0) Hp. destruct (assign_ghosts_region V n h f e O (proj1 D) Cx) as (rg & lg & E & L1 & L2 & B).
  destruct (box_nonempty n rg p0 (proj2 (B p0) P0)) as (Ex & Ey & Ez).
  exact (core_parallel n h f e true rg lg _ O D Al E L1 L2 (fun p H => proj1 (B p) H) B Ex Ey Ez Hp).
Qed.
Lemma interior_parallel n h f e : operands_ok n h e -> destination_ok n h f -> alias_ok f e ->
  (forall p, interior_cell n f p -> expr_known n e p) -> 0 < fparts f ->
  parallel_ok h f e false (interior_cell n f).
Proof.
  intros O D Al K Hp. destruct (interior_ghosts V n h f e O D K) as (rg & lg & Eg & Q1 & Q2 & B & KK & Ex & Ey & Ez).
  exact (core_parallel n h f e false rg lg _ O D Al Eg Q1 Q2 KK B Ex Ey Ez Hp).
Qed.

(** *** zero partitions *)
Lemma no_jobs_inert h (st : par V) : reachable (par_start h []) st -> st = par_start h [].
Proof.
  intros (m & H). remember (par_start h []) as a eqn:Ea. induction H as [|m a b c H IH S]; [reflexivity|].
  rewrite (IH Ea) in S. subst a. inversion S; subst; cbn in *; try discriminate; destruct i; discriminate.
Qed.
Lemma zero_parts n h f e : operands_ok n h e -> destination_ok n h f -> covers_extra f e ->
  (exists p, region n f e p) -> fparts f <= 0 -> forall fuel,
  run (thread_parallel_jobs fuel true f e) h = RDone h [] /\ returned (par_start h []) /\
  forall st, reachable (par_start h []) st -> pheap st = h.
Proof.
  intros O D Cx (p0 & P0) Hp fuel. destruct (assign_ghosts_region V n h f e O (proj1 D) Cx) as (rg & lg & E & L1 & L2 & B).
  destruct (box_nonempty n rg p0 (proj2 (B p0) P0)) as (Ex & Ey & Ez). split; [|split].
  - rewrite (jobs_of_ghosts n h f e true rg lg fuel O (proj1 D) E L1 L2).
    unfold find_partition. destruct (Z.leb_spec (fparts f) (iz (box_ext n rg))) as [_|X]; [|lia].
    replace (Z.to_nat (partition_count (IV 1 1 (fparts f)))) with 0%nat; [reflexivity|].
    unfold partition_count; cbn [ix iy iz]. lia.
  - split; reflexivity.
  - intros st R. rewrite (no_jobs_inert h st R). reflexivity.
Qed.

(** *** jobs that never reach their post *)
Fixpoint never (p : job) : Prop :=
  match p with
  | Ret _ => False
  | Load _ _ k => forall v, never (k v)
  | Store _ _ _ k => never k
  | _ => True
  end.
Lemma never_bind {A} (p : prog V A) k : (forall a, never (k a)) -> never (pbind p k).
Proof. intros H. induction p; cbn; auto. Qed.
Definition never_inv (n : nat) (st : par V) : Prop :=
  psem st = 0 /\ pwaits st = n /\ (forall j, In j (ptodo st) -> never j) /\
  (forall j, In j (plive st) -> exists p, j = Some p /\ never p).
Lemma skipn_in {A} (l : list A) k x : In x (skipn k l) -> In x l.
Proof. intros H. rewrite <- (firstn_skipn k l). apply in_app_iff. right. exact H. Qed.
Lemma set_live_in (st : par V) i j x : In x (set_live st i j) -> x = j \/ In x (plive st).
Proof.
  unfold set_live. rewrite in_app_iff. cbn. intros [H|[H|H]]; auto; right.
  - rewrite <- (firstn_skipn i (plive st)), in_app_iff. auto.
  - destruct (plive st) as [|y l]; [destruct H|]. right. eapply skipn_in. exact H.
Qed.
Lemma never_step n a b : never_inv n a -> pstep a b -> never_inv n b.
Proof.
  intros (P1 & P2 & P3 & P4) S. destruct S; cbn in *.
  - split; [exact P1|]. split; [exact P2|]. split; [intros x I; apply P3; auto|]. intros x I. apply in_app_iff in I as [I|[<-|[]]]; eauto.
  - split; [exact P1|]. split; [exact P2|]. split; [exact P3|]. intros x I. apply set_live_in in I as [->|I]; [|eauto].
    destruct (P4 _ (nth_error_In _ _ H)) as (p & E & Np). injection E as <-. cbn in Np. eauto.
  - split; [exact P1|]. split; [exact P2|]. split; [exact P3|]. intros x I. apply set_live_in in I as [->|I]; [|eauto].
    destruct (P4 _ (nth_error_In _ _ H)) as (p & E & Np). injection E as <-. cbn in Np. eauto.
  - destruct (P4 _ (nth_error_In _ _ H)) as (p & E & Np). injection E as <-. destruct Np.
  - lia.
Qed.
Lemma schedule_never n fuel lhs rhs split l j : freadonly lhs = true -> In j (schedule_jobs n fuel lhs rhs split l) -> never j.
Proof.
  intros R. revert l. induction n as [|n IH]; intros l; [intros []|]. intros [<-|I]; [|eapply IH; exact I].
  unfold NeboM.partition_job. apply never_bind. intros w. destruct (refine (fwin lhs) split l) as [win| |]; try exact I.
  cbn [lift pbind]. unfold assign_walk, field_begin. cbn [freadonly field_window]. rewrite R. exact I.
Qed.
Lemma run_inv_bind {A B} (p : prog V A) (k : A -> prog V B) h h' b : run (pbind p k) h = RDone h' b ->
  exists h1 a, run p h = RDone h1 a /\ run (k a) h1 = RDone h' b.
Proof.
  revert h. induction p; intros h0; cbn; try discriminate; eauto;
  match goal with |- context [if ?c then _ else _] => destruct c end; try discriminate; auto.
Qed.
Lemma readonly_never fuel ug f e h jobs : freadonly f = true ->
  run (thread_parallel_jobs fuel ug f e) h = RDone h jobs -> (0 < length jobs)%nat ->
  forall st, reachable (par_start h jobs) st -> ~ returned st.
Proof.
  intros R E L. assert (Nv : forall j, In j jobs -> never j).
  { unfold NeboM.thread_parallel_jobs in E. apply run_inv_bind in E as (h1 & (rg & lg) & _ & E).
    apply run_inv_bind in E as (h2 & e' & _ & E). cbn in E. injection E as _ <-. intros j. apply schedule_never. exact R. }
  intros st (m & H). assert (I : never_inv (length jobs) st).
  { remember (par_start h jobs) as a eqn:Ea. induction H as [|m a b c H IH S].
    - subst. split; [reflexivity|]. split; [reflexivity|]. split; [exact Nv|intros j []].
    - eapply never_step; [apply IH; exact Ea|exact S]. }
  intros (_ & W). destruct I as (_ & W' & _). rewrite W in W'. lia.
Qed.
End Jobs.
