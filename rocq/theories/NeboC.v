From Verif Require Import Prelude WindowM WindowS WindowP GhostM FieldM FieldS FieldP MaskM MaskS MaskP NeboM NeboS NeboP NeboQ NeboA NeboB.
#[local] Arguments has_extra : simpl never.

(** ** Fields built by a user are on the patch *)
Lemma regular_layout n gm gp e : 1 <= n -> 0 <= gm -> 0 <= gp -> 0 <= e -> regular1 n gm gp e ->
  let blk := get_dim_with_ghost n gm gp e in
  int_ext1 blk gm gp = n + e /\ blk = n + e + gm + gp /\ int_off1 0 blk gm = gm.
Proof.
  intros A B C D R blk. unfold blk, get_dim_with_ghost, int_ext1, int_off1. destruct R as [R|(-> & -> & -> & ->)]; [|cbn; lia].
  destruct (1 <? n) eqn:E; [|lia]. destruct (1 <? n + gm + gp + e) eqn:E'; lia.
Qed.

Lemma user_field_on_patch dim f : user_field dim f ->
  on_patch dim f /\ wglob (fint f) = iv_add (iv_add (wext (fint f)) (gminus (fghosts f))) (gplus (fghosts f)) /\
  woff (fint f) = gminus (fghosts f).
Proof.
  intros U. induction U as [bx by_ bz extra g buf nt D E G I R|f g U IH G L I|f k U IH].
  - destruct R as (Rx & Ry & Rz). destruct G as ((A1 & A2 & A3) & (B1 & B2 & B3)). destruct D as (D1 & D2 & D3).
    destruct E as (E1 & E2 & E3). cbn in *.
    pose proof (regular_layout (ix dim) (ix (gminus g)) (ix (gplus g)) (if bx then ix extra else 0) D1 A1 B1 ltac:(destruct bx; lia) Rx) as (X1 & X2 & X3).
    pose proof (regular_layout (iy dim) (iy (gminus g)) (iy (gplus g)) (if by_ then iy extra else 0) D2 A2 B2 ltac:(destruct by_; lia) Ry) as (Y1 & Y2 & Y3).
    pose proof (regular_layout (iz dim) (iz (gminus g)) (iz (gplus g)) (if bz then iz extra else 0) D3 A3 B3 ltac:(destruct bz; lia) Rz) as (Z1 & Z2 & Z3).
    assert (EX : 0 <= (if bx then ix extra else 0)) by (destruct bx; lia).
    assert (EY : 0 <= (if by_ then iy extra else 0)) by (destruct by_; lia).
    assert (EZ : 0 <= (if bz then iz extra else 0)) by (destruct bz; lia).
    unfold on_patch, patch_field, field_make, get_window_with_ghost, interior_window, win_full, grown, g_nonneg, g_le, iv_le, fits, pos_dims.
    cbn [fwin fint fbc fghosts fvalid wglob woff wext ix iy iz iv_zero iv_add iv_sub].
    rewrite has_extra_make. cbn [ix iy iz].
    rewrite X1, Y1, Z1, X3, Y3, Z3. rewrite X2, Y2, Z2.
    split; [|split]; [|iv_solve|iv_solve].
    repeat split; try lia; try exact I; try iv_solve.
    apply win_ext; cbn; [reflexivity|iv_solve|iv_solve].
  - destruct IH as ((P & E & W & Fw & N & Le & I1 & I2 & F) & GW & OW). split; [|split; [exact GW|exact OW]].
    unfold on_patch, reset_valid_ghosts. cbn [fwin fint fbc fghosts fvalid]. repeat split; try assumption; try apply P; try apply E; try apply G; try apply L; try apply F.
    rewrite Fw. apply win_ext; cbn [grown wglob woff wext]; [reflexivity|iv_solve|iv_solve].
  - exact IH.
Qed.

Section NeboC.
Variable V : Type.
Variable vadd vmul : V -> V -> V.
Notation expr := (expr V). Notation bexpr := (bexpr V). Notation heap := (heap V).
Notation denote := (denote V vadd vmul). Notation bdenote := (bdenote V vadd vmul).
Notation reads := (reads V). Notation masks := (masks V). Notation bmasks := (bmasks V). Notation singles := (singles V).
Notation demands := (demands V).
Notation possible_ghosts := (possible_ghosts V).
Notation expr_known := (expr_known V). Notation region := (region V).
Notation operands_ok := (operands_ok V). Notation destination_ok := (destination_ok V).
Notation alias_ok := (alias_ok V). Notation assigned := (assigned V).
Notation sequential_assign := (sequential_assign V vadd vmul).
Notation assign_ghosts := (assign_ghosts V).
Notation covers_extra := (covers_extra V).
Notation accesses := (accesses V).

Lemma solo_accesses {R} rd wr (p : prog V R) h h' r : solo rd wr p h h' r ->
  (forall b i, In (ALoad b i) (accesses p h) -> rd b i) /\
  (forall b i, In (AStore b i) (accesses p h) -> wr b i).
Proof.
  intros S. induction S as [|? ? ? ? ? ? _ D _ IH|? ? ? ? ? ? ? _ D _ IH]; cbn.
  - tauto.
  - destruct IH as [IH1 IH2]. split; intros b' i' [E|I]; try discriminate; auto. injection E as <- <-. exact D.
  - destruct IH as [IH1 IH2]. split; intros b' i' [E|I]; try discriminate; auto. injection E as <- <-. exact D.
Qed.

Lemma box_nonempty n g p : box_of n g p -> 0 < ix (box_ext n g) /\ 0 < iy (box_ext n g) /\ 0 < iz (box_ext n g).
Proof. unfold box_of, in_region, box_ext; cbn. lia. Qed.

Lemma assigned_ext h h' f (R R' : ivec -> Prop) v : (forall p, R p <-> R' p) -> assigned h h' f R v -> assigned h h' f R' v.
Proof.
  intros E (A1 & A2 & A3). split; [exact A1|]. split; [intros p P; apply A2, E, P|].
  intros b i [H|H]; apply A3; [left; exact H|right]. intros p P. apply H, E, P.
Qed.

(** *** <<= *)
Lemma assign_solo n h f e : operands_ok n h e -> destination_ok n h f -> alias_ok f e -> covers_extra f e ->
  (exists p, region n f e p) ->
  exists N, forall fuel, (N <= fuel)%nat -> exists h',
    solo (rd_valid V n e) (wr_of f (region n f e)) (sequential_assign fuel true f e) h h' tt /\
    assigned h h' f (region n f e) (denote h e).
Proof.
  intros O D Al Cx (p0 & P0). destruct (assign_ghosts_region V n h f e O (proj1 D) Cx) as (rg & lg & E & L1 & L2 & B).
  destruct (box_nonempty n rg p0 (proj2 (B p0) P0)) as (Ex & Ey & Ez).
  exists (Z.to_nat (npts (box_ext n rg))). intros fuel Hf.
  destruct (core_assign V vadd vmul n h f e true rg lg O D Al E L1 L2 (fun p H => proj1 (B p) H) Ex Ey Ez fuel Hf) as (h' & S & A).
  exists h'. split.
  - eapply solo_mono; [| |exact S]; [auto|]. intros b i (-> & p & P & ->). split; [reflexivity|]. exists p. split; [apply B; exact P|reflexivity].
  - eapply assigned_ext; [exact B|exact A].
Qed.

Lemma assign_throws n h f e fuel useGhost : operands_ok n h e -> ~ covers_extra f e ->
  run (sequential_assign fuel useGhost f e) h = RThrow.
Proof.
  intros O N.
  destruct (proj1 (possible_ghosts_all V) e iv_zero iv_zero (operands_fin V n h e _ _ O)) as (pg & Ep & Gp).
  specialize (Gp iv_zero iv_zero).
  unfold NeboM.sequential_assign, NeboM.assign_ghosts. rewrite Ep. cbn [obind].
  destruct (calc_ghost useGhost (fghosts f) (fbc f) pg) as [(_ & E)|(H & _)]; [rewrite E; reflexivity|].
  exfalso. apply N. intros l m u I.
  assert (HH : forall pr, is_proj pr -> pr (bc_is (fbc f)) <> 0 -> pr (has_extra (fbc f)) + pr u <= pr (snd (layers l))).
  { intros pr P B. specialize (H pr P B). pose proof (proj1 (proj2 (Gp pr P _)) H _ _ _ I) as Q.
    rewrite pr_zero in Q by assumption. lia. }
  repeat split; intros B; apply HH; unfold is_proj; auto.
Qed.

(** *** interior_assign *)
Lemma interior_ghosts n h f e : operands_ok n h e -> destination_ok n h f ->
  (forall p, interior_cell n f p -> expr_known n e p) ->
  exists rg lg, assign_ghosts false f e = Ok (rg, lg) /\ gminus lg = gminus rg /\
    gplus lg = iv_sub (gplus rg) (has_extra (fbc f)) /\
    (forall p, box_of n rg p <-> interior_cell n f p) /\
    (forall p, box_of n rg p -> any_cell n f p /\ expr_known n e p) /\
    0 < ix (box_ext n rg) /\ 0 < iy (box_ext n rg) /\ 0 < iz (box_ext n rg).
Proof.
  intros O D K.
  destruct (proj1 (possible_ghosts_all V) e iv_zero iv_zero (operands_fin V n h e _ _ O)) as (pg & Ep & Gp).
  specialize (Gp iv_zero iv_zero). pose proof (extra_of n f (proj1 D)) as Ne.
  set (rg := mk_ghost iv_zero (has_extra (fbc f))).
  destruct (lhs_ghost rg (fbc f)) as (lg & El & Q). destruct (Q Ne) as [Q1 Q2].
  pose proof (proj1 D) as (Pn & _ & _ & _ & Nv & Lv & _). destruct Pn as (Px & Py & Pz).
  assert (B : forall p, box_of n rg p <-> interior_cell n f p).
  { intros p. unfold box_of, interior_cell, rg, in_region; cbn. lia. }
  assert (Eg : assign_ghosts false f e = Ok (rg, lg)).
  { unfold NeboM.assign_ghosts. rewrite Ep. cbn [obind].
    destruct (calc_ghost false (fghosts f) (fbc f) pg) as [((pr & P & N & L) & _)|(_ & E)].
    - exfalso. assert (HH : pr (has_extra (fbc f)) <= pr (gplus pg)); [|lia].
      apply (proj2 (Gp pr P _)). intros l m u I. rewrite pr_zero by assumption.
      destruct (demands_nonneg V e l m u I) as [Nm Nu].
      set (top := iv_sub (iv_add n (has_extra (fbc f))) (IV 1 1 1)).
      assert (T : interior_cell n f top) by (destruct Ne as (? & ? & ?); unfold interior_cell, in_region, top; cbn in *; lia).
      pose proof (K top T l m u I (iv_add top u)) as (X & Y & Z).
      + unfold iv_le in *; cbn in *. lia.
      + unfold iv_le; lia.
      + cbn in X, Y, Z. destruct P as [->|[->| ->]]; lia.
    - rewrite E. cbn [obind]. fold rg. rewrite El. reflexivity. }
  assert (Ex : 0 < ix (box_ext n rg)) by (destruct Ne as (? & ? & ?); cbn in *; lia).
  assert (Ey : 0 < iy (box_ext n rg)) by (destruct Ne as (? & ? & ?); cbn in *; lia).
  assert (Ez : 0 < iz (box_ext n rg)) by (destruct Ne as (? & ? & ?); cbn in *; lia).
  assert (KK : forall p, box_of n rg p -> any_cell n f p /\ expr_known n e p).
  { intros p P0. pose proof (proj1 (B p) P0) as P. split; [|apply K; exact P]. clear P0 B.
    destruct Nv as [(? & ? & ?) (? & ? & ?)], Lv as [(? & ? & ?) (? & ? & ?)].
    unfold interior_cell, any_cell, reach, in_region in *; cbn in *. lia. }
  exists rg, lg. exact (conj Eg (conj Q1 (conj Q2 (conj B (conj KK (conj Ex (conj Ey Ez))))))).
Qed.
Lemma interior_solo n h f e : operands_ok n h e -> destination_ok n h f -> alias_ok f e ->
  (forall p, interior_cell n f p -> expr_known n e p) ->
  exists N, forall fuel, (N <= fuel)%nat -> exists h',
    solo (rd_valid V n e) (wr_of f (interior_cell n f)) (sequential_assign fuel false f e) h h' tt /\
    assigned h h' f (interior_cell n f) (denote h e).
Proof.
  intros O D Al K. destruct (interior_ghosts n h f e O D K) as (rg & lg & Eg & Q1 & Q2 & B & KK & Ex & Ey & Ez).
  exists (Z.to_nat (npts (box_ext n rg))). intros fuel Hf.
  destruct (core_assign V vadd vmul n h f e false rg lg O D Al Eg Q1 Q2 KK Ex Ey Ez fuel Hf) as (h' & S & A).
  exists h'. split.
  - eapply solo_mono; [| |exact S]; [auto|]. intros b i (-> & p & P & ->). split; [reflexivity|]. exists p. split; [apply B; exact P|reflexivity].
  - eapply assigned_ext; [exact B|exact A].
Qed.

(** *** valid cells lie in the block *)
Lemma valid_in_block n f p : on_patch n f -> valid_cell n f p -> 0 <= cell f p < glob_npts (fint f).
Proof.
  intros (_ & _ & W & _ & (N1 & N2) & (G1 & G2) & _ & _ & F) K.
  set (w := grown (fint f) (gminus (fghosts f)) (gplus (fghosts f))) in *.
  replace (cell f p) with (addr w (iv_add p (gminus (fghosts f)))).
  - change (glob_npts (fint f)) with (glob_npts w). apply addr_range; [exact F|].
    unfold valid_cell, reach, in_region, in_box, w, grown, iv_le in *; cbn in *. rewrite W; cbn. lia.
  - unfold addr, cell, addr, w, grown; cbn [wglob woff iv_add iv_sub ix iy iz].
    f_equal; [lia|]. f_equal. f_equal; [lia|]. f_equal. lia.
Qed.

(** *** Reductions *)
Notation wat := (NeboP.wat V vadd vmul).
Ltac lf R M := intros; first [apply R; rewrite ?in_app_iff; tauto | apply M; rewrite ?in_app_iff; tauto].
Lemma at_end_all lo ext h0 : 0 < ix ext -> 0 < iy ext -> 0 < iz ext -> 
  (forall (e : expr) s k, 0 <= k <= npts ext ->
    (forall g s', In (g, s') (reads e s) -> fits (leafwin lo ext g s')) ->
    (forall m s', In (m, s') (masks e s) -> fits (leafwin lo ext (mgeo m) s')) ->
    at_end V (wat lo ext h0 true e s k) = has_leaf V e && (k =? npts ext)) /\
  (forall (e : bexpr) s k, 0 <= k <= npts ext ->
    (forall g s', In (g, s') (breads V e s) -> fits (leafwin lo ext g s')) ->
    (forall m s', In (m, s') (bmasks e s) -> fits (leafwin lo ext (mgeo m) s')) ->
    bat_end V (bwat V vadd vmul lo ext h0 true e s k) = bhas_leaf V e && (k =? npts ext)).
Proof.
  intros Ex Ey Ez.
  assert (F2 : forall a b c : bool, a && c || b && c = (a || b) && c) by (intros [] [] []; reflexivity).
  apply expr_bexpr_ind; cbn [NeboP.wat bwat at_end bat_end has_leaf bhas_leaf NeboS.reads NeboS.breads NeboS.masks NeboS.bmasks].
  - reflexivity.
  - intros f s k Hk R _. cbn [wend]. rewrite iter_at_eqb by (try assumption; try lia; apply R; left; reflexivity). reflexivity.
  - reflexivity.
  - intros op a IH. exact IH.
  - intros op a IHa b IHb s k Hk R M. etransitivity; [apply (f_equal2 orb (IHa s k Hk ltac:(lf R M) ltac:(lf R M)) (IHb s k Hk ltac:(lf R M) ltac:(lf R M)))|]. apply F2.
  - intros c IHc x IHx o IHo s k Hk R M.
    etransitivity; [apply (f_equal2 orb (f_equal2 orb (IHc s k Hk ltac:(lf R M) ltac:(lf R M)) (IHx s k Hk ltac:(lf R M) ltac:(lf R M))) (IHo s k Hk ltac:(lf R M) ltac:(lf R M)))|].
    rewrite !F2. reflexivity.
  - intros p0 c0 rest a IH s k Hk R M.
    assert (G : forall l w, (forall pc, In pc l -> In pc rest) -> at_end V w = has_leaf V a && (k =? npts ext) ->
      at_end V (fold_left (fun acc pc => WOp2 V vadd acc (WOp2 V vmul (wat lo ext h0 true a (iv_add s (fst pc)) k) (WConst V (snd pc)))) l w)
      = has_leaf V a && (k =? npts ext)).
    { induction l as [|pc l IHl]; intros w Hl Hw; cbn [fold_left]; [exact Hw|].
      apply IHl; [intros; apply Hl; right; assumption|]. cbn [at_end]. rewrite Hw, IH; [destruct (has_leaf V a && (k =? npts ext)); reflexivity|assumption| |].
      - intros g s' I. apply R. apply in_app_iff. right. apply in_flat_map. exists pc. split; [apply Hl; left; reflexivity|exact I].
      - intros g s' I. apply M. apply in_app_iff. right. apply in_flat_map. exists pc. split; [apply Hl; left; reflexivity|exact I]. }
    apply G; [auto|]. cbn [at_end]. rewrite IH; [apply orb_false_r|assumption| |]; lf R M.
  - intros p0 rest a IH s k Hk R M.
    assert (G : forall l w, (forall pc, In pc l -> In pc rest) -> at_end V w = has_leaf V a && (k =? npts ext) ->
      at_end V (fold_left (fun acc p => WOp2 V vadd acc (wat lo ext h0 true a (iv_add s p) k)) l w)
      = has_leaf V a && (k =? npts ext)).
    { induction l as [|pc l IHl]; intros w Hl Hw; cbn [fold_left]; [exact Hw|].
      apply IHl; [intros; apply Hl; right; assumption|]. cbn [at_end]. rewrite Hw, IH; [destruct (has_leaf V a && (k =? npts ext)); reflexivity|assumption| |].
      - intros g s' I. apply R. apply in_app_iff. right. apply in_flat_map. exists pc. split; [apply Hl; left; reflexivity|exact I].
      - intros g s' I. apply M. apply in_app_iff. right. apply in_flat_map. exists pc. split; [apply Hl; left; reflexivity|exact I]. }
    apply G; [auto|]. rewrite IH; [reflexivity|assumption| |]; lf R M.
  - reflexivity.
  - intros m s k Hk _ M. cbn [mwend]. rewrite mit_at_eqb by (try assumption; try lia; apply M; left; reflexivity). reflexivity.
  - intros op a IHa b IHb s k Hk R M. etransitivity; [apply (f_equal2 orb (IHa s k Hk ltac:(lf R M) ltac:(lf R M)) (IHb s k Hk ltac:(lf R M) ltac:(lf R M)))|]. apply F2.
  - intros a IHa b IHb s k Hk R M. etransitivity; [apply (f_equal2 orb (IHa s k Hk ltac:(lf R M) ltac:(lf R M)) (IHb s k Hk ltac:(lf R M) ltac:(lf R M)))|]. apply F2.
  - intros a IHa b IHb s k Hk R M. etransitivity; [apply (f_equal2 orb (IHa s k Hk ltac:(lf R M) ltac:(lf R M)) (IHb s k Hk ltac:(lf R M) ltac:(lf R M)))|]. apply F2.
  - intros a IH. exact IH.
  - intros p a IH s k Hk R M. apply IH; assumption.
Qed.
End NeboC.
