From Verif Require Import Prelude WindowM WindowS WindowP GhostM FieldM FieldS FieldP MaskM MaskS MaskP NeboM NeboS NeboP NeboQ NeboA.

#[local] Arguments has_extra : simpl never.
Section NeboB.
Variable V : Type.
Variable vadd vmul : V -> V -> V.
Notation expr := (expr V). Notation bexpr := (bexpr V). Notation heap := (heap V).
Notation denote := (denote V vadd vmul). Notation bdenote := (bdenote V vadd vmul).
Notation reads := (reads V). Notation breads := (breads V).
Notation masks := (masks V). Notation bmasks := (bmasks V).
Notation singles := (singles V). Notation bsingles := (bsingles V).
Notation demands := (demands V). Notation bdemands := (bdemands V).
Notation possible_ghosts := (possible_ghosts V).
Notation expr_known := (expr_known V). Notation region := (region V).
Notation operands_ok := (operands_ok V). Notation destination_ok := (destination_ok V).
Notation alias_ok := (alias_ok V). Notation assigned := (assigned V).
Notation sequential_assign := (sequential_assign V vadd vmul).
Notation assign_ghosts := (assign_ghosts V).
Notation covers_extra := (covers_extra V).

Definition box_of (n : ivec) (g : ghost) (p : ivec) : Prop :=
  in_region (iv_neg (gminus g)) (iv_add n (gplus g)) p.
Definition box_lo (g : ghost) : ivec := iv_neg (gminus g).
Definition box_ext (n : ivec) (g : ghost) : ivec := iv_add (iv_add n (gminus g)) (gplus g).

Lemma box_of_hi n g : box_hi (box_lo g) (box_ext n g) = iv_add n (gplus g).
Proof. unfold box_hi, box_lo, box_ext. iv_solve. Qed.
Lemma box_of_eq n g p : box_of n g p <-> in_region (box_lo g) (box_hi (box_lo g) (box_ext n g)) p.
Proof. rewrite box_of_hi. reflexivity. Qed.

Lemma operands_fin n h e m u : operands_ok n h e -> leaves_fin (demands e m u).
Proof.
  intros (R & M & _) g x y I. destruct (proj1 (demands_origin_all V) e m u iv_zero g x y I) as [(s & J)|(k & s & <- & J)].
  - destruct (R g s J) as (O & _). unfold on_patch in O. tauto.
  - destruct (M k s J) as (O & _). unfold on_patch in O. tauto.
Qed.

Lemma known_valid n g q : known n (LField g) q <-> valid_cell n g q.
Proof. unfold known, valid_cell, reach, in_region; cbn. split; lia. Qed.

(** A point read by the expression at a known point is a valid cell. *)
Lemma known_read n e g s p : expr_known n e p -> In (g, s) (reads e iv_zero) -> valid_cell n g (iv_add p s).
Proof.
  intros K I. destruct (proj1 (reads_demands_all V) e iv_zero iv_zero iv_zero g s I) as (m & u & J & S).
  apply known_valid. apply (K _ _ _ J); revert S; unfold spans, iv_le; cbn; lia.
Qed.
Lemma known_mask n e k s p : expr_known n e p -> In (k, s) (masks e iv_zero) -> valid_cell n (mgeo k) (iv_add p s).
Proof.
  intros K I. destruct (proj1 (masks_demands_all V) e iv_zero iv_zero iv_zero k s I) as (m & u & J & S).
  apply known_valid. apply (K _ _ _ J); revert S; unfold spans, iv_le; cbn; lia.
Qed.

Lemma leaf_fits n g lo ext s : on_patch n g -> 0 < ix ext -> 0 < iy ext -> 0 < iz ext ->
  (forall p, in_region lo (box_hi lo ext) p -> valid_cell n g (iv_add p s)) -> fits (leafwin lo ext g s).
Proof.
  intros (_ & _ & W & _ & (N1 & N2) & (G1 & G2) & _ & _ & F) Ex Ey Ez K.
  assert (K0 := K lo). assert (K1 := K (iv_sub (box_hi lo ext) (IV 1 1 1))).
  destruct F as (FG & FO & FE).
  unfold valid_cell, reach, in_region, box_hi, fits, grown, iv_le, leafwin, pos_dims in *; cbn in *.
  rewrite W in FG, FO, FE. cbn in *. specialize (K0 ltac:(lia)). specialize (K1 ltac:(lia)). lia.
Qed.

Lemma leaf_window n g lo ext minus plus s : on_patch n g -> lo = iv_neg minus -> ext = iv_add (iv_add n minus) plus ->
  fwin (resize_ghost_and_shift_window g minus (iv_sub plus (has_extra (fbc g))) s) = leafwin lo ext g s.
Proof.
  intros (_ & _ & W & E & _) -> ->.
  unfold resize_ghost_and_shift_window, shift_window, resize_ghost, reshape, field_window, leafwin; cbn [fwin wglob woff wext].
  rewrite E. unfold grown; cbn [wglob woff wext]. rewrite W. apply win_ext; cbn [wglob woff wext]; [reflexivity|iv_solve|iv_solve].
Qed.

(** Footprint of an assignment. *)
Definition rd_valid (n : ivec) (e : expr) (b : nat) (i : Z) : Prop :=
  (exists g s p, In (g, s) (reads e iv_zero) /\ valid_cell n g p /\ b = fbuf g /\ i = cell g p) \/
  (exists g, In g (singles e) /\ b = fbuf g /\ i = 0).
Definition wr_of (f : field) (R : ivec -> Prop) (b : nat) (i : Z) : Prop :=
  b = fbuf f /\ exists p, R p /\ i = cell f p.

Lemma core_assign n h f e useGhost rg lg :
  operands_ok n h e -> destination_ok n h f -> alias_ok f e ->
  assign_ghosts useGhost f e = Ok (rg, lg) ->
  gminus lg = gminus rg -> gplus lg = iv_sub (gplus rg) (has_extra (fbc f)) ->
  (forall p, box_of n rg p -> any_cell n f p /\ expr_known n e p) ->
  0 < ix (box_ext n rg) -> 0 < iy (box_ext n rg) -> 0 < iz (box_ext n rg) ->
  forall fuel, (Z.to_nat (npts (box_ext n rg)) <= fuel)%nat ->
  exists h', solo (rd_valid n e) (wr_of f (box_of n rg)) (sequential_assign fuel useGhost f e) h h' tt /\
    assigned h h' f (box_of n rg) (denote h e).
Proof.
  intros (Ro & Mo & So) (Df & Dr & Dc) Al Eg Lm Lp K Ex Ey Ez fuel Hf.
  set (lo := box_lo rg) in *. set (ext := box_ext n rg) in *.
  assert (KV : forall g s p, In (g, s) (reads e iv_zero) -> in_region lo (box_hi lo ext) p -> valid_cell n g (iv_add p s)).
  { intros g s p I P. eapply known_read; [apply K; apply box_of_eq; exact P|exact I]. }
  assert (KM : forall k s p, In (k, s) (masks e iv_zero) -> in_region lo (box_hi lo ext) p -> valid_cell n (mgeo k) (iv_add p s)).
  { intros k s p I P. eapply known_mask; [apply K; apply box_of_eq; exact P|exact I]. }
  assert (KA : forall p, in_region lo (box_hi lo ext) p -> any_cell n f p).
  { intros p P. apply K. apply box_of_eq. exact P. }
  assert (Fl : fits (lhswin lo ext f)).
  { destruct Df as (_ & _ & W & _ & _ & _ & _ & _ & (FG & FO & FE)).
    assert (K0 := KA lo). assert (K1 := KA (iv_sub (box_hi lo ext) (IV 1 1 1))).
    unfold any_cell, reach, in_region, box_hi, fits, grown, iv_le, lhswin, pos_dims in *; cbn [wglob woff wext] in *.
    clearbody lo ext. cbn in *. rewrite W in FG, FO, FE. cbn in *.
    specialize (K0 ltac:(lia)). specialize (K1 ltac:(lia)). lia. }
  assert (MF : forall k s, In (k, s) (masks e iv_zero) -> fits (leafwin lo ext (mgeo k) s)).
  { intros k s I. apply (leaf_fits n); [exact (proj1 (Mo k s I))|assumption..|]. intros p P. exact (KM k s p I P). }
  assert (E1 : lo = iv_neg (gminus rg)) by reflexivity.
  assert (E2 : ext = iv_add (iv_add n (gminus rg)) (gplus rg)) by reflexivity.
  destruct (assign_walk_solo V vadd vmul lo ext Ex Ey Ez h false f Fl e) with
    (fl := reset_valid_ghosts f (mk_ghost (gminus lg) (gplus lg))) (fuel := fuel) as (h' & S & A); auto.
  - intros g s p I P. apply (Ro g s I). apply (KV g s p I P).
  - intros k s I. split; [apply MF; exact I|apply (Mo k s I)].
  - destruct Df as (_ & _ & W & E & _). unfold reset_valid_ghosts, lhswin; cbn [fwin]. rewrite E.
    apply win_ext; cbn [wglob woff wext grown mk_ghost gminus gplus]; [reflexivity| |]; rewrite ?E1, ?E2, ?W, Lm, ?Lp; iv_solve.
  - exists h'. split.
    + unfold NeboM.sequential_assign. eapply solo_bind; [apply solo_lift; exact Eg|]. cbv beta iota.
      eapply solo_bind.
      * apply (proj1 (init_all V vadd vmul lo ext Ex Ey Ez h (rd_valid n e) (wr_of f (box_of n rg)) (gminus rg) (gplus rg) false)).
        -- intros g s I. apply (leaf_window n); [apply (Ro g s I)|exact E1|exact E2].
        -- intros k s I. split; [apply (leaf_window n); [apply (Mo k s I)|exact E1|exact E2]|apply MF; exact I].
        -- intros g I. split; [apply So; exact I|]. right. eauto.
      * eapply solo_mono; [| |exact S].
        -- intros b i (g & s & p & I & P & -> & ->). left. exists g, s, (iv_add p s). repeat split; auto; apply (KV g s p I P).
        -- intros b i (-> & p & P & ->). split; [reflexivity|]. exists p. split; [apply box_of_eq; exact P|reflexivity].
    + destruct A as (A1 & A2 & A3). split; [exact A1|]. split.
      * intros p P. apply A2. apply box_of_eq. exact P.
      * intros b i [H|H]; apply A3; [left; exact H|right]. intros p P. apply H. apply box_of_eq. exact P.
Qed.

(** *** Ghosts of an assignment *)
Lemma iv_neq0 v : negb (v =? 0) = true <-> v <> 0.
Proof. destruct (v =? 0) eqn:E; cbn; lia. Qed.

Lemma calc_ghost useGhost lhs bc g :
  (exists pr, is_proj pr /\ pr (bc_is bc) <> 0 /\ pr (gplus g) < pr (has_extra bc)) /\
    calculate_valid_ghost useGhost lhs bc g = Throw \/
  (forall pr, is_proj pr -> pr (bc_is bc) <> 0 -> pr (has_extra bc) <= pr (gplus g)) /\
    calculate_valid_ghost useGhost lhs bc g =
      Ok (if useGhost then g_min (g_add lhs (point_to_ghost (has_extra bc))) g else mk_ghost iv_zero (has_extra bc)).
Proof.
  unfold calculate_valid_ghost.
  destruct (negb (ix (bc_is bc) =? 0) && (ix (gplus g) <? ix (has_extra bc))) eqn:A.
  { left. split; [exists ix; unfold is_proj; repeat split; auto; lia|reflexivity]. }
  destruct (negb (iy (bc_is bc) =? 0) && (iy (gplus g) <? iy (has_extra bc))) eqn:B.
  { left. split; [exists iy; unfold is_proj; repeat split; auto; lia|reflexivity]. }
  destruct (negb (iz (bc_is bc) =? 0) && (iz (gplus g) <? iz (has_extra bc))) eqn:C.
  { left. split; [exists iz; unfold is_proj; repeat split; auto; lia|reflexivity]. }
  right. split; [|reflexivity]. intros pr [->|[->| ->]] N; lia.
Qed.

Lemma lhs_ghost g bc : exists lg, calculate_valid_lhs_ghost g bc = Ok lg /\
  (iv_le iv_zero (has_extra bc) -> gminus lg = gminus g /\ gplus lg = iv_sub (gplus g) (has_extra bc)).
Proof.
  unfold calculate_valid_lhs_ghost. destruct (g_sub_ptg g (has_extra bc)) as (r & E & P). exists r. split; [exact E|].
  intros (A & B & C). cbn [ix iy iz iv_zero] in A, B, C.
  destruct (P ix ltac:(unfold is_proj; auto)) as [X1 X2], (P iy ltac:(unfold is_proj; auto)) as [Y1 Y2],
           (P iz ltac:(unfold is_proj; auto)) as [Z1 Z2].
  split; apply iv_ext; cbn [ix iy iz iv_sub]; lia.
Qed.

Lemma extra_of n f : on_patch n f -> iv_le iv_zero (has_extra (fbc f)).
Proof. unfold on_patch. tauto. Qed.

Lemma demands_nonneg_all :
  (forall (e : expr) m u l a b, iv_le iv_zero m /\ iv_le iv_zero u -> In (l, a, b) (demands e m u) ->
     iv_le iv_zero a /\ iv_le iv_zero b) /\
  (forall (e : bexpr) m u l a b, iv_le iv_zero m /\ iv_le iv_zero u -> In (l, a, b) (bdemands e m u) ->
     iv_le iv_zero a /\ iv_le iv_zero b).
Proof.
  assert (St : forall m u p, iv_le iv_zero m /\ iv_le iv_zero u ->
     iv_le iv_zero (iv_add m (below p)) /\ iv_le iv_zero (iv_add u (above p))).
  { unfold iv_le; cbn. intros. lia. }
  apply expr_bexpr_ind; cbn [NeboS.demands NeboS.bdemands].
  - intros v m u l a b H [E|[]]. injection E as <- <- <-. exact H.
  - intros v m u l a b H [E|[]]. injection E as <- <- <-. exact H.
  - intros v m u l a b H [E|[]]. injection E as <- <- <-. exact H.
  - intros op a IH. exact IH.
  - intros op a IHa b IHb m u l x y H I. apply in_app_iff in I as [I|I]; eauto.
  - intros c IHc x IHx o IHo m u l a b H I. apply in_app_iff in I as [I|I]; [|apply in_app_iff in I as [I|I]]; eauto.
  - intros p0 c0 rest e IH m u l a b H I. apply in_flat_map in I as (q & Q & I). eapply IH; [|exact I]. auto.
  - intros p0 rest e IH m u l a b H I. apply in_flat_map in I as (q & Q & I). eapply IH; [|exact I]. auto.
  - intros v m u l a b H [E|[]]. injection E as <- <- <-. exact H.
  - intros v m u l a b H [E|[]]. injection E as <- <- <-. exact H.
  - intros op a IHa b IHb m u l x y H I. apply in_app_iff in I as [I|I]; eauto.
  - intros a IHa b IHb m u l x y H I. apply in_app_iff in I as [I|I]; eauto.
  - intros a IHa b IHb m u l x y H I. apply in_app_iff in I as [I|I]; eauto.
  - intros a IH. exact IH.
  - intros p a IH m u l x y H I. eapply IH; [|exact I]. auto.
Qed.
Lemma demands_nonneg (e : expr) l a b : In (l, a, b) (demands e iv_zero iv_zero) -> iv_le iv_zero a /\ iv_le iv_zero b.
Proof. intros I. eapply (proj1 demands_nonneg_all); [|exact I]. unfold iv_le; cbn; lia. Qed.

(** The region assigned by <<= *)
Lemma assign_ghosts_region n h f e :
  operands_ok n h e -> on_patch n f -> covers_extra f e ->
  exists rg lg, assign_ghosts true f e = Ok (rg, lg) /\
    gminus lg = gminus rg /\ gplus lg = iv_sub (gplus rg) (has_extra (fbc f)) /\
    forall p, box_of n rg p <-> region n f e p.
Proof.
  intros O Df Cx. pose proof (extra_of n f Df) as Ne.
  destruct (proj1 (possible_ghosts_all V) e iv_zero iv_zero (operands_fin n h e _ _ O)) as (pg & Ep & Gp).
  specialize (Gp iv_zero iv_zero).
  destruct (calc_ghost true (fghosts f) (fbc f) pg) as [((pr & P & N & L) & _)|(_ & Ec)].
  { exfalso. destruct (Gp pr P (pr (has_extra (fbc f)))) as [_ Q].
    assert (H : pr (has_extra (fbc f)) <= pr (gplus pg)); [|lia]. apply Q.
    intros l m u I. destruct (Cx l m u I) as (A & B & C). destruct P as [->|[->| ->]]; cbn; rewrite Z.sub_0_r; auto. }
  set (rg := g_min (g_add (fghosts f) (point_to_ghost (has_extra (fbc f)))) pg) in *.
  destruct (lhs_ghost rg (fbc f)) as (lg & El & Q). destruct (Q Ne) as [Q1 Q2].
  exists rg, lg. split; [unfold NeboM.assign_ghosts; rewrite Ep; cbn [obind]; rewrite Ec; cbn [obind]; rewrite El; reflexivity|].
  split; [exact Q1|]. split; [exact Q2|].
  assert (RM : forall pr, is_proj pr -> forall c, (c <= pr (gminus rg) <-> c <= pr (gminus (fghosts f)) /\ c <= pr (gminus pg))
     /\ (c <= pr (gplus rg) <-> c <= pr (has_extra (fbc f)) + pr (gplus (fghosts f)) /\ c <= pr (gplus pg))).
  { intros pr P c. unfold rg, g_min, g_add. destruct Df as (_ & _ & _ & _ & _ & _ & _ & Fg & _).
    rewrite Fg, ptg_fin. cbn [mk_ghost gminus gplus]. rewrite !pr_min, !pr_add, pr_ptg_minus, pr_ptg_plus by assumption.
    rewrite iv_le_pr in Ne. specialize (Ne pr P). rewrite pr_zero in Ne by assumption. lia. }
  clearbody rg.
  assert (RB : forall p, box_of n rg p <-> forall pr, is_proj pr -> - pr p <= pr (gminus rg) /\ pr p + 1 - pr n <= pr (gplus rg)).
  { intros p. unfold box_of, in_region. cbn. split.
    - intros H pr [->|[->| ->]]; lia.
    - intros H. pose proof (H ix ltac:(unfold is_proj; auto)). pose proof (H iy ltac:(unfold is_proj; auto)).
      pose proof (H iz ltac:(unfold is_proj; auto)). lia. }
  intros p. rewrite RB. unfold NeboS.region. split.
  - intros H. split.
    + unfold any_cell, reach, in_region; cbn.
      pose proof (H ix ltac:(unfold is_proj; auto)) as [X1 X2]. pose proof (H iy ltac:(unfold is_proj; auto)) as [Y1 Y2].
      pose proof (H iz ltac:(unfold is_proj; auto)) as [Z1 Z2].
      apply RM in X1, X2, Y1, Y2, Z1, Z2; unfold is_proj; auto. lia.
    + intros l m u I q L U.
      assert (HH : forall pr, is_proj pr -> - pr (fst (layers l)) <= pr q < pr n + pr (snd (layers l))).
      { intros pr P. destruct (H pr P) as [H1 H2]. apply RM in H1; [|exact P]. apply RM in H2; [|exact P].
        destruct H1 as [_ H1], H2 as [_ H2]. pose proof (proj1 (proj1 (Gp pr P _)) H1) as H1'. pose proof (proj1 (proj2 (Gp pr P _)) H2) as H2'. clear H1 H2. rename H1' into H1. rename H2' into H2.
        specialize (H1 _ _ _ I). specialize (H2 _ _ _ I). rewrite pr_zero in H1, H2 by assumption.
        rewrite iv_le_pr in L, U. specialize (L pr P). specialize (U pr P).
        rewrite pr_sub in L by assumption. rewrite pr_add in U by assumption. lia. }
      pose proof (HH ix ltac:(unfold is_proj; auto)) as X1. pose proof (HH iy ltac:(unfold is_proj; auto)) as Y1.
      pose proof (HH iz ltac:(unfold is_proj; auto)) as Z1. unfold known, in_region; cbn. lia.
  - intros [H1 H2] pr P. split.
    + apply RM; [exact P|]. split.
      * unfold any_cell, reach, in_region in H1; cbn in H1. destruct P as [->|[->| ->]]; lia.
      * apply (proj1 (Gp pr P _)). intros l m u I. rewrite pr_zero by assumption.
        destruct (H2 l m u I (iv_sub p m)) as (X & Y & Z).
        -- apply iv_le_pr. intros; lia.
        -- assert (Hnn : iv_le iv_zero m /\ iv_le iv_zero u) by (eapply demands_nonneg; eauto). 
           apply iv_le_pr. intros pr' P'. destruct Hnn as [A B]. rewrite iv_le_pr in A, B. specialize (A pr' P'). specialize (B pr' P').
           rewrite pr_zero in A, B by assumption. rewrite pr_sub, pr_add by assumption. lia.
        -- cbn in X, Y, Z. destruct P as [->|[->| ->]]; lia.
    + apply RM; [exact P|]. split.
      * unfold any_cell, reach, in_region in H1; cbn in H1. destruct P as [->|[->| ->]]; lia.
      * apply (proj2 (Gp pr P _)). intros l m u I. rewrite pr_zero by assumption.
        destruct (H2 l m u I (iv_add p u)) as (X & Y & Z).
        -- assert (Hnn : iv_le iv_zero m /\ iv_le iv_zero u) by (eapply demands_nonneg; eauto). 
           apply iv_le_pr. intros pr' P'. destruct Hnn as [A B]. rewrite iv_le_pr in A, B. specialize (A pr' P'). specialize (B pr' P').
           rewrite pr_zero in A, B by assumption. rewrite pr_sub, pr_add by assumption. lia.
        -- apply iv_le_pr. intros; lia.
        -- cbn in X, Y, Z. destruct P as [->|[->| ->]]; lia.
Qed.
End NeboB.
