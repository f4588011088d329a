From Verif Require Import Prelude WindowM WindowS WindowP GhostM FieldM FieldS FieldP MaskM MaskS MaskP NeboM NeboS NeboP NeboQ.

Definition is_proj (pr : ivec -> Z) : Prop := pr = ix \/ pr = iy \/ pr = iz.
Lemma pr_add pr a b : is_proj pr -> pr (iv_add a b) = pr a + pr b.
Proof. intros [->|[->| ->]]; reflexivity. Qed.
Lemma pr_sub pr a b : is_proj pr -> pr (iv_sub a b) = pr a - pr b.
Proof. intros [->|[->| ->]]; reflexivity. Qed.
Lemma pr_min pr a b : is_proj pr -> pr (iv_min a b) = Z.min (pr a) (pr b).
Proof. rewrite iv_min_eq. intros [->|[->| ->]]; reflexivity. Qed.
Lemma pr_below pr p : is_proj pr -> pr (below p) = Z.max 0 (- pr p).
Proof. intros [->|[->| ->]]; reflexivity. Qed.
Lemma pr_above pr p : is_proj pr -> pr (above p) = Z.max 0 (pr p).
Proof. intros [->|[->| ->]]; reflexivity. Qed.
Lemma pr_ptg_minus pr p : is_proj pr -> pr (gminus (point_to_ghost p)) = Z.max 0 (- pr p).
Proof. intros [->|[->| ->]]; apply neg_part_eq. Qed.
Lemma pr_ptg_plus pr p : is_proj pr -> pr (gplus (point_to_ghost p)) = Z.max 0 (pr p).
Proof. intros [->|[->| ->]]; apply pos_part_eq. Qed.
Lemma ptg_fin p : ginf (point_to_ghost p) = false.
Proof.
  unfold point_to_ghost, mk_ghost, ghost_infinite, iv_infinite, GHOST_MAX; cbn.
  rewrite neg_part_eq, pos_part_eq. apply not_true_is_false. intros H. lia.
Qed.
Lemma g_sub_ptg g p : exists r, g_sub g (point_to_ghost p) = Ok r /\
  forall pr, is_proj pr -> pr (gminus r) = pr (gminus g) - Z.max 0 (- pr p) /\
                           pr (gplus r) = pr (gplus g) - Z.max 0 (pr p).
Proof.
  unfold g_sub. rewrite ptg_fin. eexists. split; [reflexivity|]. intros pr P. cbn [gminus gplus].
  rewrite !pr_sub, pr_ptg_minus, pr_ptg_plus by assumption. auto.
Qed.
Lemma pr_zero pr : is_proj pr -> pr iv_zero = 0.
Proof. intros [->|[->| ->]]; reflexivity. Qed.
Lemma iv_le_pr a b : iv_le a b <-> forall pr, is_proj pr -> pr a <= pr b.
Proof.
  split; [intros (A & B & C) pr [->|[->| ->]]; assumption|].
  intros H. split; [|split]; apply H; unfold is_proj; auto.
Qed.

Section NeboA.
Variable V : Type.
Variable vadd vmul : V -> V -> V.
Notation expr := (expr V). Notation bexpr := (bexpr V). Notation heap := (heap V).
Notation denote := (denote V vadd vmul). Notation bdenote := (bdenote V vadd vmul).
Notation reads := (reads V). Notation breads := (breads V).
Notation masks := (masks V). Notation bmasks := (bmasks V).
Notation singles := (singles V). Notation bsingles := (bsingles V).
Notation demands := (demands V). Notation bdemands := (bdemands V).
Notation possible_ghosts := (possible_ghosts V). Notation bpossible_ghosts := (bpossible_ghosts V).

Definition leaf_fin (l : leaf) : Prop := match l with LConst => True | LField f => ginf (fvalid f) = false end.

(** c (d) layers below (above) are available exactly if every operand has them. *)
Definition glb (g : ghost) (ds : list (leaf * ivec * ivec)) (m0 u0 : ivec) : Prop :=
  forall pr, is_proj pr -> forall c,
  (c <= pr (gminus g) <-> forall l m u, In (l, m, u) ds -> c + (pr m - pr m0) <= pr (fst (layers l))) /\
  (c <= pr (gplus g) <-> forall l m u, In (l, m, u) ds -> c + (pr u - pr u0) <= pr (snd (layers l))).

Lemma glb_app ga gb da db m u : glb ga da m u -> glb gb db m u -> glb (g_min ga gb) (da ++ db) m u.
Proof.
  intros A B pr P c. destruct (A pr P c) as [A1 A2], (B pr P c) as [B1 B2].
  unfold g_min, mk_ghost; cbn [gminus gplus]. rewrite !pr_min by assumption. split.
  - rewrite Z.min_glb_iff, A1, B1. split.
    + intros [H1 H2] l m' u' I. apply in_app_iff in I as [I|I]; eauto.
    + intros H. split; intros; eapply H; apply in_app_iff; eauto.
  - rewrite Z.min_glb_iff, A2, B2. split.
    + intros [H1 H2] l m' u' I. apply in_app_iff in I as [I|I]; eauto.
    + intros H. split; intros; eapply H; apply in_app_iff; eauto.
Qed.

Lemma glb_shift g r ds m u p : g_sub g (point_to_ghost p) = Ok r ->
  glb g ds (iv_add m (below p)) (iv_add u (above p)) -> glb r ds m u.
Proof.
  intros E A pr P c. destruct (g_sub_ptg g p) as (r' & E' & F). assert (r' = r) by congruence. subst r'.
  destruct (F pr P) as [F1 F2]. rewrite F1, F2.
  destruct (A pr P (c + Z.max 0 (- pr p))) as [A1 _]. destruct (A pr P (c + Z.max 0 (pr p))) as [_ A2].
  rewrite !pr_add, pr_below in A1 by assumption. rewrite !pr_add, pr_above in A2 by assumption. split.
  - rewrite <- Z.le_add_le_sub_r, A1. split; intros H l m' u' I; specialize (H l m' u' I); lia.
  - rewrite <- Z.le_add_le_sub_r, A2. split; intros H l m' u' I; specialize (H l m' u' I); lia.
Qed.

Lemma glb_ext g a b m u : (forall x, In x a <-> In x b) -> glb g a m u -> glb g b m u.
Proof.
  intros E A pr P c. destruct (A pr P c) as [A1 A2]. rewrite A1, A2. split; split; intros H l m' u' I; eapply H; apply E; eassumption.
Qed.

Lemma glb_fold (g : ghost) (ds : ivec -> list (leaf * ivec * ivec)) m u (qs : list ivec) :
  (forall q, glb g (ds q) (iv_add m (below q)) (iv_add u (above q))) ->
  forall acc r0 d0, acc = Ok r0 -> glb r0 d0 m u ->
  exists r, fold_left (fun acc p => do earlier <- acc; do gp <- g_sub g (point_to_ghost p); Ok (g_min gp earlier)) qs acc = Ok r
    /\ glb r (d0 ++ flat_map ds qs) m u.
Proof.
  intros D. induction qs as [|q qs IH]; intros acc r0 d0 -> G; cbn [fold_left flat_map].
  - exists r0. rewrite app_nil_r. auto.
  - destruct (g_sub_ptg g q) as (r & E & _). cbn [obind]. rewrite E. cbn [obind].
    destruct (IH (Ok (g_min r r0)) (g_min r r0) (ds q ++ d0) eq_refl) as (r' & E' & G').
    { apply glb_app; [eapply glb_shift; [exact E|apply D]|exact G]. }
    exists r'. split; [exact E'|]. eapply glb_ext; [|exact G']. intros x. rewrite !in_app_iff. tauto.
Qed.

Lemma glb_const m u : glb (ghost_n GHOST_MAX) [(LConst, m, u)] m u.
Proof.
  intros pr P c.
  assert (E1 : pr (gminus (ghost_n GHOST_MAX)) = GHOST_MAX) by (destruct P as [->|[->| ->]]; reflexivity).
  assert (E2 : pr (gplus (ghost_n GHOST_MAX)) = GHOST_MAX) by (destruct P as [->|[->| ->]]; reflexivity).
  assert (E3 : pr (fst (layers LConst)) = GHOST_MAX) by (destruct P as [->|[->| ->]]; reflexivity).
  assert (E4 : pr (snd (layers LConst)) = GHOST_MAX) by (destruct P as [->|[->| ->]]; reflexivity).
  rewrite E1, E2. split; (split; [intros H l m' u' [I|[]]; injection I as <- <- <-; rewrite ?E3, ?E4; lia|]).
  - intros H. specialize (H _ _ _ (or_introl eq_refl)). rewrite E3 in H. lia.
  - intros H. specialize (H _ _ _ (or_introl eq_refl)). rewrite E4 in H. lia.
Qed.

Lemma glb_leaf f m u : ginf (fvalid f) = false -> iv_le iv_zero (has_extra (fbc f)) ->
  glb (leaf_ghosts f) [(LField f, m, u)] m u.
Proof.
  intros F N pr P c. unfold leaf_ghosts, g_add. rewrite F, ptg_fin. cbn [gminus gplus].
  rewrite !pr_add, pr_ptg_minus, pr_ptg_plus by assumption.
  assert (Hn : 0 <= pr (has_extra (fbc f))) by (rewrite iv_le_pr in N; specialize (N pr P); rewrite pr_zero in N; assumption).
  assert (E : pr (snd (layers (LField f))) = pr (has_extra (fbc f)) + pr (gplus (fvalid f))) by (cbn [layers snd]; apply pr_add; assumption).
  split; (split; [intros H l m' u' [I|[]]; injection I as <- <- <-; rewrite ?E; cbn [layers fst]; lia|]).
  - intros H. specialize (H _ _ _ (or_introl eq_refl)). cbn [layers fst] in H. lia.
  - intros H. specialize (H _ _ _ (or_introl eq_refl)). rewrite E in H. lia.
Qed.

Definition leaves_fin (ds : list (leaf * ivec * ivec)) : Prop := forall f m u, In (LField f, m, u) ds ->
  ginf (fvalid f) = false /\ iv_le iv_zero (has_extra (fbc f)).
Lemma leaves_fin_app a b : leaves_fin (a ++ b) -> leaves_fin a /\ leaves_fin b.
Proof. unfold leaves_fin. intros H. split; intros; eapply H; apply in_app_iff; eauto. Qed.

(** The set of leaves does not depend on the accumulated layers. *)
Lemma demands_leaf_all :
  (forall e m u m' u' l a b, In (l, a, b) (demands e m u) -> exists a' b', In (l, a', b') (demands e m' u')) /\
  (forall e m u m' u' l a b, In (l, a, b) (bdemands e m u) -> exists a' b', In (l, a', b') (bdemands e m' u')).
Proof.
  apply expr_bexpr_ind; cbn [NeboS.demands NeboS.bdemands].
  - intros v m u m' u' l a b [E|[]]. injection E as <- <- <-. do 2 eexists. left. reflexivity.
  - intros v m u m' u' l a b [E|[]]. injection E as <- <- <-. do 2 eexists. left. reflexivity.
  - intros v m u m' u' l a b [E|[]]. injection E as <- <- <-. do 2 eexists. left. reflexivity.
  - intros op a IH. exact IH.
  - intros op a IHa b IHb m u m' u' l x y I. apply in_app_iff in I as [I|I].
    + destruct (IHa m u m' u' l x y I) as (x' & y' & J). exists x', y'. apply in_app_iff. auto.
    + destruct (IHb m u m' u' l x y I) as (x' & y' & J). exists x', y'. apply in_app_iff. auto.
  - intros c IHc x IHx o IHo m u m' u' l a b I. apply in_app_iff in I as [I|I]; [|apply in_app_iff in I as [I|I]].
    + destruct (IHc m u m' u' l _ _ I) as (x' & y' & J). exists x', y'. rewrite !in_app_iff. auto.
    + destruct (IHx m u m' u' l _ _ I) as (x' & y' & J). exists x', y'. rewrite !in_app_iff. auto.
    + destruct (IHo m u m' u' l _ _ I) as (x' & y' & J). exists x', y'. rewrite !in_app_iff. auto.
  - intros p0 c0 rest e IH m u m' u' l a b I. apply in_flat_map in I as (q & Q & I).
    destruct (IH _ _ (iv_add m' (below q)) (iv_add u' (above q)) _ _ _ I) as (a' & b' & J).
    exists a', b'. apply in_flat_map. eauto.
  - intros p0 rest e IH m u m' u' l a b I. apply in_flat_map in I as (q & Q & I).
    destruct (IH _ _ (iv_add m' (below q)) (iv_add u' (above q)) _ _ _ I) as (a' & b' & J).
    exists a', b'. apply in_flat_map. eauto.
  - intros v m u m' u' l a b [E|[]]. injection E as <- <- <-. do 2 eexists. left. reflexivity.
  - intros v m u m' u' l a b [E|[]]. injection E as <- <- <-. do 2 eexists. left. reflexivity.
  - intros op a IHa b IHb m u m' u' l x y I. apply in_app_iff in I as [I|I].
    + destruct (IHa m u m' u' l x y I) as (x' & y' & J). exists x', y'. apply in_app_iff. auto.
    + destruct (IHb m u m' u' l x y I) as (x' & y' & J). exists x', y'. apply in_app_iff. auto.
  - intros a IHa b IHb m u m' u' l x y I. apply in_app_iff in I as [I|I].
    + destruct (IHa m u m' u' l x y I) as (x' & y' & J). exists x', y'. apply in_app_iff. auto.
    + destruct (IHb m u m' u' l x y I) as (x' & y' & J). exists x', y'. apply in_app_iff. auto.
  - intros a IHa b IHb m u m' u' l x y I. apply in_app_iff in I as [I|I].
    + destruct (IHa m u m' u' l x y I) as (x' & y' & J). exists x', y'. apply in_app_iff. auto.
    + destruct (IHb m u m' u' l x y I) as (x' & y' & J). exists x', y'. apply in_app_iff. auto.
  - intros a IH. exact IH.
  - intros p a IH m u m' u' l x y I. apply (IH _ _ _ _ _ _ _ I).
Qed.

Lemma possible_ghosts_all :
  (forall e m u, leaves_fin (demands e m u) -> exists g, possible_ghosts e = Ok g /\
     forall m u, glb g (demands e m u) m u) /\
  (forall e m u, leaves_fin (bdemands e m u) -> exists g, bpossible_ghosts e = Ok g /\
     forall m u, glb g (bdemands e m u) m u).
Proof.
  assert (FL : forall a m u m' u', leaves_fin (demands a m u) -> leaves_fin (demands a m' u')).
  { intros a m u m' u' H f x y I. destruct (proj1 demands_leaf_all _ _ _ m u _ _ _ I) as (x' & y' & J). eapply H; exact J. }
  assert (FLb : forall a m u m' u', leaves_fin (bdemands a m u) -> leaves_fin (bdemands a m' u')).
  { intros a m u m' u' H f x y I. destruct (proj2 demands_leaf_all _ _ _ m u _ _ _ I) as (x' & y' & J). eapply H; exact J. }
  assert (FT : forall p0 rest a, (exists g, possible_ghosts a = Ok g /\ forall m u, glb g (demands a m u) m u) ->
     exists g, (do g <- possible_ghosts a;
       fold_left (fun acc p => do earlier <- acc; do gp <- g_sub g (point_to_ghost p); Ok (g_min gp earlier))
                 rest (g_sub g (point_to_ghost p0))) = Ok g /\
     forall m u, glb g (flat_map (fun p => demands a (iv_add m (below p)) (iv_add u (above p))) (p0 :: rest)) m u).
  { intros p0 rest a (g & E & G). rewrite E. cbn [obind].
    destruct (g_sub_ptg g p0) as (r0 & E0 & _). rewrite E0.
    destruct (glb_fold g (fun p => demands a (iv_add iv_zero (below p)) (iv_add iv_zero (above p))) iv_zero iv_zero rest
               (fun q => G _ _) (Ok r0) r0 (demands a (iv_add iv_zero (below p0)) (iv_add iv_zero (above p0))) eq_refl) as (r & Er & _).
    { eapply glb_shift; [exact E0|apply G]. }
    exists r. split; [exact Er|]. intros m u.
    destruct (glb_fold g (fun p => demands a (iv_add m (below p)) (iv_add u (above p))) m u rest
               (fun q => G _ _) (Ok r0) r0 (demands a (iv_add m (below p0)) (iv_add u (above p0))) eq_refl) as (r' & Er' & G').
    { eapply glb_shift; [exact E0|apply G]. }
    assert (r' = r) by congruence. subst r'. exact G'. }
  apply expr_bexpr_ind; cbn [NeboS.demands NeboS.bdemands NeboM.possible_ghosts NeboM.bpossible_ghosts].
  - intros v m u _. eexists. split; [reflexivity|]. apply glb_const.
  - intros f m u H. destruct (H f m u (or_introl eq_refl)). eexists. split; [reflexivity|].
    intros m' u'. apply glb_leaf; assumption.
  - intros v m u _. eexists. split; [reflexivity|]. apply glb_const.
  - intros op a IH. exact IH.
  - intros op a IHa b IHb m u H. apply leaves_fin_app in H as [Ha Hb].
    destruct (IHa m u Ha) as (ga & Ea & Ga), (IHb m u Hb) as (gb & Eb & Gb).
    rewrite Ea, Eb. eexists. split; [reflexivity|]. intros. apply glb_app; auto.
  - intros c IHc x IHx o IHo m u H. apply leaves_fin_app in H as [Hc H]. apply leaves_fin_app in H as [Hx Ho].
    destruct (IHc m u Hc) as (gc & Ec & Gc), (IHx m u Hx) as (gx & Ex & Gx), (IHo m u Ho) as (go & Eo & Go).
    change (exists g, (do gc <- bpossible_ghosts c; do gx <- possible_ghosts x; do go <- possible_ghosts o;
      Ok (g_min (g_min gc gx) go)) = Ok g /\
      forall m u, glb g (bdemands c m u ++ demands x m u ++ demands o m u) m u).
    rewrite Ec, Ex, Eo. eexists. split; [reflexivity|]. intros. rewrite app_assoc. apply glb_app; [apply glb_app|]; auto.
  - intros p0 c0 rest a IH m u H.
    assert (H0 : leaves_fin (demands a m u)).
    { eapply FL. intros f x y I. eapply H. cbn [map flat_map]. apply in_app_iff. left. exact I. }
    destruct (FT p0 (map fst rest) a (IH m u H0)) as (g & E & G). exists g. split; [|exact G].
    rewrite <- E. destruct (possible_ghosts a); cbn [obind]; [|reflexivity..].
    generalize (g_sub a0 (point_to_ghost p0)). clear. induction rest as [|pc rest IH]; intros acc; cbn [fold_left map]; [reflexivity|apply IH].
  - intros p0 rest a IH m u H.
    assert (H0 : leaves_fin (demands a m u)).
    { eapply FL. intros f x y I. eapply H. cbn [map flat_map]. apply in_app_iff. left. exact I. }
    exact (FT p0 rest a (IH m u H0)).
  - intros v m u _. eexists. split; [reflexivity|]. apply glb_const.
  - intros k m u H. destruct (H (mgeo k) m u (or_introl eq_refl)). eexists. split; [reflexivity|].
    intros m' u'. apply glb_leaf; assumption.
  - intros op a IHa b IHb m u H. apply leaves_fin_app in H as [Ha Hb].
    destruct (IHa m u Ha) as (ga & Ea & Ga), (IHb m u Hb) as (gb & Eb & Gb).
    change (exists g, (do ga <- possible_ghosts a; do gb <- possible_ghosts b; Ok (g_min ga gb)) = Ok g /\
      forall m u, glb g (demands a m u ++ demands b m u) m u).
    rewrite Ea, Eb. eexists. split; [reflexivity|]. intros. apply glb_app; auto.
  - intros a IHa b IHb m u H. apply leaves_fin_app in H as [Ha Hb].
    destruct (IHa m u Ha) as (ga & Ea & Ga), (IHb m u Hb) as (gb & Eb & Gb).
    rewrite Ea, Eb. eexists. split; [reflexivity|]. intros. apply glb_app; auto.
  - intros a IHa b IHb m u H. apply leaves_fin_app in H as [Ha Hb].
    destruct (IHa m u Ha) as (ga & Ea & Ga), (IHb m u Hb) as (gb & Eb & Gb).
    rewrite Ea, Eb. eexists. split; [reflexivity|]. intros. apply glb_app; auto.
  - intros a IH. exact IH.
  - intros p a IH m u H. destruct (IH _ _ H) as (g & E & G). rewrite E. cbn [obind].
    destruct (g_sub_ptg g p) as (r & Er & _). exists r. split; [exact Er|].
    intros m' u'. eapply glb_shift; [exact Er|apply G].
Qed.

(** Reads are covered by demands. *)
Definition spans (s0 s m u m0 u0 : ivec) : Prop :=
  iv_le (iv_sub s0 (iv_sub m m0)) s /\ iv_le s (iv_add s0 (iv_sub u u0)).
Lemma spans_step s0 s m u m0 u0 p : spans (iv_add s0 p) s m u (iv_add m0 (below p)) (iv_add u0 (above p)) ->
  spans s0 s m u m0 u0.
Proof. unfold spans, iv_le; cbn. lia. Qed.
Lemma spans_refl s m u : spans s s m u m u.
Proof. unfold spans, iv_le; cbn. lia. Qed.

Lemma reads_demands_all :
  (forall e s0 m0 u0 g s, In (g, s) (reads e s0) ->
     exists m u, In (LField g, m, u) (demands e m0 u0) /\ spans s0 s m u m0 u0) /\
  (forall e s0 m0 u0 g s, In (g, s) (breads e s0) ->
     exists m u, In (LField g, m, u) (bdemands e m0 u0) /\ spans s0 s m u m0 u0).
Proof.
  assert (T : forall A B : list (leaf * ivec * ivec), forall (P : ivec -> ivec -> Prop) l,
     ((exists m u, In (l, m, u) A /\ P m u) \/ (exists m u, In (l, m, u) B /\ P m u)) ->
     exists m u, In (l, m, u) (A ++ B) /\ P m u).
  { intros A B P l [(m & u & I & Q)|(m & u & I & Q)]; exists m, u; rewrite in_app_iff; auto. }
  apply expr_bexpr_ind; cbn [NeboS.reads NeboS.breads NeboS.demands NeboS.bdemands].
  - intros v s0 m0 u0 g s [].
  - intros f s0 m0 u0 g s [E|[]]. injection E as <- <-. exists m0, u0. split; [left; reflexivity|apply spans_refl].
  - intros v s0 m0 u0 g s [].
  - intros op a IH. exact IH.
  - intros op a IHa b IHb s0 m0 u0 g s I. apply T. apply in_app_iff in I as [I|I]; [left|right]; eauto.
  - intros c IHc x IHx o IHo s0 m0 u0 g s I. apply T. apply in_app_iff in I as [I|I]; [left; eauto|right].
    apply T. apply in_app_iff in I as [I|I]; [left|right]; eauto.
  - intros p0 c0 rest a IH s0 m0 u0 g s I. apply in_app_iff in I as [I|I].
    + destruct (IH (iv_add s0 p0) (iv_add m0 (below p0)) (iv_add u0 (above p0)) g s I) as (m & u & J & S).
      exists m, u. split; [cbn [map flat_map]; apply in_app_iff; left; exact J|]. eapply spans_step; exact S.
    + apply in_flat_map in I as (pc & Q & I).
      destruct (IH (iv_add s0 (fst pc)) (iv_add m0 (below (fst pc))) (iv_add u0 (above (fst pc))) g s I) as (m & u & J & S).
      exists m, u. split; [|eapply spans_step; exact S]. apply in_flat_map. exists (fst pc).
      split; [right; apply in_map; exact Q|exact J].
  - intros p0 rest a IH s0 m0 u0 g s I. apply in_app_iff in I as [I|I].
    + destruct (IH (iv_add s0 p0) (iv_add m0 (below p0)) (iv_add u0 (above p0)) g s I) as (m & u & J & S).
      exists m, u. split; [cbn [map flat_map]; apply in_app_iff; left; exact J|]. eapply spans_step; exact S.
    + apply in_flat_map in I as (pc & Q & I).
      destruct (IH (iv_add s0 pc) (iv_add m0 (below pc)) (iv_add u0 (above pc)) g s I) as (m & u & J & S).
      exists m, u. split; [|eapply spans_step; exact S]. apply in_flat_map. exists pc.
      split; [right; exact Q|exact J].
  - intros v s0 m0 u0 g s [].
  - intros v s0 m0 u0 g s [].
  - intros op a IHa b IHb s0 m0 u0 g s I. apply T. apply in_app_iff in I as [I|I]; [left|right]; eauto.
  - intros a IHa b IHb s0 m0 u0 g s I. apply T. apply in_app_iff in I as [I|I]; [left|right]; eauto.
  - intros a IHa b IHb s0 m0 u0 g s I. apply T. apply in_app_iff in I as [I|I]; [left|right]; eauto.
  - intros a IH. exact IH.
  - intros p a IH s0 m0 u0 g s I. destruct (IH _ (iv_add m0 (below p)) (iv_add u0 (above p)) g s I) as (m & u & J & S).
    exists m, u. split; [exact J|eapply spans_step; exact S].
Qed.

Lemma masks_demands_all :
  (forall e s0 m0 u0 k s, In (k, s) (masks e s0) ->
     exists m u, In (LField (mgeo k), m, u) (demands e m0 u0) /\ spans s0 s m u m0 u0) /\
  (forall e s0 m0 u0 k s, In (k, s) (bmasks e s0) ->
     exists m u, In (LField (mgeo k), m, u) (bdemands e m0 u0) /\ spans s0 s m u m0 u0).
Proof.
  assert (T : forall A B : list (leaf * ivec * ivec), forall (P : ivec -> ivec -> Prop) l,
     ((exists m u, In (l, m, u) A /\ P m u) \/ (exists m u, In (l, m, u) B /\ P m u)) ->
     exists m u, In (l, m, u) (A ++ B) /\ P m u).
  { intros A B P l [(m & u & I & Q)|(m & u & I & Q)]; exists m, u; rewrite in_app_iff; auto. }
  apply expr_bexpr_ind; cbn [NeboS.masks NeboS.bmasks NeboS.demands NeboS.bdemands].
  - intros v s0 m0 u0 g s [].
  - intros v s0 m0 u0 g s [].
  - intros v s0 m0 u0 g s [].
  - intros op a IH. exact IH.
  - intros op a IHa b IHb s0 m0 u0 g s I. apply T. apply in_app_iff in I as [I|I]; [left|right]; eauto.
  - intros c IHc x IHx o IHo s0 m0 u0 g s I. apply T. apply in_app_iff in I as [I|I]; [left; eauto|right].
    apply T. apply in_app_iff in I as [I|I]; [left|right]; eauto.
  - intros p0 c0 rest a IH s0 m0 u0 g s I. apply in_app_iff in I as [I|I].
    + destruct (IH (iv_add s0 p0) (iv_add m0 (below p0)) (iv_add u0 (above p0)) g s I) as (m & u & J & S).
      exists m, u. split; [cbn [map flat_map]; apply in_app_iff; left; exact J|]. eapply spans_step; exact S.
    + apply in_flat_map in I as (pc & Q & I).
      destruct (IH (iv_add s0 (fst pc)) (iv_add m0 (below (fst pc))) (iv_add u0 (above (fst pc))) g s I) as (m & u & J & S).
      exists m, u. split; [|eapply spans_step; exact S]. apply in_flat_map. exists (fst pc).
      split; [right; apply in_map; exact Q|exact J].
  - intros p0 rest a IH s0 m0 u0 g s I. apply in_app_iff in I as [I|I].
    + destruct (IH (iv_add s0 p0) (iv_add m0 (below p0)) (iv_add u0 (above p0)) g s I) as (m & u & J & S).
      exists m, u. split; [cbn [map flat_map]; apply in_app_iff; left; exact J|]. eapply spans_step; exact S.
    + apply in_flat_map in I as (pc & Q & I).
      destruct (IH (iv_add s0 pc) (iv_add m0 (below pc)) (iv_add u0 (above pc)) g s I) as (m & u & J & S).
      exists m, u. split; [|eapply spans_step; exact S]. apply in_flat_map. exists pc.
      split; [right; exact Q|exact J].
  - intros v s0 m0 u0 g s [].
  - intros f s0 m0 u0 g s [E|[]]. injection E as <- <-. exists m0, u0. split; [left; reflexivity|apply spans_refl].
  - intros op a IHa b IHb s0 m0 u0 g s I. apply T. apply in_app_iff in I as [I|I]; [left|right]; eauto.
  - intros a IHa b IHb s0 m0 u0 g s I. apply T. apply in_app_iff in I as [I|I]; [left|right]; eauto.
  - intros a IHa b IHb s0 m0 u0 g s I. apply T. apply in_app_iff in I as [I|I]; [left|right]; eauto.
  - intros a IH. exact IH.
  - intros p a IH s0 m0 u0 g s I. destruct (IH _ (iv_add m0 (below p)) (iv_add u0 (above p)) g s I) as (m & u & J & S).
    exists m, u. split; [exact J|eapply spans_step; exact S].
Qed.

(** Leaves of an expression are fields it reads or masks. *)
Lemma demands_origin_all :
  (forall e m u s g a b, In (LField g, a, b) (demands e m u) ->
     (exists s', In (g, s') (reads e s)) \/ (exists k s', mgeo k = g /\ In (k, s') (masks e s))) /\
  (forall e m u s g a b, In (LField g, a, b) (bdemands e m u) ->
     (exists s', In (g, s') (breads e s)) \/ (exists k s', mgeo k = g /\ In (k, s') (bmasks e s))).
Proof.
  apply expr_bexpr_ind; cbn [NeboS.reads NeboS.breads NeboS.masks NeboS.bmasks NeboS.demands NeboS.bdemands].
  - intros v m u s g a b [E|[]]; discriminate E.
  - intros f m u s g a b [E|[]]. injection E as <- <- <-. left. eexists. left. reflexivity.
  - intros v m u s g a b [E|[]]; discriminate E.
  - intros op a IH. exact IH.
  - intros op a IHa b IHb m u s g x y I. apply in_app_iff in I as [I|I].
    + destruct (IHa m u s g x y I) as [(s' & J)|(k & s' & Ek & J)]; [left; exists s'|right; exists k, s'; split; [exact Ek|]]; apply in_app_iff; auto.
    + destruct (IHb m u s g x y I) as [(s' & J)|(k & s' & Ek & J)]; [left; exists s'|right; exists k, s'; split; [exact Ek|]]; apply in_app_iff; auto.
  - intros c IHc x IHx o IHo m u s g a b I. apply in_app_iff in I as [I|I]; [|apply in_app_iff in I as [I|I]].
    + destruct (IHc m u s g a b I) as [(s' & J)|(k & s' & Ek & J)]; [left; exists s'|right; exists k, s'; split; [exact Ek|]]; rewrite !in_app_iff; auto.
    + destruct (IHx m u s g a b I) as [(s' & J)|(k & s' & Ek & J)]; [left; exists s'|right; exists k, s'; split; [exact Ek|]]; rewrite !in_app_iff; auto.
    + destruct (IHo m u s g a b I) as [(s' & J)|(k & s' & Ek & J)]; [left; exists s'|right; exists k, s'; split; [exact Ek|]]; rewrite !in_app_iff; auto.
  - intros p0 c0 rest e IH m u s g a b I. apply in_flat_map in I as (q & Q & I).
    destruct Q as [<-|Q].
    + destruct (IH _ _ (iv_add s p0) g a b I) as [(s' & J)|(k & s' & Ek & J)]; [left; exists s'|right; exists k, s'; split; [exact Ek|]]; apply in_app_iff; auto.
    + apply in_map_iff in Q as (pc & <- & Q).
      destruct (IH _ _ (iv_add s (fst pc)) g a b I) as [(s' & J)|(k & s' & Ek & J)]; [left; exists s'|right; exists k, s'; split; [exact Ek|]]; apply in_app_iff; right; apply in_flat_map; eauto.
  - intros p0 rest e IH m u s g a b I. apply in_flat_map in I as (q & Q & I).
    destruct Q as [<-|Q].
    + destruct (IH _ _ (iv_add s p0) g a b I) as [(s' & J)|(k & s' & Ek & J)]; [left; exists s'|right; exists k, s'; split; [exact Ek|]]; apply in_app_iff; auto.
    + destruct (IH _ _ (iv_add s q) g a b I) as [(s' & J)|(k & s' & Ek & J)]; [left; exists s'|right; exists k, s'; split; [exact Ek|]]; apply in_app_iff; right; apply in_flat_map; eauto.
  - intros v m u s g a b [E|[]]; discriminate E.
  - intros f m u s g a b [E|[]]. injection E as <- <- <-. right. exists f, s. split; [reflexivity|left; reflexivity].
  - intros op a IHa b IHb m u s g x y I. apply in_app_iff in I as [I|I].
    + destruct (IHa m u s g x y I) as [(s' & J)|(k & s' & Ek & J)]; [left; exists s'|right; exists k, s'; split; [exact Ek|]]; apply in_app_iff; auto.
    + destruct (IHb m u s g x y I) as [(s' & J)|(k & s' & Ek & J)]; [left; exists s'|right; exists k, s'; split; [exact Ek|]]; apply in_app_iff; auto.
  - intros a IHa b IHb m u s g x y I. apply in_app_iff in I as [I|I].
    + destruct (IHa m u s g x y I) as [(s' & J)|(k & s' & Ek & J)]; [left; exists s'|right; exists k, s'; split; [exact Ek|]]; apply in_app_iff; auto.
    + destruct (IHb m u s g x y I) as [(s' & J)|(k & s' & Ek & J)]; [left; exists s'|right; exists k, s'; split; [exact Ek|]]; apply in_app_iff; auto.
  - intros a IHa b IHb m u s g x y I. apply in_app_iff in I as [I|I].
    + destruct (IHa m u s g x y I) as [(s' & J)|(k & s' & Ek & J)]; [left; exists s'|right; exists k, s'; split; [exact Ek|]]; apply in_app_iff; auto.
    + destruct (IHb m u s g x y I) as [(s' & J)|(k & s' & Ek & J)]; [left; exists s'|right; exists k, s'; split; [exact Ek|]]; apply in_app_iff; auto.
  - intros a IH. exact IH.
  - intros p a IH m u s g x y I. apply (IH _ _ _ _ _ _ I).
Qed.
End NeboA.
