From Verif Require Import Prelude WindowM WindowS WindowP OverM OverP OverQ GhostM FieldM FieldS FieldP MaskM MaskS MaskP NeboM NeboS NeboP NeboQ NeboA NeboB OvAsgM.

#[local] Arguments has_extra : simpl never.
#[local] Arguments INT_MAX : simpl never.

(** All components lie between lo and hi. *)
Definition inr (lo hi : Z) (v : ivec) : Prop := forall pr, is_proj pr -> lo <= pr v <= hi.
Lemma inr_iff lo hi v : inr lo hi v <-> lo <= ix v <= hi /\ lo <= iy v <= hi /\ lo <= iz v <= hi.
Proof.
  split; [intros H; repeat split; apply H; unfold is_proj; auto|].
  intros (A & B & C) pr [->|[->| ->]]; assumption.
Qed.
Lemma inr_add a b c d v w : inr a b v -> inr c d w -> inr (a + c) (b + d) (iv_add v w).
Proof. rewrite !inr_iff; cbn [iv_add ix iy iz]; lia. Qed.
Lemma inr_sub a b c d v w : inr a b v -> inr c d w -> inr (a - d) (b - c) (iv_sub v w).
Proof. rewrite !inr_iff; cbn [iv_sub ix iy iz]; lia. Qed.
Lemma inr_weak a b c d v : inr a b v -> c <= a -> b <= d -> inr c d v.
Proof. rewrite !inr_iff; lia. Qed.
Lemma inr_min a b v w : inr a b v -> inr a b w -> inr a b (iv_min v w).
Proof. rewrite iv_min_eq, !inr_iff; cbn [ix iy iz]; lia. Qed.
Lemma add32_ok a b lo hi : inr lo hi (iv_add a b) -> - INT_MAX <= lo -> hi <= INT_MAX -> iv_add32 a b = Ok (iv_add a b).
Proof.
  rewrite inr_iff; cbn [iv_add ix iy iz]. intros (X & Y & Z) L H. unfold iv_add32, iadd.
  rewrite !i32_abs by lia. reflexivity.
Qed.
Lemma sub32_ok a b lo hi : inr lo hi (iv_sub a b) -> - INT_MAX <= lo -> hi <= INT_MAX -> iv_sub32 a b = Ok (iv_sub a b).
Proof.
  rewrite inr_iff; cbn [iv_sub ix iy iz]. intros (X & Y & Z) L H. unfold iv_sub32, isub.
  rewrite !i32_abs by lia. reflexivity.
Qed.
Lemma neg32_ok v : - INT_MAX <= v -> neg_part32 v = Ok (neg_part v).
Proof. intros H. unfold neg_part32, neg_part, ineg. pose proof max_pos. destruct (v <? 0) eqn:E; [|reflexivity]. apply i32_abs. lia. Qed.
Lemma ptg32_ok p lo hi : inr lo hi p -> - INT_MAX <= lo -> point_to_ghost32 p = Ok (point_to_ghost p).
Proof.
  rewrite inr_iff. intros (X & Y & Z) L. unfold point_to_ghost32. rewrite !neg32_ok by lia. reflexivity.
Qed.

(** A bound on the points of a block; counts on the way stay below 7 of them
    plus a little. *)
Section Bounds.
Variable G : Z.
Hypothesis G0 : 0 <= G.
Hypothesis HG : 7 * G + 60000 <= INT_MAX.
Notation R := (2 * G + 9001).
Notation T := (G + 9001).

Definition gin (lo hi : Z) (g : ghost) : Prop := inr lo hi (gminus g) /\ inr lo hi (gplus g).

Lemma ptg_in p lo hi : inr lo hi p -> lo <= 0 -> 0 <= hi -> inr 0 (- lo) (gminus (point_to_ghost p)) /\ inr 0 hi (gplus (point_to_ghost p)).
Proof.
  intros A L H. split; intros pr P; specialize (A pr P); rewrite ?pr_ptg_minus, ?pr_ptg_plus by assumption; lia.
Qed.

Lemma gshift_ok g p : gin (- R) T g -> inr (- R) R p ->
  g_shift32 g p = g_sub g (point_to_ghost p).
Proof.
  intros (A & B) P. unfold g_shift32. rewrite (ptg32_ok p (- R) R) by (assumption || lia). cbn [obind].
  destruct (ptg_in p (- R) R P ltac:(lia) ltac:(lia)) as (C & D).
  unfold g_sub32, g_sub. rewrite ptg_fin.
  rewrite (sub32_ok _ _ _ _ (inr_sub _ _ _ _ _ _ A C)) by lia. cbn [obind].
  rewrite (sub32_ok _ _ _ _ (inr_sub _ _ _ _ _ _ B D)) by lia. reflexivity.
Qed.
Lemma gadd_ok g e : ginf g = false -> gin 0 G g -> inr 0 G e -> 
  (do p <- point_to_ghost32 e; g_add32 g p) = Ok (g_add g (point_to_ghost e)).
Proof.
  intros F (A & B) P. rewrite (ptg32_ok e 0 G) by (assumption || lia). cbn [obind].
  destruct (ptg_in e 0 G P ltac:(lia) ltac:(lia)) as (C & D).
  unfold g_add32, g_add. rewrite F, ptg_fin.
  rewrite (add32_ok _ _ _ _ (inr_add _ _ _ _ _ _ A C)) by lia. cbn [obind].
  rewrite (add32_ok _ _ _ _ (inr_add _ _ _ _ _ _ B D)) by lia. reflexivity.
Qed.

(** *** What a field on a patch allows *)
Record leafb (n : ivec) (f : field) : Prop := {
  lb_fin : ginf (fvalid f) = false;
  lb_gfin : ginf (fghosts f) = false;
  lb_valid : gin 0 G (fvalid f);
  lb_ghosts : gin 0 G (fghosts f);
  lb_extra : inr 0 G (has_extra (fbc f));
  lb_sum : inr 0 G (iv_add (has_extra (fbc f)) (gplus (fvalid f)));
  lb_gsum : inr 0 G (iv_add (gplus (fghosts f)) (has_extra (fbc f)));
  lb_off : inr 0 G (woff (fwin f));
  lb_ext : inr 0 G (wext (fwin f));
  lb_all : inr 0 G (iv_add n (iv_add (has_extra (fbc f)) (gplus (fvalid f))));
  lb_gall : inr 0 G (iv_add n (iv_add (gplus (fghosts f)) (has_extra (fbc f))));
  lb_n : inr 1 G n;
  lb_glob : pos_dims (wglob (fint f));
  lb_same : wglob (fwin f) = wglob (fint f);
  lb_pts : glob_npts (fint f) <= G }.

Lemma prod_dims a b c : 0 < a -> 0 < b -> 0 < c -> a * b * c <= G -> a <= G /\ b <= G /\ c <= G.
Proof. intros A B C H. assert (a <= a * b) by nia. assert (b <= a * b) by nia. nia. Qed.

Lemma leafb_of n f : on_patch n f -> glob_npts (fwin f) <= G -> leafb n f.
Proof.
  intros ((Nx & Ny & Nz) & E & W & Wn & (N1 & N2) & (L1 & L2) & Fv & Fg & Ft) S.
  unfold glob_npts in S. rewrite Wn in S. cbn [grown wglob] in S.
  destruct Ft as (FG & FO & FE). cbn [grown wglob woff wext] in FG, FO, FE. rewrite W in FG, FO, FE.
  unfold iv_le in *. cbn [iv_zero iv_add iv_sub ix iy iz] in *.
  assert (P : 0 < ix (wglob (fint f)) /\ 0 < iy (wglob (fint f)) /\ 0 < iz (wglob (fint f))) by lia.
  destruct (prod_dims _ _ _ (proj1 P) (proj1 (proj2 P)) (proj2 (proj2 P)) S) as (Sx & Sy & Sz).
  constructor; try assumption; unfold gin; rewrite ?inr_iff, ?Wn; cbn [grown wglob woff wext]; rewrite ?W;
    cbn [iv_add iv_sub ix iy iz]; try lia.
  - reflexivity.
Qed.

(** *** Ghosts an expression offers *)
Section Expr.
Variable V : Type.
Variable vadd vmul : V -> V -> V.
Notation expr := (expr V). Notation bexpr := (bexpr V).
Notation demands := (demands V). Notation bdemands := (bdemands V).
Notation possible_ghosts := (possible_ghosts V). Notation bpossible_ghosts := (bpossible_ghosts V).
Notation possible_ghosts32 := (possible_ghosts32 V). Notation bpossible_ghosts32 := (bpossible_ghosts32 V).
Variable n : ivec.

(** every operand is small and its stencils reach at most R cells *)
Definition dok (ds : list (leaf * ivec * ivec)) : Prop := forall l a b, In (l, a, b) ds ->
  inr 0 R a /\ inr 0 R b /\ match l with LConst => True | LField f => leafb n f end.
Definition nonneg2 (m u : ivec) : Prop := forall pr, is_proj pr -> 0 <= pr m /\ 0 <= pr u.
Lemma dok_app a b : dok (a ++ b) <-> dok a /\ dok b.
Proof.
  unfold dok. split; [intros H; split; intros; eapply H; apply in_app_iff; eauto|].
  intros (A & B) l x y I. apply in_app_iff in I as [I|I]; eauto.
Qed.
Lemma dok_flat {A} (ds : A -> list (leaf * ivec * ivec)) qs : dok (flat_map ds qs) <-> forall q, In q qs -> dok (ds q).
Proof.
  unfold dok. split; [intros H q Q l a b I; eapply H; apply in_flat_map; eauto|].
  intros H l a b I. apply in_flat_map in I as (q & Q & I). eapply H; eauto.
Qed.
Lemma nonneg_step m u p : nonneg2 m u -> nonneg2 (iv_add m (below p)) (iv_add u (above p)).
Proof. intros N pr P. destruct (N pr P). rewrite !pr_add, pr_below, pr_above by assumption. lia. Qed.

(** the layers consumed so far are bounded by those consumed at the operands *)
Lemma reach_all :
  (forall e m u, dok (demands e m u) -> forall pr, is_proj pr -> pr m <= R /\ pr u <= R) /\
  (forall e m u, dok (bdemands e m u) -> forall pr, is_proj pr -> pr m <= R /\ pr u <= R).
Proof.
  assert (Lf : forall l m u, dok [(l, m, u)] -> forall pr, is_proj pr -> pr m <= R /\ pr u <= R).
  { intros l m u D pr P. destruct (D l m u (or_introl eq_refl)) as (A & B & _). split; [apply (A pr P)|apply (B pr P)]. }
  assert (St : forall p m u pr, is_proj pr ->
     pr (iv_add m (below p)) <= R /\ pr (iv_add u (above p)) <= R -> pr m <= R /\ pr u <= R).
  { intros p m u pr P. rewrite !pr_add, pr_below, pr_above by assumption. lia. }
  apply expr_bexpr_ind; cbn [NeboS.demands NeboS.bdemands].
  - intros v. apply Lf.
  - intros f. apply Lf.
  - intros f. apply Lf.
  - intros op a IH. exact IH.
  - intros op a IHa b IHb m u D. apply dok_app in D as (D & _). auto.
  - intros c IHc x IHx o IHo m u D. apply dok_app in D as (D & _). auto.
  - intros p0 c0 rest a IH m u D pr P. apply (St p0); [exact P|]. apply IH; [|exact P].
    cbn [map flat_map] in D. apply dok_app in D as (D & _). exact D.
  - intros p0 rest a IH m u D pr P. apply (St p0); [exact P|]. apply IH; [|exact P].
    cbn [map flat_map] in D. apply dok_app in D as (D & _). exact D.
  - intros b. apply Lf.
  - intros k. apply Lf.
  - intros op a IHa b IHb m u D. apply dok_app in D as (D & _). auto.
  - intros a IHa b IHb m u D. apply dok_app in D as (D & _). auto.
  - intros a IHa b IHb m u D. apply dok_app in D as (D & _). auto.
  - intros a IH. exact IH.
  - intros p a IH m u D pr P. apply (St p); [exact P|]. apply IH; assumption.
Qed.

(** a point whose layers are within reach *)
Lemma point_in m u p : nonneg2 m u ->
  (forall pr, is_proj pr -> pr (iv_add m (below p)) <= R /\ pr (iv_add u (above p)) <= R) -> inr (- R) R p.
Proof.
  intros N H pr P. destruct (N pr P). specialize (H pr P). rewrite !pr_add, pr_below, pr_above in H by assumption. lia.
Qed.

Definition gb (m u : ivec) (g : ghost) : Prop := forall pr, is_proj pr ->
  - (R - pr m) <= pr (gminus g) <= T /\ - (R - pr u) <= pr (gplus g) <= T.
Lemma gb_in m u g : nonneg2 m u -> gb m u g -> gin (- R) T g.
Proof. intros N B. split; intros pr P; destruct (N pr P); destruct (B pr P); lia. Qed.
Lemma gb_min m u g h : gb m u g -> gb m u h -> gb m u (g_min g h).
Proof.
  intros A B pr P. destruct (A pr P), (B pr P). unfold g_min, mk_ghost; cbn [gminus gplus].
  rewrite !pr_min by assumption. lia.
Qed.
Lemma gb_shift m u g p : nonneg2 m u -> gb (iv_add m (below p)) (iv_add u (above p)) g ->
  (forall pr, is_proj pr -> pr (iv_add m (below p)) <= R /\ pr (iv_add u (above p)) <= R) ->
  exists r, g_shift32 g p = Ok r /\ g_sub g (point_to_ghost p) = Ok r /\ gb m u r.
Proof.
  intros N B H. destruct (g_sub_ptg g p) as (r & E & F). exists r.
  rewrite gshift_ok; [|apply (gb_in _ _ _ (nonneg_step m u p N) B)|apply (point_in m u p N H)].
  split; [exact E|]. split; [exact E|]. intros pr P. destruct (F pr P) as (-> & ->).
  destruct (B pr P) as (B1 & B2). rewrite !pr_add, pr_below in B1 by assumption. rewrite !pr_add, pr_above in B2 by assumption. lia.
Qed.
Lemma gb_const m u : dok [(LConst, m, u)] -> gb m u (ghost_n GHOST_MAX).
Proof.
  intros D pr P. destruct (D _ _ _ (or_introl eq_refl)) as (A & B & _). specialize (A pr P). specialize (B pr P).
  replace (pr (gminus (ghost_n GHOST_MAX))) with 9001 by (destruct P as [->|[->| ->]]; reflexivity).
  replace (pr (gplus (ghost_n GHOST_MAX))) with 9001 by (destruct P as [->|[->| ->]]; reflexivity). lia.
Qed.
Lemma gb_leaf f m u : dok [(LField f, m, u)] -> leaf_ghosts32 f = Ok (leaf_ghosts f) /\ gb m u (leaf_ghosts f).
Proof.
  intros D. destruct (D _ _ _ (or_introl eq_refl)) as (A & B & L). split.
  - unfold leaf_ghosts32, leaf_ghosts. apply gadd_ok; apply L.
  - intros pr P. unfold leaf_ghosts, g_add. rewrite (lb_fin _ _ L), ptg_fin. cbn [gminus gplus].
    rewrite !pr_add, pr_ptg_minus, pr_ptg_plus by assumption. specialize (A pr P). specialize (B pr P).
    pose proof (lb_extra _ _ L pr P). destruct (lb_valid _ _ L) as (Lm & _). specialize (Lm pr P).
    pose proof (lb_sum _ _ L pr P) as S. rewrite pr_add in S by assumption. lia.
Qed.

Lemma gb_fold {A} (pf : A -> ivec) g m u (qs : list A) : nonneg2 m u ->
  (forall q, In q qs -> gb (iv_add m (below (pf q))) (iv_add u (above (pf q))) g /\
     forall pr, is_proj pr -> pr (iv_add m (below (pf q))) <= R /\ pr (iv_add u (above (pf q))) <= R) ->
  forall r0, gb m u r0 -> exists r,
    fold_left (fun acc q => do earlier <- acc; do gp <- g_shift32 g (pf q); Ok (g_min gp earlier)) qs (Ok r0) = Ok r /\
    fold_left (fun acc q => do earlier <- acc; do gp <- g_sub g (point_to_ghost (pf q)); Ok (g_min gp earlier)) qs (Ok r0) = Ok r /\
    gb m u r.
Proof.
  intros N. induction qs as [|q qs IH]; intros H r0 B0; cbn [fold_left].
  - exists r0. auto.
  - destruct (H q (or_introl eq_refl)) as (B & L).
    destruct (gb_shift m u g (pf q) N B L) as (r & E1 & E2 & B1). cbn [obind]. rewrite E1, E2. cbn [obind].
    apply IH; [intros; apply H; right; assumption|]. apply gb_min; assumption.
Qed.

(** the bounds of the operand do not depend on the point: layers m and u
    enlarged by every point of the stencil *)
Lemma ghosts_all :
  (forall e m u, nonneg2 m u -> dok (demands e m u) ->
     exists g, possible_ghosts32 e = Ok g /\ possible_ghosts e = Ok g /\ gb m u g) /\
  (forall e m u, nonneg2 m u -> dok (bdemands e m u) ->
     exists g, bpossible_ghosts32 e = Ok g /\ bpossible_ghosts e = Ok g /\ gb m u g).
Proof.
  assert (Mn : forall (x32 y32 x y : outcome ghost) m u,
    (exists g, x32 = Ok g /\ x = Ok g /\ gb m u g) -> (exists g, y32 = Ok g /\ y = Ok g /\ gb m u g) ->
    exists g, (do a <- x32; do b <- y32; Ok (g_min a b)) = Ok g /\ (do a <- x; do b <- y; Ok (g_min a b)) = Ok g /\ gb m u g).
  { intros x32 y32 x y m u (g & -> & -> & A) (h & -> & -> & B). exists (g_min g h). auto using gb_min. }
  apply expr_bexpr_ind; cbn [OvAsgM.possible_ghosts32 OvAsgM.bpossible_ghosts32 NeboM.possible_ghosts NeboM.bpossible_ghosts NeboS.demands NeboS.bdemands].
  - intros v m u N D. exists (ghost_n GHOST_MAX). auto using gb_const.
  - intros f m u N D. destruct (gb_leaf f m u D) as (-> & B). eauto.
  - intros f m u N D. exists (ghost_n GHOST_MAX). auto using gb_const.
  - intros op a IH. exact IH.
  - intros op a IHa b IHb m u N D. apply dok_app in D as (Da & Db). apply Mn; auto.
  - intros c IHc x IHx o IHo m u N D. apply dok_app in D as (Dc & D). apply dok_app in D as (Dx & Do).
    change (exists g, (do gc <- bpossible_ghosts32 c; do gx <- possible_ghosts32 x; do go <- possible_ghosts32 o;
                       Ok (g_min (g_min gc gx) go)) = Ok g /\
                      (do gc <- bpossible_ghosts c; do gx <- possible_ghosts x; do go <- possible_ghosts o;
                       Ok (g_min (g_min gc gx) go)) = Ok g /\ gb m u g).
    destruct (IHc m u N Dc) as (gc & -> & -> & Bc). destruct (IHx m u N Dx) as (gx & -> & -> & Bx).
    destruct (IHo m u N Do) as (go & -> & -> & Bo). cbn [obind].
    exists (g_min (g_min gc gx) go). auto using gb_min.
  - intros p0 c0 rest a IH m u N D. rewrite dok_flat in D.
    assert (Q : forall q, In q (p0 :: map fst rest) -> exists g, possible_ghosts32 a = Ok g /\ possible_ghosts a = Ok g /\
       gb (iv_add m (below q)) (iv_add u (above q)) g /\
       forall pr, is_proj pr -> pr (iv_add m (below q)) <= R /\ pr (iv_add u (above q)) <= R).
    { intros q I. destruct (IH (iv_add m (below q)) (iv_add u (above q)) (nonneg_step m u q N) (D q I)) as (g & A & B & C).
      exists g. repeat split; try assumption; apply (C _ ltac:(eassumption)) || apply (proj1 reach_all _ _ _ (D q I) _ ltac:(eassumption)). }
    destruct (Q p0 (or_introl eq_refl)) as (g & E32 & E & B & L). rewrite E32, E. cbn [obind].
    destruct (gb_shift m u g p0 N B L) as (r & F32 & F & C). rewrite F32, F.
    apply (gb_fold fst g m u rest N); [|exact C].
    intros q I. destruct (Q (fst q)) as (g' & _ & E' & B' & L'); [right; apply in_map; exact I|].
    assert (g' = g) by congruence. subst g'. auto.
  - intros p0 rest a IH m u N D. rewrite dok_flat in D.
    assert (Q : forall q, In q (p0 :: rest) -> exists g, possible_ghosts32 a = Ok g /\ possible_ghosts a = Ok g /\
       gb (iv_add m (below q)) (iv_add u (above q)) g /\
       forall pr, is_proj pr -> pr (iv_add m (below q)) <= R /\ pr (iv_add u (above q)) <= R).
    { intros q I. destruct (IH (iv_add m (below q)) (iv_add u (above q)) (nonneg_step m u q N) (D q I)) as (g & A & B & C).
      exists g. repeat split; try assumption; apply (C _ ltac:(eassumption)) || apply (proj1 reach_all _ _ _ (D q I) _ ltac:(eassumption)). }
    destruct (Q p0 (or_introl eq_refl)) as (g & E32 & E & B & L). rewrite E32, E. cbn [obind].
    destruct (gb_shift m u g p0 N B L) as (r & F32 & F & C). rewrite F32, F.
    apply (gb_fold (fun q => q) g m u rest N); [|exact C].
    intros q I. destruct (Q q) as (g' & _ & E' & B' & L'); [right; exact I|].
    assert (g' = g) by congruence. subst g'. auto.
  - intros b m u N D. exists (ghost_n GHOST_MAX). auto using gb_const.
  - intros k m u N D. destruct (gb_leaf (mgeo k) m u D) as (-> & B). eauto.
  - intros c a IHa b IHb m u N D. apply dok_app in D as (Da & Db). apply Mn; auto.
  - intros a IHa b IHb m u N D. apply dok_app in D as (Da & Db). apply Mn; auto.
  - intros a IHa b IHb m u N D. apply dok_app in D as (Da & Db). apply Mn; auto.
  - intros a IH. exact IH.
  - intros p a IH m u N D.
    destruct (IH (iv_add m (below p)) (iv_add u (above p)) (nonneg_step m u p N) D) as (g & -> & -> & B). cbn [obind].
    apply gb_shift; try assumption. intros pr P. apply (proj2 reach_all a _ _ D pr P).
Qed.

(** The ghosts of the assignment. *)
Lemma assign_ghosts_ok useGhost f e rg lg : leafb n f -> dok (demands e iv_zero iv_zero) ->
  assign_ghosts V useGhost f e = Ok (rg, lg) ->
  assign_ghosts32 V useGhost f e = Ok (rg, lg) /\ gin (- R) T rg /\ inr (- R) T (gminus lg) /\ inr (- (R + G)) T (gplus lg).
Proof.
  intros L D E. assert (N : nonneg2 iv_zero iv_zero) by (intros pr P; rewrite pr_zero by assumption; lia).
  destruct (proj1 ghosts_all e iv_zero iv_zero N D) as (pg & E32 & E0 & B).
  unfold assign_ghosts32, assign_ghosts in *. rewrite E32. rewrite E0 in E. cbn [obind] in *.
  assert (Pg := gb_in _ _ _ N B). clear B E32 E0.
  assert (C : exists rg', calculate_valid_ghost useGhost (fghosts f) (fbc f) pg = Ok rg') by
    (destruct (calculate_valid_ghost useGhost (fghosts f) (fbc f) pg); [eauto|discriminate|discriminate]).
  destruct C as (rg' & C). rewrite C in E. cbn [obind] in E.
  assert (C32 : calculate_valid_ghost32 useGhost (fghosts f) (fbc f) pg = Ok rg' /\ gin (- R) T rg').
  { revert C. unfold calculate_valid_ghost, calculate_valid_ghost32.
    pose proof (gadd_ok (fghosts f) (has_extra (fbc f)) (lb_gfin _ _ L) (lb_ghosts _ _ L) (lb_extra _ _ L)) as A.
    destruct (_ && _); [discriminate|]. destruct (_ && _); [discriminate|]. destruct (_ && _); [discriminate|].
    destruct (point_to_ghost32 (has_extra (fbc f))) as [p| |]; [|discriminate|discriminate].
    cbn [obind] in *. rewrite A. cbn [obind]. intros [= <-]. split; [reflexivity|].
    destruct useGhost.
    - destruct (lb_ghosts _ _ L) as (Lm & Lp). pose proof (lb_gsum _ _ L) as Ls. pose proof (lb_extra _ _ L) as Le.
      unfold g_add. rewrite (lb_gfin _ _ L), ptg_fin. unfold g_min, gin, mk_ghost; cbn [gminus gplus]. destruct Pg as (P1 & P2).
      split; apply inr_min; try assumption; intros pr P; rewrite pr_add, ?pr_ptg_minus, ?pr_ptg_plus by assumption.
      + specialize (Lm pr P). specialize (Le pr P). lia.
      + specialize (Ls pr P). rewrite pr_add in Ls by assumption. specialize (Le pr P). lia.
    - unfold gin, mk_ghost; cbn [gminus gplus]. split; [intros pr P; rewrite pr_zero by assumption; lia|].
      eapply inr_weak; [apply (lb_extra _ _ L)|lia|lia]. }
  destruct C32 as (-> & Rg). cbn [obind].
  rewrite gshift_ok; [|exact Rg|eapply inr_weak; [apply (lb_extra _ _ L)|lia|lia]].
  unfold calculate_valid_lhs_ghost in E.
  destruct (g_sub_ptg rg' (has_extra (fbc f))) as (r & Er & Fr). rewrite Er in *. cbn [obind] in *.
  injection E as <- <-. split; [reflexivity|]. split; [exact Rg|]. destruct Rg as (R1 & R2).
  split; intros pr P; destruct (Fr pr P) as (F1 & F2); specialize (R1 pr P); specialize (R2 pr P); pose proof (lb_extra _ _ L pr P); lia.
Qed.
End Expr.
End Bounds.
