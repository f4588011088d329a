From Verif Require Import Prelude WindowM WindowS WindowP GhostM FieldM FieldS FieldP MaskM MaskS MaskP NeboM NeboS NeboP NeboQ NeboA NeboB NeboC NeboD ParM ParS ParP ParQ GpuM GpuS.

#[local] Arguments has_extra : simpl never.
Section GpuP.
Variable V : Type.
Variable vadd vmul : V -> V -> V.
Notation expr := (expr V). Notation bexpr := (bexpr V). Notation heap := (heap V).
Notation denote := (denote V vadd vmul). Notation bdenote := (bdenote V vadd vmul).
Notation reads := (reads V). Notation breads := (breads V).
Notation masks := (masks V). Notation bmasks := (bmasks V).
Notation singles := (singles V). Notation bsingles := (bsingles V).
Notation gpu_init := (gpu_init V vadd vmul). Notation gpu_binit := (gpu_binit V vadd vmul).
Notation gwalk := (gwalk V). Notation bgwalk := (bgwalk V).

(** ** One thread *)
Section Box.
Variable lo ext : ivec.
Hypothesis Ex : 0 < ix ext.
Hypothesis Ey : 0 < iy ext.
Hypothesis Ez : 0 < iz ext.
Variable h0 : heap.
Notation leafwin := (leafwin lo ext).

Definition gleaf (f : field) (s q : ivec) : gwalk :=
  GField (fbuf f) (addr (leafwin f s) q) (ix (wglob (fint f))) (ix (wglob (fint f)) * iy (wglob (fint f))).
Definition gmleaf (m : mask) (s q : ivec) : bgwalk :=
  let w := leafwin (mgeo m) s in
  BGMask (mwords m) (addr w iv_zero) (addr w q mod 32) (addr w q / 32) (ix (wglob w)) (ix (wglob w) * iy (wglob w)).

(** The walk of a thread at offset q from the low corner. *)
Fixpoint gat (e : expr) (s q : ivec) : gwalk :=
  match e with
  | EScalar _ v => GConst v
  | EField _ f => gleaf f s q
  | ESingle _ f => GConst (bdata (h0 (fbuf f)) 0)
  | EOp1 _ op a => GOp1 op (gat a s q)
  | EOp2 _ op a b => GOp2 op (gat a s q) (gat b s q)
  | ECond _ c x o => GCond (bgat c s q) (gat x s q) (gat o s q)
  | EStencil _ p0 c0 rest a =>
      fold_left (fun acc pc => GOp2 vadd acc (GOp2 vmul (gat a (iv_add s (fst pc)) q) (GConst (snd pc))))
                rest (GOp2 vmul (gat a (iv_add s p0) q) (GConst c0))
  | ESumStencil _ p0 rest a =>
      fold_left (fun acc p => GOp2 vadd acc (gat a (iv_add s p) q)) rest (gat a (iv_add s p0) q)
  end
with bgat (e : bexpr) (s q : ivec) : bgwalk :=
  match e with
  | BScalar _ b => BGConst b
  | BMask _ m => gmleaf m s q
  | BCmp _ c a b => BGCmp c (gat a s q) (gat b s q)
  | BAnd _ a b => BGAnd (bgat a s q) (bgat b s q)
  | BOr _ a b => BGOr (bgat a s q) (bgat b s q)
  | BNot _ a => BGNot (bgat a s q)
  | BShift _ p a => bgat a (iv_add s p) q
  end.

Lemma upd_norm bit blk flat : 32 * blk + bit = flat -> 0 <= flat -> update_positions bit blk = (flat mod 32, flat / 32).
Proof.
  intros E H. destruct (update_positions_eq bit blk) as (b' & k' & -> & A & B). specialize (B ltac:(lia)).
  f_equal; lia.
Qed.
Lemma addr_first w : gpu_first w = addr w iv_zero.
Proof. unfold gpu_first, addr; cbn [ix iy iz iv_zero]. rewrite !Z.add_0_r. reflexivity. Qed.
Lemma addr_start w x y : addr w iv_zero + (x + y * ix (wglob w)) = addr w (IV x y 0).
Proof. unfold addr; cbn [ix iy iz iv_zero]. ring. Qed.
Lemma addr_next w x y k : addr w (IV x y k) + ix (wglob w) * iy (wglob w) = addr w (IV x y (k + 1)).
Proof. unfold addr; cbn [ix iy iz iv_zero]. ring. Qed.
Lemma addr_nonneg w x y k : fits w -> 0 <= x -> 0 <= y -> 0 <= k -> 0 <= addr w (IV x y k).
Proof.
  intros ((G1 & G2 & G3) & (O1 & O2 & O3) & (P1 & P2 & P3)) Hx Hy Hk. unfold addr; cbn [ix iy iz].
  assert (0 <= iy (wglob w) * (iz (woff w) + k)) by (apply Z.mul_nonneg_nonneg; lia).
  assert (0 <= ix (wglob w) * (iy (woff w) + y + iy (wglob w) * (iz (woff w) + k))) by (apply Z.mul_nonneg_nonneg; lia).
  lia.
Qed.

(** *** start *)
Section Start.
Variable rd wr : nat -> Z -> Prop.
Variable minus plus : ivec.
Variable x y : Z.
Hypothesis Hx : 0 <= x.
Hypothesis Hy : 0 <= y.
Notation leaf_init := (leaf_init lo ext minus plus).
Notation mleaf_init := (mleaf_init lo ext minus plus).
Notation singles_ok := (singles_ok V h0 rd).

Lemma start_all :
  (forall e s, leaf_init (reads e s) -> mleaf_init (masks e s) -> singles_ok (singles e) ->
     solo rd wr (gstart x y (gpu_init e minus plus s)) h0 h0 (gat e s (IV x y 0))) /\
  (forall e s, leaf_init (breads e s) -> mleaf_init (bmasks e s) -> singles_ok (bsingles e) ->
     solo rd wr (bgstart x y (gpu_binit e minus plus s)) h0 h0 (bgat e s (IV x y 0))).
Proof.
  apply expr_bexpr_ind; cbn [GpuM.gpu_init GpuM.gpu_binit gat bgat NeboS.reads NeboS.breads NeboS.masks NeboS.bmasks NeboS.singles NeboS.bsingles].
  - intros. apply solo_ret.
  - intros f s L _ _. unfold gpu_leaf. rewrite (L f s (or_introl eq_refl)). cbn [gstart]. rewrite addr_first, addr_start. apply solo_ret.
  - intros f s _ _ S. destruct (S f (or_introl eq_refl)) as (A & B). cbn [gstart]. apply solo_load; [exact A|exact B|]. apply solo_ret.
  - intros op a IH s L M S. cbn [gstart]. eapply solo_bind; [apply IH; assumption|apply solo_ret].
  - intros op a IHa b IHb s L M S. apply leaf_init_app in L as [L1 L2]. apply mleaf_init_app in M as [M1 M2].
    apply singles_ok_app in S as [S1 S2]. cbn [gstart].
    eapply solo_bind; [apply IHa; assumption|]. eapply solo_bind; [apply IHb; assumption|apply solo_ret].
  - intros c IHc e IHx o IHo s L M S.
    apply leaf_init_app in L as [L1 L]. apply mleaf_init_app in M as [M1 M]. apply singles_ok_app in S as [S1 S].
    apply leaf_init_app in L as [L2 L3]. apply mleaf_init_app in M as [M2 M3]. apply singles_ok_app in S as [S2 S3]. cbn [gstart].
    eapply solo_bind; [apply IHc; assumption|]. eapply solo_bind; [apply IHx; assumption|].
    eapply solo_bind; [apply IHo; assumption|apply solo_ret].
  - intros p0 c0 rest a IH s L M S.
    apply leaf_init_app in L as [L1 L2]. apply mleaf_init_app in M as [M1 M2].
    assert (HF : forall w w', solo rd wr (gstart x y w) h0 h0 w' ->
      solo rd wr (gstart x y (fold_left (fun earlier pc => GOp2 vadd earlier (GOp2 vmul (gpu_init a minus plus (iv_add s (fst pc))) (GConst (snd pc)))) rest w)) h0 h0
       (fold_left (fun acc pc => GOp2 vadd acc (GOp2 vmul (gat a (iv_add s (fst pc)) (IV x y 0)) (GConst (snd pc)))) rest w')).
    { clear L1 M1. induction rest as [|pc rest IHr]; intros w w' Hw; cbn [fold_left]; [exact Hw|].
      cbn [flat_map] in L2, M2. apply leaf_init_app in L2 as [L1 L2]. apply mleaf_init_app in M2 as [M1 M2].
      apply IHr; [assumption..|]. cbn [gstart]. eapply solo_bind; [exact Hw|].
      eapply solo_bind; [|apply solo_ret]. eapply solo_bind; [apply IH; assumption|]. apply solo_ret. }
    apply HF. cbn [gstart]. eapply solo_bind; [apply IH; assumption|]. apply solo_ret.
  - intros p0 rest a IH s L M S.
    apply leaf_init_app in L as [L1 L2]. apply mleaf_init_app in M as [M1 M2].
    assert (HF : forall w w', solo rd wr (gstart x y w) h0 h0 w' ->
      solo rd wr (gstart x y (fold_left (fun earlier p => GOp2 vadd earlier (gpu_init a minus plus (iv_add s p))) rest w)) h0 h0
       (fold_left (fun acc p => GOp2 vadd acc (gat a (iv_add s p) (IV x y 0))) rest w')).
    { clear L1 M1. induction rest as [|pc rest IHr]; intros w w' Hw; cbn [fold_left]; [exact Hw|].
      cbn [flat_map] in L2, M2. apply leaf_init_app in L2 as [L1 L2]. apply mleaf_init_app in M2 as [M1 M2].
      apply IHr; [assumption..|]. cbn [gstart]. eapply solo_bind; [exact Hw|].
      eapply solo_bind; [apply IH; assumption|]. apply solo_ret. }
    apply HF. apply IH; assumption.
  - intros. apply solo_ret.
  - intros m s _ M _. destruct (M m s (or_introl eq_refl)) as (W & F). unfold gpu_mask_leaf, mask_resize_ghost_and_shift_window.
    change (mgeo (mask_shift_window (mask_resize_ghost m minus (iv_sub plus (has_extra (fbc (mgeo m))))) s)) with
      (resize_ghost_and_shift_window (mgeo m) minus (iv_sub plus (has_extra (fbc (mgeo m)))) s).
    rewrite W. cbn [bgstart]. rewrite addr_first.
    rewrite (upd_norm _ _ (addr (leafwin (mgeo m) s) (IV x y 0))).
    + apply solo_ret.
    + rewrite <- addr_start. ring.
    + apply addr_nonneg; (exact F || lia).
  - intros op a IHa b IHb s L M S. apply leaf_init_app in L as [L1 L2]. apply mleaf_init_app in M as [M1 M2].
    apply singles_ok_app in S as [S1 S2]. cbn [bgstart].
    eapply solo_bind; [apply IHa; assumption|]. eapply solo_bind; [apply IHb; assumption|apply solo_ret].
  - intros a IHa b IHb s L M S. apply leaf_init_app in L as [L1 L2]. apply mleaf_init_app in M as [M1 M2].
    apply singles_ok_app in S as [S1 S2]. cbn [bgstart].
    eapply solo_bind; [apply IHa; assumption|]. eapply solo_bind; [apply IHb; assumption|apply solo_ret].
  - intros a IHa b IHb s L M S. apply leaf_init_app in L as [L1 L2]. apply mleaf_init_app in M as [M1 M2].
    apply singles_ok_app in S as [S1 S2]. cbn [bgstart].
    eapply solo_bind; [apply IHa; assumption|]. eapply solo_bind; [apply IHb; assumption|apply solo_ret].
  - intros a IH s L M S. cbn [bgstart]. eapply solo_bind; [apply IH; assumption|apply solo_ret].
  - intros p a IH s L M S. apply IH; assumption.
Qed.

(** *** next *)
Definition mfits (l : list (mask * ivec)) : Prop := forall m s, In (m, s) l -> fits (leafwin (mgeo m) s).
Lemma mfits_app a b : mfits (a ++ b) -> mfits a /\ mfits b.
Proof. unfold mfits. intros H. split; intros; apply H; apply in_app_iff; auto. Qed.
Lemma next_all k : 0 <= k ->
  (forall e s, mfits (masks e s) -> gnext (gat e s (IV x y k)) = gat e s (IV x y (k + 1))) /\
  (forall e s, mfits (bmasks e s) -> bgnext (bgat e s (IV x y k)) = bgat e s (IV x y (k + 1))).
Proof.
  intros Hk. apply expr_bexpr_ind; cbn [gat bgat NeboS.masks NeboS.bmasks].
  - reflexivity.
  - intros f s _. unfold gleaf. cbn [gnext]. rewrite (addr_next (leafwin f s)). reflexivity.
  - reflexivity.
  - intros op a IH s M. cbn [gnext]. rewrite IH by exact M. reflexivity.
  - intros op a IHa b IHb s M. apply mfits_app in M as [M1 M2]. cbn [gnext]. rewrite IHa, IHb by assumption. reflexivity.
  - intros c IHc e IHx o IHo s M. apply mfits_app in M as [M1 M]. apply mfits_app in M as [M2 M3]. cbn [gnext].
    rewrite IHc, IHx, IHo by assumption. reflexivity.
  - intros p0 c0 rest a IH s M. apply mfits_app in M as [M0 M].
    assert (HF : forall w w', gnext w = w' ->
      gnext (fold_left (fun acc pc => GOp2 vadd acc (GOp2 vmul (gat a (iv_add s (fst pc)) (IV x y k)) (GConst (snd pc)))) rest w)
      = fold_left (fun acc pc => GOp2 vadd acc (GOp2 vmul (gat a (iv_add s (fst pc)) (IV x y (k + 1))) (GConst (snd pc)))) rest w').
    { clear M0. induction rest as [|pc rest IHr]; intros w w' Hw; cbn [fold_left]; [exact Hw|].
      cbn [flat_map] in M. apply mfits_app in M as [M1 M2]. apply IHr; [exact M2|]. cbn [gnext]. rewrite Hw, IH by exact M1. reflexivity. }
    apply HF. cbn [gnext]. rewrite IH by exact M0. reflexivity.
  - intros p0 rest a IH s M. apply mfits_app in M as [M0 M].
    assert (HF : forall w w', gnext w = w' ->
      gnext (fold_left (fun acc p => GOp2 vadd acc (gat a (iv_add s p) (IV x y k))) rest w)
      = fold_left (fun acc p => GOp2 vadd acc (gat a (iv_add s p) (IV x y (k + 1)))) rest w').
    { clear M0. induction rest as [|pc rest IHr]; intros w w' Hw; cbn [fold_left]; [exact Hw|].
      cbn [flat_map] in M. apply mfits_app in M as [M1 M2]. apply IHr; [exact M2|]. cbn [gnext]. rewrite Hw, IH by exact M1. reflexivity. }
    apply HF. rewrite IH by exact M0. reflexivity.
  - reflexivity.
  - intros m s M. specialize (M m s (or_introl eq_refl)). unfold gmleaf. cbn [bgnext].
    rewrite (upd_norm _ _ (addr (leafwin (mgeo m) s) (IV x y (k + 1)))); [reflexivity| |].
    + rewrite <- addr_next. lia.
    + apply addr_nonneg; (exact M || lia).
  - intros op a IHa b IHb s M. apply mfits_app in M as [M1 M2]. cbn [bgnext]. rewrite IHa, IHb by assumption. reflexivity.
  - intros a IHa b IHb s M. apply mfits_app in M as [M1 M2]. cbn [bgnext]. rewrite IHa, IHb by assumption. reflexivity.
  - intros a IHa b IHb s M. apply mfits_app in M as [M1 M2]. cbn [bgnext]. rewrite IHa, IHb by assumption. reflexivity.
  - intros a IH s M. cbn [bgnext]. rewrite IH by exact M. reflexivity.
  - intros p a IH s M. apply IH; exact M.
Qed.
End Start.

(** *** eval *)
Section Eval.
Variable rd wr : nat -> Z -> Prop.
Variable h : heap.
Variable q : ivec.
Hypothesis Hq : in_box ext q.
Notation at_q := (iv_add lo q).
Definition rdq_ok (l : list (field * ivec)) : Prop := forall f s, In (f, s) l ->
  rd (fbuf f) (cell f (iv_add at_q s)) /\
  bcells (h (fbuf f)) (cell f (iv_add at_q s)) = true /\
  bdata (h (fbuf f)) (cell f (iv_add at_q s)) = bdata (h0 (fbuf f)) (cell f (iv_add at_q s)).
Notation mk_ok := (mk_ok lo ext).
Lemma rdq_ok_app a b : rdq_ok (a ++ b) -> rdq_ok a /\ rdq_ok b.
Proof. unfold rdq_ok. intros H; split; intros; apply H; apply in_app_iff; auto. Qed.

Lemma gmask_ok m s : fits (leafwin (mgeo m) s) ->
  Z.of_nat (length (mwords m)) = round_to_int (glob_npts (fint (mgeo m))) ->
  gmask_eval (mwords m) (addr (leafwin (mgeo m) s) q mod 32) (addr (leafwin (mgeo m) s) q / 32)
  = Ok (holds m (iv_add at_q s)).
Proof.
  intros F L. pose proof (addr_range (leafwin (mgeo m) s) q F Hq) as R.
  assert (S : in_store (mwords m) (addr (leafwin (mgeo m) s) q)).
  { unfold in_store. rewrite L. apply round_to_int_cover. exact R. }
  unfold holds, mask_query. rewrite query_bit; rewrite addr_leafwin in S, R; [|exact S].
  destruct (store_pos _ _ S) as (_ & _ & A & B). rewrite addr_leafwin. fold (cell (mgeo m) (iv_add at_q s)).
  unfold gmask_eval. unfold cell. rewrite word_get_ok by exact A. cbn [obind]. rewrite one_shl_ok by exact B. cbn [obind].
  rewrite land_bit by lia. reflexivity.
Qed.

Lemma eval_all :
  (forall e s, rdq_ok (reads e s) -> mk_ok (masks e s) ->
     solo rd wr (geval (gat e s q)) h h (denote h0 e (iv_add at_q s))) /\
  (forall e s, rdq_ok (breads e s) -> mk_ok (bmasks e s) ->
     solo rd wr (bgeval (bgat e s q)) h h (bdenote h0 e (iv_add at_q s))).
Proof.
  apply expr_bexpr_ind; cbn [gat bgat NeboS.reads NeboS.breads NeboS.masks NeboS.bmasks NeboS.denote NeboS.bdenote].
  - intros v s _ _. apply solo_ret.
  - intros f s R _. destruct (R f s (or_introl eq_refl)) as (A & B & C). unfold gleaf. cbn [geval]. rewrite addr_leafwin.
    apply solo_load; [exact B|exact A|]. rewrite C. apply solo_ret.
  - intros f s _ _. apply solo_ret.
  - intros op a IH s R M. cbn [geval]. eapply solo_bind; [apply IH; assumption|]. apply solo_ret.
  - intros op a IHa b IHb s R M. apply rdq_ok_app in R as [Ra Rb]. apply mk_ok_app in M as [Ma Mb]. cbn [geval].
    eapply solo_bind; [apply IHa; assumption|]. eapply solo_bind; [apply IHb; assumption|]. apply solo_ret.
  - intros c IHc e IHx o IHo s R M.
    apply rdq_ok_app in R as [Rc R]. apply rdq_ok_app in R as [Rx Ro].
    apply mk_ok_app in M as [Mc M]. apply mk_ok_app in M as [Mx Mo]. cbn [geval].
    eapply solo_bind; [apply IHc; assumption|].
    change (solo rd wr (if bdenote h0 c (iv_add at_q s) then geval (gat e s q) else geval (gat o s q)) h h
      (if bdenote h0 c (iv_add at_q s) then denote h0 e (iv_add at_q s) else denote h0 o (iv_add at_q s))).
    destruct (bdenote h0 c (iv_add at_q s)); [apply IHx|apply IHo]; assumption.
  - intros p0 c0 rest a IH s R M.
    apply rdq_ok_app in R as [R0 R]. apply mk_ok_app in M as [M0 M].
    assert (HF : forall w v, solo rd wr (geval w) h h v ->
      solo rd wr (geval (fold_left (fun acc pc => GOp2 vadd acc (GOp2 vmul (gat a (iv_add s (fst pc)) q) (GConst (snd pc)))) rest w)) h h
       (fold_left (fun acc pc => vadd acc (vmul (denote h0 a (iv_add (iv_add at_q s) (fst pc))) (snd pc))) rest v)).
    { clear R0 M0. induction rest as [|pc rest IHr]; intros w v Hw; cbn [fold_left]; [exact Hw|].
      cbn [flat_map] in R, M. apply rdq_ok_app in R as [R1 R2]. apply mk_ok_app in M as [M1 M2].
      apply IHr; [assumption..|]. cbn [geval]. eapply solo_bind; [exact Hw|].
      eapply solo_bind; [|apply solo_ret]. eapply solo_bind; [apply IH; assumption|]. cbn [geval pbind].
      rewrite (iv_add_assoc at_q). apply solo_ret. }
    apply HF. cbn [geval]. eapply solo_bind; [apply IH; assumption|]. cbn [pbind]. rewrite (iv_add_assoc at_q). apply solo_ret.
  - intros p0 rest a IH s R M.
    apply rdq_ok_app in R as [R0 R]. apply mk_ok_app in M as [M0 M].
    assert (HF : forall w v, solo rd wr (geval w) h h v ->
      solo rd wr (geval (fold_left (fun acc p => GOp2 vadd acc (gat a (iv_add s p) q)) rest w)) h h
       (fold_left (fun acc r => vadd acc (denote h0 a (iv_add (iv_add at_q s) r))) rest v)).
    { clear R0 M0. induction rest as [|pc rest IHr]; intros w v Hw; cbn [fold_left]; [exact Hw|].
      cbn [flat_map] in R, M. apply rdq_ok_app in R as [R1 R2]. apply mk_ok_app in M as [M1 M2].
      apply IHr; [assumption..|]. cbn [geval]. eapply solo_bind; [exact Hw|].
      eapply solo_bind; [apply IH; assumption|]. rewrite (iv_add_assoc at_q). apply solo_ret. }
    apply HF. rewrite (iv_add_assoc at_q). apply IH; assumption.
  - intros b s _ _. apply solo_ret.
  - intros m s _ M. destruct (M m s (or_introl eq_refl)) as (F & L). unfold gmleaf. cbn [bgeval].
    apply solo_lift. apply gmask_ok; assumption.
  - intros c a IHa b IHb s R M. apply rdq_ok_app in R as [Ra Rb]. apply mk_ok_app in M as [Ma Mb]. cbn [bgeval].
    eapply solo_bind; [apply IHa; assumption|]. eapply solo_bind; [apply IHb; assumption|]. apply solo_ret.
  - intros a IHa b IHb s R M. apply rdq_ok_app in R as [Ra Rb]. apply mk_ok_app in M as [Ma Mb]. cbn [bgeval].
    eapply solo_bind; [apply IHa; assumption|].
    change (solo rd wr (if bdenote h0 a (iv_add at_q s) then bgeval (bgat b s q) else Ret false) h h
      (bdenote h0 a (iv_add at_q s) && bdenote h0 b (iv_add at_q s))).
    destruct (bdenote h0 a (iv_add at_q s)); cbn [andb]; [apply IHb; assumption|apply solo_ret].
  - intros a IHa b IHb s R M. apply rdq_ok_app in R as [Ra Rb]. apply mk_ok_app in M as [Ma Mb]. cbn [bgeval].
    eapply solo_bind; [apply IHa; assumption|].
    change (solo rd wr (if bdenote h0 a (iv_add at_q s) then Ret true else bgeval (bgat b s q)) h h
      (bdenote h0 a (iv_add at_q s) || bdenote h0 b (iv_add at_q s))).
    destruct (bdenote h0 a (iv_add at_q s)); cbn [orb]; [apply solo_ret|apply IHb; assumption].
  - intros a IHa s R M. cbn [bgeval]. eapply solo_bind; [apply IHa; assumption|]. apply solo_ret.
  - intros p a IHa s R M. rewrite (iv_add_assoc at_q). apply IHa; assumption.
Qed.
End Eval.
End Box.
End GpuP.
