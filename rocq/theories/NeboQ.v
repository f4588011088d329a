From Verif Require Import Prelude WindowM WindowS WindowP GhostM FieldM FieldS FieldP MaskM MaskS MaskP NeboM NeboS NeboP.

Section NeboQ.
Variable V : Type.
Variable vadd vmul : V -> V -> V.
Notation expr := (expr V). Notation bexpr := (bexpr V). Notation heap := (heap V).
Notation init := (init V vadd vmul). Notation binit := (binit V vadd vmul).
Notation rinit := (rinit V vadd vmul). Notation brinit := (brinit V vadd vmul).
Notation denote := (denote V vadd vmul). Notation bdenote := (bdenote V vadd vmul).
Notation reads := (reads V). Notation breads := (breads V).
Notation masks := (masks V). Notation bmasks := (bmasks V).
Notation singles := (singles V). Notation bsingles := (bsingles V).

Notation wat := (wat V vadd vmul). Notation bwat := (bwat V vadd vmul).

(** ** Setting up the walk *)
Lemma solo_fold_stencil {A} rd wr (h : heap) (P : A -> prog V (walk V)) (W : A -> walk V) (C : A -> V) (l : list A) :
  (forall x, In x l -> solo rd wr (P x) h h (W x)) ->
  forall acc w, solo rd wr acc h h w ->
  solo rd wr (fold_left (fun acc x => let* earlier := acc in let* y := P x in
                Ret (WOp2 V vadd earlier (WOp2 V vmul y (WConst V (C x))))) l acc) h h
    (fold_left (fun acc x => WOp2 V vadd acc (WOp2 V vmul (W x) (WConst V (C x)))) l w).
Proof.
  induction l as [|x l IH]; intros H acc w S; cbn [fold_left]; [exact S|].
  apply IH; [intros; apply H; right; assumption|].
  eapply solo_bind; [exact S|]. eapply solo_bind; [apply H; left; reflexivity|]. apply solo_ret.
Qed.
Lemma solo_fold_sum {A} rd wr (h : heap) (P : A -> prog V (walk V)) (W : A -> walk V) (l : list A) :
  (forall x, In x l -> solo rd wr (P x) h h (W x)) ->
  forall acc w, solo rd wr acc h h w ->
  solo rd wr (fold_left (fun acc x => let* earlier := acc in let* y := P x in
                Ret (WOp2 V vadd earlier y)) l acc) h h
    (fold_left (fun acc x => WOp2 V vadd acc (W x)) l w).
Proof.
  induction l as [|x l IH]; intros H acc w S; cbn [fold_left]; [exact S|].
  apply IH; [intros; apply H; right; assumption|].
  eapply solo_bind; [exact S|]. eapply solo_bind; [apply H; left; reflexivity|]. apply solo_ret.
Qed.

Section Init.
Variable lo ext : ivec.
Hypothesis Ex : 0 < ix ext.
Hypothesis Ey : 0 < iy ext.
Hypothesis Ez : 0 < iz ext.
Variable h0 : heap.
Variable rd wr : nat -> Z -> Prop.

Lemma walk_field_solo red f s : fwin f = leafwin lo ext f s ->
  solo rd wr (walk_field V red f) h0 h0
    (WField V (fbuf f) (iter_at 0 (leafwin lo ext f s) 0) (wend lo ext red f s)).
Proof.
  intros E. unfold walk_field. rewrite E. unfold it_begin. rewrite (iter_at_0 0 (leafwin lo ext f s)) by assumption.
  eapply solo_bind; [|apply solo_ret]. apply solo_lift. unfold end_if, wend. destruct red; [|reflexivity].
  rewrite it_end_at by (cbn; lia || assumption). reflexivity.
Qed.
Lemma walk_mask_solo red m s : fwin (mgeo m) = leafwin lo ext (mgeo m) s -> fits (leafwin lo ext (mgeo m) s) ->
  solo rd wr (walk_mask V red m) h0 h0
    (BWMask V (mwords m) (mit_at (leafwin lo ext (mgeo m) s) 0) (mwend lo ext red (mgeo m) s)).
Proof.
  intros E F. unfold walk_mask. rewrite E. rewrite (mit_at_0 (leafwin lo ext (mgeo m) s)) by assumption.
  eapply solo_bind; [|apply solo_ret]. apply solo_lift. unfold mend_if, mwend. destruct red; [|reflexivity].
  rewrite mit_end_at by (assumption || (cbn; lia)). reflexivity.
Qed.

Definition singles_ok (l : list field) : Prop := forall f, In f l ->
  bcells (h0 (fbuf f)) 0 = true /\ rd (fbuf f) 0.
Lemma singles_ok_app a b : singles_ok (a ++ b) -> singles_ok a /\ singles_ok b.
Proof. unfold singles_ok. intros H. split; intros; apply H; apply in_app_iff; auto. Qed.

Section Plain.
Variable minus plus : ivec.
Variable red : bool.
Definition leaf_init (l : list (field * ivec)) : Prop := forall g s, In (g, s) l ->
  fwin (resize_ghost_and_shift_window g minus (iv_sub plus (has_extra (fbc g))) s) = leafwin lo ext g s.
Definition mleaf_init (l : list (mask * ivec)) : Prop := forall m s, In (m, s) l ->
  fwin (resize_ghost_and_shift_window (mgeo m) minus (iv_sub plus (has_extra (fbc (mgeo m)))) s) = leafwin lo ext (mgeo m) s
  /\ fits (leafwin lo ext (mgeo m) s).
Lemma leaf_init_app a b : leaf_init (a ++ b) -> leaf_init a /\ leaf_init b.
Proof. unfold leaf_init. intros H. split; intros; apply H; apply in_app_iff; auto. Qed.
Lemma mleaf_init_app a b : mleaf_init (a ++ b) -> mleaf_init a /\ mleaf_init b.
Proof. unfold mleaf_init. intros H. split; intros; apply H; apply in_app_iff; auto. Qed.

Lemma init_all :
  (forall e s, leaf_init (reads e s) -> mleaf_init (masks e s) -> singles_ok (singles e) ->
     solo rd wr (init red e minus plus s) h0 h0 (wat lo ext h0 red e s 0)) /\
  (forall e s, leaf_init (breads e s) -> mleaf_init (bmasks e s) -> singles_ok (bsingles e) ->
     solo rd wr (binit red e minus plus s) h0 h0 (bwat lo ext h0 red e s 0)).
Proof.
  apply expr_bexpr_ind; cbn [NeboM.init NeboM.binit NeboP.wat NeboP.bwat NeboS.reads NeboS.breads NeboS.masks NeboS.bmasks NeboS.singles NeboS.bsingles].
  - intros. apply solo_ret.
  - intros f s L _ _. apply (walk_field_solo red (resize_ghost_and_shift_window f minus (iv_sub plus (has_extra (fbc f))) s) s).
    exact (L f s (or_introl eq_refl)).
  - intros f s _ _ S. destruct (S f (or_introl eq_refl)) as (A & B). apply solo_load; [exact A|exact B|]. apply solo_ret.
  - intros op a IH s L M S. eapply solo_bind; [apply IH; assumption|apply solo_ret].
  - intros op a IHa b IHb s L M S. apply leaf_init_app in L as [L1 L2]. apply mleaf_init_app in M as [M1 M2].
    apply singles_ok_app in S as [S1 S2].
    eapply solo_bind; [apply IHa; assumption|]. eapply solo_bind; [apply IHb; assumption|apply solo_ret].
  - intros c IHc x IHx o IHo s L M S.
    apply leaf_init_app in L as [L1 L]. apply mleaf_init_app in M as [M1 M]. apply singles_ok_app in S as [S1 S].
    apply leaf_init_app in L as [L2 L3]. apply mleaf_init_app in M as [M2 M3]. apply singles_ok_app in S as [S2 S3].
    eapply solo_bind; [apply IHc; assumption|]. eapply solo_bind; [apply IHx; assumption|].
    eapply solo_bind; [apply IHo; assumption|apply solo_ret].
  - intros p0 c0 rest a IH s L M S.
    apply leaf_init_app in L as [L1 L2]. apply mleaf_init_app in M as [M1 M2].
    apply (solo_fold_stencil rd wr h0 (fun pc => init red a minus plus (iv_add s (fst pc)))
             (fun pc => wat lo ext h0 red a (iv_add s (fst pc)) 0) snd).
    + intros pc I. apply IH; [| |exact S].
      * intros g t J. apply L2. apply in_flat_map. eauto.
      * intros g t J. apply M2. apply in_flat_map. eauto.
    + eapply solo_bind; [apply IH; assumption|apply solo_ret].
  - intros p0 rest a IH s L M S.
    apply leaf_init_app in L as [L1 L2]. apply mleaf_init_app in M as [M1 M2].
    apply (solo_fold_sum rd wr h0 (fun p => init red a minus plus (iv_add s p))
             (fun p => wat lo ext h0 red a (iv_add s p) 0)).
    + intros pc I. apply IH; [| |exact S].
      * intros g t J. apply L2. apply in_flat_map. eauto.
      * intros g t J. apply M2. apply in_flat_map. eauto.
    + apply IH; assumption.
  - intros. apply solo_ret.
  - intros m s _ M _. destruct (M m s (or_introl eq_refl)) as (W & F).
    apply (walk_mask_solo red (mask_resize_ghost_and_shift_window m minus (iv_sub plus (has_extra (fbc (mgeo m)))) s) s); [exact W|exact F].
  - intros op a IHa b IHb s L M S. apply leaf_init_app in L as [L1 L2]. apply mleaf_init_app in M as [M1 M2].
    apply singles_ok_app in S as [S1 S2].
    eapply solo_bind; [apply IHa; assumption|]. eapply solo_bind; [apply IHb; assumption|apply solo_ret].
  - intros a IHa b IHb s L M S. apply leaf_init_app in L as [L1 L2]. apply mleaf_init_app in M as [M1 M2].
    apply singles_ok_app in S as [S1 S2].
    eapply solo_bind; [apply IHa; assumption|]. eapply solo_bind; [apply IHb; assumption|apply solo_ret].
  - intros a IHa b IHb s L M S. apply leaf_init_app in L as [L1 L2]. apply mleaf_init_app in M as [M1 M2].
    apply singles_ok_app in S as [S1 S2].
    eapply solo_bind; [apply IHa; assumption|]. eapply solo_bind; [apply IHb; assumption|apply solo_ret].
  - intros a IH s L M S. eapply solo_bind; [apply IH; assumption|apply solo_ret].
  - intros p a IH s L M S. apply IH; assumption.
Qed.
End Plain.

Section Parts.
Variable split loc : ivec.
Definition leaf_rinit (l : list (field * ivec)) : Prop := forall g s, In (g, s) l ->
  exists w, refine (fwin g) split loc = Ok w /\
  Win (wglob w) (iv_add (woff w) s) (wext w) = leafwin lo ext g s.
Definition mleaf_rinit (l : list (mask * ivec)) : Prop := forall m s, In (m, s) l ->
  exists w, refine (fwin (mgeo m)) split loc = Ok w /\
  Win (wglob w) (iv_add (woff w) s) (wext w) = leafwin lo ext (mgeo m) s /\ fits (leafwin lo ext (mgeo m) s).
Lemma leaf_rinit_app a b : leaf_rinit (a ++ b) -> leaf_rinit a /\ leaf_rinit b.
Proof. unfold leaf_rinit. intros H. split; intros; apply H; apply in_app_iff; auto. Qed.
Lemma mleaf_rinit_app a b : mleaf_rinit (a ++ b) -> mleaf_rinit a /\ mleaf_rinit b.
Proof. unfold mleaf_rinit. intros H. split; intros; apply H; apply in_app_iff; auto. Qed.

Lemma rinit_all :
  (forall e s, leaf_rinit (reads e s) -> mleaf_rinit (masks e s) -> singles_ok (singles e) ->
     solo rd wr (rinit e s split loc) h0 h0 (wat lo ext h0 false e s 0)) /\
  (forall e s, leaf_rinit (breads e s) -> mleaf_rinit (bmasks e s) -> singles_ok (bsingles e) ->
     solo rd wr (brinit e s split loc) h0 h0 (bwat lo ext h0 false e s 0)).
Proof.
  apply expr_bexpr_ind; cbn [NeboM.rinit NeboM.brinit NeboP.wat NeboP.bwat NeboS.reads NeboS.breads NeboS.masks NeboS.bmasks NeboS.singles NeboS.bsingles].
  - intros. apply solo_ret.
  - intros f s L _ _. destruct (L f s (or_introl eq_refl)) as (w & R & E).
    eapply solo_bind; [apply solo_lift; exact R|].
    apply (walk_field_solo false (shift_window (field_window w f) s) s).
    unfold shift_window, reshape, field_window; cbn [fwin]. etransitivity; [|exact E].
    f_equal. apply iv_add_0_r.
  - intros f s _ _ S. destruct (S f (or_introl eq_refl)) as (A & B). apply solo_load; [exact A|exact B|]. apply solo_ret.
  - intros op a IH s L M S. eapply solo_bind; [apply IH; assumption|apply solo_ret].
  - intros op a IHa b IHb s L M S. apply leaf_rinit_app in L as [L1 L2]. apply mleaf_rinit_app in M as [M1 M2].
    apply singles_ok_app in S as [S1 S2].
    eapply solo_bind; [apply IHa; assumption|]. eapply solo_bind; [apply IHb; assumption|apply solo_ret].
  - intros c IHc x IHx o IHo s L M S.
    apply leaf_rinit_app in L as [L1 L]. apply mleaf_rinit_app in M as [M1 M]. apply singles_ok_app in S as [S1 S].
    apply leaf_rinit_app in L as [L2 L3]. apply mleaf_rinit_app in M as [M2 M3]. apply singles_ok_app in S as [S2 S3].
    eapply solo_bind; [apply IHc; assumption|]. eapply solo_bind; [apply IHx; assumption|].
    eapply solo_bind; [apply IHo; assumption|apply solo_ret].
  - intros p0 c0 rest a IH s L M S.
    apply leaf_rinit_app in L as [L1 L2]. apply mleaf_rinit_app in M as [M1 M2].
    apply (solo_fold_stencil rd wr h0 (fun pc => rinit a (iv_add s (fst pc)) split loc)
             (fun pc => wat lo ext h0 false a (iv_add s (fst pc)) 0) snd).
    + intros pc I. apply IH; [| |exact S].
      * intros g t J. apply L2. apply in_flat_map. eauto.
      * intros g t J. apply M2. apply in_flat_map. eauto.
    + eapply solo_bind; [apply IH; assumption|apply solo_ret].
  - intros p0 rest a IH s L M S.
    apply leaf_rinit_app in L as [L1 L2]. apply mleaf_rinit_app in M as [M1 M2].
    apply (solo_fold_sum rd wr h0 (fun p => rinit a (iv_add s p) split loc)
             (fun p => wat lo ext h0 false a (iv_add s p) 0)).
    + intros pc I. apply IH; [| |exact S].
      * intros g t J. apply L2. apply in_flat_map. eauto.
      * intros g t J. apply M2. apply in_flat_map. eauto.
    + apply IH; assumption.
  - intros. apply solo_ret.
  - intros m s _ M _. destruct (M m s (or_introl eq_refl)) as (w & R & E & F).
    eapply solo_bind; [apply solo_lift; exact R|].
    apply (walk_mask_solo false (mask_shift_window (mask_window w m) s) s); [|exact F].
    unfold mask_shift_window, mask_window; cbn [mgeo]. unfold shift_window, reshape, field_window; cbn [fwin].
    etransitivity; [|exact E]. f_equal. apply iv_add_0_r.
  - intros op a IHa b IHb s L M S. apply leaf_rinit_app in L as [L1 L2]. apply mleaf_rinit_app in M as [M1 M2].
    apply singles_ok_app in S as [S1 S2].
    eapply solo_bind; [apply IHa; assumption|]. eapply solo_bind; [apply IHb; assumption|apply solo_ret].
  - intros a IHa b IHb s L M S. apply leaf_rinit_app in L as [L1 L2]. apply mleaf_rinit_app in M as [M1 M2].
    apply singles_ok_app in S as [S1 S2].
    eapply solo_bind; [apply IHa; assumption|]. eapply solo_bind; [apply IHb; assumption|apply solo_ret].
  - intros a IHa b IHb s L M S. apply leaf_rinit_app in L as [L1 L2]. apply mleaf_rinit_app in M as [M1 M2].
    apply singles_ok_app in S as [S1 S2].
    eapply solo_bind; [apply IHa; assumption|]. eapply solo_bind; [apply IHb; assumption|apply solo_ret].
  - intros a IH s L M S. eapply solo_bind; [apply IH; assumption|apply solo_ret].
  - intros p a IH s L M S. apply IH; assumption.
Qed.
End Parts.
End Init.
End NeboQ.
