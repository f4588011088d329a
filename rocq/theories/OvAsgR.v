From Verif Require Import Prelude WindowM WindowS WindowP OverM OverP OverQ GhostM FieldM FieldS FieldP MaskM MaskS MaskP NeboM NeboS NeboP NeboQ NeboA NeboB OvAsgM OvAsgP OvAsgQ.

#[local] Arguments has_extra : simpl never.
#[local] Arguments INT_MAX : simpl never.

Lemma run_then {V A B} (p : prog V A) (f : A -> prog V B) h :
  run (pbind p f) h = match run p h with RDone h' a => run (f a) h' | RThrow => RThrow | RUB => RUB | RFuel => RFuel end.
Proof. revert h. induction p as [r| | | |b i k IH|b i v k IH]; intros h; cbn; try reflexivity; destruct (bcells (h b) i); auto. Qed.

(** P holds of every field and mask an expression reads. *)
Definition each (P : field -> ivec -> Prop) (rs : list (field * ivec)) (ms : list (mask * ivec)) : Prop :=
  (forall g s, In (g, s) rs -> P g s) /\ (forall k s, In (k, s) ms -> P (mgeo k) s).
Lemma each_app P a b c d : each P (a ++ b) (c ++ d) -> each P a c /\ each P b d.
Proof.
  intros (A & B). split; split; intros x s I.
  - apply A. apply in_app_iff. auto.
  - apply B. apply in_app_iff. auto.
  - apply A. apply in_app_iff. auto.
  - apply B. apply in_app_iff. auto.
Qed.
Lemma each_flat P {A} (rs : A -> list (field * ivec)) (ms : A -> list (mask * ivec)) l :
  each P (flat_map rs l) (flat_map ms l) -> forall q, In q l -> each P (rs q) (ms q).
Proof.
  intros (A1 & A2) q Q. split; intros x s I.
  - apply A1. apply in_flat_map. eauto.
  - apply A2. apply in_flat_map. eauto.
Qed.

Section Run.
Variable G : Z.
Hypothesis G0 : 0 <= G.
Hypothesis HG : 7 * G + 60000 <= INT_MAX.
Notation R := (2 * G + 9001).
Notation T := (G + 9001).
Variable n : ivec.
Variable V : Type.
Variable vadd vmul : V -> V -> V.
Notation expr := (expr V). Notation bexpr := (bexpr V).
Notation demands := (demands V). Notation bdemands := (bdemands V).
Notation reads := (reads V). Notation breads := (breads V).
Notation masks := (masks V). Notation bmasks := (bmasks V).
Notation init32 := (init32 V vadd vmul). Notation binit32 := (binit32 V vadd vmul).
Notation init := (init V vadd vmul false). Notation binit := (binit V vadd vmul false).
Notation dok := (dok G n).

Section Walk.
Variable lo ext : ivec.
Hypothesis Ex : 0 < ix ext.
Hypothesis Ey : 0 < iy ext.
Hypothesis Ez : 0 < iz ext.
Variable h0 : heap V.
Notation wat := (wat V vadd vmul lo ext h0 false). Notation bwat := (bwat V vadd vmul lo ext h0 false).

(** *** Setting up *)
Variable minus plus : ivec.
Hypothesis Im : inr (- R) T minus.
Hypothesis Ip : inr (- R) T plus.

Definition lf (g : field) (s : ivec) : Prop :=
  fwin (resize_ghost_and_shift_window g minus (iv_sub plus (has_extra (fbc g))) s) = leafwin lo ext g s /\
  fits (leafwin lo ext g s).
Notation lfs := (each lf).

Definition between (m u s : ivec) : Prop := forall pr, is_proj pr -> - pr m <= pr s <= pr u.
Lemma between_step m u s p : between m u s -> between (iv_add m (below p)) (iv_add u (above p)) (iv_add s p).
Proof. intros B pr P. specialize (B pr P). rewrite !pr_add, pr_below, pr_above by assumption. lia. Qed.
Lemma between_in m u s : between m u s -> (forall pr, is_proj pr -> pr m <= R /\ pr u <= R) -> inr (- R) R s.
Proof. intros B H pr P. specialize (B pr P). specialize (H pr P). lia. Qed.

Lemma pos_leaf g s : leafb G n g -> pos_dims (wglob (leafwin lo ext g s)) /\ glob_npts (leafwin lo ext g s) <= G.
Proof. intros L. split; [apply (lb_glob _ _ _ L)|apply (lb_pts _ _ _ L)]. Qed.

Lemma field32 f s : leafb G n f -> inr (- R) R s -> lf f s ->
  init32 (EField V f) minus plus s = init (EField V f) minus plus s.
Proof.
  intros L S (W & F). cbn [OvAsgM.init32 NeboM.init].
  pose proof (inr_sub _ _ _ _ _ _ Ip (lb_extra _ _ _ L)) as I.
  rewrite (sub32_ok _ _ _ _ I) by lia. cbn [lift pbind].
  destruct (window32 G G0 HG n f minus (iv_sub plus (has_extra (fbc f))) s L Im) as (g & -> & Eg & Eb);
    [eapply inr_weak; [exact I|lia|lia]|exact S|].
  cbn [lift pbind]. unfold walk_field, end_if. cbn [lift pbind]. rewrite Eg, Eb, W.
  destruct (pos_leaf f s L) as (Pd & Pn).
  rewrite (make32 (leafwin lo ext f s)) by (assumption || lia). reflexivity.
Qed.
Lemma mask32 m s : leafb G n (mgeo m) -> inr (- R) R s -> lf (mgeo m) s ->
  binit32 (BMask V m) minus plus s = binit (BMask V m) minus plus s.
Proof.
  intros L S (W & F). cbn [OvAsgM.binit32 NeboM.binit].
  pose proof (inr_sub _ _ _ _ _ _ Ip (lb_extra _ _ _ L)) as I.
  rewrite (sub32_ok _ _ _ _ I) by lia. cbn [lift pbind].
  destruct (window32 G G0 HG n (mgeo m) minus (iv_sub plus (has_extra (fbc (mgeo m)))) s L Im) as (g & -> & Eg & Eb);
    [eapply inr_weak; [exact I|lia|lia]|exact S|].
  cbn [lift pbind]. unfold walk_mask, mend_if. cbn [lift pbind]. rewrite Eg.
  unfold mask_resize_ghost_and_shift_window, mask_shift_window, mask_resize_ghost. cbn [mgeo mwords].
  unfold resize_ghost_and_shift_window in W. rewrite W. unfold resize_ghost_and_shift_window. rewrite W.
  destruct (pos_leaf (mgeo m) s L) as (Pd & Pn).
  rewrite (mmake32 G G0 HG (leafwin lo ext (mgeo m) s) F Pd Pn) by assumption. reflexivity.
Qed.

Lemma fold_same {A B} (f g : A -> B -> A) l : (forall q, In q l -> forall x, f x q = g x q) ->
  forall a, fold_left f l a = fold_left g l a.
Proof.
  induction l as [|q l IH]; intros H a; cbn [fold_left]; [reflexivity|].
  rewrite H by (left; reflexivity). apply IH. intros; apply H; right; assumption.
Qed.

Lemma init32_all :
  (forall e m u s, nonneg2 m u -> between m u s -> dok (demands e m u) -> lfs (reads e s) (masks e s) ->
     init32 e minus plus s = init e minus plus s) /\
  (forall e m u s, nonneg2 m u -> between m u s -> dok (bdemands e m u) -> lfs (breads e s) (bmasks e s) ->
     binit32 e minus plus s = binit e minus plus s).
Proof.
  assert (Sh : forall a m u s p, nonneg2 m u -> between m u s ->
    dok (demands a (iv_add m (below p)) (iv_add u (above p))) -> iv_add32 s p = Ok (iv_add s p)).
  { intros a m u s p N B D. pose proof (between_in _ _ _ (between_step m u s p B) (proj1 (reach_all G V n) a _ _ D)) as I.
    apply (add32_ok _ _ _ _ I); lia. }
  assert (Shb : forall a m u s p, nonneg2 m u -> between m u s ->
    dok (bdemands a (iv_add m (below p)) (iv_add u (above p))) -> iv_add32 s p = Ok (iv_add s p)).
  { intros a m u s p N B D. pose proof (between_in _ _ _ (between_step m u s p B) (proj2 (reach_all G V n) a _ _ D)) as I.
    apply (add32_ok _ _ _ _ I); lia. }
  apply expr_bexpr_ind; cbn [NeboS.demands NeboS.bdemands NeboS.reads NeboS.breads NeboS.masks NeboS.bmasks].
  - reflexivity.
  - intros f m u s N B D (L & _). destruct (D _ _ _ (or_introl eq_refl)) as (A1 & A2 & A3).
    apply field32; [exact A3| |apply L; left; reflexivity].
    apply (between_in m u s B). intros pr P. specialize (A1 pr P). specialize (A2 pr P). lia.
  - reflexivity.
  - intros op a IH m u s N B D L. cbn [OvAsgM.init32 NeboM.init]. rewrite (IH m u s) by assumption. reflexivity.
  - intros op a IHa b IHb m u s N B D L. apply dok_app in D as (Da & Db). apply each_app in L as (La & Lb).
    cbn [OvAsgM.init32 NeboM.init]. rewrite (IHa m u s), (IHb m u s) by assumption. reflexivity.
  - intros c IHc x IHx o IHo m u s N B D L.
    apply dok_app in D as (Dc & D). apply dok_app in D as (Dx & Do).
    apply each_app in L as (Lc & L). apply each_app in L as (Lx & Lo).
    change (pbind (binit32 c minus plus s) (fun t => pbind (init32 x minus plus s) (fun u0 => pbind (init32 o minus plus s)
              (fun v => Ret (WCond V t u0 v)))) =
            pbind (binit c minus plus s) (fun t => pbind (init x minus plus s) (fun u0 => pbind (init o minus plus s)
              (fun v => Ret (WCond V t u0 v))))).
    rewrite (IHc m u s), (IHx m u s), (IHo m u s) by assumption. reflexivity.
  - intros p0 c0 rest a IH m u s N B D L. cbn [map flat_map] in D. apply dok_app in D as (D0 & D). apply each_app in L as (L0 & L).
    cbn [OvAsgM.init32 NeboM.init].
    rewrite (Sh a m u s p0) by assumption. cbn [lift pbind].
    rewrite (IH (iv_add m (below p0)) (iv_add u (above p0)) (iv_add s p0)) by auto using nonneg_step, between_step.
    apply fold_same. intros q Q x. pose proof (proj1 (dok_flat G n _ _) D (fst q) (in_map fst rest q Q)) as Dq. cbn beta in Dq.
    rewrite (Sh a m u s (fst q)) by assumption. cbn [lift pbind].
    rewrite (IH (iv_add m (below (fst q))) (iv_add u (above (fst q))) (iv_add s (fst q)));
      [reflexivity|auto using nonneg_step|auto using between_step|exact Dq|exact (each_flat lf _ _ _ L q Q)].
  - intros p0 rest a IH m u s N B D L. cbn [flat_map] in D. apply dok_app in D as (D0 & D). apply each_app in L as (L0 & L).
    cbn [OvAsgM.init32 NeboM.init].
    rewrite (Sh a m u s p0) by assumption. cbn [lift pbind].
    rewrite (IH (iv_add m (below p0)) (iv_add u (above p0)) (iv_add s p0)) by auto using nonneg_step, between_step.
    apply fold_same. intros q Q x. pose proof (proj1 (dok_flat G n _ _) D q Q) as Dq. cbn beta in Dq.
    rewrite (Sh a m u s q) by assumption. cbn [lift pbind].
    rewrite (IH (iv_add m (below q)) (iv_add u (above q)) (iv_add s q));
      [reflexivity|auto using nonneg_step|auto using between_step|exact Dq|exact (each_flat lf _ _ _ L q Q)].
  - reflexivity.
  - intros k m u s N B D (_ & L). destruct (D _ _ _ (or_introl eq_refl)) as (A1 & A2 & A3).
    apply mask32; [exact A3| |apply L; left; reflexivity].
    apply (between_in m u s B). intros pr P. specialize (A1 pr P). specialize (A2 pr P). lia.
  - intros c a IHa b IHb m u s N B D L. apply dok_app in D as (Da & Db). apply each_app in L as (La & Lb).
    change (pbind (init32 a minus plus s) (fun x => pbind (init32 b minus plus s) (fun y => Ret (BWCmp V c x y))) =
            pbind (init a minus plus s) (fun x => pbind (init b minus plus s) (fun y => Ret (BWCmp V c x y)))).
    rewrite (IHa m u s), (IHb m u s) by assumption. reflexivity.
  - intros a IHa b IHb m u s N B D L. apply dok_app in D as (Da & Db). apply each_app in L as (La & Lb).
    cbn [OvAsgM.binit32 NeboM.binit]. rewrite (IHa m u s), (IHb m u s) by assumption. reflexivity.
  - intros a IHa b IHb m u s N B D L. apply dok_app in D as (Da & Db). apply each_app in L as (La & Lb).
    cbn [OvAsgM.binit32 NeboM.binit]. rewrite (IHa m u s), (IHb m u s) by assumption. reflexivity.
  - intros a IH m u s N B D L. cbn [OvAsgM.binit32 NeboM.binit]. rewrite (IH m u s) by assumption. reflexivity.
  - intros p a IH m u s N B D L. cbn [OvAsgM.binit32 NeboM.binit].
    rewrite (Shb a m u s p) by assumption. cbn [lift pbind].
    apply (IH (iv_add m (below p)) (iv_add u (above p))); auto using nonneg_step, between_step.
Qed.

(** *** Advancing *)
Notation npts := (npts ext).
Definition sized (f : field) (s : ivec) : Prop := leafb G n f /\ fits (leafwin lo ext f s).
Notation sizeds := (each sized).

Lemma step_field f s k : sized f s -> 0 <= k < npts ->
  it_incr32 (iter_at 0 (leafwin lo ext f s) k) = Ok (it_incr (iter_at 0 (leafwin lo ext f s) k)).
Proof.
  intros (L & F) K. destruct (pos_leaf f s L) as (Pd & Pn).
  apply (incr32 (leafwin lo ext f s)); try assumption; lia.
Qed.
Lemma step_mask m s k : sized (mgeo m) s -> 0 <= k < npts ->
  mit_incr32 (mit_at (leafwin lo ext (mgeo m) s) k) = Ok (mit_incr (mit_at (leafwin lo ext (mgeo m) s) k)).
Proof.
  intros (L & F) K. destruct (pos_leaf (mgeo m) s L) as (Pd & Pn).
  apply (mincr32 G G0 HG (leafwin lo ext (mgeo m) s)); assumption.
Qed.

Lemma next32_fold {A} (W : A -> walk V) l : (forall q, In q l -> next32 V (W q) = Ok (next V (W q))) ->
  forall w, next32 V w = Ok (next V w) ->
  next32 V (fold_left (fun acc q => WOp2 V vadd acc (W q)) l w) = Ok (next V (fold_left (fun acc q => WOp2 V vadd acc (W q)) l w)).
Proof.
  induction l as [|q l IH]; intros H w Hw; cbn [fold_left]; [exact Hw|].
  apply IH; [intros; apply H; right; assumption|]. cbn [next32 next]. rewrite Hw. cbn [obind].
  rewrite H by (left; reflexivity). reflexivity.
Qed.

Lemma next32_all k : 0 <= k < npts ->
  (forall e s, sizeds (reads e s) (masks e s) -> next32 V (wat e s k) = Ok (next V (wat e s k))) /\
  (forall e s, sizeds (breads e s) (bmasks e s) -> bnext32 V (bwat e s k) = Ok (bnext V (bwat e s k))).
Proof.
  intros K.
  apply expr_bexpr_ind; cbn [NeboS.reads NeboS.breads NeboS.masks NeboS.bmasks NeboP.wat NeboP.bwat].
  - reflexivity.
  - intros f s (S & _). cbn [next32 next]. rewrite step_field by (try assumption; apply S; left; reflexivity). reflexivity.
  - reflexivity.
  - intros op a IH s S. cbn [next32 next]. rewrite IH by assumption. reflexivity.
  - intros op a IHa b IHb s S. apply each_app in S as (Sa & Sb). cbn [next32 next]. rewrite IHa, IHb by assumption. reflexivity.
  - intros c IHc x IHx o IHo s S. apply each_app in S as (Sc & S). apply each_app in S as (Sx & So).
    change ((do t <- bnext32 V (bwat c s k); do y <- next32 V (wat x s k); do z <- next32 V (wat o s k); Ok (WCond V t y z)) =
            Ok (WCond V (bnext V (bwat c s k)) (next V (wat x s k)) (next V (wat o s k)))).
    rewrite IHc, IHx, IHo by assumption. reflexivity.
  - intros p0 c0 rest a IH s S. apply each_app in S as (S0 & S).
    apply (next32_fold (fun pc => WOp2 V vmul (wat a (iv_add s (fst pc)) k) (WConst V (snd pc)))).
    + intros q Q. cbn [next32 next]. rewrite IH; [reflexivity|]. exact (each_flat sized _ _ _ S q Q).
    + cbn [next32 next]. rewrite IH by assumption. reflexivity.
  - intros p0 rest a IH s S. apply each_app in S as (S0 & S).
    apply (next32_fold (fun p => wat a (iv_add s p) k)).
    + intros q Q. apply IH. exact (each_flat sized _ _ _ S q Q).
    + apply IH. exact S0.
  - reflexivity.
  - intros m s (_ & S). cbn [bnext32 bnext]. rewrite step_mask by (try assumption; apply S; left; reflexivity). reflexivity.
  - intros c a IHa b IHb s S. apply each_app in S as (Sa & Sb).
    change ((do y <- next32 V (wat a s k); do z <- next32 V (wat b s k); Ok (BWCmp V c y z)) =
            Ok (BWCmp V c (next V (wat a s k)) (next V (wat b s k)))).
    rewrite IHa, IHb by assumption. reflexivity.
  - intros a IHa b IHb s S. apply each_app in S as (Sa & Sb). cbn [bnext32 bnext]. rewrite IHa, IHb by assumption. reflexivity.
  - intros a IHa b IHb s S. apply each_app in S as (Sa & Sb). cbn [bnext32 bnext]. rewrite IHa, IHb by assumption. reflexivity.
  - intros a IHa s S. cbn [bnext32 bnext]. rewrite IHa by assumption. reflexivity.
  - intros p a IH s S. apply IH. exact S.
Qed.

(** *** The loop *)
Variable f : field.
Hypothesis Fl : fits (lhswin lo ext f).
Hypothesis Lb : leafb G n f.
Variable e : expr.
Hypothesis Se : sizeds (reads e iv_zero) (masks e iv_zero).

Lemma loop32 fuel : forall k h, 0 <= k <= npts ->
  run (assign_loop32 V fuel (fbuf f) (iter_at 0 (lhswin lo ext f) k) (iter_at 0 (lhswin lo ext f) npts) (wat e iv_zero k)) h =
  run (assign_loop V fuel (fbuf f) (iter_at 0 (lhswin lo ext f) k) (iter_at 0 (lhswin lo ext f) npts) (wat e iv_zero k)) h.
Proof.
  induction fuel as [|fuel IH]; intros k h K; cbn [assign_loop32 assign_loop]; [reflexivity|].
  rewrite iter_at_eqb by (assumption || lia). destruct (k =? npts) eqn:E; [reflexivity|].
  assert (Kk : 0 <= k < npts) by lia.
  rewrite !run_then. destruct (run (eval V (wat e iv_zero k)) h) as [h' v| | |]; try reflexivity.
  cbn [run]. destruct (bcells (h' (fbuf f)) _); [|reflexivity].
  rewrite (incr32 (lhswin lo ext f)); [|exact Fl|apply (lb_glob _ _ _ Lb)|pose proof (lb_pts _ _ _ Lb) as Hp; change (glob_npts (lhswin lo ext f)) with (glob_npts (fint f)); lia|assumption|assumption|assumption|exact Kk].
  rewrite (proj1 (next32_all k Kk) e iv_zero Se). cbn [lift pbind].
  rewrite iter_at_incr by assumption. rewrite (proj1 (next_wat_all V vadd vmul lo ext Ex Ey h0 false)).
  - apply IH. lia.
  - lia.
  - intros m s I. apply (proj2 Se m s I).
Qed.

Lemma walk32 fl fuel h : fwin fl = lhswin lo ext f -> fbuf fl = fbuf f ->
  run (assign_walk32 V fuel fl (wat e iv_zero 0)) h = run (assign_walk V fuel fl (wat e iv_zero 0)) h.
Proof.
  intros Ew Eb. unfold assign_walk32, assign_walk, field_begin, field_end. rewrite Ew, Eb.
  assert (Pd : pos_dims (wglob (lhswin lo ext f))) by apply (lb_glob _ _ _ Lb).
  assert (Pn : glob_npts (lhswin lo ext f) <= INT_MAX).
  { pose proof (lb_pts _ _ _ Lb) as Hp. change (glob_npts (lhswin lo ext f)) with (glob_npts (fint f)). lia. }
  rewrite (make32 _ Fl Pd Pn), (end32 _ Fl Pd Pn) by assumption. destruct (freadonly fl); [reflexivity|].
  cbn [lift pbind]. rewrite (it_end_at 0 (lhswin lo ext f) Ex Ey) by (cbn; lia). cbn [lift pbind].
  unfold it_begin. rewrite (iter_at_0 0 (lhswin lo ext f) Ex Ey).
  change (ix (wext (lhswin lo ext f)) * iy (wext (lhswin lo ext f)) * iz (wext (lhswin lo ext f))) with npts.
  apply loop32. pose proof (npts_pos ext Ex Ey Ez). lia.
Qed.
End Walk.
End Run.
