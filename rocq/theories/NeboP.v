From Verif Require Import Prelude WindowM WindowS WindowP GhostM FieldM FieldS FieldP MaskM MaskS MaskP NeboM NeboS.

Lemma iv_add_assoc a b c : iv_add (iv_add a b) c = iv_add a (iv_add b c).
Proof. unfold iv_add; cbn. f_equal; lia. Qed.
Lemma iv_add_0_r a : iv_add a iv_zero = a.
Proof. apply iv_ext; cbn; lia. Qed.
Lemma iv_add_0_l a : iv_add iv_zero a = a.
Proof. apply iv_ext; cbn; lia. Qed.

Scheme expr_mind := Induction for expr Sort Prop with bexpr_mind := Induction for bexpr Sort Prop.
Combined Scheme expr_bexpr_ind from expr_mind, bexpr_mind.

Section Solo.
Variable V : Type.
Notation heap := (heap V).

(** A program running alone from h to h', reading cells in rd and writing cells
    in wr, all of them existing. *)
Inductive solo {R} (rd wr : nat -> Z -> Prop) : prog V R -> heap -> heap -> R -> Prop :=
| solo_ret r h : solo rd wr (Ret r) h h r
| solo_load b i k h h' r : bcells (h b) i = true -> rd b i ->
    solo rd wr (k (bdata (h b) i)) h h' r -> solo rd wr (Load b i k) h h' r
| solo_store b i v k h h' r : bcells (h b) i = true -> wr b i ->
    solo rd wr k (upd h b i v) h' r -> solo rd wr (Store b i v k) h h' r.

Lemma solo_run {R} rd wr (p : prog V R) h h' r : solo rd wr p h h' r -> run p h = RDone h' r.
Proof. intros S. induction S as [|? ? ? ? ? ? C _ _ IH|? ? ? ? ? ? ? C _ _ IH]; cbn; [reflexivity| |]; rewrite C; exact IH. Qed.
Lemma solo_bind {A B} rd wr (p : prog V A) (f : A -> prog V B) h h1 h2 a b :
  solo rd wr p h h1 a -> solo rd wr (f a) h1 h2 b -> solo rd wr (pbind p f) h h2 b.
Proof.
  intros S. induction S as [|? ? ? ? ? ? C D _ IH|? ? ? ? ? ? ? C D _ IH]; intros T; cbn; [exact T| |].
  - apply solo_load; auto.
  - apply solo_store; auto.
Qed.
Lemma solo_mono {R} (rd wr rd' wr' : nat -> Z -> Prop) (p : prog V R) h h' r :
  (forall b i, rd b i -> rd' b i) -> (forall b i, wr b i -> wr' b i) ->
  solo rd wr p h h' r -> solo rd' wr' p h h' r.
Proof. intros A B S. induction S; constructor; auto. Qed.
Lemma solo_lift {A} rd wr (o : outcome A) h a : o = Ok a -> solo rd wr (lift o) h h a.
Proof. intros ->. apply solo_ret. Qed.
End Solo.
Arguments solo {V R}.

Section NeboP.
Variable V : Type.
Variable vadd vmul : V -> V -> V.
Notation expr := (expr V). Notation bexpr := (bexpr V). Notation heap := (heap V).
Notation init := (init V vadd vmul). Notation binit := (binit V vadd vmul).
Notation rinit := (rinit V vadd vmul). Notation brinit := (brinit V vadd vmul).
Notation denote := (denote V vadd vmul). Notation bdenote := (bdenote V vadd vmul).
Notation reads := (reads V). Notation breads := (breads V).
Notation masks := (masks V). Notation bmasks := (bmasks V).
Notation singles := (singles V). Notation bsingles := (bsingles V).

(** ** Walking a box of grid points with low corner lo and extent ext *)
Section Box.
Variable lo ext : ivec.
Hypothesis Ex : 0 < ix ext.
Hypothesis Ey : 0 < iy ext.
Hypothesis Ez : 0 < iz ext.
Variable h0 : heap.
Variable red : bool.

Definition npts : Z := ix ext * iy ext * iz ext.
Definition pt (k : Z) : ivec := iv_add lo (dec (ix ext) (iy ext) k).
Definition leafwin (f : field) (s : ivec) : window :=
  Win (wglob (fint f)) (iv_add (iv_add (woff (fint f)) lo) s) ext.
Definition wend (f : field) (s : ivec) : option iter :=
  if red then Some (iter_at 0 (leafwin f s) npts) else None.
Definition mwend (f : field) (s : ivec) : option miter :=
  if red then Some (mit_at (leafwin f s) npts) else None.

(** The walk at position k. *)
Fixpoint wat (e : expr) (s : ivec) (k : Z) : walk V :=
  match e with
  | EScalar _ v => WConst V v
  | EField _ f => WField V (fbuf f) (iter_at 0 (leafwin f s) k) (wend f s)
  | ESingle _ f => WConst V (bdata (h0 (fbuf f)) 0)
  | EOp1 _ op a => WOp1 V op (wat a s k)
  | EOp2 _ op a b => WOp2 V op (wat a s k) (wat b s k)
  | ECond _ c x o => WCond V (bwat c s k) (wat x s k) (wat o s k)
  | EStencil _ p0 c0 rest a =>
      fold_left (fun acc pc => WOp2 V vadd acc (WOp2 V vmul (wat a (iv_add s (fst pc)) k) (WConst V (snd pc))))
                rest (WOp2 V vmul (wat a (iv_add s p0) k) (WConst V c0))
  | ESumStencil _ p0 rest a =>
      fold_left (fun acc p => WOp2 V vadd acc (wat a (iv_add s p) k)) rest (wat a (iv_add s p0) k)
  end
with bwat (e : bexpr) (s : ivec) (k : Z) : bwalk V :=
  match e with
  | BScalar _ b => BWConst V b
  | BMask _ m => BWMask V (mwords m) (mit_at (leafwin (mgeo m) s) k) (mwend (mgeo m) s)
  | BCmp _ c a b => BWCmp V c (wat a s k) (wat b s k)
  | BAnd _ a b => BWAnd V (bwat a s k) (bwat b s k)
  | BOr _ a b => BWOr V (bwat a s k) (bwat b s k)
  | BNot _ a => BWNot V (bwat a s k)
  | BShift _ p a => bwat a (iv_add s p) k
  end.

Lemma npts_pos : 0 < npts.
Proof. unfold npts. apply Z.mul_pos_pos; [apply Z.mul_pos_pos|]; assumption. Qed.
Lemma pt_box k : 0 <= k < npts -> in_box ext (dec (ix ext) (iy ext) k).
Proof. intros H. pose proof (dec_range (ix ext) (iy ext) (iz ext) k Ex Ey H). destruct ext; exact H0. Qed.

Lemma addr_leafwin f s q : addr (leafwin f s) q = cell f (iv_add (iv_add lo q) s).
Proof.
  unfold addr, cell, addr, leafwin; cbn [wglob woff ix iy iz iv_add].
  f_equal; [lia|]. f_equal. f_equal; [lia|]. f_equal. lia.
Qed.

(** *** next *)
Lemma next_fold (l : list (ivec * V)) (F : ivec -> Z -> walk V) k k' w w' :
  (forall s, next V (F s k) = F s k') -> next V w = w' ->
  next V (fold_left (fun acc pc => WOp2 V vadd acc (WOp2 V vmul (F (fst pc) k) (WConst V (snd pc)))) l w)
  = fold_left (fun acc pc => WOp2 V vadd acc (WOp2 V vmul (F (fst pc) k') (WConst V (snd pc)))) l w'.
Proof.
  intros HF. revert w w'. induction l as [|pc l IH]; intros w w' Hw; cbn [fold_left]; [exact Hw|].
  apply IH. cbn [next]. rewrite Hw, HF. reflexivity.
Qed.
Lemma next_sum_fold (l : list ivec) (F : ivec -> Z -> walk V) k k' w w' :
  (forall s, next V (F s k) = F s k') -> next V w = w' ->
  next V (fold_left (fun acc p => WOp2 V vadd acc (F p k)) l w)
  = fold_left (fun acc p => WOp2 V vadd acc (F p k')) l w'.
Proof.
  intros HF. revert w w'. induction l as [|pc l IH]; intros w w' Hw; cbn [fold_left]; [exact Hw|].
  apply IH. cbn [next]. rewrite Hw, HF. reflexivity.
Qed.

Lemma next_wat_all :
  (forall e s k, 0 <= k -> (forall m s', In (m, s') (masks e s) -> fits (leafwin (mgeo m) s')) ->
     next V (wat e s k) = wat e s (k + 1)) /\
  (forall e s k, 0 <= k -> (forall m s', In (m, s') (bmasks e s) -> fits (leafwin (mgeo m) s')) ->
     bnext V (bwat e s k) = bwat e s (k + 1)).
Proof.
  apply expr_bexpr_ind; cbn [wat bwat next bnext NeboS.masks NeboS.bmasks].
  - reflexivity.
  - intros f s k Hk _. rewrite iter_at_incr by assumption. reflexivity.
  - reflexivity.
  - intros op a IH s k Hk M. rewrite IH by assumption. reflexivity.
  - intros op a IHa b IHb s k Hk M. rewrite IHa, IHb by (try assumption; intros; apply M; apply in_app_iff; auto). reflexivity.
  - intros c IHc x IHx o IHo s k Hk M.
    rewrite IHc, IHx, IHo by (try assumption; intros; apply M; rewrite !in_app_iff; auto). reflexivity.
  - intros p0 c0 rest a IH s k Hk M.
    set (F := fun q k => wat a (iv_add s q) k).
    assert (HF : forall l, (forall pc, In pc l -> In pc rest) -> forall w w', next V w = w' ->
      next V (fold_left (fun acc pc => WOp2 V vadd acc (WOp2 V vmul (wat a (iv_add s (fst pc)) k) (WConst V (snd pc)))) l w)
      = fold_left (fun acc pc => WOp2 V vadd acc (WOp2 V vmul (wat a (iv_add s (fst pc)) (k + 1)) (WConst V (snd pc)))) l w').
    { induction l as [|pc l IHl]; intros Hl w w' Hw; cbn [fold_left]; [exact Hw|].
      apply IHl; [intros; apply Hl; right; assumption|]. cbn [next]. rewrite Hw. rewrite IH; [reflexivity|assumption|].
      intros m s' Hm. apply M. apply in_app_iff. right. apply in_flat_map. exists pc. split; [apply Hl; left; reflexivity|exact Hm]. }
    apply HF; [auto|]. cbn [next]. rewrite IH; [reflexivity|assumption|].
    intros m s' Hm. apply M. apply in_app_iff. left. exact Hm.
  - intros p0 rest a IH s k Hk M.
    assert (HF : forall l, (forall pc, In pc l -> In pc rest) -> forall w w', next V w = w' ->
      next V (fold_left (fun acc p => WOp2 V vadd acc (wat a (iv_add s p) k)) l w)
      = fold_left (fun acc p => WOp2 V vadd acc (wat a (iv_add s p) (k + 1))) l w').
    { induction l as [|pc l IHl]; intros Hl w w' Hw; cbn [fold_left]; [exact Hw|].
      apply IHl; [intros; apply Hl; right; assumption|]. cbn [next]. rewrite Hw. rewrite IH; [reflexivity|assumption|].
      intros m s' Hm. apply M. apply in_app_iff. right. apply in_flat_map. exists pc. split; [apply Hl; left; reflexivity|exact Hm]. }
    apply HF; [auto|]. rewrite IH; [reflexivity|assumption|].
    intros m s' Hm. apply M. apply in_app_iff. left. exact Hm.
  - reflexivity.
  - intros m s k Hk M. rewrite mit_at_incr; [reflexivity|apply M; left; reflexivity|assumption..].
  - intros c a IHa b IHb s k Hk M. rewrite IHa, IHb by (try assumption; intros; apply M; apply in_app_iff; auto). reflexivity.
  - intros a IHa b IHb s k Hk M. rewrite IHa, IHb by (try assumption; intros; apply M; apply in_app_iff; auto). reflexivity.
  - intros a IHa b IHb s k Hk M. rewrite IHa, IHb by (try assumption; intros; apply M; apply in_app_iff; auto). reflexivity.
  - intros a IHa s k Hk M. rewrite IHa by assumption. reflexivity.
  - intros p a IHa s k Hk M. apply IHa; assumption.
Qed.

(** *** eval *)
Section Eval.
Variable rd wr : nat -> Z -> Prop.
Variable h : heap.
Variable k : Z.
Hypothesis Hk : 0 <= k < npts.

Definition rd_ok (l : list (field * ivec)) : Prop := forall f s, In (f, s) l ->
  rd (fbuf f) (cell f (iv_add (pt k) s)) /\
  bcells (h (fbuf f)) (cell f (iv_add (pt k) s)) = true /\
  bdata (h (fbuf f)) (cell f (iv_add (pt k) s)) = bdata (h0 (fbuf f)) (cell f (iv_add (pt k) s)).
Definition mk_ok (l : list (mask * ivec)) : Prop := forall m s, In (m, s) l ->
  fits (leafwin (mgeo m) s) /\
  Z.of_nat (length (mwords m)) = round_to_int (glob_npts (fint (mgeo m))).

Lemma rd_ok_app a b : rd_ok (a ++ b) <-> rd_ok a /\ rd_ok b.
Proof. unfold rd_ok. split; [intros H; split; intros; apply H; apply in_app_iff; auto|].
  intros [A B] f s I. apply in_app_iff in I as [I|I]; auto. Qed.
Lemma mk_ok_app a b : mk_ok (a ++ b) <-> mk_ok a /\ mk_ok b.
Proof. unfold mk_ok. split; [intros H; split; intros; apply H; apply in_app_iff; auto|].
  intros [A B] f s I. apply in_app_iff in I as [I|I]; auto. Qed.

Lemma leaf_icur f s : icur (iter_at 0 (leafwin f s) k) = cell f (iv_add (pt k) s).
Proof. unfold iter_at, iter_pt; cbn [icur]. rewrite Z.add_0_l. unfold leafwin at 2 3; cbn [wext]. apply addr_leafwin. Qed.

Lemma mask_leaf m s : fits (leafwin (mgeo m) s) ->
  Z.of_nat (length (mwords m)) = round_to_int (glob_npts (fint (mgeo m))) ->
  mit_deref (mwords m) (mit_at (leafwin (mgeo m) s) k) = Ok (holds m (iv_add (pt k) s)).
Proof.
  intros F L. destruct (mit_at_deref (leafwin (mgeo m) s) F Ex Ey (mwords m) k Hk L) as (D & _).
  cbn [leafwin wext] in D. fold (leafwin (mgeo m) s) in D. rewrite D. f_equal.
  unfold holds, mask_query. rewrite query_bit.
  - rewrite addr_leafwin. reflexivity.
  - unfold in_store. rewrite L. apply round_to_int_cover.
    fold (cell (mgeo m) (iv_add (pt k) s)). unfold pt. rewrite <- addr_leafwin.
    exact (addr_range (leafwin (mgeo m) s) _ F (pt_box k Hk)).
Qed.

Lemma eval_wat_all :
  (forall e s, rd_ok (reads e s) -> mk_ok (masks e s) ->
     solo rd wr (eval V (wat e s k)) h h (denote h0 e (iv_add (pt k) s))) /\
  (forall e s, rd_ok (breads e s) -> mk_ok (bmasks e s) ->
     solo rd wr (beval V (bwat e s k)) h h (bdenote h0 e (iv_add (pt k) s))).
Proof.
  apply expr_bexpr_ind; cbn [wat bwat eval beval NeboS.reads NeboS.breads NeboS.masks NeboS.bmasks NeboS.denote NeboS.bdenote].
  - intros v s _ _. apply solo_ret.
  - intros f s R _. destruct (R f s (or_introl eq_refl)) as (A & B & C).
    apply solo_load; rewrite leaf_icur; [exact B|exact A|]. rewrite C. apply solo_ret.
  - intros f s _ _. apply solo_ret.
  - intros op a IH s R M. eapply solo_bind; [apply IH; assumption|]. apply solo_ret.
  - intros op a IHa b IHb s R M. apply rd_ok_app in R as [Ra Rb]. apply mk_ok_app in M as [Ma Mb].
    eapply solo_bind; [apply IHa; assumption|]. eapply solo_bind; [apply IHb; assumption|]. apply solo_ret.
  - intros c IHc x IHx o IHo s R M.
    apply rd_ok_app in R as [Rc R]. apply rd_ok_app in R as [Rx Ro].
    apply mk_ok_app in M as [Mc M]. apply mk_ok_app in M as [Mx Mo].
    eapply solo_bind; [apply IHc; assumption|].
    change (solo rd wr (if bdenote h0 c (iv_add (pt k) s) then eval V (wat x s k) else eval V (wat o s k)) h h
      (if bdenote h0 c (iv_add (pt k) s) then denote h0 x (iv_add (pt k) s) else denote h0 o (iv_add (pt k) s))).
    destruct (bdenote h0 c (iv_add (pt k) s)); [apply IHx|apply IHo]; assumption.
  - intros p0 c0 rest a IH s R M.
    apply rd_ok_app in R as [R0 R]. apply mk_ok_app in M as [M0 M].
    assert (HF : forall w v, solo rd wr (eval V w) h h v ->
      solo rd wr (eval V (fold_left (fun acc pc => WOp2 V vadd acc (WOp2 V vmul (wat a (iv_add s (fst pc)) k) (WConst V (snd pc)))) rest w)) h h
       (fold_left (fun acc pc => vadd acc (vmul (denote h0 a (iv_add (iv_add (pt k) s) (fst pc))) (snd pc))) rest v)).
    { clear R0 M0. induction rest as [|pc rest IHr]; intros w v Hw; cbn [fold_left]; [exact Hw|].
      cbn [flat_map] in R, M. apply rd_ok_app in R as [R1 R2]. apply mk_ok_app in M as [M1 M2].
      apply IHr; [assumption..|]. cbn [eval]. eapply solo_bind; [exact Hw|].
      eapply solo_bind; [|apply solo_ret]. eapply solo_bind; [apply IH; assumption|]. cbn [eval pbind].
      rewrite iv_add_assoc. apply solo_ret. }
    apply HF. cbn [eval]. eapply solo_bind; [apply IH; assumption|]. cbn [pbind]. rewrite iv_add_assoc. apply solo_ret.
  - intros p0 rest a IH s R M.
    apply rd_ok_app in R as [R0 R]. apply mk_ok_app in M as [M0 M].
    assert (HF : forall w v, solo rd wr (eval V w) h h v ->
      solo rd wr (eval V (fold_left (fun acc p => WOp2 V vadd acc (wat a (iv_add s p) k)) rest w)) h h
       (fold_left (fun acc q => vadd acc (denote h0 a (iv_add (iv_add (pt k) s) q))) rest v)).
    { clear R0 M0. induction rest as [|pc rest IHr]; intros w v Hw; cbn [fold_left]; [exact Hw|].
      cbn [flat_map] in R, M. apply rd_ok_app in R as [R1 R2]. apply mk_ok_app in M as [M1 M2].
      apply IHr; [assumption..|]. cbn [eval]. eapply solo_bind; [exact Hw|].
      eapply solo_bind; [apply IH; assumption|]. rewrite iv_add_assoc. apply solo_ret. }
    apply HF. rewrite iv_add_assoc. apply IH; assumption.
  - intros b s _ _. apply solo_ret.
  - intros m s _ M. destruct (M m s (or_introl eq_refl)) as (F & L).
    apply solo_lift. apply mask_leaf; assumption.
  - intros c a IHa b IHb s R M. apply rd_ok_app in R as [Ra Rb]. apply mk_ok_app in M as [Ma Mb].
    eapply solo_bind; [apply IHa; assumption|]. eapply solo_bind; [apply IHb; assumption|]. apply solo_ret.
  - intros a IHa b IHb s R M. apply rd_ok_app in R as [Ra Rb]. apply mk_ok_app in M as [Ma Mb].
    eapply solo_bind; [apply IHa; assumption|].
    change (solo rd wr (if bdenote h0 a (iv_add (pt k) s) then beval V (bwat b s k) else Ret false) h h
      (bdenote h0 a (iv_add (pt k) s) && bdenote h0 b (iv_add (pt k) s))).
    destruct (bdenote h0 a (iv_add (pt k) s)); cbn [andb]; [apply IHb; assumption|apply solo_ret].
  - intros a IHa b IHb s R M. apply rd_ok_app in R as [Ra Rb]. apply mk_ok_app in M as [Ma Mb].
    eapply solo_bind; [apply IHa; assumption|].
    change (solo rd wr (if bdenote h0 a (iv_add (pt k) s) then Ret true else beval V (bwat b s k)) h h
      (bdenote h0 a (iv_add (pt k) s) || bdenote h0 b (iv_add (pt k) s))).
    destruct (bdenote h0 a (iv_add (pt k) s)); cbn [orb]; [apply solo_ret|apply IHb; assumption].
  - intros a IHa s R M. eapply solo_bind; [apply IHa; assumption|]. apply solo_ret.
  - intros p a IHa s R M. rewrite iv_add_assoc. apply IHa; assumption.
Qed.
End Eval.

(** *** assignment loop *)
Variable f : field.
Definition lhswin : window := Win (wglob (fint f)) (iv_add (woff (fint f)) lo) ext.
Hypothesis Fl : fits lhswin.
Definition box_hi : ivec := iv_add lo ext.

Lemma lhs_icur k : icur (iter_at 0 lhswin k) = cell f (pt k).
Proof.
  replace lhswin with (leafwin f iv_zero) by (unfold leafwin, lhswin; rewrite iv_add_0_r; reflexivity).
  rewrite leaf_icur, iv_add_0_r. reflexivity.
Qed.

Lemma pt_inj j k : 0 <= j < npts -> 0 <= k < npts -> cell f (pt j) = cell f (pt k) -> j = k.
Proof.
  intros Hj Hk E. rewrite <- !lhs_icur in E.
  destruct (Z.lt_trichotomy j k) as [L|[L|L]]; [|exact L|].
  - pose proof (iter_at_lt 0 lhswin Ex Ey Fl j k ltac:(lia) L). lia.
  - pose proof (iter_at_lt 0 lhswin Ex Ey Fl k j ltac:(lia) L). lia.
Qed.

Lemma pt_region p : in_region lo box_hi p <-> exists k, 0 <= k < npts /\ p = pt k.
Proof.
  split.
  - intros H. assert (B : in_box ext (iv_sub p lo)).
    { unfold in_region, in_box, box_hi in *; cbn in *; lia. }
    destruct B as (Bx & By & Bz).
    exists (ix (iv_sub p lo) + ix ext * (iy (iv_sub p lo) + iy ext * iz (iv_sub p lo))). split.
    + apply flat_range; assumption.
    + unfold pt. rewrite dec_flat by assumption. apply iv_ext; cbn; lia.
  - intros (k & Hk & ->). destruct (pt_box k Hk) as (A & B & C). unfold pt, in_region, box_hi; cbn in *. lia.
Qed.

Variable e : expr.
Definition rd_all (b : nat) (i : Z) : Prop := exists g s p,
  In (g, s) (reads e iv_zero) /\ in_region lo box_hi p /\ b = fbuf g /\ i = cell g (iv_add p s).
Definition wr_all (b : nat) (i : Z) : Prop := b = fbuf f /\ exists p, in_region lo box_hi p /\ i = cell f p.

Hypothesis Rok : forall g s p, In (g, s) (reads e iv_zero) -> in_region lo box_hi p ->
  bcells (h0 (fbuf g)) (cell g (iv_add p s)) = true.
Hypothesis Mok : mk_ok (masks e iv_zero).
Hypothesis Wok : forall p, in_region lo box_hi p -> bcells (h0 (fbuf f)) (cell f p) = true.
Hypothesis Al : alias_ok V f e.

Lemma assign_loop_solo (rd wr : nat -> Z -> Prop) n : forall k fuel h,
  (forall b i, rd_all b i -> rd b i) -> (forall b i, wr_all b i -> wr b i) ->
  0 <= k -> k + Z.of_nat n = npts -> (n <= fuel)%nat ->
  assigned V h0 h f (fun p => exists j, 0 <= j < k /\ p = pt j) (denote h0 e) ->
  exists h', solo rd wr
    (assign_loop V fuel (fbuf f) (iter_at 0 lhswin k) (iter_at 0 lhswin npts) (wat e iv_zero k)) h h' tt /\
    assigned V h0 h' f (in_region lo box_hi) (denote h0 e).
Proof.
  induction n as [|n IH]; intros k fuel h Hrd Hwr Hk Hn Hf (A1 & A2 & A3).
  - assert (k = npts) by lia. subst k. exists h. split.
    + destruct fuel; cbn [assign_loop]; rewrite iter_at_eqb by (assumption || lia); rewrite Z.eqb_refl; apply solo_ret.
    + split; [exact A1|]. split.
      * intros p Hp. apply A2. apply pt_region. exact Hp.
      * intros b i H. apply A3. destruct H as [H|H]; [left; exact H|right]. intros p Hp. apply H. apply pt_region. exact Hp.
  - destruct fuel as [|fuel]; [lia|]. cbn [assign_loop].
    rewrite iter_at_eqb by (assumption || lia). destruct (k =? npts) eqn:E; [lia|]. clear E.
    assert (Hkk : 0 <= k < npts) by lia.
    assert (Hreg : in_region lo box_hi (pt k)) by (apply pt_region; eauto).
    set (v := denote h0 e (pt k)).
    assert (Sev : solo rd wr (eval V (wat e iv_zero k)) h h v).
    { unfold v. rewrite <- (iv_add_0_r (pt k)). apply eval_wat_all; [exact Hkk| |exact Mok].
      intros g s I. split; [apply Hrd; exists g, s, (pt k); auto|].
      split; [rewrite A1; apply Rok; assumption|].
      apply A3. destruct (Al g s I) as [N|[-> Eq]]; [left; exact N|right].
      intros p (j & Hj & ->) C. rewrite iv_add_0_r in C. unfold cell in C. rewrite Eq in C.
      apply pt_inj in C; lia. }
    assert (A' : assigned V h0 (upd h (fbuf f) (cell f (pt k)) v) f
                   (fun p => exists j, 0 <= j < k + 1 /\ p = pt j) (denote h0 e)).
    { split; [|split].
      - intros b i. unfold upd. destruct (Nat.eqb b (fbuf f)); apply A1.
      - intros p (j & Hj & ->). unfold value, upd. rewrite Nat.eqb_refl. cbn [bdata].
        destruct (cell f (pt j) =? cell f (pt k)) eqn:C.
        + apply Z.eqb_eq in C. apply pt_inj in C; [subst j; reflexivity|lia|lia].
        + apply A2. exists j. split; [|reflexivity].
          assert (j <> k) by (intros ->; lia). lia.
      - intros b i H. unfold upd. destruct (Nat.eqb b (fbuf f)) eqn:B.
        + apply Nat.eqb_eq in B. subst b. destruct H as [H|H]; [congruence|]. cbn [bdata].
          destruct (i =? cell f (pt k)) eqn:C.
          * apply Z.eqb_eq in C. exfalso. apply (H (pt k)); [exists k; split; [lia|reflexivity]|exact C].
          * apply A3. right. intros p (j & Hj & ->). apply H. exists j. split; [lia|reflexivity].
        + apply A3. left. apply Nat.eqb_neq in B. exact B. }
    destruct (IH (k + 1) fuel _ Hrd Hwr ltac:(lia) ltac:(lia) ltac:(lia) A') as (h' & S & A).
    exists h'. split; [|exact A]. eapply solo_bind; [exact Sev|].
    rewrite lhs_icur. apply solo_store; [rewrite A1; apply Wok; exact Hreg|apply Hwr; split; eauto|].
    rewrite iter_at_incr by assumption. rewrite (proj1 next_wat_all); [exact S|lia|].
    intros m s I. apply (Mok m s I).
Qed.

Lemma assign_walk_solo fl fuel : fwin fl = lhswin -> fbuf fl = fbuf f -> freadonly fl = false ->
  (Z.to_nat npts <= fuel)%nat ->
  exists h', solo rd_all wr_all (assign_walk V fuel fl (wat e iv_zero 0)) h0 h' tt /\
    assigned V h0 h' f (in_region lo box_hi) (denote h0 e).
Proof.
  intros Ew Eb Er Hf. pose proof npts_pos as N.
  destruct (assign_loop_solo rd_all wr_all (Z.to_nat npts) 0 fuel h0) as (h' & S & A); auto; try lia.
  { split; [reflexivity|]. split; [|reflexivity]. intros p (j & Hj & _). lia. }
  exists h'. split; [|exact A]. unfold assign_walk, field_begin, field_end. rewrite Er, Ew, Eb.
  rewrite (it_end_at 0 lhswin Ex Ey) by (cbn; lia). cbn [lift pbind].
  unfold it_begin. rewrite (iter_at_0 0 lhswin Ex Ey). exact S.
Qed.
End Box.
End NeboP.
