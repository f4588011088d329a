(** Proofs about field comparison. *)
From Verif Require Import Prelude WindowM WindowS WindowP GhostM FieldM FieldS MaskM NeboM NeboS NeboF StencilM LagrangeM LagrangeQ IterM IterS IterP CompareM CompareS.
From Coq Require Import Lqa.
Local Open Scope Z_scope.

Section Gen.
Variable V : Type.
Notation heap := (heap V).

Lemma Forall2_map_range (P : V -> V -> Prop) (f g : Z -> V) n :
  Forall2 P (map f (zrange n)) (map g (zrange n)) <-> forall k, 0 <= k < n -> P (f k) (g k).
Proof.
  split.
  - intros F k Hk. assert (I : In k (zrange n)) by (apply in_zrange; exact Hk). clear Hk. revert F I. generalize (zrange n).
    induction l as [|a l IH]; cbn; [tauto|]. intros F [->|I]; inversion F; subst; auto.
  - intros H. assert (H' : forall k, In k (zrange n) -> P (f k) (g k)) by (intros k I; apply H, in_zrange, I).
    revert H'. generalize (zrange n). induction l; cbn; intros; constructor; auto.
Qed.

Lemma compare_fields_ok (differ : V -> V -> bool) (h : heap) f1 f2 : live h f1 -> live h f2 -> fwin f1 = fwin f2 ->
  exists N, forall fuel, (N <= fuel)%nat -> exists b, run (compare_fields fuel differ f1 f2) h = RDone h b /\
    (b = true <-> Forall2 (fun x y => differ x y = false) (contents h f1) (contents h f2)).
Proof.
  intros L1 L2 W. pose proof L1 as (P1 & F1 & _). pose proof (npts_pos _ P1) as NP. exists (Z.to_nat (local_npts (fwin f1))). intros fuel Hf.
  set (D := fun k => differ (bdata (h (fbuf f1)) (kcell (fwin f1) k)) (bdata (h (fbuf f2)) (kcell (fwin f1) k))).
  assert (E : ends (compare_fields fuel differ f1 f2) h (fun h' b => h' = h /\ (b = true <-> forall k, 0 <= k < local_npts (fwin f1) -> D k = false))).
  { unfold compare_fields. assert (EW : win_eqb (fwin f1) (fwin f2) = true).
    { rewrite W. unfold win_eqb, iv_eqb. rewrite !Z.eqb_refl. reflexivity. }
    rewrite EW. cbn [negb]. rewrite cbegin_ok, cend_ok by exact P1. rewrite cbegin_ok by (rewrite <- W; exact P1). cbn [lift pbind].
    apply ends_bind. eapply ends_mono.
    2:{ apply (for_iter_rule V (fwin f1) _ (fun k h' s => h' = h /\ s = (true, iter_at 0 (fwin f1) k) /\ forall j, 0 <= j < k -> D j = false)
               (fun h' s => h' = h /\ (fst s = true <-> forall k, 0 <= k < local_npts (fwin f1) -> D k = false)))
        with (n := Z.to_nat (local_npts (fwin f1))); try lia; try apply P1; try exact F1.
        - intros k h' s Hk (-> & -> & Hj). cbn [fst snd]. apply ends_load; [apply live_cell; assumption|].
          rewrite !icur_at. apply ends_load; [rewrite W; apply live_cell; [exact L2|rewrite <- W; exact Hk]|]. apply ends_ret. fold (D k).
          destruct (D k) eqn:Dk; cbn [fst snd].
          + split; [reflexivity|]. split; [discriminate|]. intros H. rewrite (H k Hk) in Dk. discriminate.
          + split; [reflexivity|]. split; [rewrite incr_ok by exact P1; reflexivity|]. intros j Rj. destruct (Z.eq_dec j k) as [->|]; [exact Dk|apply Hj; lia].
        - intros h' s (-> & -> & Hj). split; [reflexivity|]. cbn [fst]. split; auto.
        - split; [reflexivity|]. split; [rewrite W; reflexivity|]. intros; lia. }
    intros h' s (-> & H). apply ends_ret. split; [reflexivity|exact H]. }
  destruct E as (h' & b & E & -> & B). exists b. split; [exact E|]. rewrite B, !contents_kcell by (exact P1 || (rewrite <- W; exact P1)). rewrite <- W.
  symmetry. apply Forall2_map_range.
Qed.
Lemma compare_fields_throws (differ : V -> V -> bool) (h : heap) f1 f2 fuel : fwin f1 <> fwin f2 -> run (compare_fields fuel differ f1 f2) h = RThrow.
Proof.
  intros N. unfold compare_fields. destruct (win_eqb (fwin f1) (fwin f2)) eqn:E; [|reflexivity]. exfalso. apply N.
  unfold win_eqb, iv_eqb in E. destruct (fwin f1) as [[? ? ?] [? ? ?] [? ? ?]], (fwin f2) as [[? ? ?] [? ? ?] [? ? ?]]. cbn in E.
  repeat f_equal; lia.
Qed.
Lemma compare_scalar_ok (differ : V -> V -> bool) (h : heap) d f1 : live h f1 ->
  exists N, forall fuel, (N <= fuel)%nat -> exists b, run (compare_scalar fuel differ d f1) h = RDone h b /\
    (b = true <-> Forall (fun x => differ d x = false) (contents h f1)).
Proof.
  intros L1. pose proof L1 as (P1 & F1 & _). pose proof (npts_pos _ P1) as NP. exists (Z.to_nat (local_npts (fwin f1))). intros fuel Hf.
  set (D := fun k => differ d (bdata (h (fbuf f1)) (kcell (fwin f1) k))).
  assert (E : ends (compare_scalar fuel differ d f1) h (fun h' b => h' = h /\ (b = true <-> forall k, 0 <= k < local_npts (fwin f1) -> D k = false))).
  { unfold compare_scalar. rewrite cbegin_ok, cend_ok by exact P1. cbn [lift pbind].
    apply (for_iter_rule V (fwin f1) _ (fun k h' s => h' = h /\ s = true /\ forall j, 0 <= j < k -> D j = false))
        with (n := Z.to_nat (local_npts (fwin f1))); try lia; try apply P1; try exact F1.
    - intros k h' s Hk (-> & -> & Hj). apply ends_load; [apply live_cell; assumption|]. apply ends_ret. rewrite icur_at. fold (D k).
      destruct (D k) eqn:Dk; cbn [fst snd].
      + split; [reflexivity|]. split; [discriminate|]. intros H. rewrite (H k Hk) in Dk. discriminate.
      + split; [reflexivity|]. split; [reflexivity|]. intros j Rj. destruct (Z.eq_dec j k) as [->|]; [exact Dk|apply Hj; lia].
    - intros h' s (-> & -> & Hj). split; [reflexivity|]. split; auto.
    - split; [reflexivity|]. split; [reflexivity|]. intros; lia. }
  destruct E as (h' & b & E & -> & B). exists b. split; [exact E|]. rewrite B, contents_kcell by exact P1. rewrite Forall_forall. split.
  - intros H x I. apply in_map_iff in I as (k & <- & I). apply H, in_zrange, I.
  - intros H k Hk. apply H. apply in_map_iff. exists k. split; [reflexivity|apply in_zrange, Hk].
Qed.
Lemma negated_ok (p : prog V bool) h h' b : run p h = RDone h' b -> run (negated p) h = RDone h' (negb b).
Proof. intros E. unfold negated. rewrite (run_bind V p _ h h' b E). reflexivity. Qed.
End Gen.

(** ** The tests *)
Local Open Scope Qc_scope.
(** Linear arithmetic over Qc. *)
Lemma this_add a b : (this (a + b) == this a + this b)%Q. Proof. apply Qred_correct. Qed.
Lemma this_opp a : (this (- a) == - this a)%Q. Proof. apply Qred_correct. Qed.
Lemma this_sub a b : (this (a - b) == this a - this b)%Q. Proof. unfold Qcminus. rewrite this_add, this_opp. reflexivity. Qed.
Lemma this_mul a b : (this (a * b) == this a * this b)%Q. Proof. apply Qred_correct. Qed.
Lemma eq_Qeq a b : a = b -> (a == b)%Q. Proof. intros ->. reflexivity. Qed.
Ltac qc_lra := intros;
  repeat match goal with
  | H : (_ <= _) |- _ => unfold Qcle in H
  | H : (_ < _) |- _ => unfold Qclt in H
  | H : ~ (_ <= _) |- _ => apply Qcnot_le_lt in H
  | H : ~ (_ < _) |- _ => apply Qcnot_lt_le in H
  | H : @eq Qc _ _ |- _ => apply (f_equal this) in H; apply eq_Qeq in H
  end;
  try apply Qc_is_canon; unfold Qcle, Qclt in *;
  repeat first [setoid_rewrite this_sub | setoid_rewrite this_add | setoid_rewrite this_opp | setoid_rewrite this_mul];
  repeat match goal with H : _ |- _ => progress (repeat first [setoid_rewrite this_sub in H | setoid_rewrite this_add in H | setoid_rewrite this_opp in H | setoid_rewrite this_mul in H]) end;
  change (this 0) with 0%Q in *; change (this 1) with 1%Q in *;
  lra.
Lemma qc_eqb_eq a b : qc_eqb a b = true <-> a = b.
Proof. unfold qc_eqb. destruct (Qc_eq_dec a b); split; congruence. Qed.
Lemma qc_ltb_false a b : qc_ltb a b = false <-> b <= a.
Proof. unfold qc_ltb. destruct (Qclt_le_dec a b) as [L|L]; split; try congruence. intros H. destruct (Qclt_not_le _ _ L H). Qed.
Lemma qc_abs_nonneg a : 0 <= qc_abs a.
Proof.
  unfold qc_abs. destruct (qc_ltb a 0) eqn:E; [|apply qc_ltb_false; exact E]. apply qc_ltb_lt in E. apply Qclt_le_weak in E.
  apply (Qcopp_le_compat a 0) in E. replace (- 0) with 0 in E by reflexivity. exact E.
Qed.
Lemma qc_abs_0 a : qc_abs a = 0 <-> a = 0.
Proof.
  unfold qc_abs. destruct (qc_ltb a 0); [|tauto]. split; intros H; [|rewrite H; reflexivity].
  replace a with (- - a) by ring. rewrite H. reflexivity.
Qed.
Lemma qc_abs_cases a : (a < 0 /\ qc_abs a = - a) \/ (0 <= a /\ qc_abs a = a).
Proof. unfold qc_abs. destruct (qc_ltb a 0) eqn:E; [left; split; [apply qc_ltb_lt; exact E|reflexivity]|right; split; [apply qc_ltb_false; exact E|reflexivity]]. Qed.
Lemma qc_abs_sym a b : qc_abs (a - b) = qc_abs (b - a).
Proof. destruct (qc_abs_cases (a - b)) as [(A & ->)|(A & ->)], (qc_abs_cases (b - a)) as [(B & ->)|(B & ->)]; qc_lra. Qed.

Lemma differ_abs_ok e x y : differ_abs e x y = false <-> qc_abs (x - y) <= qc_abs e.
Proof.
  unfold differ_abs. cbv zeta. destruct (qc_eqb (qc_abs e) 0) eqn:E; [|apply qc_ltb_false].
  apply qc_eqb_eq in E. rewrite E. rewrite negb_false_iff, qc_eqb_eq. pose proof (qc_abs_nonneg (x - y)) as N. split.
  - intros ->. replace (y - y) with 0 by ring. unfold qc_abs. cbn. discriminate.
  - intros H. assert (Z : qc_abs (x - y) = 0) by (apply Qcle_antisym; assumption). apply (proj1 (qc_abs_0 _)) in Z. qc_lra.
Qed.
Lemma differ_rel_ok e a x y : 0 <= a -> differ_rel e a x y = false <-> qc_abs (x - y) <= qc_abs e * (qc_abs x + a).
Proof.
  intros Ha. unfold differ_rel. cbv zeta. pose proof (qc_abs_nonneg (x - y)) as N. pose proof (qc_abs_nonneg x) as Nx. pose proof (qc_abs_nonneg e) as Ne.
  destruct (qc_eqb (qc_abs e) 0) eqn:E.
  - apply qc_eqb_eq in E. rewrite E. rewrite negb_false_iff, qc_eqb_eq. split.
    + intros ->. replace (y - y) with 0 by ring. replace (0 * (qc_abs y + a)) with 0 by ring. unfold qc_abs. cbn. discriminate.
    + intros H. replace (0 * (qc_abs x + a)) with 0 in H by ring. assert (Z : qc_abs (x - y) = 0) by (apply Qcle_antisym; assumption). apply (proj1 (qc_abs_0 _)) in Z. qc_lra.
  - unfold quot_gt. destruct (qc_eqb (qc_abs x + a) 0) eqn:D.
    + apply qc_eqb_eq in D. rewrite D. rewrite negb_false_iff, qc_eqb_eq. replace (qc_abs e * 0) with 0 by ring. split; [intros ->; discriminate|].
      intros H. apply Qcle_antisym; assumption.
    + set (d := qc_abs x + a) in *. assert (Pd : 0 < d).
      { apply Qcnot_le_lt. intros L. assert (d = 0) as D0; [|rewrite D0 in D; discriminate]. apply Qcle_antisym; [exact L|unfold d; qc_lra]. }
      rewrite qc_ltb_false. set (n := qc_abs (x - y)) in *. assert (Nd : d <> 0) by (intros Z; rewrite Z in Pd; discriminate). split; intros H.
      * apply (Qcmult_le_compat_r _ _ d) in H; [|apply Qclt_le_weak; exact Pd]. replace (n / d * d) with n in H by (field; exact Nd). exact H.
      * apply Qcnot_lt_le. intros L. apply (Qcmult_lt_compat_r _ _ d Pd) in L. replace (n / d * d) with n in L by (field; exact Nd).
        exact (Qclt_not_le _ _ L H).
Qed.

(** ** Statements in terms of the specification *)
Lemma magnitude_abs a t : magnitude a t <-> t = qc_abs a.
Proof.
  unfold magnitude. destruct (qc_abs_cases a) as [(A & ->)|(A & ->)]; split; intros H.
  - destruct H as (H & [->| ->]); [exfalso; exact (Qclt_not_le _ _ A H)|reflexivity].
  - rewrite H. split; [qc_lra|right; reflexivity].
  - destruct H as (H & [->| ->]); [reflexivity|]. assert (a = 0) as -> by (apply Qcle_antisym; [qc_lra|exact A]). reflexivity.
  - rewrite H. split; [exact A|left; reflexivity].
Qed.
Lemma within_abs t x y : within t x y <-> qc_abs (x - y) <= t.
Proof. unfold within. destruct (qc_abs_cases (x - y)) as [(A & ->)|(A & ->)]; (split; [intros (B & C)|intros B; split]); qc_lra. Qed.
Lemma within_rel_abs t a x y : within_rel t a x y <-> qc_abs (x - y) <= t * (qc_abs x + a).
Proof.
  unfold within_rel. split.
  - intros (m & M & W). apply magnitude_abs in M. subst m. apply within_abs. exact W.
  - intros H. exists (qc_abs x). split; [apply magnitude_abs; reflexivity|apply within_abs; exact H].
Qed.
Lemma Forall2_impl {A B} (P Q : A -> B -> Prop) l m : (forall x y, P x y -> Q x y) -> Forall2 P l m -> Forall2 Q l m.
Proof. intros H F. induction F; constructor; auto. Qed.
Lemma Forall2_flip {A B} (P : A -> B -> Prop) l m : Forall2 P l m -> Forall2 (fun y x => P x y) m l.
Proof. intros F. induction F; constructor; auto. Qed.
Lemma Forall2_iff {A B} (P Q : A -> B -> Prop) l m : (forall x y, P x y <-> Q x y) -> Forall2 P l m <-> Forall2 Q l m.
Proof. intros H. split; apply Forall2_impl; intros; apply H; assumption. Qed.
Lemma Forall_iff {A} (P Q : A -> Prop) l : (forall x, P x <-> Q x) -> Forall P l <-> Forall Q l.
Proof. intros H. split; apply Forall_impl; intros; apply H; assumption. Qed.

Local Open Scope Z_scope.
Lemma equal_abs_ok h f1 f2 error t : live h f1 -> live h f2 -> fwin f1 = fwin f2 -> magnitude error t ->
  exists N, forall fuel, (N <= fuel)%nat -> exists b,
    run (field_equal_abs fuel f1 f2 error) h = RDone h b /\
    run (field_equal_abs fuel f2 f1 error) h = RDone h b /\
    run (field_not_equal_abs fuel f1 f2 error) h = RDone h (negb b) /\
    (b = true <-> Forall2 (within t) (contents h f1) (contents h f2)).
Proof.
  intros L1 L2 W M. apply magnitude_abs in M. subst t.
  destruct (compare_fields_ok Qc (differ_abs error) h f1 f2 L1 L2 W) as (N & H).
  destruct (compare_fields_ok Qc (differ_abs error) h f2 f1 L2 L1 (eq_sym W)) as (N' & H').
  exists (Nat.max N N'). intros fuel Hf. destruct (H fuel ltac:(lia)) as (b & R & B). destruct (H' fuel ltac:(lia)) as (b' & R' & B').
  assert (E : Forall2 (fun x y => differ_abs error x y = false) (contents h f1) (contents h f2) <-> Forall2 (within (qc_abs error)) (contents h f1) (contents h f2)).
  { apply Forall2_iff. intros x y. rewrite differ_abs_ok, within_abs. reflexivity. }
  assert (E' : Forall2 (fun x y => differ_abs error x y = false) (contents h f2) (contents h f1) <-> Forall2 (within (qc_abs error)) (contents h f1) (contents h f2)).
  { rewrite <- E. split; intros F; apply Forall2_flip in F; (eapply Forall2_impl; [|exact F]); intros x y D; cbn beta in D; apply differ_abs_ok in D; apply differ_abs_ok; rewrite qc_abs_sym; exact D. }
  exists b. split; [exact R|]. split; [|split; [apply negated_ok; exact R|rewrite B; exact E]].
  unfold field_equal_abs. rewrite R'. f_equal. destruct b, b'; try reflexivity; exfalso.
  - assert (false = true); [|discriminate]. apply B', E', E, B. reflexivity.
  - assert (false = true); [|discriminate]. apply B, E, E', B'. reflexivity.
Qed.
Lemma equal_rel_ok h f1 f2 error error_abs t : live h f1 -> live h f2 -> fwin f1 = fwin f2 -> magnitude error t -> (0 <= error_abs)%Qc ->
  exists N, forall fuel, (N <= fuel)%nat -> exists b,
    run (field_equal4 fuel f1 f2 error error_abs) h = RDone h b /\
    run (field_not_equal4 fuel f1 f2 error error_abs) h = RDone h (negb b) /\
    (b = true <-> Forall2 (within_rel t error_abs) (contents h f1) (contents h f2)).
Proof.
  intros L1 L2 W M A. apply magnitude_abs in M. subst t.
  destruct (compare_fields_ok Qc (differ_rel error error_abs) h f1 f2 L1 L2 W) as (N & H).
  exists N. intros fuel Hf. destruct (H fuel Hf) as (b & R & B). exists b. split; [exact R|]. split; [apply negated_ok; exact R|].
  rewrite B. apply Forall2_iff. intros x y. rewrite differ_rel_ok by exact A. symmetry. apply within_rel_abs.
Qed.
Lemma Forall2_eq_iff {A} (l m : list A) : Forall2 eq l m <-> l = m.
Proof. split; [intros F; induction F; congruence|intros ->; induction m; constructor; auto]. Qed.
Lemma equal_exact_ok h f1 f2 vsqrt a : live h f1 -> live h f2 -> fwin f1 = fwin f2 ->
  exists N, forall fuel, (N <= fuel)%nat -> exists b,
    run (field_equal4 fuel f1 f2 0%Qc a) h = RDone h b /\ run (field_equal4 fuel f2 f1 0%Qc a) h = RDone h b /\
    run (field_equal3 fuel vsqrt f1 f2 0%Qc) h = RDone h b /\ run (field_not_equal3 fuel vsqrt f1 f2 0%Qc) h = RDone h (negb b) /\
    (b = true <-> contents h f1 = contents h f2).
Proof.
  intros L1 L2 W.
  assert (K : forall a f1 f2, live h f1 -> live h f2 -> fwin f1 = fwin f2 -> exists N, forall fuel, (N <= fuel)%nat -> exists b,
    run (field_equal4 fuel f1 f2 0%Qc a) h = RDone h b /\ (b = true <-> contents h f1 = contents h f2)).
  { clear. intros a f1 f2 L1 L2 W. destruct (compare_fields_ok Qc (differ_rel 0%Qc a) h f1 f2 L1 L2 W) as (N & H).
    exists N. intros fuel Hf. destruct (H fuel Hf) as (b & R & B). exists b. split; [exact R|]. rewrite B, <- Forall2_eq_iff. apply Forall2_iff.
    intros x y. unfold differ_rel. change (qc_eqb (qc_abs 0) 0) with true. cbv iota zeta. rewrite negb_false_iff. apply qc_eqb_eq. }
  destruct (K a f1 f2 L1 L2 W) as (N1 & H1). destruct (K a f2 f1 L2 L1 (eq_sym W)) as (N2 & H2). destruct (K 0%Qc f1 f2 L1 L2 W) as (N3 & H3).
  exists (Nat.max N1 (Nat.max N2 N3)). intros fuel Hf.
  destruct (H1 fuel ltac:(lia)) as (b1 & R1 & B1). destruct (H2 fuel ltac:(lia)) as (b2 & R2 & B2). destruct (H3 fuel ltac:(lia)) as (b3 & R3 & B3).
  assert (E2 : b2 = b1) by (apply Bool.eq_true_iff_eq; rewrite B1, B2; split; congruence).
  assert (E3 : b3 = b1) by (apply Bool.eq_true_iff_eq; rewrite B1, B3; split; congruence). subst b2 b3.
  exists b1. split; [exact R1|]. split; [exact R2|]. split; [exact R3|]. split; [|exact B1].
  exact (negated_ok Qc (field_equal4 fuel f1 f2 0%Qc 0%Qc) h h b1 R3).
Qed.
Lemma equal_throws h f1 f2 : fwin f1 <> fwin f2 -> forall fuel error error_abs hz ulps,
  run (field_equal_abs fuel f1 f2 error) h = RThrow /\ run (field_equal4 fuel f1 f2 error error_abs) h = RThrow /\
  run (field_equal_ulp fuel f1 f2 ulps) hz = RThrow.
Proof. intros W fuel error a hz ulps. repeat split; apply compare_fields_throws; exact W. Qed.
Lemma scalar_ok h d f1 error error_abs t : live h f1 -> magnitude error t -> (0 <= error_abs)%Qc ->
  exists N, forall fuel, (N <= fuel)%nat -> exists b c,
    run (scalar_equal_abs fuel d f1 error) h = RDone h b /\ run (scalar_not_equal_abs fuel d f1 error) h = RDone h (negb b) /\
    run (scalar_equal4 fuel d f1 error error_abs) h = RDone h c /\ run (scalar_not_equal4 fuel d f1 error error_abs) h = RDone h (negb c) /\
    (b = true <-> Forall (within t d) (contents h f1)) /\ (c = true <-> Forall (within_rel t error_abs d) (contents h f1)).
Proof.
  intros L1 M A. apply magnitude_abs in M. subst t.
  destruct (compare_scalar_ok Qc (differ_abs error) h d f1 L1) as (N & H).
  destruct (compare_scalar_ok Qc (differ_rel error error_abs) h d f1 L1) as (N' & H').
  exists (Nat.max N N'). intros fuel Hf. destruct (H fuel ltac:(lia)) as (b & R & B). destruct (H' fuel ltac:(lia)) as (c & R' & C).
  exists b, c. split; [exact R|]. split; [apply negated_ok; exact R|]. split; [exact R'|]. split; [apply negated_ok; exact R'|].
  split; [rewrite B|rewrite C]; apply Forall_iff; intros x; [rewrite differ_abs_ok, within_abs; reflexivity|].
  rewrite differ_rel_ok by exact A. symmetry. apply within_rel_abs.
Qed.
Lemma ulp_ok (h : heap Z) f1 f2 d ulps : live h f1 -> live h f2 -> fwin f1 = fwin f2 -> 0 <= ulps ->
  exists N, forall fuel, (N <= fuel)%nat -> exists b c,
    run (field_equal_ulp fuel f1 f2 ulps) h = RDone h b /\ run (field_not_equal_ulp fuel f1 f2 ulps) h = RDone h (negb b) /\
    run (scalar_equal_ulp fuel d f1 ulps) h = RDone h c /\ run (scalar_not_equal_ulp fuel d f1 ulps) h = RDone h (negb c) /\
    (b = true <-> Forall2 (fun x y => - ulps <= x - y <= ulps) (contents h f1) (contents h f2)) /\
    (c = true <-> Forall (fun x => - ulps <= x - d <= ulps) (contents h f1)).
Proof.
  intros L1 L2 W U. destruct (compare_fields_ok Z (differ_ulp ulps) h f1 f2 L1 L2 W) as (N & H).
  destruct (compare_scalar_ok Z (differ_ulp ulps) h d f1 L1) as (N' & H').
  exists (Nat.max N N'). intros fuel Hf. destruct (H fuel ltac:(lia)) as (b & R & B). destruct (H' fuel ltac:(lia)) as (c & R' & C).
  exists b, c. split; [exact R|]. split; [apply negated_ok; exact R|]. split; [exact R'|]. split; [apply negated_ok; exact R'|].
  split; [rewrite B; apply Forall2_iff; intros x y|rewrite C; apply Forall_iff; intros x]; unfold differ_ulp; destruct (Z.eqb_spec ulps 0); lia.
Qed.
(** The default absolute tolerance. *)
Lemma known_field n f p : expr_known Qc n (EField Qc f) p <-> valid_cell n f p.
Proof.
  unfold expr_known. cbn. destruct p as [a b c]. split.
  - intros H. pose proof (H _ _ _ (or_introl eq_refl) (IV a b c)) as K. unfold known, valid_cell, reach, in_region, iv_le in *. cbn in *. lia.
  - intros H l m u [E|[]] q Q1 Q2. injection E as <- <- <-. destruct q as [a' b' c']. unfold iv_le in *. cbn in Q1, Q2.
    assert (a' = a /\ b' = b /\ c' = c) as (-> & -> & ->) by lia. unfold known, valid_cell, reach, in_region in *. cbn in *. lia.
Qed.
Lemma default_ok n h f1 vsqrt error : operands_ok Qc n h (EField Qc f1) -> (exists p, valid_cell n f1 p) -> error <> 0%Qc ->
  exists N p0 rest, lists_in_order (valid_cell n f1) (p0 :: rest) /\ forall fuel, (N <= fuel)%nat ->
    let sq := fun p => (value Qc h f1 p * value Qc h f1 p)%Qc in
    let a := (vsqrt (fold_left Qcplus (map sq rest) (sq p0)) * error * (1 / qc_of 1000000))%Qc in
    (forall f2, run (field_equal3 fuel vsqrt f1 f2 error) h = run (field_equal4 fuel f1 f2 error a) h /\
                run (field_not_equal3 fuel vsqrt f1 f2 error) h = run (field_not_equal4 fuel f1 f2 error a) h) /\
    (forall d, run (scalar_equal3 fuel vsqrt d f1 error) h = run (scalar_equal4 fuel d f1 error a) h).
Proof.
  intros O K NE. destruct (sum_norm_correct Qc Qcplus Qcmult n h (EField Qc f1) vsqrt (fun a => a * a)%Qc O eq_refl) as (N & p0 & rest & L & H).
  { destruct K as (p & K). exists p. apply known_field. exact K. }
  exists N, p0, rest. split; [destruct L as (L1 & L2); split; [intros p; rewrite L1; apply known_field|exact L2]|]. intros fuel Hf sq a. destruct (H fuel Hf) as (_ & E).
  assert (D : run (default_abs fuel vsqrt f1 error) h = RDone h a).
  { unfold default_abs. destruct (qc_eqb error 0) eqn:Z; [apply qc_eqb_eq in Z; contradiction|].
    rewrite (run_bind Qc _ _ h h _ E). reflexivity. }
  split; [intros f2; split|intros d]; apply (run_bind Qc _ _ h h a D).
Qed.
