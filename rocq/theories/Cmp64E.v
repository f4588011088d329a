(** Comparing fields of doubles: instances and counterexamples. *)
From Coq Require Import Reals Lra Lia.
From Flocq Require Import Core.
From Verif Require Import Prelude WindowM WindowS WindowP GhostM FieldM FieldS MaskM NeboM NeboS NeboP NeboQ NeboA NeboB NeboC NeboD NeboE NeboF IterM IterS IterP RoundM RoundS RoundP RoundQ RoundR RoundT RoundU RoundV RoundE RedM RedS RedP RedQ RedE HeatM HeatD HeatE CompareM CompareP Cmp64M Cmp64S Cmp64P Cmp64Q.
Open Scope R_scope.

(** Two fields of 3 x 2 x 1 cells with two ghost layers in x and y, the first
    holding v everywhere, the second w. *)
Definition xs2 : field := patch_field xdim false false false (IV 1 1 1) (xg 2) 2 4.
Definition heap2 (v w : dbl) : heap dbl := fun b => Block (fun i => (0 <=? i)%Z && (i <? 200)%Z) (fun _ => if Nat.eqb b 1 then v else w).
Lemma live2 v w f : In f [xs; xs2] -> live (heap2 v w) f.
Proof.
  intros I. assert (E : fwin f = Win (IV 7 6 1) (IV 0 0 0) (IV 7 6 1)) by (destruct I as [<-|[<-|[]]]; reflexivity).
  unfold live, cells_of. rewrite E. split; [repeat split; cbn; lia|]. split; [unfold fits; cbn; lia|].
  intros i J. apply in_map_iff in J. destruct J as (p & <- & J). apply in_box_points in J. unfold in_box, addr in *. cbn -[Z.mul Z.add] in *. lia.
Qed.
Lemma contents2 v w : contents (heap2 v w) xs = repeat v 42 /\ contents (heap2 v w) xs2 = repeat w 42.
Proof. split; reflexivity. Qed.
Lemma reducible2 v w : reducible false xdim (heap2 v w) ex.
Proof.
  split.
  - split; [|split; [intros m s []|intros f []]]. intros f s [E|[]]. injection E as <- <-.
    split; [apply user_field_on_patch, user_xs|intros p P; apply xcell_ok; cbn; auto].
  - split; [reflexivity|]. exists (IV 0 0 0). apply ex_known. cbn. lia.
Qed.
Lemma norm2 pow2 v w z : pow2 v = z -> dadd z z = z -> returns (fun fuel => norm64 pow2 false fuel ex) (heap2 v w) (dsqrt z).
Proof.
  intros P E. destruct (norm_runs pow2 false xdim (heap2 v w) ex (reducible2 v w)) as (p0 & rest & _ & R).
  rewrite map_map in R. change (den64 (heap2 v w) ex p0) with v in R. rewrite P in R.
  replace (map (fun x => pow2 (den64 (heap2 v w) ex x)) rest) with (map (fun _ : ivec => z) rest) in R.
  - rewrite (fold_same z rest E) in R. exact R.
  - apply map_ext. intros p. change (den64 (heap2 v w) ex p) with v. symmetry. exact P.
Qed.
Lemma all2 (differ : dbl -> dbl -> bool) v w b : differ v w = negb b -> says (fun fuel => compare_fields fuel differ xs xs2) (heap2 v w) b.
Proof.
  intros D. destruct (decide (heap2 v w) xs xs2 (live2 v w xs ltac:(cbn; auto)) (live2 v w xs2 ltac:(cbn; auto)) eq_refl differ) as (c & S & _ & E).
  replace b with c; [exact S|]. rewrite (proj1 (contents2 v w)), (proj2 (contents2 v w)) in E.
  assert (X : Forall2 (fun x y => differ x y = false) (repeat v 42) (repeat w 42) <-> differ v w = false).
  { split; [intros H; inversion H; assumption|]. intros H. generalize 42%nat. induction n; constructor; auto. }
  rewrite X, D in E. destruct b, c; cbn in E; intuition congruence.
Qed.

(** NaN: equal to one within every tolerance, and unequal to itself without one. *)
Lemma nan_equal : exists h f1 f2, live h f1 /\ live h f2 /\ fwin f1 = fwin f2 /\ contents h f1 = repeat NaN 42 /\ contents h f2 = repeat d_one 42 /\
  (forall error error_abs, ~ is_zero error -> finite error_abs -> says (fun fuel => equal64 fuel f1 f2 error error_abs) h true /\ says (fun fuel => equal_abs64 fuel f1 f2 error) h true) /\
  says (fun fuel => equal_abs64 fuel f1 f1 zero) h false.
Proof.
  exists (heap2 NaN d_one), xs, xs2. split; [apply live2; cbn; auto|]. split; [apply live2; cbn; auto|]. split; [reflexivity|].
  split; [apply contents2|]. split; [apply contents2|]. split.
  - intros e a N F. split; apply all2.
    + apply rel_unnoticed; [exact N|exact F|left; discriminate].
    + apply (proj2 (abs_nan_pair e d_one N)).
  - destruct (exact64 (heap2 NaN d_one) xs xs (live2 _ _ xs ltac:(cbn; auto)) (live2 _ _ xs ltac:(cbn; auto)) eq_refl zero zero ltac:(split; reflexivity)) as (b & _ & _ & S & _ & E).
    replace false with b; [exact S|]. destruct b; [|reflexivity]. exfalso. assert (Forall2 same (contents (heap2 NaN d_one) xs) (contents (heap2 NaN d_one) xs)) as Q by (apply E; reflexivity).
    rewrite (proj1 (contents2 _ _)) in Q. inversion Q as [|? ? ? ? (K & _)]. apply K. reflexivity.
Qed.
(** An infinite field: within one percent of a field of ones, but not the other way round. *)
Lemma infinite_equal : exists h f1 f2, live h f1 /\ live h f2 /\ fwin f1 = fwin f2 /\ contents h f1 = repeat infinity 42 /\ contents h f2 = repeat d_one 42 /\
  (forall error error_abs, ~ is_zero error -> finite error_abs -> says (fun fuel => equal64 fuel f1 f2 error error_abs) h true) /\
  says (fun fuel => equal64 fuel f2 f1 (dlit 1 (-6)) zero) h false.
Proof.
  exists (heap2 infinity d_one), xs, xs2. split; [apply live2; cbn; auto|]. split; [apply live2; cbn; auto|]. split; [reflexivity|].
  split; [apply contents2|]. split; [apply contents2|].
  split; [intros e a N F; apply all2; apply rel_unnoticed; [exact N|exact F|left; discriminate]|].
  destruct (decide (heap2 infinity d_one) xs2 xs (live2 _ _ xs2 ltac:(cbn; auto)) (live2 _ _ xs ltac:(cbn; auto)) eq_refl (differ_rel64 (dlit 1 (-6)) zero)) as (c & S & _ & E).
  replace false with c; [exact S|]. destruct c; [|reflexivity]. exfalso. destruct E as (E & _). specialize (E eq_refl).
  rewrite (proj1 (contents2 _ _)), (proj2 (contents2 _ _)) in E. inversion E as [|? ? ? ? D]. vm_compute in D. discriminate.
Qed.
(** A field of 2^600 and a field of ones are equal within 1/64: the norm overflows. *)
Lemma overflow_equal : exists pow2, square_ok pow2 /\ exists h f1 f2, live h f1 /\ live h f2 /\ fwin f1 = fwin f2 /\
  Forall (fun x => finite x /\ val x = powerRZ 2 600) (contents h f1) /\ Forall (fun x => finite x /\ val x = 1) (contents h f2) /\
  says (fun fuel => equal_default64 fuel pow2 f1 f2 (dlit 1 (-6))) h true.
Proof.
  exists (fun x => dmul x x). split; [exact dmul_square|]. exists (heap2 large d_one), xs, xs2.
  split; [apply live2; cbn; auto|]. split; [apply live2; cbn; auto|]. split; [reflexivity|]. split.
  { rewrite (proj1 (contents2 _ _)). apply Forall_forall. intros x I. apply repeat_spec in I. subst x. split; [reflexivity|exact val_large]. }
  split.
  { rewrite (proj2 (contents2 _ _)). apply Forall_forall. intros x I. apply repeat_spec in I. subst x. exact one_val. }
  pose proof (norm2 (fun x => dmul x x) large d_one infinity ltac:(vm_compute; reflexivity) ltac:(vm_compute; reflexivity)) as R.
  assert (NZ : ~ is_zero (dlit 1 (-6))).
  { intros Z. apply eq_zero in Z. vm_compute in Z. discriminate. }
  destruct (default64 (heap2 large d_one) (fun x => dmul x x) xs (dlit 1 (-6)) (dsqrt infinity) NZ R) as (N & H).
  destruct (all2 (differ_rel64 (dlit 1 (-6)) (dmul (dmul (dsqrt infinity) (dlit 1 (-6))) d_micro)) large d_one true ltac:(vm_compute; reflexivity)) as (N' & H').
  exists (Nat.max N N'). intros fuel Le. destruct (H fuel ltac:(lia) xs2 d_one) as (E & _). rewrite E. apply H'. lia.
Qed.
(** The bounds in the statements are needed: a difference larger than the tolerance
    that is rounded to it. *)
Lemma rounds_to_tolerance : exists h f1 f2 error, live h f1 /\ live h f2 /\ fwin f1 = fwin f2 /\ finite error /\ ~ is_zero error /\
  (exists x y, In x (contents h f1) /\ In y (contents h f2) /\ finite x /\ finite y /\ Rabs (val error) < Rabs (val x - val y)) /\
  says (fun fuel => equal_abs64 fuel f1 f2 error) h true.
Proof.
  pose (t := dlit 1 (-60)). exists (heap2 d_one (dopp t)), xs, xs2, d_one. split; [apply live2; cbn; auto|]. split; [apply live2; cbn; auto|]. split; [reflexivity|].
  split; [reflexivity|]. split; [intros Z; apply eq_zero in Z; vm_compute in Z; discriminate|]. split.
  - exists d_one, (dopp t). rewrite (proj1 (contents2 _ _)), (proj2 (contents2 _ _)). split; [left; reflexivity|]. split; [left; reflexivity|].
    split; [reflexivity|]. split; [vm_compute; reflexivity|].
    assert (T : B2SF t = SpecFloat.S754_finite false 4503599627370496 (-112)) by (vm_compute; reflexivity).
    apply sf_val in T. cbn [SF2R cond_Zopp] in T. unfold F2R in T. cbn [Fnum Fexp] in T. pose proof (bpow_gt_0 radix2 (-112)) as Bp.
    assert (V1 : val d_one = 1) by apply one_val. unfold dopp, val at 3. rewrite B2R_Bopp. fold (val t). rewrite V1, T. rewrite !Rabs_pos_eq; nra.
  - apply all2. vm_compute. reflexivity.
Qed.
Lemma one_tolerance : finite d_half /\ ~ is_zero d_half /\ powerRZ 2 (-1022) <= Rabs (val d_half).
Proof.
  destruct half_val as (F & V). split; [exact F|]. split; [intros (_ & Z); rewrite V in Z; pose proof (bpow_gt_0 radix2 (-1)); lra|].
  rewrite V, p2, Rabs_pos_eq by (apply bpow_ge_0). apply bpow_le. lia.
Qed.
