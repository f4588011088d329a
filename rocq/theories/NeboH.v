(** Reductions over the interior: maximum, minimum, sum and norm. *)
From Verif Require Import Prelude WindowM WindowS WindowP GhostM FieldM FieldS FieldP MaskM MaskS MaskP NeboM NeboS NeboP NeboQ NeboA NeboB NeboC NeboD NeboE NeboF.

Section NeboH.
Variable V : Type.
Variable vadd vmul : V -> V -> V.
Notation expr := (expr V). Notation heap := (heap V).
Notation denote := (denote V vadd vmul).
Notation expr_known := (expr_known V).
Notation operands_ok := (operands_ok V).

Lemma max_min_interior (n : ivec) (h : heap) (e : expr) ltb :
  pos_dims n -> operands_ok n h e -> has_leaf V e = true -> (forall p, in_box n p -> expr_known n e p) -> strict_order V ltb ->
  let val := denote h e in
  exists N hi lo, (forall fuel, (N <= fuel)%nat ->
      run (nebo_max_interior V vadd vmul fuel ltb e) h = RDone h hi /\ run (nebo_min_interior V vadd vmul fuel ltb e) h = RDone h lo) /\
    (exists p, in_box n p /\ hi = val p) /\ (exists p, in_box n p /\ lo = val p) /\
    forall p, in_box n p -> ltb hi (val p) = false /\ ltb (val p) lo = false.
Proof.
  intros P O L K S val. destruct (reduction_interior_ok V vadd vmul n h e P O L K) as (N & p0 & rest & (I & _) & _ & R).
  destruct (max_min_ok V ltb val p0 rest S) as ((A1 & A2) & (B1 & B2)).
  eexists N, _, _. split; [|split; [|split]].
  - intros fuel Hf. split; apply R; exact Hf.
  - destruct A1 as (p & J & E). exists p. split; [apply I; exact J|exact E].
  - destruct B1 as (p & J & E). exists p. split; [apply I; exact J|exact E].
  - intros p Q. apply I in Q. split; [apply A2|apply B2]; exact Q.
Qed.

Lemma sum_norm_interior (n : ivec) (h : heap) (e : expr) vsqrt vsquare :
  pos_dims n -> operands_ok n h e -> has_leaf V e = true -> (forall p, in_box n p -> expr_known n e p) ->
  let val := denote h e in
  exists N p0 rest, lists_in_order (in_box n) (p0 :: rest) /\
    forall fuel, (N <= fuel)%nat ->
      run (nebo_sum_interior V vadd vmul fuel e) h = RDone h (fold_left vadd (map val rest) (val p0)) /\
      run (nebo_norm_interior V vadd vmul fuel vsqrt vsquare e) h
      = RDone h (vsqrt (fold_left vadd (map (fun p => vsquare (val p)) rest) (vsquare (val p0)))).
Proof.
  intros (Px & Py & Pz) O HL K0 val. set (g := ghost_n 0).
  assert (B : forall p, box_of n g p <-> in_box n p) by (intros p; unfold box_of, in_region, in_box; cbn; lia).
  assert (Ex : 0 < ix (box_ext n g)) by (cbn; lia). assert (Ey : 0 < iy (box_ext n g)) by (cbn; lia).
  assert (Ez : 0 < iz (box_ext n g)) by (cbn; lia).
  assert (K : forall p, box_of n g p -> expr_known n e p) by (intros p P; apply K0, B, P).
  destruct (reduce_with_ok V vadd vmul n h e g O K Ex Ey Ez HL vadd (Z.to_nat (npts (box_ext n g))) (le_n _)) as (p0 & rest & El & _).
  exists (Z.to_nat (npts (box_ext n g))), p0, rest. split.
  { rewrite <- El. eapply lists_ext; [|apply box_list; assumption]. intros p. rewrite <- box_of_eq. apply B. }
  intros fuel Hf. split.
  - destruct (reduce_with_ok V vadd vmul n h e g O K Ex Ey Ez HL vadd fuel Hf) as (p0' & rest' & El' & S).
    rewrite El in El'. injection El' as <- <-. unfold nebo_sum_interior, nebo_reduce_interior. fold g.
    rewrite (solo_run V _ _ _ _ _ _ S). f_equal. apply fold_map.
  - destruct (reduce_with_ok V vadd vmul n h (EOp1 V vsquare e) g O K Ex Ey Ez HL vadd fuel Hf) as (p0' & rest' & El' & S).
    rewrite El in El'. injection El' as <- <-. unfold nebo_norm_interior, nebo_sum_interior, nebo_reduce_interior.
    assert (S' : solo (rd_valid V n (EOp1 V vsquare e)) (fun _ _ => False)
      (let* s := reduce_with V vadd vmul fuel g vadd (EOp1 V vsquare e) in Ret (vsqrt s)) h h
      (vsqrt (fold_left vadd (map (fun p => vsquare (val p)) rest) (vsquare (val p0))))).
    { eapply solo_bind; [exact S|]. cbn [NeboS.denote]. rewrite (fold_map vadd (fun p => vsquare (denote h e p))). apply solo_ret. }
    exact (solo_run V _ _ _ _ _ _ S').
Qed.
End NeboH.
