(** Operators in double precision: instances and counterexamples. *)
From Coq Require Import Reals Lra Lia.
From Flocq Require Import Core.
From Verif Require Import Prelude WindowM GhostM FieldM FieldS MaskM NeboM NeboS NeboP NeboQ NeboA NeboB NeboC NeboD NeboE NeboF StencilM StencilS StencilP StencilQ RoundM RoundS RoundP RoundQ RoundR RoundU RoundV.
Open Scope R_scope.

Ltac member := vm_compute; repeat (first [left; reflexivity|right]).
Lemma in_interp {V} (c : stencil_coefs V) : In (Interpolant, SVol, SSurfX, StencilOp (IV (-1) 0 0, [IV 0 0 0]) (coefHalf c)) (registered c).
Proof. member. Qed.
Lemma in_grad {V} (c : stencil_coefs V) : In (Gradient, SVol, SSurfX, StencilOp (IV (-1) 0 0, [IV 0 0 0]) (coefD c XDIR)) (registered c).
Proof. member. Qed.
Lemma in_four {V} (c : stencil_coefs V) : In (Interpolant, XVol, YVol, StencilOp (stencil4 (offset XVol) (offset YVol)) (coefQuarter c)) (registered c).
Proof. member. Qed.
Lemma in_filter {V} (c : stencil_coefs V) : In (Filter, SVol, SVol, AverageOp box3d) (registered c).
Proof. member. Qed.

(** ** Numbers *)
Definition d3 : dbl := dlit 3 0.
Definition third : dbl := ddiv d_one d3.
Definition least : dbl := dlit 1 (-1074).
Definition huge : dbl := dlit 1 1023.

Lemma tiny_lost : forall n Lx Ly Lz h p, exists b,
  In (Interpolant, SVol, SSurfX, b) (build_stencils64 n Lx Ly Lz) /\
  finite least /\ 0 < val least /\ den64 h (apply_op64 b (EScalar dbl least)) p = zero.
Proof.
  intros n Lx Ly Lz h p. eexists. split; [apply in_interp|]. split; [reflexivity|]. split.
  - unfold val. vm_compute B2R. unfold F2R. cbn -[bpow]. pose proof (bpow_gt_0 radix2 (-1074)). cbn -[bpow] in *. lra.
  - cbn [apply_op64 make_coefs64 coefHalf denote]. unfold two_point_coefs. cbn [combine fold_left denote fst snd]. vm_compute. reflexivity.
Qed.

Lemma val_d3 : val d3 = 3.
Proof. unfold val. vm_compute B2R. unfold F2R. cbn. lra. Qed.
Lemma third_range : / 4 <= val third <= / 2.
Proof. unfold val. vm_compute B2R. unfold F2R. cbn. lra. Qed.
Lemma ge_not_tiny r : / 4 <= r -> not_tiny r.
Proof.
  intros H. right. rewrite p2, Rabs_pos_eq by lra. apply Rle_trans with (bpow radix2 (-2)); [apply bpow_le; lia|cbn; lra].
Qed.

Lemma filter_lowers : forall n Lx Ly Lz h p, exists b,
  In (Filter, SVol, SVol, b) (build_stencils64 n Lx Ly Lz) /\ finite third /\ not_tiny (val third) /\
  finite (den64 h (apply_op64 b (EScalar dbl third)) p) /\ val (den64 h (apply_op64 b (EScalar dbl third)) p) < val third.
Proof.
  intros n Lx Ly Lz h p. exists (AverageOp box3d). split; [apply in_filter|]. split; [reflexivity|].
  split; [apply ge_not_tiny, third_range|]. rewrite average_value.
  change (ddiv d_one (dlit (points_length box3d) 0)) with c27.
  assert (E : forall q, den64 h (EScalar dbl third) q = third) by reflexivity.
  replace (map (fun q => den64 h (EScalar dbl third) q) (tl (cells_read box3d p))) with (repeat third 26) by reflexivity.
  rewrite E. set (r := dmul (fold_left dadd (repeat third 26) third) c27).
  assert (V : val r = 6004799503160660 * bpow radix2 (-54)) by (unfold r, val; vm_compute B2R; unfold F2R; cbn; lra).
  assert (V' : val third = 6004799503160661 * bpow radix2 (-54)) by (unfold val; vm_compute B2R; unfold F2R; cbn; lra).
  split; [reflexivity|]. rewrite V, V'. pose proof (bpow_gt_0 radix2 (-54)). lra.
Qed.

Lemma grad_overflows : forall h p, exists n b,
  In (Gradient, SVol, SSurfX, b) (build_stencils64 n d_one d_one d_one) /\ counts_ok n /\
  finite huge /\ finite (reciprocal n d_one d_one d_one Gradient XDIR) /\
  den64 h (apply_op64 b (EScalar dbl huge)) p = NaN.
Proof.
  intros h p. exists (IV 2 1 1). eexists. split; [apply in_grad|]. split; [intros []; cbn; lia|]. split; [reflexivity|]. split; [reflexivity|].
  cbn [apply_op64 make_coefs64 coefD denote]. unfold two_point_coefs. cbn [combine fold_left denote fst snd]. vm_compute. reflexivity.
Qed.

Lemma fused_grad : exists n k, counts_ok n /\ finite k /\
  let r := reciprocal n d_one d_one d_one Gradient XDIR in
  finite (dmul k r) /\ dadd (dmul k (dopp r)) (dmul k r) = zero /\ val (fused k r (dmul k (dopp r))) < 0.
Proof.
  exists (IV 49 1 1), (dlit 49 0). split; [intros []; cbn; lia|]. split; [reflexivity|]. cbv zeta. split; [reflexivity|].
  split; [vm_compute; reflexivity|].
  assert (V : val (fused (dlit 49 0) (reciprocal (IV 49 1 1) d_one d_one d_one Gradient XDIR)
    (dmul (dlit 49 0) (dopp (reciprocal (IV 49 1 1) d_one d_one d_one Gradient XDIR)))) = - 8444249301319680 * bpow radix2 (-96))
   by (unfold val; vm_compute B2R; unfold F2R; cbn; lra).
  rewrite V. pose proof (bpow_gt_0 radix2 (-96)). lra.
Qed.

(** ** An instance in memory *)
Definition heap64 : heap dbl := fun b => Block (fun i => (0 <=? i)%Z && (i <? 200)%Z) (fun i => if Z.even i then d_one else d3).
Lemma heap64_values q : finite (value dbl heap64 xs q) /\ not_tiny (val (value dbl heap64 xs q)) /\ 1 <= val (value dbl heap64 xs q) <= 3.
Proof.
  unfold value, heap64. cbn [bdata]. destruct (Z.even _).
  - destruct one_val as [F V]. rewrite V. split; [exact F|]. split; [apply ge_not_tiny|]; lra.
  - rewrite val_d3. split; [reflexivity|]. split; [apply ge_not_tiny|]; lra.
Qed.
Lemma memory_met b cs : b = StencilOp (IV (-1) 0 0, [IV 0 0 0]) cs ->
  on_patch xdim xs /\ (forall p, valid_cell xdim xs p -> bcells (heap64 (fbuf xs)) (cell xs p) = true) /\
  destination_ok dbl xdim heap64 xf /\ fbuf xs <> fbuf xf /\ covers_extra dbl xf (apply_op64 b (EField dbl xs)) /\
  region dbl xdim xf (apply_op64 b (EField dbl xs)) (IV 3 1 0).
Proof.
  intros ->. destruct cs as (c0 & cs).
  split; [apply user_field_on_patch, user_xs|]. split; [intros p P; apply xcell_ok; cbn; auto|].
  split; [split; [apply user_field_on_patch, user_xf|split; [reflexivity|intros p P; apply xcell_ok; cbn; auto]]|].
  split; [discriminate|]. split.
  - intros l m u I. destruct cs; cbn in I; repeat (destruct I as [E|I]; [injection E as <- <- <-; cbn; unfold GHOST_MAX; lia|]); destruct I.
  - split; [unfold any_cell, reach, in_region; cbn; lia|].
    intros l m u I q L U. unfold known, in_region, iv_le in *.
    destruct cs; cbn in I; repeat (destruct I as [E|I]; [injection E as <- <- <-; cbn in *; unfold GHOST_MAX; lia|]); destruct I.
Qed.

(** The hypotheses about numbers, for these values. *)
Definition n3 : ivec := IV 3 2 1.
Notation r3 := (reciprocal n3 d_one d_one d_one Gradient XDIR).
Notation s3 := (spacing64 n3 d_one d_one d_one XDIR).
Lemma met_counts : counts_ok n3. Proof. intros []; cbn; lia. Qed.
Lemma met_spacing : finite s3 /\ 0 < Rabs (val s3) <= powerRZ 2 1020.
Proof.
  assert (V : / 4 <= val s3 <= / 2) by (unfold val; vm_compute B2R; unfold F2R; cbn; lra).
  split; [reflexivity|]. rewrite p2, Rabs_pos_eq by lra. split; [lra|]. apply Rle_trans with (bpow radix2 0); [change (bpow radix2 0) with 1; change (bpow radix2 2) with 4; lra|apply bpow_le; lia].
Qed.
Lemma met_products q : finite (dmul (value dbl heap64 xs q) r3) /\
  (val (value dbl heap64 xs q) = 0 \/ powerRZ 2 (-1020) <= Rabs (val (dmul (value dbl heap64 xs q) r3))).
Proof.
  unfold value, heap64. cbn [bdata]. destruct (Z.even _).
  - assert (V : 1 <= val (dmul d_one r3) <= 10) by (unfold val; vm_compute B2R; unfold F2R; cbn; lra).
    split; [reflexivity|right]. rewrite p2, Rabs_pos_eq by lra. apply Rle_trans with (bpow radix2 0); [apply bpow_le; lia|change (bpow radix2 0) with 1; lra].
  - assert (V : 1 <= val (dmul d3 r3) <= 10) by (unfold val; vm_compute B2R; unfold F2R; cbn; lra).
    split; [reflexivity|right]. rewrite p2, Rabs_pos_eq by lra. apply Rle_trans with (bpow radix2 0); [apply bpow_le; lia|change (bpow radix2 0) with 1; lra].
Qed.
Lemma met_two : two_cells Gradient SVol SSurfX (IV 3 1 0) (IV 2 1 0) (IV 3 1 0) /\ two_cells Interpolant SVol SSurfX (IV 3 1 0) (IV 2 1 0) (IV 3 1 0).
Proof. split; (split; [reflexivity|split; [|split; [|exists XDIR; cbn; lia]]]; intros []; cbn; lia). Qed.
Lemma met_four : NoDup [IV 5 4 5; IV 6 4 5; IV 5 5 5; IV 6 5 5] /\
  forall q, read_cell Interpolant XVol YVol (IV 5 5 5) q <-> In q [IV 5 4 5; IV 6 4 5; IV 5 5 5; IV 6 5 5].
Proof.
  destruct (four_points (offset XVol) (offset YVol) (offset_staggered XVol) (offset_staggered YVol) eq_refl (IV 5 5 5)) as (_ & N & A & _).
  change (cells_read (stencil4 (offset XVol) (offset YVol)) (IV 5 5 5)) with [IV 5 4 5; IV 6 4 5; IV 5 5 5; IV 6 5 5] in *.
  split; [exact N|]. intros q. symmetry. apply A.
Qed.
Lemma met_filter : powerRZ 2 (-1000) <= 3 <= powerRZ 2 1018.
Proof.
  rewrite !p2. split; [apply Rle_trans with (bpow radix2 0); [apply bpow_le; lia|change (bpow radix2 0) with 1; lra]|].
  apply Rle_trans with (bpow radix2 2); [change (bpow radix2 0) with 1; change (bpow radix2 2) with 4; lra|apply bpow_le; lia].
Qed.
