(** Examples for the boundary-condition operators in double precision. *)
From Coq Require Import Reals Lra Lia.
From Flocq Require Import Core.
From Verif Require Import Prelude WindowM WindowS WindowP GhostM FieldM FieldS FieldP MaskM MaskS MaskP NeboM NeboS NeboP NeboQ NeboA NeboB NeboC NeboD NeboE NeboF NeboG StencilM StencilS StencilP StencilQ BCM BCS BCP BCQ BCE RoundM RoundS RoundP RoundQ RoundT HeatM Cmp64P Part64Q Grid64Q BC64M BC64S BC64Q BC64R.
Open Scope Z_scope.

(** The row of four cells of BCE with one ghost cell at each end, all cells 186. *)
Definition eheap (v : dbl) : heap dbl := fun b => Block (fun i => (0 <=? i) && (i <? 6)) (fun i => v).
Definition ebc : bc_builder64 := BCB64 (IV (-1) 0 0) (IV 0 0 0) SVol SSurfX d_half d_half.
Definition egamma : expr dbl := EScalar dbl (dlit 100 0).
Definition eexp := bc_expr64 ebc bmask bphi egamma true.

Lemma e_operands v : operands_ok dbl bdim (eheap v) eexp.
Proof.
  split; [|split].
  - intros f s I. assert (f = bphi) by (cbn in I; destruct I as [E|[E|[]]]; congruence). subst f.
    split; [apply user_field_on_patch, user_b|]. intros p P. apply (user_bound bdim); [apply user_b|reflexivity|exact P].
  - intros k s I. assert (k = bmask) by (cbn in I; destruct I as [E|[]]; congruence). subst k.
    split; [apply user_field_on_patch, user_b|reflexivity].
  - intros f [].
Qed.
Lemma e_destination v : destination_ok dbl bdim (eheap v) bphi.
Proof.
  split; [apply user_field_on_patch, user_b|]. split; [reflexivity|]. intros p P. apply (user_bound' bdim); [apply user_b|reflexivity|exact P].
Qed.
Lemma e_covers : covers_extra dbl bphi eexp.
Proof.
  intros l a u I. cbn in I; repeat (destruct I as [E|I]; [injection E as <- <- <-; cbn; unfold GHOST_MAX; lia|]); destruct I.
Qed.
Lemma e_region x : -1 <= x <= 3 -> region dbl bdim bphi eexp (IV x 0 0).
Proof.
  intros X. split; [unfold any_cell, reach, in_region; cbn; lia|].
  intros l a u I q L U. unfold known, in_region, iv_le in *. cbn in I;
  repeat (destruct I as [E|I]; [injection E as <- <- <-; cbn in *; unfold GHOST_MAX; lia|]); destruct I.
Qed.
Lemma e_side : forall g, next_to true (offset (b_gamma64 ebc)) (offset (b_phi64 ebc)) g (iv_add g (b_dest64 ebc)).
Proof. intros [x y z] []; cbn -[Z.mul Z.add]; lia. Qed.
Lemma e_region_inv p : region dbl bdim bphi eexp p -> -1 <= ix p <= 4 /\ iy p = 0 /\ iz p = 0.
Proof. intros (A & _). unfold any_cell, reach, in_region in A. cbn in A. lia. Qed.
Lemma e_chain : forall g g', holds bmask g = true -> holds bmask g' = true ->
  region dbl bdim bphi eexp (iv_add g (b_dest64 ebc)) -> region dbl bdim bphi eexp (iv_add g' (b_dest64 ebc)) ->
  before (iv_add g (b_dest64 ebc)) (iv_add g' (b_dest64 ebc)) -> iv_add g (b_src64 ebc) <> iv_add g' (b_dest64 ebc).
Proof.
  intros g g' H H' R R' _. apply e_region_inv in R, R'. destruct R as (A & B & C), R' as (A' & B' & C').
  rewrite (b_holds g), (b_holds g') by assumption. vm_compute. congruence.
Qed.
Lemma e_block v : block_exists64 (eheap v) bphi.
Proof.
  intros [x y z] I. unfold in_block, in_box in I. cbn [eheap bcells]. unfold cell, addr.
  assert (W : fint bphi = Win (IV 6 1 1) (IV 1 0 0) (IV 4 1 1)) by reflexivity.
  rewrite W in *. cbn [wglob woff iv_add ix iy iz] in *. lia.
Qed.

(** The registered gradient from cells to x faces on a patch of four cells of
    length [l] in all. *)
Definition grad_at (l : dbl) : coefs dbl := (ddiv (dopp d_one) (ddiv l (dlit 4 0)), [ddiv d_one (ddiv l (dlit 4 0))]).
Lemma grad_registered l : In (Gradient, SVol, SSurfX, StencilOp (IV (-1) 0 0, [IV 0 0 0]) (grad_at l)) (build_stencils64 bdim l l l).
Proof. cbv -[ddiv dopp d_one dlit grad_at]. unfold grad_at. repeat (first [left; reflexivity | right]). Qed.

Lemma strict_nz (r : dbl) : is_finite_strict r = true -> finite r /\ val r <> 0%R.
Proof.
  destruct r as [s|s| |s m e B]; try discriminate. intros _. split; [reflexivity|].
  unfold val. cbn. intros E. apply eq_0_F2R in E. destruct s; discriminate.
Qed.
(** What the operator for one point leaves in the row: the source is as before. *)
Lemma e_run c0 c1 s v w : exists o h', bc_single64 (IV (-1) 0 0, [IV 0 0 0]) (c0, [c1]) iv_zero s v = Some (Ok o) /\
  run (bc_run64 1 o bphi) (eheap w) = RDone h' tt /\
  (s <> PLUS_SIDE -> applied h' bphi (IV (-1) 0 0) (IV 0 0 0) c0 c1 iv_zero = dadd (dmul (ddiv (dsub v (dmul w c1)) c0) c0) (dmul w c1)).
Proof.
  destruct (bc_single_run64 (IV (-1) 0 0) (IV 0 0 0) c0 c1 iv_zero s v bphi (eheap w) 1%nat b_finite eq_refl (e_block w)) as (o & h' & E & R & Sv & _ & Oc).
  1, 2: unfold in_block, in_box; cbn; lia.
  1: discriminate.
  1: lia.
  exists o, h'. split; [exact E|]. split; [exact R|]. intros NS.
  assert (V : value dbl h' bphi (iv_add iv_zero (IV 0 0 0)) = w).
  { unfold value. rewrite Oc; [reflexivity|]. intros (_ & X). destruct s; try (contradiction NS; reflexivity); vm_compute in X; discriminate. }
  rewrite applied_eq, V. unfold solved in Sv. rewrite V in Sv. destruct s; try (contradiction NS; reflexivity); rewrite Sv; reflexivity.
Qed.

Lemma flux_off : exists n f h l h' o, let c := grad_at l in
  In (Gradient, SVol, SSurfX, StencilOp (IV (-1) 0 0, [IV 0 0 0]) c) (build_stencils64 n l l l) /\ block_exists64 h f /\
  (forall p, value dbl h f p = dlit 186 0) /\ l = dlit 372 0 /\
  bc_single64 (IV (-1) 0 0, [IV 0 0 0]) c iv_zero MINUS_SIDE zero = Some (Ok o) /\
  run (bc_run64 1 o f) h = RDone h' tt /\
  let r := denote dbl dadd dmul h' (apply_op64 (StencilOp (IV (-1) 0 0, [IV 0 0 0]) c) (EField dbl f)) iv_zero in
  finite r /\ val r <> 0%R.
Proof.
  destruct (e_run (fst (grad_at (dlit 372 0))) (ddiv d_one (ddiv (dlit 372 0) (dlit 4 0))) MINUS_SIDE zero (dlit 186 0)) as (o & h' & E & R & A).
  exists bdim, bphi, (eheap (dlit 186 0)), (dlit 372 0), h', o. cbv zeta. split; [apply grad_registered|]. split; [apply e_block|]. split; [reflexivity|].
  split; [reflexivity|]. split; [exact E|]. split; [exact R|]. apply strict_nz.
  change (denote _ _ _ _ _ _) with (applied h' bphi (IV (-1) 0 0) (IV 0 0 0) (fst (grad_at (dlit 372 0))) (ddiv d_one (ddiv (dlit 372 0) (dlit 4 0))) iv_zero).
  rewrite A by discriminate. vm_compute. reflexivity.
Qed.
Lemma half_off : exists f h gamma h' o,
  block_exists64 h f /\ (forall p, value dbl h f p = dlit 2 0) /\ gamma = dlit 1 (-60) /\
  bc_single64 (IV (-1) 0 0, [IV 0 0 0]) (d_half, [d_half]) iv_zero MINUS_SIDE gamma = Some (Ok o) /\
  run (bc_run64 1 o f) h = RDone h' tt /\
  applied h' f (IV (-1) 0 0) (IV 0 0 0) d_half d_half iv_zero = zero.
Proof.
  destruct (e_run d_half d_half MINUS_SIDE (dlit 1 (-60)) (dlit 2 0)) as (o & h' & E & R & A).
  exists bphi, (eheap (dlit 2 0)), (dlit 1 (-60)), h', o. split; [apply e_block|]. split; [reflexivity|]. split; [reflexivity|].
  split; [exact E|]. split; [exact R|]. rewrite A by discriminate. apply B2SF_inj. vm_compute. reflexivity.
Qed.
(** A zero coefficient at the cell to be set: the result is not a number. *)
Lemma zero_coef : exists f h gamma h' o,
  block_exists64 h f /\ (forall p, value dbl h f p = d_one) /\ gamma = d_one /\
  bc_single64 (IV (-1) 0 0, [IV 0 0 0]) (zero, [d_one]) iv_zero MINUS_SIDE gamma = Some (Ok o) /\
  run (bc_run64 1 o f) h = RDone h' tt /\
  applied h' f (IV (-1) 0 0) (IV 0 0 0) zero d_one iv_zero = B754_nan.
Proof.
  destruct (e_run zero d_one MINUS_SIDE d_one d_one) as (o & h' & E & R & A).
  exists bphi, (eheap d_one), d_one, h', o. split; [apply e_block|]. split; [reflexivity|]. split; [reflexivity|].
  split; [exact E|]. split; [exact R|]. rewrite A by discriminate. apply B2SF_inj. vm_compute. reflexivity.
Qed.

(** Values of the instance for the numeric theorems: gamma 100, source 186,
    spacing 93, so that 186/93 rounds to 2 but 150/93 to no power of two. *)
Lemma int_usual k : (k = 0 \/ 1 <= Z.abs k <= 2 ^ 31) -> usual (dlit k 0).
Proof.
  intros H. destruct (int_val k ltac:(lia)) as (F & V). unfold usual. rewrite V, <- abs_IZR, !p2. split; [exact F|]. split.
  - destruct H as [->|(L & _)]; [left; reflexivity|right]. apply Rle_trans with (b2 0); [apply bpow_le; lia|]. apply (IZR_le 1). exact L.
  - apply Rle_trans with (IZR (2 ^ 31)); [apply IZR_le; lia|]. change (IZR (2 ^ 31)) with (b2 31). apply bpow_le. lia.
Qed.
Lemma fifteen : val (dmul (dlit 5 0) (dlit 3 0)) = 15%R /\ ~ power_of_two (val (dmul (dlit 5 0) (dlit 3 0))).
Proof.
  assert (E : val (dmul (dlit 5 0) (dlit 3 0)) = 15%R) by (unfold val; vm_compute B2R; unfold F2R; cbn; lra).
  split; [exact E|]. rewrite E. intros (k & K). rewrite p2, Rabs_pos_eq in K by lra.
  assert (A : (b2 3 < b2 k)%R) by (rewrite <- K; cbn; lra). assert (B : (b2 k < b2 4)%R) by (rewrite <- K; cbn; lra).
  apply lt_bpow in A, B. lia.
Qed.
Lemma solved_ex : exists h, solved h bphi (IV (-1) 0 0) (IV 0 0 0) (dlit (-3) 0) (dlit 3 0) zero iv_zero /\ value dbl h bphi (iv_add iv_zero (IV 0 0 0)) = dlit 5 0.
Proof.
  exists (fun _ => Block (fun _ => true) (fun i => if i =? 0 then ddiv (dsub zero (dmul (dlit 5 0) (dlit 3 0))) (dlit (-3) 0) else dlit 5 0)).
  split; [|reflexivity]. unfold solved. reflexivity.
Qed.
Lemma e_hyps :
  (operands_ok dbl bdim (eheap d_one) eexp /\ destination_ok dbl bdim (eheap d_one) bphi /\ covers_extra dbl bphi eexp /\
   (forall g, next_to true (offset (b_gamma64 ebc)) (offset (b_phi64 ebc)) g (iv_add g (b_dest64 ebc))) /\
   b_src64 ebc <> b_dest64 ebc /\
   (forall g g', holds bmask g = true -> holds bmask g' = true ->
     region dbl bdim bphi eexp (iv_add g (b_dest64 ebc)) -> region dbl bdim bphi eexp (iv_add g' (b_dest64 ebc)) ->
     before (iv_add g (b_dest64 ebc)) (iv_add g' (b_dest64 ebc)) -> iv_add g (b_src64 ebc) <> iv_add g' (b_dest64 ebc)) /\
   holds bmask (IV 0 0 0) = true /\ region dbl bdim bphi eexp (iv_add (IV 0 0 0) (b_dest64 ebc))) /\
  (finite_ghosts bphi /\ freadonly bphi = false /\ block_exists64 (eheap d_one) bphi /\
   stencil2 (offset SVol) (offset SSurfX) = (IV (-1) 0 0, [IV 0 0 0]) /\
   in_block bphi (iv_add (IV 0 0 0) (IV (-1) 0 0)) /\ in_block bphi (iv_add (IV 0 0 0) (IV 0 0 0))) /\
  exists h, solved h bphi (IV (-1) 0 0) (IV 0 0 0) (dlit (-3) 0) (dlit 3 0) zero iv_zero /\
    usual (value dbl h bphi (iv_add iv_zero (IV 0 0 0))) /\ usual zero /\ usual (dlit (-3) 0) /\ usual (dlit 3 0) /\ val (dlit (-3) 0) <> 0%R /\
    val zero = 0%R /\ (val (dlit (-3) 0) = - val (dlit 3 0))%R /\ ~ power_of_two (val (dmul (value dbl h bphi (iv_add iv_zero (IV 0 0 0))) (dlit 3 0))).
Proof.
  split; [|split].
  - refine (conj (e_operands _) (conj (e_destination _) (conj e_covers (conj e_side (conj _ (conj e_chain (conj eq_refl (e_region _ _)))))))); [discriminate|cbn; lia].
  - refine (conj b_finite (conj eq_refl (conj (e_block _) (conj eq_refl _)))). unfold in_block, in_box. cbn. lia.
  - destruct solved_ex as (h & S & V). exists h. rewrite V. split; [exact S|].
    destruct (int_val (-3) ltac:(lia)) as (_ & V1), (int_val 3 ltac:(lia)) as (_ & V2).
    split; [apply int_usual; lia|]. split; [apply (int_usual 0); lia|]. split; [apply int_usual; lia|]. split; [apply int_usual; lia|].
    split; [rewrite V1; lra|]. split; [reflexivity|]. split; [rewrite V1, V2; lra|]. apply fifteen.
Qed.
