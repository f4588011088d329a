(** Instances and counterexamples for the boundary-condition theorems. *)
From Verif Require Import Prelude WindowM WindowS WindowP GhostM FieldM FieldS FieldP MaskM MaskS MaskP NeboM NeboS NeboP NeboQ NeboA NeboB NeboC NeboD NeboE NeboF NeboG StencilM StencilS StencilP StencilQ BCM BCS BCP BCQ.

(** A row of four cells with one ghost cell at each end. *)
Definition bdim : ivec := IV 4 1 1.
Definition bphi : field := patch_field bdim false false false iv_zero (mk_ghost (IV 1 0 0) (IV 1 0 0)) 0 1.
Definition bheap : heap Qc := fun b => Block (fun i => (0 <=? i) && (i <? 6)) (fun i => qc_of (i * i)).
(** The lower boundary face: the mask holds point 0 only. *)
Definition bmask : mask := Mask bphi [2].
(** Two faces next to each other. *)
Definition bmask2 : mask := Mask bphi [12].
Definition bbc : bc_builder := BCB (IV (-1) 0 0) (IV 0 0 0) SVol SSurfX half half.
Definition bgamma : expr Qc := EScalar Qc (qc_of 10).

Lemma bmask_made : mask_make bphi [IV 0 0 0] = Ok bmask /\ mask_make bphi [IV 1 0 0; IV 2 0 0] = Ok bmask2.
Proof. split; reflexivity. Qed.

Lemma user_b : user_field bdim bphi.
Proof. apply uf_make; cbn; unfold iv_le, g_nonneg, regular, regular1, iv_le; cbn; lia || reflexivity || (repeat split; lia). Qed.

Lemma b_operands m : m = bmask \/ m = bmask2 -> operands_ok Qc bdim bheap (bc_expr bbc m bphi bgamma true).
Proof.
  intros M. split; [|split].
  - intros f s I. assert (f = bphi) by (cbn in I; destruct I as [E|[E|[]]]; congruence). subst f.
    split; [apply user_field_on_patch, user_b|]. intros p P. apply (user_bound bdim); [apply user_b|reflexivity|exact P].
  - intros k s I. assert (k = m) by (cbn in I; destruct I as [E|[]]; congruence). subst k.
    destruct M as [-> | ->]; (split; [apply user_field_on_patch, user_b|reflexivity]).
  - intros f [].
Qed.
Lemma b_destination : destination_ok Qc bdim bheap bphi.
Proof.
  split; [apply user_field_on_patch, user_b|]. split; [reflexivity|]. intros p P. apply (user_bound' bdim); [apply user_b|reflexivity|exact P].
Qed.
Lemma b_covers m : m = bmask \/ m = bmask2 -> covers_extra Qc bphi (bc_expr bbc m bphi bgamma true).
Proof.
  intros M l a u I. destruct M as [-> | ->]; cbn in I; repeat (destruct I as [E|I]; [injection E as <- <- <-; cbn; unfold GHOST_MAX; lia|]); destruct I.
Qed.
Lemma b_region m x : m = bmask \/ m = bmask2 -> -1 <= x <= 3 -> region Qc bdim bphi (bc_expr bbc m bphi bgamma true) (IV x 0 0).
Proof.
  intros M X. split; [unfold any_cell, reach, in_region; cbn; lia|].
  intros l a u I q L U. unfold known, in_region, iv_le in *. destruct M as [-> | ->]; cbn in I;
  repeat (destruct I as [E|I]; [injection E as <- <- <-; cbn in *; unfold GHOST_MAX; lia|]); destruct I.
Qed.
Lemma b_side : forall g, next_to true (offset (b_gamma bbc)) (offset (b_phi bbc)) g (iv_add g (b_dest bbc)).
Proof. intros [x y z] []; cbn -[Z.mul Z.add]; lia. Qed.
Lemma b_region_inv m p : region Qc bdim bphi (bc_expr bbc m bphi bgamma true) p -> -1 <= ix p <= 4 /\ iy p = 0 /\ iz p = 0.
Proof. intros (A & _). unfold any_cell, reach, in_region in A. cbn in A. lia. Qed.
Lemma b_holds g : -1 <= ix (iv_add g (b_dest bbc)) <= 4 -> iy (iv_add g (b_dest bbc)) = 0 -> iz (iv_add g (b_dest bbc)) = 0 -> holds bmask g = true -> g = iv_zero.
Proof.
  destruct g as [x y z]. cbn [b_dest bbc iv_add ix iy iz]. intros X Y Z.
  assert (y = 0) by lia. assert (z = 0) by lia. subst y z.
  assert (C : x = 0 \/ x = 1 \/ x = 2 \/ x = 3 \/ x = 4 \/ x = 5) by lia.
  destruct C as [->|[->|[->|[->|[->| ->]]]]]; vm_compute; congruence.
Qed.
Lemma b_chain : let e := bc_expr bbc bmask bphi bgamma true in
  forall g g', holds bmask g = true -> holds bmask g' = true ->
  region Qc bdim bphi e (iv_add g (b_dest bbc)) -> region Qc bdim bphi e (iv_add g' (b_dest bbc)) ->
  before (iv_add g (b_dest bbc)) (iv_add g' (b_dest bbc)) -> iv_add g (b_src bbc) <> iv_add g' (b_dest bbc).
Proof.
  intros e g g' H H' R R' _. apply b_region_inv in R, R'. destruct R as (A & B & C), R' as (A' & B' & C').
  rewrite (b_holds g), (b_holds g') by assumption. vm_compute. congruence.
Qed.

Lemma qc_neq (a b : Qc) : Qeq_bool (this a) (this b) = false -> a <> b.
Proof. intros E ->. assert (X : Qeq_bool (this b) (this b) = true) by (apply Qeq_bool_iff; reflexivity). congruence. Qed.

(** Two neighbouring faces on the minus side: the cell computed for the first
    uses the old value of the cell that the second then overwrites. *)
Lemma b_chained : exists n h b m phi gamma g,
  let e := bc_expr b m phi gamma true in
  operands_ok Qc n h e /\ destination_ok Qc n h phi /\ covers_extra Qc phi e /\ reads Qc gamma iv_zero = [] /\ singles Qc gamma = [] /\
  (forall g, next_to true (offset (b_gamma b)) (offset (b_phi b)) g (iv_add g (b_dest b))) /\
  b_destcoef b <> 0%Qc /\ b_src b <> b_dest b /\ holds m g = true /\ region Qc n phi e (iv_add g (b_dest b)) /\
  exists h', run (bc_apply 100 b m phi gamma true) h = RDone h' tt /\
    two_point h' phi (b_dest b) (b_src b) (b_destcoef b) (b_srccoef b) g <> denote Qc Qcplus Qcmult h gamma g.
Proof.
  exists bdim, bheap, bbc, bmask2, bphi, bgamma, (IV 1 0 0). cbv zeta.
  split; [apply b_operands; auto|]. split; [exact b_destination|]. split; [apply b_covers; auto|]. split; [reflexivity|]. split; [reflexivity|].
  split; [exact b_side|]. split; [apply qc_neq; reflexivity|]. split; [discriminate|]. split; [reflexivity|].
  split; [apply b_region; [auto|cbn; lia]|].
  eexists. split; [reflexivity|]. apply qc_neq. vm_compute. reflexivity.
Qed.

(** ** Instances for BoundaryConditionOp *)
Lemma b_finite : finite_ghosts bphi.
Proof. unfold finite_ghosts, g_nonneg, iv_le. cbn. unfold GHOST_MAX. repeat split; lia. Qed.
Lemma b_block : block_exists bheap bphi.
Proof.
  intros [x y z] I. unfold in_block, in_box in I. cbn [bheap bcells]. unfold cell, addr.
  assert (W : fint bphi = Win (IV 6 1 1) (IV 1 0 0) (IV 4 1 1)) by reflexivity.
  rewrite W in *. cbn [wglob woff iv_add ix iy iz] in *. lia.
Qed.
Definition bpts : points := (IV (-1) 0 0, [IV 0 0 0]).
Definition bcoefs : coefs Qc := (half, [half]).

Lemma list_ghost_refuted : exists f h w ps c pts o o1 h' h1 p,
  finite_ghosts f /\ freadonly f = false /\ block_exists h f /\ w = fint f /\ ps = [p] /\
  (forall q, In q (fst pts :: snd pts) -> in_block f (iv_add p q)) /\
  bc_single pts c p MINUS_SIDE (qc_of 10) = Some (Ok o1) /\ run (bc_run 1 o1 f) h = RDone h1 tt /\
  bc_list pts c w ps MINUS_SIDE (qc_of 10) = Some (Ok o) /\ run (bc_run 1 o f) h = RDone h' tt /\
  value Qc h1 f (iv_add p (fst pts)) <> value Qc h f (iv_add p (fst pts)) /\
  value Qc h' f (iv_add p (fst pts)) = value Qc h f (iv_add p (fst pts)) /\
  value Qc h' f p <> value Qc h f p.
Proof.
  exists bphi, bheap, (fint bphi), [iv_zero], bcoefs, bpts. do 4 eexists. exists iv_zero.
  split; [exact b_finite|]. split; [reflexivity|]. split; [exact b_block|]. split; [reflexivity|]. split; [reflexivity|].
  split. { intros q [<-|[<-|[]]]; unfold in_block, in_box; cbn; lia. }
  split; [reflexivity|]. split; [reflexivity|]. split; [reflexivity|]. split; [reflexivity|].
  split; [apply qc_neq; vm_compute; reflexivity|]. split; [reflexivity|apply qc_neq; vm_compute; reflexivity].
Qed.

Lemma list_no_side_refuted : exists f h w ps c pts o o1 h' h1 p,
  finite_ghosts f /\ freadonly f = false /\ block_exists h f /\ wglob w = wext (fint f) /\ woff w = iv_zero /\ ps = [p] /\
  (forall q, In q (fst pts :: snd pts) -> in_box (wext (fint f)) (iv_add p q)) /\
  bc_single pts c p NO_SIDE (qc_of 10) = Some (Ok o1) /\ run (bc_run 1 o1 f) h = RDone h1 tt /\
  bc_list pts c w ps NO_SIDE (qc_of 10) = Some (Ok o) /\ run (bc_run 1 o f) h = RDone h' tt /\
  value Qc h1 f (iv_add p (fst pts)) <> value Qc h f (iv_add p (fst pts)) /\
  value Qc h' f (iv_add p (fst pts)) = value Qc h f (iv_add p (fst pts)) /\
  value Qc h' f p <> value Qc h f p.
Proof.
  exists bphi, bheap, (win_full bdim), [IV 1 0 0], bcoefs, bpts. do 4 eexists. exists (IV 1 0 0).
  split; [exact b_finite|]. split; [reflexivity|]. split; [exact b_block|]. split; [reflexivity|]. split; [reflexivity|]. split; [reflexivity|].
  split. { intros q [<-|[<-|[]]]; unfold in_box; cbn; lia. }
  split; [reflexivity|]. split; [reflexivity|]. split; [reflexivity|]. split; [reflexivity|].
  split; [apply qc_neq; vm_compute; reflexivity|]. split; [reflexivity|apply qc_neq; vm_compute; reflexivity].
Qed.

(** ** A field assigned from its own lower neighbour *)
Definition bshift : expr Qc := ESumStencil Qc (IV (-1) 0 0) [] (EField Qc bphi).
Lemma bs_operands : operands_ok Qc bdim bheap bshift.
Proof.
  split; [|split; [intros m s []|intros f []]].
  intros f s I. assert (f = bphi) by (cbn in I; destruct I as [E|[]]; congruence). subst f.
  split; [apply user_field_on_patch, user_b|]. intros p P. apply (user_bound bdim); [apply user_b|reflexivity|exact P].
Qed.
Lemma bs_covers : covers_extra Qc bphi bshift.
Proof. intros l a u I. cbn in I. destruct I as [E|[]]; injection E as <- <- <-; cbn; lia. Qed.
Lemma bs_region x : 0 <= x <= 4 -> region Qc bdim bphi bshift (IV x 0 0).
Proof.
  intros X. split; [unfold any_cell, reach, in_region; cbn; lia|].
  intros l a u I q L U. unfold known, in_region, iv_le in *. cbn in I. destruct I as [E|[]]. injection E as <- <- <-; cbn in *; lia.
Qed.
Lemma not_simultaneous : exists n h f (e : expr Qc) h' p,
  operands_ok Qc n h e /\ destination_ok Qc n h f /\ covers_extra Qc f e /\ singles Qc e = [] /\ region Qc n f e p /\
  run (fst (nebo_assign Qc Qcplus Qcmult 100 f e)) h = RDone h' tt /\
  value Qc h' f p <> denote Qc Qcplus Qcmult h e p.
Proof.
  exists bdim, bheap, bphi, bshift. eexists. exists (IV 1 0 0).
  split; [exact bs_operands|]. split; [exact b_destination|]. split; [exact bs_covers|]. split; [reflexivity|].
  split; [apply bs_region; lia|]. split; [reflexivity|]. apply qc_neq. vm_compute. reflexivity.
Qed.
