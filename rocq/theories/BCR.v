(** The overloads of the boundary-condition operator for fields and scalars, and
    access to coefficients (C38). *)
From Verif Require Import Prelude WindowM WindowS WindowP GhostM FieldM FieldS FieldP MaskM MaskS MaskP NeboM NeboS NeboP NeboQ NeboA NeboB NeboC NeboD NeboE NeboF NeboG StencilM StencilS StencilP StencilQ BCM BCS BCP BCQ BCE.

Lemma nebo_bc_field n h b m phi gamma minus :
  let D := b_dest b in let S := b_src b in let e := bc_expr b m phi (EField Qc gamma) minus in
  operands_ok Qc n h e -> destination_ok Qc n h phi -> covers_extra Qc phi e -> (exists p, region Qc n phi e p) ->
  fbuf gamma <> fbuf phi ->
  (forall g, next_to minus (offset (b_gamma b)) (offset (b_phi b)) g (iv_add g D)) ->
  b_destcoef b <> 0%Qc -> S <> D ->
  (forall g g', holds m g = true -> holds m g' = true -> region Qc n phi e (iv_add g D) -> region Qc n phi e (iv_add g' D) ->
     before (iv_add g D) (iv_add g' D) -> iv_add g S <> iv_add g' D) ->
  exists N, forall fuel, (N <= fuel)%nat -> exists h',
    run (bc_apply_field fuel b m phi gamma minus) h = RDone h' tt /\
    (forall g, holds m g = true -> region Qc n phi e (iv_add g D) ->
       two_point h' phi D S (b_destcoef b) (b_srccoef b) g = value Qc h gamma g) /\
    only_changed h h' (fun c i => c = fbuf phi /\
       exists g, holds m g = true /\ region Qc n phi e (iv_add g D) /\ i = cell phi (iv_add g D)).
Proof.
  intros D S e Op Dst Cov Ne Bu Side Nz SD Ch.
  apply (nebo_bc n h b m phi (EField Qc gamma) minus); try assumption.
  - intros g s [E|[]]. injection E as <- <-. exact Bu.
  - intros g [].
Qed.
Lemma nebo_bc_scalar n h b m phi gamma minus :
  let D := b_dest b in let S := b_src b in let e := bc_expr b m phi (EScalar Qc gamma) minus in
  operands_ok Qc n h e -> destination_ok Qc n h phi -> covers_extra Qc phi e -> (exists p, region Qc n phi e p) ->
  (forall g, next_to minus (offset (b_gamma b)) (offset (b_phi b)) g (iv_add g D)) ->
  b_destcoef b <> 0%Qc -> S <> D ->
  (forall g g', holds m g = true -> holds m g' = true -> region Qc n phi e (iv_add g D) -> region Qc n phi e (iv_add g' D) ->
     before (iv_add g D) (iv_add g' D) -> iv_add g S <> iv_add g' D) ->
  exists N, forall fuel, (N <= fuel)%nat -> exists h',
    run (bc_apply_scalar fuel b m phi gamma minus) h = RDone h' tt /\
    (forall g, holds m g = true -> region Qc n phi e (iv_add g D) ->
       two_point h' phi D S (b_destcoef b) (b_srccoef b) g = gamma) /\
    only_changed h h' (fun c i => c = fbuf phi /\
       exists g, holds m g = true /\ region Qc n phi e (iv_add g D) /\ i = cell phi (iv_add g D)).
Proof.
  intros D S e Op Dst Cov Ne Side Nz SD Ch.
  apply (nebo_bc n h b m phi (EScalar Qc gamma) minus); try assumption.
  - intros g s [].
  - intros g [].
Qed.

(** Coefficients by number; one too many is accepted when there is only one. *)
Lemma coef_access (c : coefs Qc) i :
  (forall x, nth_error (fst c :: snd c) i = Some x -> get_coef c i = Ok x) /\
  (nth_error (fst c :: snd c) i = None -> get_coef c i = match i, snd c with 1%nat, [] => Ok (fst c) | _, _ => Throw end).
Proof.
  unfold get_coef. split.
  - intros x ->. reflexivity.
  - intros E. rewrite E. destruct i as [|[|i]]; destruct (snd c); try reflexivity; discriminate.
Qed.

(** ** The field form on the example *)
Definition bgam : field := patch_field bdim false false false iv_zero (mk_ghost (IV 1 0 0) (IV 1 0 0)) 1 1.
Lemma user_gam : user_field bdim bgam.
Proof. apply uf_make; cbn; unfold iv_le, g_nonneg, regular, regular1, iv_le; cbn; lia || reflexivity || (repeat split; lia). Qed.
Lemma bf_operands : operands_ok Qc bdim bheap (bc_expr bbc bmask bphi (EField Qc bgam) true).
Proof.
  split; [|split].
  - intros f s I. assert (f = bphi \/ f = bgam) as [-> | ->] by (cbn in I; destruct I as [E|[E|[E|[]]]]; injection E as <- <-; auto).
    + split; [apply user_field_on_patch, user_b|]. intros p P. apply (user_bound bdim); [apply user_b|reflexivity|exact P].
    + split; [apply user_field_on_patch, user_gam|]. intros p P. apply (user_bound bdim); [apply user_gam|reflexivity|exact P].
  - intros k s I. assert (k = bmask) by (cbn in I; destruct I as [E|[]]; congruence). subst k.
    split; [apply user_field_on_patch, user_b|reflexivity].
  - intros f [].
Qed.
Lemma bf_covers : covers_extra Qc bphi (bc_expr bbc bmask bphi (EField Qc bgam) true).
Proof. intros l a u I. cbn in I; repeat (destruct I as [E|I]; [injection E as <- <- <-; cbn; unfold GHOST_MAX; lia|]); destruct I. Qed.
Lemma bf_region x : -1 <= x <= 3 -> region Qc bdim bphi (bc_expr bbc bmask bphi (EField Qc bgam) true) (IV x 0 0).
Proof.
  intros X. split; [unfold any_cell, reach, in_region; cbn; lia|].
  intros l a u I q L U. unfold known, in_region, iv_le in *. cbn in I;
  repeat (destruct I as [E|I]; [injection E as <- <- <-; cbn in *; unfold GHOST_MAX; lia|]); destruct I.
Qed.
Lemma bf_chain : let e := bc_expr bbc bmask bphi (EField Qc bgam) true in
  forall g g', holds bmask g = true -> holds bmask g' = true ->
  region Qc bdim bphi e (iv_add g (b_dest bbc)) -> region Qc bdim bphi e (iv_add g' (b_dest bbc)) ->
  before (iv_add g (b_dest bbc)) (iv_add g' (b_dest bbc)) -> iv_add g (b_src bbc) <> iv_add g' (b_dest bbc).
Proof.
  intros e g g' H H' (R & _) (R' & _) _. unfold any_cell, reach, in_region in R, R'. cbn in R, R'.
  rewrite (b_holds g), (b_holds g'); try assumption; cbn; try lia. vm_compute. congruence.
Qed.
