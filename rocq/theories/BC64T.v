(** The overloads of the boundary-condition operator for fields and scalars in
    double precision, and access to coefficients (C72). *)
From Verif Require Import Prelude WindowM WindowS WindowP GhostM FieldM FieldS FieldP MaskM MaskS MaskP NeboM NeboS NeboP NeboQ NeboA NeboB NeboC NeboD NeboE NeboF NeboG StencilM StencilS StencilP StencilQ BCM BCS BCP BCQ BCE BCR RoundM RoundS HeatM BC64M BC64S BC64P BC64E.
Open Scope Z_scope.

Lemma nebo_bc_field64 n h b m phi gamma minus :
  let D := b_dest64 b in let S := b_src64 b in let e := bc_expr64 b m phi (EField dbl gamma) minus in
  operands_ok dbl n h e -> destination_ok dbl n h phi -> covers_extra dbl phi e -> (exists p, region dbl n phi e p) ->
  fbuf gamma <> fbuf phi ->
  (forall g, next_to minus (offset (b_gamma64 b)) (offset (b_phi64 b)) g (iv_add g D)) ->
  S <> D ->
  (forall g g', holds m g = true -> holds m g' = true -> region dbl n phi e (iv_add g D) -> region dbl n phi e (iv_add g' D) ->
     before (iv_add g D) (iv_add g' D) -> iv_add g S <> iv_add g' D) ->
  exists N, forall fuel, (N <= fuel)%nat -> exists h',
    run (bc_apply_field64 fuel b m phi gamma minus) h = RDone h' tt /\
    (forall g, holds m g = true -> region dbl n phi e (iv_add g D) ->
       solved h' phi D S (b_destcoef64 b) (b_srccoef64 b) (value dbl h gamma g) g) /\
    only_changed64 h h' (fun c i => c = fbuf phi /\
       exists g, holds m g = true /\ region dbl n phi e (iv_add g D) /\ i = cell phi (iv_add g D)).
Proof.
  intros D S e Op Dst Cov Ne Bu Side SD Ch.
  apply (nebo_bc64 n h b m phi (EField dbl gamma) minus); try assumption.
  - intros g s [E|[]]. injection E as <- <-. exact Bu.
  - intros g [].
Qed.
Lemma nebo_bc_scalar64 n h b m phi gamma minus :
  let D := b_dest64 b in let S := b_src64 b in let e := bc_expr64 b m phi (EScalar dbl gamma) minus in
  operands_ok dbl n h e -> destination_ok dbl n h phi -> covers_extra dbl phi e -> (exists p, region dbl n phi e p) ->
  (forall g, next_to minus (offset (b_gamma64 b)) (offset (b_phi64 b)) g (iv_add g D)) ->
  S <> D ->
  (forall g g', holds m g = true -> holds m g' = true -> region dbl n phi e (iv_add g D) -> region dbl n phi e (iv_add g' D) ->
     before (iv_add g D) (iv_add g' D) -> iv_add g S <> iv_add g' D) ->
  exists N, forall fuel, (N <= fuel)%nat -> exists h',
    run (bc_apply_scalar64 fuel b m phi gamma minus) h = RDone h' tt /\
    (forall g, holds m g = true -> region dbl n phi e (iv_add g D) ->
       solved h' phi D S (b_destcoef64 b) (b_srccoef64 b) gamma g) /\
    only_changed64 h h' (fun c i => c = fbuf phi /\
       exists g, holds m g = true /\ region dbl n phi e (iv_add g D) /\ i = cell phi (iv_add g D)).
Proof.
  intros D S e Op Dst Cov Ne Side SD Ch.
  apply (nebo_bc64 n h b m phi (EScalar dbl gamma) minus); try assumption.
  - intros g s [].
  - intros g [].
Qed.

Lemma coef_access64 (c : coefs dbl) i :
  (forall x, nth_error (fst c :: snd c) i = Some x -> get_coef64 c i = Ok x) /\
  (nth_error (fst c :: snd c) i = None -> get_coef64 c i = match i, snd c with 1%nat, [] => Ok (fst c) | _, _ => Throw end).
Proof.
  unfold get_coef64. split.
  - intros x ->. reflexivity.
  - intros E. rewrite E. destruct i as [|[|i]]; destruct (snd c); try reflexivity; discriminate.
Qed.

(** ** The field form on the example *)
Definition efexp := bc_expr64 ebc bmask bphi (EField dbl bgam) true.
Lemma ef_operands v : operands_ok dbl bdim (eheap v) efexp.
Proof.
  split; [|split].
  - intros f s I. assert (f = bphi \/ f = bgam) as [-> | ->] by (cbn in I; destruct I as [E|[E|[E|[]]]]; injection E as <- <-; auto).
    + split; [apply user_field_on_patch, user_b|]. intros p P. apply (user_bound bdim); [apply user_b|reflexivity|exact P].
    + split; [apply user_field_on_patch, user_gam|]. intros p P. apply (user_bound bdim); [apply user_gam|reflexivity|exact P].
  - intros k s I. assert (k = bmask) by (cbn in I; destruct I as [E|[]]; congruence). subst k.
    split; [apply user_field_on_patch, user_b|reflexivity].
  - intros f [].
Qed.
Lemma ef_covers : covers_extra dbl bphi efexp.
Proof. intros l a u I. cbn in I; repeat (destruct I as [E|I]; [injection E as <- <- <-; cbn; unfold GHOST_MAX; lia|]); destruct I. Qed.
Lemma ef_region x : -1 <= x <= 3 -> region dbl bdim bphi efexp (IV x 0 0).
Proof.
  intros X. split; [unfold any_cell, reach, in_region; cbn; lia|].
  intros l a u I q L U. unfold known, in_region, iv_le in *. cbn in I;
  repeat (destruct I as [E|I]; [injection E as <- <- <-; cbn in *; unfold GHOST_MAX; lia|]); destruct I.
Qed.
Lemma ef_chain : forall g g', holds bmask g = true -> holds bmask g' = true ->
  region dbl bdim bphi efexp (iv_add g (b_dest64 ebc)) -> region dbl bdim bphi efexp (iv_add g' (b_dest64 ebc)) ->
  before (iv_add g (b_dest64 ebc)) (iv_add g' (b_dest64 ebc)) -> iv_add g (b_src64 ebc) <> iv_add g' (b_dest64 ebc).
Proof.
  intros g g' H H' (R & _) (R' & _) _. unfold any_cell, reach, in_region in R, R'. cbn in R, R'.
  rewrite (b_holds g), (b_holds g'); try assumption; cbn; try lia. discriminate.
Qed.
