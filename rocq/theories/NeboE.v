(** Non-trivial instances for the Nebo theorems. *)
From Verif Require Import Prelude WindowM WindowS WindowP GhostM FieldM FieldS FieldP MaskM MaskS MaskP NeboM NeboS NeboP NeboQ NeboA NeboB NeboC NeboD.

(** A 3 x 2 x 1 patch; ghosts in x and y only. *)
Definition xdim : ivec := IV 3 2 1.
Definition xg (n : Z) : ghost := mk_ghost (IV n n 0) (IV n n 0).
(** Destination with a boundary extra cell in x, source with two ghost layers,
    and a source whose valid ghosts were reduced to one layer. *)
Definition xf : field := patch_field xdim true false false (IV 1 1 1) (xg 1) 0 4.
Definition xs : field := patch_field xdim false false false (IV 1 1 1) (xg 2) 1 4.
Definition xt : field := reset_valid_ghosts (patch_field xdim true true false (IV 1 1 1) (xg 2) 2 4) (xg 1).
Definition xv : field := patch_field (IV 1 1 1) false false false iv_zero (mk_ghost iv_zero iv_zero) 3 1.
Definition xm : mask := Mask xs (repeat 5 (Z.to_nat (round_to_int (glob_npts (fint xs))))).
Definition xheap : heap Z := fun b => Block (fun i => (0 <=? i) && (i <? 200)) (fun i => Z.of_nat b * 1000 + i).

(** where mask: centred x difference of xs plus a y average of xt; else the single value *)
Definition xe : expr Z :=
  ECond Z (BOr Z (BMask Z xm) (BShift Z (IV 0 1 0) (BNot Z (BMask Z xm))))
    (EOp2 Z Z.add (EStencil Z (IV (-1) 0 0) (-1) [(IV 1 0 0, 1)] (EField Z xs))
                  (ESumStencil Z (IV 0 0 0) [] (EField Z xt)))
    (EOp2 Z Z.mul (ESingle Z xv) (EOp1 Z Z.opp (EField Z xf))).

Lemma user_xs : user_field xdim xs.
Proof. apply uf_make; cbn; unfold iv_le, g_nonneg, regular, regular1, iv_le; cbn; lia || reflexivity || (repeat split; lia). Qed.
Lemma user_xf : user_field xdim xf.
Proof. apply uf_make; cbn; unfold iv_le, g_nonneg, regular, regular1, iv_le; cbn; lia || reflexivity || (repeat split; lia). Qed.
Lemma user_xt : user_field xdim xt.
Proof.
  apply uf_reset; [apply uf_make; cbn; unfold iv_le, g_nonneg, regular, regular1, iv_le; cbn; lia || reflexivity || (repeat split; lia)|..];
  unfold g_nonneg, g_le, iv_le; cbn; lia || reflexivity || (repeat split; lia).
Qed.

Lemma xcell_ok f p : In f [xs; xf; xt] -> any_cell xdim f p \/ valid_cell xdim f p -> (0 <=? cell f p) && (cell f p <? 200) = true.
Proof.
  intros I H. assert (B : 0 <= cell f p < 200); [|lia].
  assert (E1 : fint xs = Win (IV 7 6 1) (IV 2 2 0) (IV 3 2 1)) by reflexivity.
  assert (E2 : fint xf = Win (IV 6 4 1) (IV 1 1 0) (IV 4 2 1)) by reflexivity.
  assert (E3 : fint xt = Win (IV 8 7 1) (IV 2 2 0) (IV 4 3 1)) by reflexivity.
  unfold any_cell, valid_cell, reach, in_region, cell, addr in *.
  destruct I as [<-|[<-|[<-|[]]]]; rewrite ?E1, ?E2, ?E3; cbn -[Z.mul Z.add] in *; lia.
Qed.

Lemma x_operands : operands_ok Z xdim xheap xe.
Proof.
  split; [|split].
  - intros f s I. cbn in I. split.
    + destruct I as [E|[E|[E|[E|[]]]]]; injection E as <- <-; apply user_field_on_patch; auto using user_xs, user_xt, user_xf.
    + intros p P. destruct I as [E|[E|[E|[E|[]]]]]; injection E as <- <-; apply xcell_ok; auto; cbn; auto.
  - intros m s I. cbn in I. assert (m = xm) by (destruct I as [E|[E|[]]]; congruence). subst m.
    split; [apply user_field_on_patch, user_xs|reflexivity].
  - intros f [<-|[]]. reflexivity.
Qed.
Lemma x_destination : destination_ok Z xdim xheap xf.
Proof.
  split; [apply user_field_on_patch, user_xf|]. split; [reflexivity|]. intros p P. apply xcell_ok; auto. cbn; auto.
Qed.
Lemma x_alias : alias_ok Z xf xe.
Proof. intros g s I. cbn in I. destruct I as [E|[E|[E|[E|[]]]]]; injection E as <- <-; cbn; auto. Qed.
Lemma x_covers : covers_extra Z xf xe.
Proof.
  intros l m u I. cbn in I. repeat (destruct I as [E|I]; [injection E as <- <- <-; cbn; unfold GHOST_MAX; lia|]). destruct I.
Qed.
Lemma x_region : region Z xdim xf xe (IV 3 1 0).
Proof.
  split; [unfold any_cell, reach, in_region; cbn; lia|].
  intros l m u I q L U. cbn in I. unfold known, in_region, iv_le in *.
  repeat (destruct I as [E|I]; [injection E as <- <- <-; cbn in *; unfold GHOST_MAX; lia|]). destruct I.
Qed.
