(** Instances for C64: a 3 x 2 x 1 patch whose fields have one or two ghost
    layers declared in all directions. *)
From Verif Require Import Prelude WindowM WindowS WindowP GhostM FieldM FieldS FieldP MaskM MaskS MaskP NeboM NeboS NeboP NeboE ThinS ThinP ThinR.

Definition tdim : ivec := IV 3 2 1.
Definition tone : ivec := IV 1 1 1.
Definition tdst : field := patch_field tdim true false false tone (ghost_n 1) 0 2.
Definition tsrc : field := reset_valid_ghosts (patch_field tdim false true false tone (mk_ghost (IV 3 2 1) (IV 2 2 1)) 1 4) (mk_ghost (IV 2 2 1) (IV 2 1 1)).
Definition tmsk : mask := Mask tsrc (repeat 5 (Z.to_nat (round_to_int (glob_npts (fint tsrc))))).
Definition theap : heap Z := fun b => Block (fun i => (0 <=? i) && (i <? 200)) (fun i => Z.of_nat b * 1000 + i).
Definition texp : expr Z :=
  ECond Z (BShift Z (IV 0 (-1) 0) (BMask Z tmsk))
    (EStencil Z (IV (-1) 0 0) (-1) [(IV 1 0 0, 1)] (EField Z tsrc))
    (EOp2 Z Z.mul (ESingle Z tsrc) (EField Z tdst)).

Ltac tsolve := unfold iv_le, g_nonneg, g_le, iv_le, declares, declares1, no_thin_extra; cbn; unfold GHOST_MAX; repeat split; try lia; try reflexivity; try discriminate.
Lemma thin_tdst : thin_field tdim tone tone tdst.
Proof. apply tf_make; tsolve. Qed.
Lemma thin_tsrc : thin_field tdim tone tone tsrc.
Proof. apply tf_reset; [apply tf_make; tsolve|tsolve..]. Qed.
Lemma thin_texp : thin_expr Z tdim tone tone texp.
Proof.
  cbn. split; [split; [reflexivity|exact thin_tsrc]|]. split; [|split; [exact I|exact thin_tdst]].
  split; [reflexivity|]. split; [|exact thin_tsrc]. intros pc [<-|[]]. reflexivity.
Qed.
Lemma tcell_ok f p : In f [tsrc; tdst] -> any_cell tdim (real_field tdim f) p \/ valid_cell tdim (real_field tdim f) p -> (0 <=? cell f p) && (cell f p <? 200) = true.
Proof.
  intros I H. assert (B : 0 <= cell f p < 200); [|lia].
  assert (E1 : fint tsrc = Win (IV 8 7 1) (IV 3 2 0) (IV 3 3 1)) by reflexivity.
  assert (E2 : fint tdst = Win (IV 6 4 1) (IV 1 1 0) (IV 4 2 1)) by reflexivity.
  unfold any_cell, valid_cell, reach, in_region, cell, addr in *.
  destruct I as [<-|[<-|[]]]; rewrite ?E1, ?E2; cbn -[Z.mul Z.add] in *; lia.
Qed.
Lemma t_operands : thin_operands Z tdim tone tone theap texp.
Proof.
  split; [exact thin_texp|]. split; [|split].
  - intros f s I p P. cbn in I. destruct I as [E|[E|[E|[]]]]; injection E as <- <-; apply tcell_ok; cbn; auto.
  - intros m s I. cbn in I. assert (m = tmsk) by (destruct I as [E|[]]; congruence). subst m. reflexivity.
  - intros f [<-|[]]. reflexivity.
Qed.
Lemma t_destination : thin_destination Z tdim tone tone theap tdst.
Proof. split; [exact thin_tdst|]. intros p P. apply tcell_ok; cbn; auto. Qed.
Lemma t_alias : alias_ok Z tdst texp.
Proof. intros g s I. cbn in I. destruct I as [E|[E|[E|[]]]]; injection E as <- <-; cbn; auto. Qed.
Lemma t_covers : covers_extra Z (real_field tdim tdst) (real_expr Z tdim texp).
Proof.
  intros l m u I. cbn in I.
  repeat (destruct I as [E|I]; [injection E as <- <- <-; cbn; unfold GHOST_MAX; repeat split; intros; try lia; congruence|]). destruct I.
Qed.
Lemma t_known p : interior_cell tdim tdst p -> expr_known Z tdim (real_expr Z tdim texp) p.
Proof.
  intros P l m u I q A B. unfold interior_cell, in_region, iv_le in *. cbn in P, A, B, I.
  unfold known, in_region.
  repeat (destruct I as [E|I]; [injection E as <- <- <-; cbn in *; unfold GHOST_MAX; lia|]). destruct I.
Qed.
Lemma t_region : region Z tdim (real_field tdim tdst) (real_expr Z tdim texp) (IV 3 1 0).
Proof. apply (thin_interior Z tdim tone tone theap tdst texp t_destination t_known). vm_compute; intuition congruence. Qed.

(** Patches with one cell in x, y or z and one ghost layer declared everywhere. *)
Definition tf (d : ivec) (k : nat) : field := patch_field d false false false iv_zero (ghost_n 1) k 4.
Definition tmem : heap Z := fun b => Block (fun i => (0 <=? i) && (i <? 20)) (fun i => Z.of_nat b * 100 + i).
Lemma thin_tf d k : In d [IV 1 2 3; IV 3 1 2; IV 3 2 1] -> thin_field d tone tone (tf d k).
Proof. intros [<-|[<-|[<-|[]]]]; apply tf_make; tsolve. Qed.
Lemma tf_int d k : In d [IV 1 2 3; IV 3 1 2; IV 3 2 1] ->
  (d = IV 1 2 3 /\ fint (tf d k) = Win (IV 1 4 5) (IV 0 1 1) (IV 1 2 3)) \/
  (d = IV 3 1 2 /\ fint (tf d k) = Win (IV 5 1 4) (IV 1 0 1) (IV 3 1 2)) \/
  (d = IV 3 2 1 /\ fint (tf d k) = Win (IV 5 4 1) (IV 1 1 0) (IV 3 2 1)).
Proof. intros [<-|[<-|[<-|[]]]]; auto. Qed.
Lemma tf_operands d : In d [IV 1 2 3; IV 3 1 2; IV 3 2 1] -> thin_operands Z d tone tone tmem (EField Z (tf d 1)).
Proof.
  intros I. split; [apply thin_tf, I|]. split; [|split; intros ? []; contradiction].
  intros f s [E|[]] p P. injection E as <- <-. assert (B : 0 <= cell (tf d 1) p < 20); [|cbn -[cell]; lia].
  unfold valid_cell, reach, in_region, cell, addr in *.
  destruct (tf_int d 1 I) as [(-> & ->)|[(-> & ->)|(-> & ->)]]; cbn -[Z.mul Z.add] in *; lia.
Qed.
Lemma tf_destination d : In d [IV 1 2 3; IV 3 1 2; IV 3 2 1] -> thin_destination Z d tone tone tmem (tf d 0).
Proof.
  intros I. split; [apply thin_tf, I|].
  intros p P. assert (B : 0 <= cell (tf d 0) p < 20); [|cbn -[cell]; lia].
  unfold any_cell, reach, in_region, cell, addr in *.
  destruct (tf_int d 0 I) as [(-> & ->)|[(-> & ->)|(-> & ->)]]; cbn -[Z.mul Z.add] in *; lia.
Qed.
Lemma interior_wrong :
  exists n f e h, thin_operands Z n tone tone h e /\ thin_destination Z n tone tone h f /\ alias_ok Z f e /\
    match run (fst (interior_assign Z Z.add Z.mul 100 f e)) h with
    | RDone h' _ =>
        (exists p, interior_cell n f p /\ value Z h' f p <> denote Z Z.add Z.mul h e p) /\
        (exists p, any_cell n (real_field n f) p /\ ~ interior_cell n f p /\ value Z h' f p <> value Z h f p)
    | _ => False
    end.
Proof.
  exists (IV 1 2 3), (tf (IV 1 2 3) 0), (EField Z (tf (IV 1 2 3) 1)), tmem.
  split; [apply tf_operands; cbn; auto|]. split; [apply tf_destination; cbn; auto|].
  split; [intros g s [E|[]]; injection E as <- <-; left; discriminate|].
  assert (R : match run (fst (interior_assign Z Z.add Z.mul 100 (tf (IV 1 2 3) 0) (EField Z (tf (IV 1 2 3) 1)))) tmem with
    | RDone h' _ => value Z h' (tf (IV 1 2 3) 0) iv_zero = 5 /\ value Z h' (tf (IV 1 2 3) 0) (IV 0 2 0) = 107
    | _ => False end) by (vm_compute; split; reflexivity).
  destruct (run (fst (interior_assign Z Z.add Z.mul 100 (tf (IV 1 2 3) 0) (EField Z (tf (IV 1 2 3) 1)))) tmem) as [h' []| | |]; try contradiction.
  destruct R as (R1 & R2). split.
  - exists iv_zero. split; [vm_compute; intuition congruence|]. rewrite R1. vm_compute. discriminate.
  - exists (IV 0 2 0). split; [vm_compute; intuition congruence|]. split; [vm_compute; intuition congruence|].
    rewrite R2. vm_compute. discriminate.
Qed.
Lemma interior_outside :
  exists n f e h, thin_operands Z n tone tone h e /\ thin_destination Z n tone tone h f /\ alias_ok Z f e /\
    run (fst (interior_assign Z Z.add Z.mul 100 f e)) h = RUB /\
    run (nebo_sum_interior Z Z.add Z.mul 100 e) h = RUB.
Proof.
  exists (IV 3 2 1), (tf (IV 3 2 1) 0), (EField Z (tf (IV 3 2 1) 1)), tmem.
  split; [apply tf_operands; cbn; auto|]. split; [apply tf_destination; cbn; auto|].
  split; [intros g s [E|[]]; injection E as <- <-; left; discriminate|].
  split; vm_compute; reflexivity.
Qed.
Lemma out_of_plane :
  exists n f s c0 p1 c1, thin_destination Z n tone tone tmem f /\ thin_operands Z n tone tone tmem (EField Z s) /\
    fbuf s <> fbuf f /\
    match run (fst (nebo_assign Z Z.add Z.mul 100 f (EStencil Z iv_zero c0 [(p1, c1)] (EField Z s)))) tmem with
    | RDone h' _ => forall p, any_cell n (real_field n f) p -> value Z h' f p = value Z tmem f p
    | _ => False
    end.
Proof.
  exists (IV 3 2 1), (tf (IV 3 2 1) 0), (tf (IV 3 2 1) 1), (-1), (IV 0 0 1), 1.
  split; [apply tf_destination; cbn; auto|]. split; [apply tf_operands; cbn; auto|]. split; [discriminate|].
  assert (R : run (fst (nebo_assign Z Z.add Z.mul 100 (tf (IV 3 2 1) 0)
    (EStencil Z iv_zero (-1) [(IV 0 0 1, 1)] (EField Z (tf (IV 3 2 1) 1))))) tmem = RDone tmem tt).
  { vm_compute. reflexivity. }
  rewrite R. reflexivity.
Qed.
