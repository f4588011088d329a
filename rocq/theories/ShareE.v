(** Example: two threads, one of them a task of the pool, make assignments on it. *)
From Verif Require Import Prelude WindowM WindowS GhostM FieldM FieldS MaskM NeboM NeboS NeboB NeboC NeboE NeboF TPoolM TPoolS ShareM ShareS.

(** Another destination, and what is assigned to it. *)
Definition xw : field := patch_field xdim false false false (IV 1 1 1) (xg 2) 4 3.
Definition xn : expr Z := EOp1 Z Z.opp (EField Z xs).
(** f <<= e on the pool, then interior_assign on the calling thread; the other
    thread, a task of the pool: w <<= -s on the pool. *)
Definition xthreads : list (bool * list (asg Z)) :=
  [(false, [Asg true true xf xe; Asg false false xf xe]); (true, [Asg true true xw xn])].
Definition xpatch (_ : asg Z) : ivec := xdim.

Lemma user_xw : user_field xdim xw.
Proof. apply uf_make; cbn; unfold iv_le, g_nonneg, regular, regular1, iv_le; cbn; lia || reflexivity || (repeat split; lia). Qed.
Lemma xw_cell p : any_cell xdim xw p -> (0 <=? cell xw p) && (cell xw p <? 200) = true.
Proof.
  intros H. assert (B : 0 <= cell xw p < 200); [|lia]. assert (E1 : fint xw = Win (IV 7 6 1) (IV 2 2 0) (IV 3 2 1)) by reflexivity.
  unfold any_cell, reach, in_region, cell, addr in *. rewrite E1. cbn -[Z.mul Z.add] in *. lia.
Qed.
Lemma xthreads_ok c a : In c xthreads -> In a (snd c) -> asg_ok xpatch xheap a.
Proof.
  intros [<-|[<-|[]]] I; cbn in I.
  - destruct I as [<-|[<-|[]]]; unfold asg_ok; cbn [adst arhs aug apar]; change (xpatch _) with xdim.
    + split; [exact x_operands|]. split; [exact x_destination|]. split; [exact x_alias|]. split; [intros _; vm_compute; reflexivity|].
      split; [exact x_covers|exists (IV 3 1 0); exact x_region].
    + split; [exact x_operands|]. split; [exact x_destination|]. split; [exact x_alias|]. split; [discriminate|exact x_interior].
  - destruct I as [<-|[]]. unfold asg_ok; cbn [adst arhs aug apar]; change (xpatch _) with xdim. split; [|split; [|split; [|split; [|split]]]].
    + split; [|split].
      * intros f s [E|[]]. injection E as <- <-. split; [apply user_field_on_patch, user_xs|]. intros p P. apply xcell_ok; auto. cbn; auto.
      * intros m s [].
      * intros f [].
    + split; [apply user_field_on_patch, user_xw|]. split; [reflexivity|]. intros p P. apply xw_cell, P.
    + intros g s [E|[]]. injection E as <- <-. left. discriminate.
    + intros _. vm_compute. reflexivity.
    + intros l m u [E|[]]. injection E as <- <- <-. cbn. lia.
    + exists iv_zero. split; [unfold any_cell, reach, in_region; cbn; lia|]. intros l m u [E|[]]. injection E as <- <- <-.
      intros q Q1 Q2. unfold iv_le, known, in_region in *. cbn in *. lia.
Qed.
Lemma xthreads_independent : independent xthreads.
Proof.
  intros i j ci cj a b N Ei Ej Ia Ib.
  destruct i as [|[|i]]; [| |destruct i; discriminate]; (destruct j as [|[|j]]; [| |destruct j; discriminate]); cbn in Ei, Ej; try contradiction;
    injection Ei as <-; injection Ej as <-; cbn in Ia, Ib;
    repeat match goal with H : _ \/ _ |- _ => destruct H | H : False |- _ => destruct H end; subst; cbn; intuition discriminate.
Qed.
(** A pool with two workers. *)
Definition two (k : skind) : pool := Pool k [] 2 2 2 2 false [WEnter; WEnter] [] [] [] [] [] [].
Lemma two_path k : path calm (pool_new k) (two k).
Proof.
  eapply pa_step with (l := LActive 2).
  - eapply pa_step with (l := LResize 2); [constructor| |].
    + apply ts_resize; [lia|]. apply (rz_grow (pool_new k) 2 2); cbn; reflexivity || lia.
    + split; cbn; [lia|reflexivity].
  - apply ts_active. lia.
  - split; cbn; auto.
Qed.
