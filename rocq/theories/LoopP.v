(** Proofs about the looped task. *)
From Verif Require Import Prelude LoopM LoopS.

Scheme calls_mut := Induction for calls Sort Prop
  with inside_mut := Induction for inside Sort Prop
  with between_mut := Induction for between Sort Prop.
Combined Scheme hist_ind from calls_mut, inside_mut, between_mut.

Definition ns (i : Z) : Z := i * 10 ^ 6.

Lemma make_s i : 0 <= i < 2 ^ 32 -> l_s (loop_make true i) = i / 1000.
Proof. intros H. cbn [loop_make l_s]. unfold u32. apply Z.mod_small. lia. Qed.
Lemma make_ns i : 0 <= i < 2 ^ 32 -> l_ns (loop_make true i) = (i mod 1000) * 10 ^ 6.
Proof.
  intros H. cbn [loop_make l_ns]. unfold u32.
  rewrite (Z.mod_small (i / 1000)) by lia. rewrite (Z.mod_small (i / 1000 * 1000)) by lia.
  replace (i - i / 1000 * 1000) with (i mod 1000) by lia.
  assert (0 <= i mod 1000 < 1000) by (apply Z.mod_pos_bound; lia).
  set (r := i mod 1000) in *. clearbody r.
  rewrite (Z.mod_small r) by lia. rewrite (Z.mod_small (r * 1000)) by lia. rewrite Z.mod_small by lia. lia.
Qed.
Lemma make_breaks i : 0 <= i < 2 ^ 32 -> breaks (loop_make true i) = negb (ns i =? 0).
Proof. intros H. unfold breaks, ns. rewrite make_s, make_ns by exact H. change (10 ^ 6) with 1000000. lia. Qed.

Lemma make_wakeup i t : 0 <= i < 2 ^ 32 -> instant (wakeup (loop_make true i) t) = t + ns i.
Proof.
  intros H. unfold instant, wakeup, ns. cbn [fst snd]. rewrite make_s, make_ns by exact H.
  assert (0 <= i mod 1000 < 1000) by (apply Z.mod_pos_bound; lia).
  assert (0 <= t mod 10 ^ 9 < 10 ^ 9) by (apply Z.mod_pos_bound; lia).
  assert (E : s32 (t mod 10 ^ 9 + i mod 1000 * 10 ^ 6) = t mod 10 ^ 9 + i mod 1000 * 10 ^ 6).
  { unfold s32. rewrite Z.mod_small; change (2 ^ 32) with 4294967296; change (2 ^ 31) with 2147483648;
      change (10 ^ 9) with 1000000000 in *; change (10 ^ 6) with 1000000; lia. }
  rewrite E. clear E.
  pose proof (Z.div_mod t (10 ^ 9)). pose proof (Z.div_mod i 1000).
  change (10 ^ 9) with 1000000000 in *; change (10 ^ 6) with 1000000. lia.
Qed.

Section One.
  Variables (i : Z) (Hi : 0 <= i < 2 ^ 32).
  Let L := loop_make true i.
  Let d := ns i.

  (** what may be observed from a state on *)
  Definition from (st : Z * lpc) (l : list event) : Prop :=
    let t := fst st in
    match snd st with
    | LStart => history d t l
    | LRead => between d t l
    | LSleep x => 0 < d /\ (l = [] \/ exists t1 l', l = Slept t1 :: l' /\ t <= t1 /\ instant x <= t1 /\ calls d t1 l')
    | LCall => calls d t l
    | LInside => inside d t l
    | LYield => d = 0 /\ between d t l
    | LEnd => l = [] \/ exists t1, t <= t1 /\ l = [Finished t1]
    | LLeft => l = []
    end.
  (** the states that can occur *)
  Definition okst (st : Z * lpc) : Prop :=
    match snd st with LRead | LSleep _ => 0 < d | LYield => d = 0 | _ => True end.

  Lemma calls_le t t' l : t <= t' -> calls d t' l -> calls d t l.
  Proof. intros H C. inversion C; subst; constructor; [lia | assumption]. Qed.
  Lemma inside_le t t' l : t <= t' -> inside d t' l -> inside d t l.
  Proof. intros H C. inversion C; subst; constructor; try lia; assumption. Qed.
  Lemma between_le t t' l : t <= t' -> between d t' l -> between d t l.
  Proof. intros H C. inversion C; subst; constructor; try lia; assumption. Qed.
  Lemma from_le t t' p l : t <= t' -> from (t', p) l -> from (t, p) l.
  Proof.
    intros H. unfold from; cbn [fst snd]. destruct p; try exact (fun x => x).
    - unfold history. destruct (d =? 0); [apply calls_le | apply between_le]; exact H.
    - apply between_le; exact H.
    - intros [D [E|(t1&l'&E&A&B&C)]]; split; try exact D; [left; exact E|]. right. exists t1, l'. repeat split; try assumption; lia.
    - apply calls_le; exact H.
    - apply inside_le; exact H.
    - intros [D B]. split; [exact D|]. eapply between_le; eassumption.
    - intros [E|(t1&A&E)]; [left; exact E|]. right. exists t1. split; [lia | exact E].
  Qed.
  Lemma d_nn : 0 <= d. Proof. unfold d, ns. lia. Qed.

  Lemma okst_step st e st' : okst st -> lstep L st e st' -> okst st'.
  Proof.
    pose proof d_nn as D. intros O S. destruct S; unfold okst in *; cbn [fst snd] in *; try exact O; try exact I;
      unfold L in *; rewrite ?make_breaks by exact Hi; fold d; destruct (Z.eqb_spec d 0); cbn [negb]; try exact I; lia.
  Qed.

  Lemma from_nil st : okst st -> from st [].
  Proof.
    destruct st as [t p]. unfold okst, from; cbn [fst snd]. destruct p; intros O; auto.
    - unfold history. destruct (d =? 0); constructor.
    - constructor.
    - constructor.
    - constructor.
    - split; [exact O | constructor].
  Qed.

  Lemma from_step st e st' l : okst st -> lstep L st e st' -> from st' l -> from st (e ++ l).
  Proof.
    pose proof d_nn as D. intros O S F. destruct S; cbn [app].
    - eapply from_le; eassumption.
    - discriminate.
    - unfold L in F. rewrite make_breaks in F by exact Hi. fold d in F. unfold from, history; cbn [fst snd] in *.
      destruct (Z.eqb_spec d 0); exact F.
    - unfold from in *; cbn [fst snd okst] in *. destruct F as [D0 [E|(t1&l'&E&A&B&C)]]; subst l; [constructor|].
      unfold L in B. rewrite make_wakeup in B by exact Hi. fold d in B. apply b_sleep; assumption.
    - unfold from in *; cbn [fst snd okst] in *. split; [exact O|]. right. exists t, l. repeat split; try assumption; lia.
    - unfold from in *; cbn [fst snd] in *. constructor; [lia | exact F].
    - unfold from in *; cbn [fst snd] in *. constructor; [lia|]. unfold L in F. rewrite make_breaks in F by exact Hi. fold d in F.
      destruct (Z.eqb_spec d 0); cbn [negb] in F; [exact (proj2 F) | exact F].
    - unfold from in *; cbn [fst snd] in *. destruct F as [E|(t1&A&E)]; subst l; constructor; lia.
    - unfold from in *; cbn [fst snd] in *. subst l. constructor. lia.
    - unfold from in *; cbn [fst snd] in *. split; [exact O|]. apply b_yield; [exact O | lia | exact F].
    - unfold from in *; cbn [fst snd] in *. subst l. right. exists t. split; [lia | reflexivity].
  Qed.

  Lemma sound st l st' : lrun L st l st' -> okst st -> from st l.
  Proof.
    induction 1 as [|st e st' es st'' S R IH]; intros O; [apply from_nil; exact O|].
    eapply from_step; [exact O | exact S | apply IH; eapply okst_step; eassumption].
  Qed.

  Lemma one st e st' l : lstep L st e st' -> (exists z, lrun L st' l z) -> exists z, lrun L st (e ++ l) z.
  Proof. intros S [z R]. exists z. eapply lr_cons; eassumption. Qed.
  Lemma tick t t1 p l : t <= t1 -> (exists z, lrun L (t1, p) l z) -> exists z, lrun L (t, p) l z.
  Proof. intros H R. change l with ([] ++ l). eapply one; [apply l_tick; exact H | exact R]. Qed.

  Definition brk : lpc := if breaks L then LRead else LYield.
  Lemma complete :
    (forall t l, calls d t l -> exists z, lrun L (t, LCall) l z) /\
    (forall t l, inside d t l -> exists z, lrun L (t, LInside) l z) /\
    (forall t l, between d t l -> exists z, lrun L (t, brk) l z).
  Proof.
    apply hist_ind; try (intros; eexists; apply lr_nil).
    - intros t t1 l H _ IH. eapply tick; [exact H|]. change (Called t1 :: l) with ([Called t1] ++ l). eapply one; [constructor | exact IH].
    - intros t t1 H. eapply tick; [exact H|]. change [Threw t1] with ([Threw t1] ++ []). eapply one; [constructor|]. eexists; apply lr_nil.
    - intros t t1 H. eapply tick; [exact H|]. change [Returned t1 false] with ([Returned t1 false] ++ []). eapply one; [constructor|]. eexists; apply lr_nil.
    - intros t t1 t2 H H2. eapply tick; [exact H|]. change [Returned t1 false; Finished t2] with ([Returned t1 false] ++ [Finished t2]).
      eapply one; [constructor|]. eapply tick; [exact H2|]. change [Finished t2] with ([Finished t2] ++ []). eapply one; [constructor|]. eexists; apply lr_nil.
    - intros t t1 l H _ IH. eapply tick; [exact H|]. change (Returned t1 true :: l) with ([Returned t1 true] ++ l). eapply one; [constructor | exact IH].
    - intros t t1 l D H _ IH. unfold brk, L. rewrite make_breaks by exact Hi. fold d. destruct (Z.eqb_spec d 0); [lia|]. cbn [negb].
      change (Slept t1 :: l) with ([] ++ Slept t1 :: l). eapply one; [apply l_read|].
      eapply tick with (t1 := t1); [lia|]. change (Slept t1 :: l) with ([Slept t1] ++ l).
      eapply one; [apply l_wake; unfold L; rewrite make_wakeup by exact Hi; exact H | exact IH].
    - intros t t1 l D H _ IH. unfold brk, L. rewrite make_breaks by exact Hi. fold d. destruct (Z.eqb_spec d 0); [|lia]. cbn [negb].
      eapply tick; [exact H|]. change (Yielded t1 :: l) with ([Yielded t1] ++ l). eapply one; [constructor | exact IH].
  Qed.

  Lemma loop_histories t0 l : (exists st, lrun L (t0, LStart) l st) <-> history d t0 l.
  Proof.
    split.
    - intros [st R]. exact (sound _ _ _ R I).
    - intros H. change l with ([] ++ l). eapply one; [apply l_start; reflexivity|].
      unfold history in H. destruct complete as (C1 & _ & C3). pose proof (C3 t0 l) as C. unfold brk in C.
      unfold L in C |- *. rewrite make_breaks in C |- * by exact Hi. fold d in C |- *. destruct (Z.eqb_spec d 0); cbn [negb] in C |- *;
        [apply C1 | apply C]; exact H.
  Qed.
End One.

Lemma empty_history i t0 l st : lrun (loop_make false i) (t0, LStart) l st -> l = [] \/ exists t, t0 <= t /\ l = [Finished t].
Proof.
  intros R. assert (G : forall st0, lrun (loop_make false i) st0 l st ->
    match snd st0 with LStart | LEnd => l = [] \/ exists t, fst st0 <= t /\ l = [Finished t] | LLeft => l = [] | _ => True end); [|exact (G _ R)].
  clear R. intros st0 R. induction R as [st0|st0 e st1 es st2 S R IH].
  - destruct (snd st0); auto.
  - destruct S; cbn [fst snd app] in *; try exact I; try discriminate.
    + destruct p; try exact I; try exact IH; (destruct IH as [E|(u&A&E)]; [left; exact E | right; exists u; split; [lia | exact E]]).
    + exact IH.
    + rewrite IH. right. exists t. split; [lia | reflexivity].
Qed.

(** Counting: the function is called once more than it returned true. *)
Lemma count_gen d :
  (forall t l, calls d t l -> forall l' tf, l = l' ++ [Finished tf] -> call_count l = S (true_count l)) /\
  (forall t l, inside d t l -> forall l' tf, l = l' ++ [Finished tf] -> call_count l = true_count l) /\
  (forall t l, between d t l -> forall l' tf, l = l' ++ [Finished tf] -> call_count l = S (true_count l)).
Proof.
  apply hist_ind; try (intros t l' tf E; destruct l'; discriminate).
  - intros t t1 l H _ IH l' tf E. destruct l' as [|e l']; cbn in E; [discriminate|]. injection E as _ E.
    unfold call_count, true_count in *. cbn [filter length]. erewrite IH by exact E. reflexivity.
  - intros t t1 H l' tf E. destruct l' as [|e [|]]; discriminate.
  - intros t t1 H l' tf E. destruct l' as [|e [|]]; discriminate.
  - reflexivity.
  - intros t t1 l H _ IH l' tf E. destruct l' as [|e l']; cbn in E; [discriminate|]. injection E as _ E.
    unfold call_count, true_count in *. cbn [filter length]. erewrite IH by exact E. reflexivity.
  - intros t t1 l D H _ IH l' tf E. destruct l' as [|e l']; cbn in E; [discriminate|]. injection E as _ E.
    unfold call_count, true_count in *. cbn [filter length]. erewrite IH by exact E. reflexivity.
  - intros t t1 l D H _ IH l' tf E. destruct l' as [|e l']; cbn in E; [discriminate|]. injection E as _ E.
    unfold call_count, true_count in *. cbn [filter length]. erewrite IH by exact E. reflexivity.
Qed.

Lemma loop_count i t0 l tf st : 0 <= i < 2 ^ 32 -> lrun (loop_make true i) (t0, LStart) (l ++ [Finished tf]) st ->
  call_count (l ++ [Finished tf]) = S (true_count (l ++ [Finished tf])).
Proof.
  intros Hi R. assert (H : history (ns i) t0 (l ++ [Finished tf])) by (apply loop_histories; [exact Hi | exists st; exact R]).
  unfold history in H. destruct (count_gen (ns i)) as (C1 & _ & C3).
  destruct (ns i =? 0); [eapply C1 | eapply C3]; try exact H; reflexivity.
Qed.

(** Never stuck: time aside, the only thing that can hold it up is the sleep
    and the function itself. *)
Lemma lrun_app L a l b m c : lrun L a l b -> lrun L b m c -> lrun L a (l ++ m) c.
Proof. induction 1; intros R; [exact R|]. rewrite <- app_assoc. eapply lr_cons; [eassumption | auto]. Qed.

Lemma loop_goes_on i t0 l t : 0 <= i < 2 ^ 32 -> (exists st, lrun (loop_make true i) (t0, LStart) (l ++ [Returned t true]) st) ->
  forall t1, t + ns i <= t1 -> exists m st, lrun (loop_make true i) (t0, LStart) (l ++ [Returned t true] ++ m ++ [Called t1]) st /\ call_count m = 0%nat.
Proof.
  intros Hi E t1 H1. apply loop_histories in E; [|exact Hi].
  set (m := if ns i =? 0 then [Yielded t1] else [Slept t1]).
  assert (G : history (ns i) t0 (l ++ [Returned t true] ++ m ++ [Called t1])).
  { assert (B : between (ns i) t (m ++ [Called t1])).
    { unfold m. assert (0 <= ns i) by (unfold ns; lia). destruct (Z.eqb_spec (ns i) 0); cbn [app]; [apply b_yield | apply b_sleep]; try lia; repeat constructor; lia. }
    assert (P : (forall u k, calls (ns i) u k -> forall l, k = l ++ [Returned t true] -> calls (ns i) u (l ++ [Returned t true] ++ m ++ [Called t1])) /\
                (forall u k, inside (ns i) u k -> forall l, k = l ++ [Returned t true] -> inside (ns i) u (l ++ [Returned t true] ++ m ++ [Called t1])) /\
                (forall u k, between (ns i) u k -> forall l, k = l ++ [Returned t true] -> between (ns i) u (l ++ [Returned t true] ++ m ++ [Called t1]))).
    { apply hist_ind; try (intros u k Ek; destruct k; discriminate).
      - intros u u1 k H _ IH l0 Ek. destruct l0 as [|e l0]; cbn in Ek; [discriminate|]. injection Ek as <- Ek. cbn [app]. constructor; [exact H | apply IH; exact Ek].
      - intros u u1 H l0 Ek. destruct l0 as [|e [|]]; discriminate.
      - intros u u1 H l0 Ek. destruct l0 as [|e [|]]; discriminate.
      - intros u u1 u2 H H2 l0 Ek. destruct l0 as [|e [|e2 [|]]]; discriminate.
      - intros u u1 k H Hb IH l0 Ek. destruct l0 as [|e l0]; cbn in Ek.
        + injection Ek as -> _. cbn [app]. constructor; [exact H | exact B].
        + injection Ek as <- Ek. cbn [app]. constructor; [exact H | apply IH; exact Ek].
      - intros u u1 k D H _ IH l0 Ek. destruct l0 as [|e l0]; cbn in Ek; [discriminate|]. injection Ek as <- Ek. cbn [app]. constructor; [exact D | exact H | apply IH; exact Ek].
      - intros u u1 k D H _ IH l0 Ek. destruct l0 as [|e l0]; cbn in Ek; [discriminate|]. injection Ek as <- Ek. cbn [app]. apply b_yield; [exact D | exact H | apply IH; exact Ek]. }
    unfold history in *. destruct P as (P1 & _ & P3). destruct (ns i =? 0); [eapply P1 | eapply P3]; try exact E; reflexivity. }
  apply loop_histories in G; [|exact Hi]. destruct G as [st R]. exists m, st. split; [exact R|].
  unfold m. destruct (ns i =? 0); reflexivity.
Qed.

(** Every call comes at least a break after the start and after every return
    before it, and none comes after a return of false or an exception. *)
Lemma late d : 0 <= d ->
  (forall t l, calls d t l -> forall u, In (Called u) l -> t <= u) /\
  (forall t l, inside d t l -> forall u, In (Called u) l -> t + d <= u) /\
  (forall t l, between d t l -> forall u, In (Called u) l -> t + d <= u).
Proof.
  intros Hd. apply hist_ind; cbn [In].
  - intros t u [].
  - intros t t1 l H _ IH u [E|E]; [injection E as ->; exact H | specialize (IH u E); lia].
  - intros t u [].
  - intros t t1 H u [E|[]]; discriminate.
  - intros t t1 H u [E|[]]; discriminate.
  - intros t t1 t2 H H2 u [E|[E|[]]]; discriminate.
  - intros t t1 l H _ IH u [E|E]; [discriminate | specialize (IH u E); lia].
  - intros t u [].
  - intros t t1 l D H _ IH u [E|E]; [discriminate | specialize (IH u E); lia].
  - intros t t1 l D H _ IH u [E|E]; [discriminate | specialize (IH u E); lia].
Qed.
Lemma after d : 0 <= d ->
  (forall t l, calls d t l -> forall a t1 r b u, l = a ++ Returned t1 r :: b -> In (Called u) b -> r = true /\ t1 + d <= u) /\
  (forall t l, inside d t l -> forall a t1 r b u, l = a ++ Returned t1 r :: b -> In (Called u) b -> r = true /\ t1 + d <= u) /\
  (forall t l, between d t l -> forall a t1 r b u, l = a ++ Returned t1 r :: b -> In (Called u) b -> r = true /\ t1 + d <= u).
Proof.
  intros Hd. apply hist_ind.
  - intros t a t1 r b u E. destruct a; discriminate.
  - intros t t1 l H _ IH a t2 r b u E I0. destruct a as [|e a]; cbn in E; [discriminate|]. injection E as _ E. eapply IH; eassumption.
  - intros t a t1 r b u E. destruct a; discriminate.
  - intros t t1 H a t2 r b u E. destruct a as [|e [|]]; discriminate.
  - intros t t1 H a t2 r b u E I0. destruct a as [|e a]; cbn in E; [injection E as _ _ E; subst b; destruct I0 | destruct a; discriminate].
  - intros t t1 t3 H H3 a t2 r b u E I0. destruct a as [|e a]; cbn in E.
    + injection E as _ _ E; subst b. destruct I0 as [E|[]]; discriminate.
    + injection E as _ E. destruct a as [|e1 a]; cbn in E; [discriminate|]. injection E as _ E. destruct a; discriminate.
  - intros t t1 l H B IH a t2 r b u E I0. destruct a as [|e a]; cbn in E.
    + injection E as -> <- ->. split; [reflexivity|]. exact (proj2 (proj2 (late d Hd)) _ _ B u I0).
    + injection E as _ E. eapply IH; eassumption.
  - intros t a t1 r b u E. destruct a; discriminate.
  - intros t t1 l D H _ IH a t2 r b u E I0. destruct a as [|e a]; cbn in E; [discriminate|]. injection E as _ E. eapply IH; eassumption.
  - intros t t1 l D H _ IH a t2 r b u E I0. destruct a as [|e a]; cbn in E; [discriminate|]. injection E as _ E. eapply IH; eassumption.
Qed.
Lemma after_throw d :
  (forall t l, calls d t l -> forall a t1 b, l = a ++ Threw t1 :: b -> b = []) /\
  (forall t l, inside d t l -> forall a t1 b, l = a ++ Threw t1 :: b -> b = []) /\
  (forall t l, between d t l -> forall a t1 b, l = a ++ Threw t1 :: b -> b = []).
Proof.
  apply hist_ind; try (intros t a t1 b E; destruct a; discriminate).
  - intros t t1 l H _ IH a t2 b E. destruct a as [|e a]; cbn in E; [discriminate|]. injection E as _ E. eapply IH; eassumption.
  - intros t t1 H a t2 b E. destruct a as [|e [|]]; cbn in E; [injection E as _ E; auto | discriminate | discriminate].
  - intros t t1 H a t2 b E. destruct a as [|e [|]]; discriminate.
  - intros t t1 t3 H H3 a t2 b E. destruct a as [|e [|e2 [|]]]; discriminate.
  - intros t t1 l H _ IH a t2 b E. destruct a as [|e a]; cbn in E; [discriminate|]. injection E as _ E. eapply IH; eassumption.
  - intros t t1 l D H _ IH a t2 b E. destruct a as [|e a]; cbn in E; [discriminate|]. injection E as _ E. eapply IH; eassumption.
  - intros t t1 l D H _ IH a t2 b E. destruct a as [|e a]; cbn in E; [discriminate|]. injection E as _ E. eapply IH; eassumption.
Qed.

Lemma loop_breaks i t0 l st : 0 <= i < 2 ^ 32 -> lrun (loop_make true i) (t0, LStart) l st ->
  (forall u, In (Called u) l -> t0 + i * 10 ^ 6 <= u) /\
  (forall a t r b u, l = a ++ Returned t r :: b -> In (Called u) b -> r = true /\ t + i * 10 ^ 6 <= u) /\
  (forall a t b, l = a ++ Threw t :: b -> b = []).
Proof.
  intros Hi R. assert (H : history (ns i) t0 l) by (apply loop_histories; [exact Hi | exists st; exact R]).
  assert (D : 0 <= ns i) by (unfold ns; lia). fold (ns i).
  destruct (late _ D) as (A1 & _ & A3), (after _ D) as (B1 & _ & B3), (after_throw (ns i)) as (C1 & _ & C3).
  unfold history in H. destruct (Z.eqb_spec (ns i) 0) as [E|E].
  - split; [|split].
    + intros u I0. pose proof (A1 _ _ H u I0). lia.
    + apply (B1 _ _ H).
    + apply (C1 _ _ H).
  - split; [|split]; [apply (A3 _ _ H) | apply (B3 _ _ H) | apply (C3 _ _ H)].
Qed.

Lemma empty_ends i t0 : exists st, lrun (loop_make false i) (t0, LStart) [Finished t0] st.
Proof.
  eexists. change [Finished t0] with ([] ++ [Finished t0] ++ []). eapply lr_cons; [apply l_empty; reflexivity|].
  eapply lr_cons; [apply l_end|]. apply lr_nil.
Qed.

(** An example: a break of 1500 ms, the function returns true once. *)
Lemma loop_example : exists st, lrun (loop_make true 1500) (999999999, LStart)
  [Slept 2500000000; Called 2500000000; Returned 2600000000 true; Slept 4100000000; Called 4100000001; Returned 4100000002 false; Finished 4100000002] st.
Proof.
  apply loop_histories; [lia|]. unfold history, ns. change (1500 * 10 ^ 6) with 1500000000. change (1500000000 =? 0) with false. cbv iota.
  repeat (constructor; try lia).
Qed.
