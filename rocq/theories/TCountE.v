(** Thread counts: concrete runs. *)
From Verif Require Import Prelude TPoolM TPoolS TPoolP TPoolQ TCountM TCountS TCountP.

Ltac side := first [reflexivity|solve [cbn; lia]|solve [apply n1_none; reflexivity]|exact (n1_some [] _)|exact (n1_some [_] _)
  |exact (takes_fifo _ _)|solve [apply rz_shrink; [reflexivity|cbn; lia]]
  |solve [eapply (rz_grow _ _ 2); [reflexivity|cbn; lia|lia|cbn; lia]]
  |solve [eapply (rz_grow _ _ 1); [reflexivity|cbn; lia|lia|cbn; lia]]].
Ltac norm R := match type of R with made _ _ ?tr ?b =>
  let b' := eval cbv in b in change b with b' in R; let tr' := eval cbv in tr in change tr with tr' in R end.
Ltac extend R X := let Y := fresh in
  match type of R with made ?N ?a ?tr ?b => assert (Y := md_step N a tr _ b _ R X ltac:(let n := fresh in let r := fresh in let E := fresh in
    intros n r E; first [discriminate E|injection E as <- <-; first [left; reflexivity|right; cbn; lia]])) end; clear R X; rename Y into R; norm R.
(** One step of the pool, given by a constructor of tstep. *)
Tactic Notation "pool_does" hyp(R) uconstr(s) := match type of R with made ?N ?a ?tr ?b =>
  let l := fresh in let c := fresh in let X := fresh in
  evar (l : label); evar (c : pool); assert (X : tstep l (mpool b) c); [subst l c; cbn [mpool]; eapply s; side|];
  subst l c; apply (ms_pool N b) in X; [|reflexivity]; extend R X end.
(** A call, given by a tactic that proves mstep. *)
Ltac calls R tac := match type of R with made ?N ?a ?tr ?b =>
  let l := fresh in let c := fresh in let X := fresh in
  evar (l : mlabel); evar (c : mgr); assert (X : mstep N l b c); [subst l c; tac|subst l c; extend R X] end.
Ltac wants R n := calls R ltac:(eapply (ms_set_hard _ _ n); [reflexivity|eapply rr_new; [reflexivity|cbn; lia|eapply ts_resize; side]]).
Ltac wants_again R n := calls R ltac:(eapply (ms_set_hard _ _ n); [reflexivity|eapply rr_same; reflexivity]).
Ltac limits R n := calls R ltac:(eapply (ms_set_soft _ _ n); [reflexivity|eapply ra_some; [reflexivity|eapply ts_active; side]]).
Ltac counts R := calls R ltac:(eapply ms_get_hard; reflexivity).
Ltac limit R := calls R ltac:(eapply ms_get_soft; reflexivity).
Ltac self R := calls R ltac:(eapply ms_saw; reflexivity); calls R ltac:(eapply (ms_insert _ _ 0); reflexivity); calls R ltac:(eapply (ms_init _ _ 0); reflexivity).

Ltac getter := match goal with |- mstep ?N (MGetHard _) ?m _ => exact (ms_get_hard N m eq_refl) | |- mstep ?N (MGetSoft _) ?m _ => exact (ms_get_soft N m eq_refl) end.
Ltac calm_trace := split; [|intros t]; intros I; cbn in I; repeat (destruct I as [I|I]; [discriminate I|]); exact I.

(** Two workers. *)
Definition pool2 : pool := Pool Fifo [] 2 2 2 2 false [WEnter; WEnter] [] [] [] [] [] [].
Definition mgr2 : mgr := Mgr None false 0 0 pool2.
Lemma start2 : mstart Fifo 2 mgr2.
Proof.
  constructor. exact (pi Fifo 2 (grow (pool_new Fifo) 2 2) ltac:(eapply rz_grow; [reflexivity|cbn; lia|lia|cbn; lia])).
Qed.

(** No worker is left and the map says one. *)
Definition nobody (m : mgr) : Prop := mrec m = Some 1 /\ pcount (mpool m) = 0 /\ forall w, In w (pw (mpool m)) -> w = WGone.
Lemma mid_gone {l l1 : list wkr} {w l2} : (forall w, In w l -> w = WGone) -> l = l1 ++ w :: l2 -> w = WGone.
Proof. intros H ->. apply H, in_or_app. right. left. reflexivity. Qed.
Lemma gone_notify l m : notify1 l m -> (forall w, In w l -> w = WGone) -> forall w, In w m -> w = WGone.
Proof. intros [l1 l2|l' _] H; [pose proof (mid_gone H eq_refl); discriminate|exact H]. Qed.
Lemma gone_wake l : (forall w, In w l -> w = WGone) -> forall w, In w (map wwake l) -> w = WGone.
Proof. intros H w I. apply in_map_iff in I. destruct I as (x & <- & I). rewrite (H x I). reflexivity. Qed.
Lemma nobody_step N l a b : mstep N l a b -> nobody a -> (forall n r, l = MSetHard n r -> n = 1) ->
  nobody b /\ (forall t, l <> MPool (LStart t)) /\ (forall r, l = MGetHard r -> r = 0).
Proof.
  intros S (E & C & W) O. destruct S.
  - split; [split; [exact E|split; assumption]|split; intros; discriminate].
  - split; [split; [cbn; rewrite E; reflexivity|split; assumption]|split; intros; discriminate].
  - split; [split; [exact E|split; assumption]|split; intros; discriminate].
  - assert (B : forall l1 w l2, pw (mpool m) = l1 ++ w :: l2 -> w = WGone) by (intros; eapply mid_gone; eauto).
    destruct m as [rc i sw ins p]. cbn [mpool mrec] in *. unfold nobody. cbn [with_pool mpool mrec].
    inversion H0; subst; try discriminate H; try (match goal with X : pw _ = _ ++ _ :: _ |- _ => specialize (B _ _ _ X); discriminate B end).
    + split; [split; [reflexivity|split; assumption]|split; intros; discriminate].
    + split; [split; [reflexivity|split; assumption]|split; intros; discriminate].
    + split; [split; [reflexivity|split; [assumption|cbn; eapply gone_notify; eauto]]|split; intros; discriminate].
    + split; [split; [reflexivity|split; assumption]|split; intros; discriminate].
    + split; [|split; intros; discriminate]. destruct wait; (split; [reflexivity|split; [assumption|cbn; apply gone_wake; assumption]]).
    + split; [split; [reflexivity|split; assumption]|split; intros; discriminate].
  - specialize (O _ _ eq_refl). subst n. inversion H0; subst; try congruence.
    split; [split; [exact E|split; assumption]|split; intros; discriminate].
  - split; [split; [exact E|split; assumption]|split; [intros; discriminate|]].
    intros r [= <-]. unfold rm_count. rewrite E. exact C.
  - split; [|split; intros; discriminate]. inversion H0; subst; [split; [assumption|split; assumption]|]. inversion H2; subst.
    split; [assumption|split; assumption].
  - split; [split; [exact E|split; assumption]|split; intros; discriminate].
Qed.
Lemma nobody_run N a tr b : mrun N a tr b -> nobody a -> (forall n r, In (MSetHard n r) tr -> n = 1) ->
  nobody b /\ (forall t, ~ In (MPool (LStart t)) tr) /\ (forall r, In (MGetHard r) tr -> r = 0).
Proof.
  induction 1; intros Nb O; [split; [exact Nb|split; intros ? []]|].
  destruct (IHmrun Nb) as (N1 & N2 & N3); [intros n r I; apply (O n r), in_or_app; auto|].
  destruct (nobody_step N l b c H0 N1) as (S1 & S2 & S3).
  { intros n r ->. apply (O n r), in_or_app. right. left. reflexivity. }
  split; [exact S1|split].
  - intros t I. apply in_app_or in I. destruct I as [I|[I|[]]]; [exact (N2 t I)|exact (S2 t I)].
  - intros r I. apply in_app_or in I. destruct I as [I|[I|[]]]; [exact (N3 r I)|exact (S3 r I)].
Qed.

Lemma starved : exists s tr a, mstart Fifo 2 s /\ pcount (mpool s) = 2 /\ mrun 2 s tr a /\ undisturbed tr /\ asked 2 tr = 1 /\
  forall tr' b, mrun 2 a tr' b -> (forall n r, In (MSetHard n r) tr' -> n = 1) ->
    (forall t, ~ In (MPool (LStart t)) tr') /\ (forall r, In (MGetHard r) tr' -> r = 0).
Proof.
  pose proof (md_0 2 mgr2) as R. self R.
  pool_does R (ts_enter_sleep _ [WEnter] []).
  pool_does R (ts_enter_sleep _ [] [WWait]).
  wants R 1.
  pool_does R (ts_woken_exit _ [] [WWoken]).
  pool_does R (ts_woken_exit _ [WExit] []).
  pool_does R (ts_destructed _ [] [WExit]).
  pool_does R (ts_destructed _ [WGone] []).
  exists mgr2. eexists _, _. split; [exact start2|]. split; [reflexivity|]. split; [exact (made_run _ _ _ _ R)|].
  split; [split; [|intros t]; intros I; cbn in I; repeat (destruct I as [I|I]; [discriminate I|]); exact I|].
  split; [reflexivity|]. intros tr' b R' O. eapply (nobody_run 2 _ tr' b R'); [|exact O].
  split; [reflexivity|]. split; [reflexivity|]. intros w I. cbn in I. repeat (destruct I as [I|I]; [congruence|]). destruct I.
Qed.

Lemma soft_above : exists s tr a, mstart Fifo 2 s /\ mrun 2 s tr a /\ undisturbed tr /\
  (forall w, In w (pw (mpool a)) -> quiet w = true) /\ mstep 2 (MGetHard 1) a a /\ mstep 2 (MGetSoft 2) a a.
Proof.
  pose proof (md_0 2 mgr2) as R. self R.
  pool_does R (ts_enter_sleep _ [WEnter] []).
  pool_does R (ts_enter_sleep _ [] [WWait]).
  wants R 1.
  pool_does R (ts_woken_exit _ [] [WWoken]).
  pool_does R (ts_destructed _ [] [WWoken]).
  pool_does R (ts_woken_sleep _ [WGone] []).
  exists mgr2. eexists _, _. split; [exact start2|]. split; [exact (made_run _ _ _ _ R)|].
  split; [split; [|intros t]; intros I; cbn in I; repeat (destruct I as [I|I]; [discriminate I|]); exact I|].
  split; [intros w I; cbn in I; repeat (destruct I as [<-|I]; [reflexivity|]); destruct I|].
  split; getter.
Qed.

Definition tk : task := (1%nat, 0).
(** A worker that is still running when the pool is to shrink throws: the pool
    goes back to two workers, and asking for one again changes nothing. *)
Lemma after_throw : exists s tr a, mstart Fifo 2 s /\ pcount (mpool s) = 2 /\ made 2 s (tr ++ [MSetHard 1 1]) a /\ asked 2 tr = 1 /\
  ~ In (MPool LTerminate) tr /\ (forall w, In w (pw (mpool a)) -> quiet w = true) /\ mstep 2 (MGetHard 2) a a.
Proof.
  pose proof (md_0 2 mgr2) as R. self R.
  pool_does R (ts_enter_sleep _ [WEnter] []).
  pool_does R (ts_schedule _ tk [WEnter; WWoken]).
  pool_does R (ts_enter_take _ [] [WWoken] tk []).
  pool_does R (ts_woken_sleep _ [WRun tk] []).
  wants R 1.
  pool_does R (ts_died _ [] tk [WWoken]).
  pool_does R (ts_woken_sleep _ [WGone] [WEnter]).
  pool_does R (ts_enter_sleep _ [WGone; WWait] []).
  wants_again R 1.
  exists mgr2. match type of R with made _ _ ?tr ?a => exists (removelast tr), a end.
  split; [exact start2|]. split; [reflexivity|]. split; [exact R|]. split; [reflexivity|].
  split; [intros I; cbn in I; repeat (destruct I as [I|I]; [discriminate I|]); exact I|].
  split; [intros w I; cbn in I; repeat (destruct I as [<-|I]; [reflexivity|]); destruct I|]. getter.
Qed.

(** The soft count asked for is not what one gets. *)
Lemma soft_late : exists s tr a, mstart Fifo 2 s /\ pcount (mpool s) = 2 /\ made 2 s (tr ++ [MSetSoft 4 4; MSetHard 4 4]) a /\ undisturbed tr /\
  only_more 2 (tr ++ [MSetSoft 4 4; MSetHard 4 4]) /\ mstep 2 (MGetHard 4) a a /\ mstep 2 (MGetSoft 2) a a.
Proof.
  pose proof (md_0 2 mgr2) as R. self R.
  pool_does R (ts_schedule _ tk [WEnter; WEnter]).
  pool_does R (ts_enter_take _ [] [WEnter] tk []).
  limits R 4. wants R 4.
  exists mgr2. match type of R with made _ _ ?tr ?a => exists (removelast (removelast tr)), a end.
  split; [exact start2|]. split; [reflexivity|]. split; [exact R|]. split; [calm_trace|]. split; [|split; getter].
  cbn. intros tr1 n r tr2 E. repeat (destruct tr1 as [|? tr1]; [try discriminate E; injection E as <- <-; subst; cbn; lia|injection E as <- E]). destruct tr1; discriminate E.
Qed.
Lemma soft_zero : exists s tr a, mstart Fifo 2 s /\ mrun 2 s (tr ++ [MSetSoft 0 0]) a /\ mstep 2 (MGetSoft 1) a a.
Proof.
  pose proof (md_0 2 mgr2) as R. self R. limits R 0.
  exists mgr2. match type of R with made _ _ ?tr ?a => exists (removelast tr), a end.
  split; [exact start2|]. split; [exact (made_run _ _ _ _ R)|]. getter.
Qed.
