(** Threads that share the pool: an assignment made by the pool's only worker. *)
From Verif Require Import Prelude WindowM WindowS WindowP GhostM FieldM FieldS FieldP MaskM NeboM NeboS NeboP NeboQ NeboA NeboB NeboC ParM ParS ParP ParQ TPoolM TPoolS TPoolP TPoolQ ShareM ShareS ShareP ShareQ ShareR ShareT ShareU.

(** A pool with one worker, as thread_pool(1) makes it. *)
Definition lone (k : skind) : pool := Pool k [] 1 1 1 1 false [WEnter] [] [] [] [] [] [].
Lemma lone_path k : path calm (pool_new k) (lone k).
Proof.
  eapply pa_step with (l := LActive 1).
  - eapply pa_step with (l := LResize 1); [constructor| |].
    + apply ts_resize; [lia|]. apply (rz_grow (pool_new k) 1 1); cbn; reflexivity || lia.
    + split; cbn; [lia|reflexivity].
  - apply ts_active. lia.
  - split; cbn; auto.
Qed.

Section Lone.
Variable V : Type.
Notation heap := (heap V).
Notation sys := (sys V).
Notation job := (prog V unit).

(** The worker runs the calling thread, which is at stage g; the tasks besides
    it are jobs. *)
Definition lone_at (g : stage V) (r : list (prog V (list job))) (st : sys) : Prop :=
  pw (spool st) = [WRun (task_of 0)] /\ scall st = [Caller (Hosted 0) g 1 r] /\
  exists tab, stab st = EHost 0 :: tab /\ forall e, In e tab -> exists j, e = EJob 0 1 (Some j).
Lemma lone_moves g r st : lone_at g r st -> nth_error (scall st) 0 = Some (Caller (Hosted 0) g 1 r) /\ moves st (Hosted 0).
Proof. intros (A & -> & _). split; [reflexivity|]. cbn. unfold runs_task. rewrite A. left. reflexivity. Qed.
Lemma lone_set g r g' st h : lone_at g r st -> lone_at g' r (with_heap (with_caller st 0 (Caller (Hosted 0) g' 1 r)) h).
Proof. intros (A & B & C). split; [exact A|]. split; [cbn; rewrite B; reflexivity|exact C]. Qed.
Lemma lone_set0 g r g' st : lone_at g r st -> lone_at g' r (with_caller st 0 (Caller (Hosted 0) g' 1 r)).
Proof. intros L. exact (lone_set g r g' st (sheap st) L). Qed.
Lemma path_trans P (a b c : sys) : hpath P a b -> hpath P b c -> hpath P a c.
Proof. intros X Y. induction Y; [exact X|]. eapply hp_step; eassumption. Qed.

Lemma lone_prepare rd wr (p : prog V (list job)) h h' jobs : solo rd wr p h h' jobs -> forall r st, lone_at (Preparing p) r st -> sheap st = h ->
  exists st', hpath calm_step st st' /\ lone_at (Preparing (Ret jobs)) r st' /\ sheap st' = h'.
Proof.
  induction 1 as [jobs h|b i k h h' jobs C D S0 IH|b i v k h h' jobs C D S0 IH]; intros r st L E.
  - exists st. split; [constructor|]. auto.
  - destruct (lone_moves _ _ _ L) as (N & M). subst h. pose proof (lone_set0 _ _ (Preparing (k (bdata (sheap st b) i))) _ L) as L'.
    destruct (IH r _ L' eq_refl) as (st' & P & Q). exists st'. split; [|exact Q].
    eapply path_trans; [|exact P]. eapply hp_step; [constructor|eapply hs_load; eassumption|exact I].
  - destruct (lone_moves _ _ _ L) as (N & M). subst h. pose proof (lone_set _ _ (Preparing k) _ (upd (sheap st) b i v) L) as L'.
    destruct (IH r _ L' eq_refl) as (st' & P & Q). exists st'. split; [|exact Q].
    eapply path_trans; [|exact P]. eapply hp_step; [constructor|eapply hs_store; eassumption|exact I].
Qed.
Lemma lone_schedule todo : forall s w r st, lone_at (Parallel todo s w) r st ->
  exists st', hpath calm_step st st' /\ lone_at (Parallel [] s w) r st'.
Proof.
  induction todo as [|j todo IH]; intros s w r st L; [exists st; split; [constructor|exact L]|].
  destruct (lone_moves _ _ _ L) as (N & M). pose proof L as (A & B & tab & Et & J).
  assert (T : exists q, tstep (LSchedule (task_of (length (stab st)))) (spool st) q /\ pw q = [WRun (task_of 0)] /\ plimit q = plimit (spool st)).
  { eexists. split; [apply ts_schedule; apply n1_none; rewrite A; reflexivity|]. split; [exact A|reflexivity]. }
  destruct T as (q & T & Tw & Tl).
  pose proof (hs_schedule V st 0 (Hosted 0) 1 j todo s w r q N M T) as St.
  assert (L' : lone_at (Parallel todo s w) r (Sys q (sheap st) (set_nth (scall st) 0 (Caller (Hosted 0) (Parallel todo s w) 1 r)) (stab st ++ [EJob 0 1 (Some j)]))).
  { split; [exact Tw|]. split; [cbn [scall]; rewrite B; reflexivity|]. exists (tab ++ [EJob 0 1 (Some j)]). split; [cbn [stab]; rewrite Et; reflexivity|].
    intros e X. apply in_app_or in X as [X|[<-|[]]]; eauto. }
  destruct (IH s w r _ L') as (st' & P & Q).
  exists st'. split; [|exact Q]. eapply path_trans; [|exact P]. eapply hp_step; [constructor|exact St|]. split; [|discriminate]. split; [exact I|]. cbn [spool]. lia.
Qed.
Lemma lone_halted w r st : lone_at (Parallel [] 0 (S w)) r st -> halted st.
Proof.
  intros (A & B & tab & Et & J) l st' Il St.
  assert (C1 : forall c k g n l', nth_error (scall st) c = Some (Caller k g n l') -> c = 0%nat /\ k = Hosted 0 /\ g = Parallel [] 0 (S w)).
  { intros c k g n l' E. rewrite B in E. destruct c as [|c]; [|destruct c; discriminate]. cbn in E. injection E as <- <- _ _. auto. }
  assert (R1 : forall i, runs_task st i -> i = 0%nat).
  { intros i R. unfold runs_task in R. rewrite A in R. destruct R as [R|[]]. injection R as <-. reflexivity. }
  assert (E1 : forall i o n j, nth_error (stab st) i = Some (EJob o n j) -> runs_task st i -> False).
  { intros i o n j E R. rewrite (R1 i R) in E. rewrite Et in E. discriminate. }
  destruct St as [st c k n p r' E M|st c k n b i f r' E M C|st c k n b i v p r' E M C|st c k n jobs r' E M|st c k n j t s w' r' q E M T
    |st c k n s w' r' E M Hs|st c k n s r' E M|st c g n r' q E T|st i o n b x f E M C|st i o n b x v p E M C|st i o n k t s w' r' E M Eo
    |st i e q E F T|st i e q E F T|st l q F T]; try (destruct (C1 _ _ _ _ _ E) as (_ & X & Y); discriminate); try (eapply E1; eassumption).
  - destruct (C1 _ _ _ _ _ E) as (_ & X & Y). injection Y as Ys _. lia.
  - inversion T as [| | | | | |? l1 t l2 Ew| | | | | | | | | | |]; subst.
    assert (R : runs_task st i) by (unfold runs_task; rewrite Ew; apply in_elt). rewrite (R1 i R), Et in E. cbn in E. injection E as <-.
    destruct F as (k & Ek & Eg & _). rewrite B in Ek. cbn in Ek. injection Ek as <-. discriminate.
  - discriminate Il.
  - destruct l; try discriminate; inversion T; subst;
      match goal with H : pw (spool st) = ?l1 ++ ?x :: ?l2 |- _ => assert (X : In x (pw (spool st))) by (rewrite H; apply in_elt); rewrite A in X; destruct X as [X|[]]; discriminate end.
Qed.

Variable vadd vmul : V -> V -> V.
Variable dim : asg V -> ivec.
Lemma asg_has_jobs h a : asg_ok dim h a -> apar a = true -> exists N, forall fuel, (N <= fuel)%nat -> exists h1 jobs,
  (0 < length jobs)%nat /\ solo (fun _ _ => True) (fun _ _ => True) (phase vadd vmul fuel a) h h1 jobs.
Proof.
  intros Ok Pa. destruct (asg_phase V vadd vmul dim h a (fun _ _ => True) (fun _ _ => True) Ok (fun _ _ _ => I) (fun _ => I)) as (N1 & P1).
  assert (Q : exists R, parallel_ok V vadd vmul h (adst a) (arhs a) (aug a) R).
  { destruct Ok as (O & D & Al & Hp & X). destruct (aug a).
    - destruct X as (Cx & X). eexists. apply (assign_parallel V vadd vmul (dim a)); auto.
    - eexists. apply (interior_parallel V vadd vmul (dim a)); auto. }
  destruct Q as (R & N2 & P2). exists (Nat.max N1 N2). intros fuel Hf.
  destruct (P1 fuel ltac:(lia) h (fun b x => eq_refl)) as (h' & (h1 & jobs & S0 & _) & _).
  destruct (P2 fuel ltac:(lia)) as (jobs' & h2 & Rn & _ & L & _). exists h1, jobs. split; [|exact S0].
  pose proof (solo_run _ _ _ _ _ _ _ S0) as Rn'. unfold phase in Rn'. rewrite Pa in Rn'. rewrite Rn in Rn'. injection Rn' as <- <-. exact L.
Qed.

Theorem lone_deadlock kd h a : asg_ok dim h a -> apar a = true -> exists N, forall fuel, (N <= fuel)%nat ->
  exists st, hpath calm_step (share_start vadd vmul fuel (lone kd) h [(true, [a])]) st /\ halted st /\ ~ all_returned st.
Proof.
  intros Ok Pa. destruct (asg_has_jobs h a Ok Pa) as (N & P). exists N. intros fuel Hf. destruct (P fuel Hf) as (h1 & jobs & L & S0).
  set (p := phase vadd vmul fuel a) in *.
  set (q1 := Pool kd [task_of 0] 1 1 1 1 false [WEnter] [] [task_of 0] [] [] [] []).
  set (q2 := Pool kd [] 1 1 1 1 false [WRun (task_of 0)] [] [task_of 0] [task_of 0] [] [] []).
  assert (T1 : tstep (LSchedule (task_of 0)) (lone kd) q1) by (apply (ts_schedule (lone kd)); apply n1_none; reflexivity).
  assert (T2 : tstep (LStart (task_of 0)) q1 q2).
  { apply (ts_enter_take q1 [] [] (task_of 0) []); [reflexivity|cbn; lia|reflexivity|]. cbn. destruct kd.
    - apply takes_fifo.
    - apply (takes_lifo _ []).
    - apply (takes_prio _ [] []). intros u []. }
  set (st1 := Sys q1 h [Caller (Hosted 0) Between 0 [p]] [EHost 0] : sys).
  set (st2 := Sys q2 h [Caller (Hosted 0) Between 0 [p]] [EHost 0] : sys).
  set (st3 := Sys q2 h [Caller (Hosted 0) (Preparing p) 1 []] [EHost 0] : sys).
  assert (P2 : hpath calm_step (share_start vadd vmul fuel (lone kd) h [(true, [a])]) st2).
  { apply (hp_step _ _ _ (APool (LStart (task_of 0))) st1 st2).
    - eapply hp_step; [constructor|apply (hs_submit V (share_start vadd vmul fuel (lone kd) h [(true, [a])]) 0 Between 0 [p] q1); [reflexivity|exact T1]|].
      split; [split; [exact I|cbn; lia]|discriminate].
    - apply (hs_pool V st1 (LStart (task_of 0)) q2); [reflexivity|exact T2].
    - split; [split; [exact I|cbn; lia]|discriminate]. }
  assert (P3 : hpath calm_step (share_start vadd vmul fuel (lone kd) h [(true, [a])]) st3).
  { eapply hp_step; [exact P2|apply (hs_begin V st2 0 (Hosted 0) 0 p []); [reflexivity|left; reflexivity]|exact I]. }
  assert (L3 : lone_at (Preparing p) [] st3).
  { split; [reflexivity|]. split; [reflexivity|]. exists []. split; [reflexivity|]. intros e []. }
  destruct (lone_prepare _ _ _ _ _ _ S0 [] st3 L3 eq_refl) as (st4 & P4 & L4 & _).
  destruct (lone_moves _ _ _ L4) as (N4 & M4). pose proof (hs_ready V st4 0 (Hosted 0) 1 jobs [] N4 M4) as St5.
  pose proof (lone_set0 _ _ (Parallel jobs 0 (length jobs)) _ L4) as L5.
  destruct (lone_schedule jobs 0 (length jobs) [] _ L5) as (st6 & P6 & L6).
  exists st6. split; [|split].
  - eapply path_trans; [|exact P6]. eapply hp_step; [|exact St5|exact I]. eapply path_trans; [exact P3|exact P4].
  - destruct jobs as [|j jobs]; [cbn in L; lia|]. eapply lone_halted. exact L6.
  - intros A. destruct L6 as (_ & B & _). destruct (A (Caller (Hosted 0) (Parallel [] 0 (length jobs)) 1 [])) as (X & _); [rewrite B; left; reflexivity|discriminate].
Qed.
End Lone.
