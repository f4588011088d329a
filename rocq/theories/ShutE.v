(** Destroying a thread pool: concrete runs. *)
From Coq Require Import Permutation.
From Verif Require Import Prelude TPoolM TPoolS TPoolP TPoolQ ShutM ShutS ShutP ShutQ.

Ltac norm_state R := match type of R with
  | path _ _ ?b => let b' := eval cbv in b in change b with b' in R
  | srun _ ?tr ?b => let b' := eval cbv in b in change b with b' in R; let tr' := eval cbv in tr in change tr with tr' in R end.
Ltac side := first [reflexivity|solve [cbn; lia]|solve [apply n1_none; reflexivity]|exact (n1_some [] _)
  |exact (takes_fifo _ _)|solve [eapply (rz_grow _ _ 1); [reflexivity|cbn; lia|lia|cbn; lia]]].
Ltac stepped b s k := let l := fresh in let c := fresh in let X := fresh in
  evar (l : label); evar (c : pool); assert (X : tstep l b c); [subst l c; eapply s; side|subst l c; k X].
Tactic Notation "pgo" hyp(R) uconstr(s) := match type of R with path ?P ?a ?b => stepped b s ltac:(fun X =>
  let Y := fresh in pose proof (pa_step P a _ b _ R X) as Y; clear R X;
  assert (R := Y ltac:(split; [cbn; try exact Logic.I; lia|cbn; try (intros; reflexivity); lia])); clear Y; norm_state R) end.
Ltac snorm R Y := clear R; rename Y into R; norm_state R.
Tactic Notation "sgo" hyp(R) uconstr(s) := match type of R with srun ?a ?tr (Sys ?b ?d ?i) => stepped b s ltac:(fun X =>
  let Y := fresh in pose proof (sr_step a tr _ _ _ R (ss_pool _ _ _ d i X)) as Y; clear X; snorm R Y) end.
Ltac scall R := match type of R with srun ?a ?tr (Sys ?b (?c :: ?d) None) =>
  let Y := fresh in pose proof (sr_step a tr _ _ _ R (ss_call c b d)) as Y; snorm R Y end.
Ltac sret R g := match type of R with srun ?a ?tr (Sys ?b ?d (Some ?i)) =>
  let Y := fresh in pose proof (sr_step a tr _ _ _ R (ss_return b d i g eq_refl)) as Y; snorm R Y end.
Definition t1 : task := (1%nat, 5). Definition t2 : task := (2%nat, 7). Definition t3 : task := (3%nat, 7).

(** One worker, one task queued. *)
Definition one_queued : pool := Pool Fifo [t1] 1 1 1 1 false [WEnter] [] [t1] [] [] [] [].
Lemma one_queued_calm : path calm (pool_new Fifo) one_queued.
Proof.
  pose proof (pa_0 calm (pool_new Fifo)) as R.
  pgo R (ts_resize _ 1).
  pgo R (ts_active _ 1).
  pgo R (ts_schedule _ t1).
  exact R.
Qed.
Lemma one_queued_reach : treach (pool_new Fifo) one_queued.
Proof. exact (path_reach _ _ _ one_queued_calm). Qed.
(** The destructor waits for the task, ends the worker and returns. *)
Lemma full_run : exists tr s, srun (shutdown WaitAll one_queued) tr s /\ over s /\ ~ In (SPool LClear) tr /\
  gdone (spool s) = [t1] /\ pw (spool s) = [WGone].
Proof.
  pose proof (sr_0 (shutdown WaitAll one_queued)) as R. norm_state R.
  scall R.
  sgo R (ts_enter_take _ [] [] t1 []).
  sgo R (ts_done _ [] t1 []).
  sgo R (ts_enter_sleep _ [] []).
  sgo R (ts_client _ [] (CWait 0) []).
  sret R (CWait 0).
  scall R.
  sgo R (ts_woken_exit _ [] []).
  sgo R (ts_destructed _ [] []).
  sgo R (ts_client _ [CBack (CWait 0)] CTerm []).
  sret R CTerm.
  eexists _, _. split; [exact R|]. split; [split; reflexivity|]. split; [cbn; intuition discriminate|]. split; reflexivity.
Qed.
(** wait_for_active_tasks throws the queued task away. *)
Lemma active_run : exists tr1 tr2 s, srun (shutdown WaitActive one_queued) (tr1 ++ SCall KClear :: tr2) s /\ Forall no_schedule tr2 /\ over s /\
  gclear (spool s) = [t1] /\ gstart (spool s) = [] /\ pw (spool s) = [WGone].
Proof.
  pose proof (sr_0 (shutdown WaitActive one_queued)) as R. norm_state R.
  scall R. scall R.
  sgo R (ts_enter_sleep _ [] []).
  sgo R (ts_client _ [] (CWait 0) []).
  sret R (CWait 0).
  scall R.
  sgo R (ts_woken_exit _ [] []).
  sgo R (ts_destructed _ [] []).
  sgo R (ts_client _ [CBack (CWait 0)] CTerm []).
  sret R CTerm.
  eexists [], _, _. split; [exact R|]. split; [repeat constructor|]. repeat split.
Qed.

(** No worker: the destructor sleeps for ever. *)
Definition none_queued : pool := Pool Fifo [t1] 0 0 0 0 false [] [] [t1] [] [] [] [].
Lemma hangs : exists a s, path calm (pool_new Fifo) a /\ pq a <> [] /\ pcount a = 0 /\ steps (own true) (shutdown WaitAll a) s /\
  stuck (own true) s /\ ~ over s.
Proof.
  exists none_queued, (Sys (entered none_queued (CWait 0)) [KTerm true] (Some 0%nat)). split.
  - pose proof (pa_0 calm (pool_new Fifo)) as R. pgo R (ts_schedule _ t1). exact R.
  - split; [discriminate|]. split; [reflexivity|]. split.
    + eapply sp_S; [apply sp_0|]. eapply (own_call _ KWait). apply (ss_call KWait none_queued [KTerm true]).
    + split.
      * intros b O.
        assert (NI : forall l st', tstep l (entered none_queued (CWait 0)) st' -> internal l = true \/ (exists t, l = LDied t) -> False).
        { intros l st' T I. inversion T; subst; try (destruct I as [I|(? & I)]; discriminate I); cbn in *;
            match goal with E : [] = ?l ++ _ :: _ |- _ => destruct l; discriminate E end. }
        inversion O as [l a b0 I St|t a b0 St Rp|st c1 g c2 d i E|c a b0 St|a b0 St]; subst.
        -- inversion St; subst. eapply NI; eauto.
        -- inversion St; subst. eapply NI; eauto.
        -- cbn in E. destruct c1 as [|? []]; discriminate E.
        -- inversion St.
        -- inversion St; subst. discriminate.
      * intros [O _]. discriminate O.
Qed.
(** Tasks that another thread schedules after the wait may stay behind. *)
Lemma late_task : exists tr s, srun (shutdown WaitAll one_queued) tr s /\ over s /\ In (SPool (LSchedule t3)) tr /\ pq (spool s) = [t3] /\
  forall st, treach (spool s) st -> no_workers st.
Proof.
  pose proof (sr_0 (shutdown WaitAll one_queued)) as R. norm_state R.
  scall R.
  sgo R (ts_enter_take _ [] [] t1 []).
  sgo R (ts_done _ [] t1 []).
  sgo R (ts_enter_sleep _ [] []).
  sgo R (ts_client _ [] (CWait 0) []).
  sret R (CWait 0).
  sgo R (ts_schedule _ t2).
  sgo R (ts_schedule _ t3).
  scall R.
  sgo R (ts_woken_take _ [] [] t2 [t3]).
  sgo R (ts_done _ [] t2 []).
  sgo R (ts_enter_exit _ [] []).
  sgo R (ts_destructed _ [] []).
  sgo R (ts_client _ [CBack (CWait 0)] CTerm []).
  sret R CTerm.
  eexists _, _. split; [exact R|]. split; [split; reflexivity|]. split; [cbn; tauto|]. split; [reflexivity|].
  intros st T. eapply (shutdown_stays Fifo WaitAll one_queued); [discriminate|exact one_queued_reach|exact R|split; reflexivity|exact T].
Qed.
