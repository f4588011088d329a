(** The theorems of C53 in terms of events, and that nobody is left waiting. *)
From Verif Require Import Prelude FutureM FutureS FutureP.

Section FutureQ.
Context {V : Type}.
Implicit Types (s : fut V) (log : list (event V)).
Ltac sp := repeat match goal with H : _ /\ _ |- _ => destruct H end.

Lemma get_value fn progs log s l1 i o l2 : fsteps (fnew fn progs) log s -> log = l1 ++ EEnd i Get (AVal o) :: l2 ->
  exists v, o = Some v /\ In (EReturn v) l1.
Proof.
  intros H E. destruct (fsteps_cut _ _ _ H _ _ _ E) as [s1 [s2 [A [B _]]]].
  exact (get_event _ _ _ _ _ (I_reach _ _ _ _ A) B).
Qed.

Lemma counts fn progs log s : fsteps (fnew fn progs) log s -> (length (rets log) <= 1)%nat /\ (invs log <= 1)%nat.
Proof.
  intros H. pose proof (i_stage _ _ (I_reach _ _ _ _ H)) as Hs. unfold at_ok, idle_log, got in Hs.
  destruct (fstage s); sp; repeat match goal with H : exists _, _ |- _ => destruct H | H : _ /\ _ |- _ => destruct H end;
  repeat match goal with H : rets log = _ |- _ => rewrite H | H : invs log = _ |- _ => rewrite H end; simpl; auto.
Qed.
Lemma once_invoked fn progs log s : fsteps (fnew fn progs) log s -> once invoked log.
Proof.
  intros H l1 e l2 -> Hi. destruct e; try contradiction. destruct (counts _ _ _ _ H) as [_ Hc].
  rewrite invs_app in Hc. simpl in Hc.
  assert (Hz : forall l : list (event V), invs l = 0%nat -> never invoked l).
  { induction l as [|x l IH]; intros E y Hy; [destruct Hy|].
    destruct Hy as [->|Hy]; [|apply IH; [destruct x; simpl in E; auto; discriminate|exact Hy]].
    destruct y; simpl in *; auto. discriminate. }
  split; apply Hz; lia.
Qed.
Lemma once_returned fn progs log s : fsteps (fnew fn progs) log s -> once returned log.
Proof.
  intros H l1 e l2 -> Hi. destruct e as [| |v| | | |]; try contradiction. destruct (counts _ _ _ _ H) as [Hc _].
  rewrite rets_app, app_length in Hc. simpl in Hc.
  assert (Hz : forall l : list (event V), length (rets l) = 0%nat -> never returned l).
  { intros l E y Hy Hr. destruct y as [| |w| | | |]; try contradiction. apply rets_In in Hy. destruct (rets l); [destruct Hy|discriminate]. }
  split; apply Hz; lia.
Qed.
Lemma returns_agree fn progs log s v w : fsteps (fnew fn progs) log s -> In (EReturn v) log -> In (EReturn w) log -> v = w.
Proof.
  intros H Hv Hw. destruct (counts _ _ _ _ H) as [Hc _]. apply rets_In in Hv, Hw.
  destruct (rets log) as [|x [|y l]]; simpl in *; try lia; try contradiction. destruct Hv as [->|[]], Hw as [->|[]]. reflexivity.
Qed.
Lemma gets_agree fn progs log s i o j p : fsteps (fnew fn progs) log s ->
  In (EEnd i Get (AVal o)) log -> In (EEnd j Get (AVal p)) log -> o = p.
Proof.
  intros H Hi Hj. destruct (in_split _ _ Hi) as [a1 [a2 Ea]], (in_split _ _ Hj) as [b1 [b2 Eb]].
  destruct (get_value _ _ _ _ _ _ _ _ H Ea) as [v [-> Hv]], (get_value _ _ _ _ _ _ _ _ H Eb) as [w [-> Hw]].
  f_equal. eapply returns_agree; [exact H|rewrite Ea|rewrite Eb]; apply in_or_app; auto.
Qed.

Lemma ready_stable fn progs log s l1 e l2 : fsteps (fnew fn progs) log s -> log = l1 ++ e :: l2 -> reports_ready e ->
  never reports_unready l2 /\ exists v, In (EReturn v) l1.
Proof.
  intros H E Hr. destruct (fsteps_cut _ _ _ H _ _ _ E) as [s1 [s2 [A [B C]]]].
  pose proof (I_reach _ _ _ _ A) as I1. pose proof (I_step _ _ _ _ I1 B) as I2.
  assert (R2 : fready s2 = true) by (apply (i_ready _ _ I2 e); [apply in_or_app; right; left; reflexivity|exact Hr]).
  split; [exact (ready_never_un _ _ _ C R2)|].
  pose proof (i_stage _ _ I2) as Hs. unfold at_ok, got in Hs. rewrite R2 in Hs.
  assert (exists v, In (EReturn v) (l1 ++ [e])) as [v Hv].
  { destruct (fstage s2); sp; try discriminate; repeat match goal with H : exists _, _ |- _ => destruct H | H : _ /\ _ |- _ => destruct H end;
    match goal with H : rets _ = [?v] |- _ => exists v; apply rets_In; rewrite H; left; reflexivity end. }
  rewrite in_app_iff in Hv. destruct Hv as [Hv|[->|[]]]; [eauto|contradiction].
Qed.

Lemma cancel_blocks fn progs log s l1 e l2 : fsteps (fnew fn progs) log s -> log = l1 ++ e :: l2 -> reports_cancelled e ->
  never returned l1 -> never reports_ready log.
Proof.
  intros H E Hr Hn. destruct (fsteps_cut _ _ _ H _ _ _ E) as [s1 [s2 [A [B C]]]].
  pose proof (I_reach _ _ _ _ A) as I1.
  destruct (cancel_event _ _ _ _ I1 B Hr) as [C1 [C2 C3]].
  assert (R : rets l1 = []).
  { destruct (rets l1) as [|v r] eqn:Er; [reflexivity|]. exfalso. apply (Hn (EReturn v)); [|exact Logic.I].
    apply rets_In. rewrite Er. left. reflexivity. }
  assert (D : dead s2).
  { unfold dead. rewrite C1, C2, C3. split; [reflexivity|].
    pose proof (i_stage _ _ I1) as Hs. unfold at_ok, got in Hs. rewrite R in Hs.
    destruct (fstage s1); sp; auto;
    try (repeat match goal with H : exists _, _ |- _ => destruct H | H : _ /\ _ |- _ => destruct H end; discriminate);
    destruct (fready s1); auto; sp; repeat match goal with H : exists _, _ |- _ => destruct H | H : _ /\ _ |- _ => destruct H end; discriminate. }
  pose proof (dead_steps _ _ _ C D) as [_ [D' _]].
  exact (dead_never _ _ (I_reach _ _ _ _ H) D').
Qed.
Lemma cancel_bars fn progs log s l1 e l2 : fsteps (fnew fn progs) log s -> log = l1 ++ e :: l2 -> reports_cancelled e ->
  never started l1 -> never invoked log /\ never reports_ready log.
Proof.
  intros H E Hr Hn.
  destruct (fsteps_cut _ _ _ H _ _ _ E) as [s1 [s2 [A [B C]]]].
  pose proof (I_reach _ _ _ _ A) as I1.
  destruct (cancel_event _ _ _ _ I1 B Hr) as [C1 [C2 C3]].
  assert (Hst : idle_log l1 /\ match fstage s1 with SQueued | SDropped => True | _ => False end).
  { assert (Hi : ~ In EStart l1) by (intros Hi; apply (Hn _ Hi); exact Logic.I).
    pose proof (i_stage _ _ I1) as Hs. unfold at_ok in Hs. destruct (fstage s1); sp; auto; contradiction. }
  destruct Hst as [[R1 R2] Hst].
  split.
  - rewrite E. intros x Hx. rewrite in_app_iff in Hx. destruct Hx as [Hx|[<-|Hx]].
    + intros Hi. destruct x; try contradiction. destruct (in_split _ _ Hx) as [a [b Eab]]. rewrite Eab, invs_app in R2. simpl in R2. lia.
    + destruct e; try contradiction. exact (fun h => h).
    + revert x Hx. apply (barred_steps _ _ _ C). unfold barred. rewrite C1, C3. split; [reflexivity|].
      destruct (fstage s1); auto.
  - apply (cancel_blocks _ _ _ _ _ _ _ H E Hr). intros x Hx Hret. destruct x as [| |v| | | |]; try contradiction.
    apply rets_In in Hx. rewrite R1 in Hx. destruct Hx.
Qed.
Lemma is_cancelled_exact fn progs log s l1 i b l2 : fsteps (fnew fn progs) log s -> log = l1 ++ EEnd i IsCancelled (ABool b) :: l2 ->
  b = true <-> exists e, In e l1 /\ reports_cancelled e.
Proof.
  intros H E. destruct (fsteps_cut _ _ _ H _ _ _ E) as [s1 [s2 [A [B _]]]].
  pose proof (i_cancel _ _ (I_reach _ _ _ _ A)) as Hc.
  assert (Eb : b = fcancel s1).
  { destruct (event_end _ _ _ _ _ B) as [? [c [? [c' [b' [El [Hst _]]]]]]]. inversion Hst; subst; simpl in *; auto.
    match goal with H : map _ _ = _ |- _ => revert H end.
    destruct (fready s1); [destruct c0|]; simpl; intros E; try discriminate; inversion E. }
  rewrite Eb, Hc, existsb_exists. split; intros [e [He Hb]]; exists e; (split; [exact He|]).
  - destruct e as [| | | | |? k a|]; try discriminate. destruct k; try discriminate. destruct a as [[|]| |]; try discriminate. exact Logic.I.
  - destruct e as [| | | | |? k a|]; try contradiction. destruct k; try contradiction. destruct a as [[|]| |]; try contradiction. reflexivity.
Qed.
Lemma no_uninit fn progs log s : fsteps (fnew fn progs) log s -> ~ In EUninit log.
Proof. intros H. exact (i_init _ _ (I_reach _ _ _ _ H)). Qed.

(** After the function has returned, with nothing cancelled, the task alone makes the value available. *)
Lemma task_delivers fn progs log s v : fsteps (fnew fn progs) log s -> In (EReturn v) log -> never reports_cancelled log ->
  exists s', task_alone s [] s' /\ fready s' = true /\ fresult s' = Some v /\ fheld s' = false.
Proof.
  intros H Hv Hn. pose proof (I_reach _ _ _ _ H) as HI. pose proof (i_stage _ _ HI) as Hs. unfold at_ok, idle_log, got in Hs.
  assert (Hc : fcancel s = false).
  { rewrite (i_cancel _ _ HI). destruct (existsb cancelb log) eqn:E; [|reflexivity]. apply existsb_exists in E. destruct E as [e [He Hb]].
    exfalso. apply (Hn e He). destruct e as [| | | | |? k a|]; try discriminate. destruct k; try discriminate. destruct a as [[|]| |]; try discriminate. exact Logic.I. }
  apply rets_In in Hv.
  assert (Hone : forall w, rets log = [w] -> w = v) by (intros w E; rewrite E in Hv; destruct Hv as [?|[]]; assumption).
  assert (HnC : forall s0 : fut V, fstage s0 = SNotify -> fready s0 = true -> fresult s0 = Some v ->
    exists s', task_alone s0 [] s' /\ fready s' = true /\ fresult s' = Some v /\ fheld s' = false).
  { intros s0 E0 R0 V0. eexists. split; [exact (ta_cons _ [] _ [] _ (t_notify s0 E0) (ta_nil _))|]. simpl. auto. }
  assert (HnP : forall s0 : fut V, fstage s0 = SPublish -> fresult s0 = Some v ->
    exists s', task_alone s0 [] s' /\ fready s' = true /\ fresult s' = Some v /\ fheld s' = false).
  { intros s0 E0 V0. destruct (HnC (Fut true (fresult s0) (fcancel s0) (fexec s0) (fheld s0) (ffn s0) SNotify (fclients s0))) as [s' [A B]]; auto.
    exists s'. split; [exact (ta_cons _ [] _ [] _ (t_publish s0 E0) A)|exact B]. }
  assert (HnS : forall s0 : fut V, fstage s0 = SStore v ->
    exists s', task_alone s0 [] s' /\ fready s' = true /\ fresult s' = Some v /\ fheld s' = false).
  { intros s0 E0. destruct (HnP (Fut (fready s0) (Some v) (fcancel s0) (fexec s0) (fheld s0) (ffn s0) SPublish (fclients s0))) as [s' [A B]]; auto.
    exists s'. split; [exact (ta_cons _ [] _ [] _ (t_store s0 v E0) A)|exact B]. }
  destruct (fstage s) as [| | | | |w|w| | | |] eqn:Es; sp;
  try (match goal with H : rets log = [] |- _ => rewrite H in Hv; destruct Hv end).
  - assert (w = v) by auto. subst w.
    destruct (HnS (with_held s true (SStore v)) eq_refl) as [s' [A B]]. exists s'. split; [|exact B].
    pose proof (t_lock s v Es ltac:(assumption)) as T. rewrite Hc in T.
    match goal with H : fready s = false |- _ => rewrite H in T end. exact (ta_cons _ [] _ [] _ T A).
  - assert (w = v) by auto. subst w. apply HnS. exact Es.
  - match goal with H : exists _, _ |- _ => destruct H as [w [E1 E2]] end. apply HnP; [exact Es|]. rewrite E1. f_equal. auto.
  - match goal with H : exists _, _ |- _ => destruct H as [w [E1 E2]] end. apply HnC; auto. rewrite E1. f_equal. auto.
  - exists s. split; [constructor|]. destruct (fready s) eqn:Er.
    + destruct H6 as [[w [E1 E2]] _]. repeat split; auto. rewrite E1. f_equal. auto.
    + exfalso. destruct H6 as [_ Hl]. rewrite Hc in Hl. assert (rets log <> []) by (intros E; rewrite E in Hv; destruct Hv). intuition discriminate.
  - exists s. split; [constructor|]. destruct (fready s) eqn:Er.
    + destruct H5 as [_ [[w [E1 E2]] _]]. repeat split; auto. rewrite E1. f_equal. auto.
    + exfalso. destruct H5 as [_ Hl]. rewrite Hc in Hl. assert (rets log <> []) by (intros E; rewrite E in Hv; destruct Hv). intuition discriminate.
Qed.

(** With the value there, every step brings the end nearer. *)
Definition srank (st : stage V) : nat := match st with SNotify => 2 | SClosing => 1 | _ => 0 end.
Definition prank (p : pc) : nat :=
  match p with PAt => 5 | PSleep => 4 | PAwake => 3 | PTimedOut => 3 | PSeenReady => 2 | PMark => 1 | PRead => 1 end.
Definition cmeas (c : client) : nat := 10 * length (ctodo c) + prank (cpc c).
Definition meas (s : fut V) : nat := srank (fstage s) + list_sum (map cmeas (fclients s)).

Lemma sum_mid (l1 : list client) c l2 : list_sum (map cmeas (l1 ++ c :: l2)) = (list_sum (map cmeas l1) + cmeas c + list_sum (map cmeas l2))%nat.
Proof. rewrite map_app, list_sum_app. simpl. lia. Qed.
Lemma sum_woken (l : list client) : (list_sum (map cmeas (map woken l)) <= list_sum (map cmeas l))%nat.
Proof.
  induction l as [|c l IH]; simpl; [lia|]. assert (cmeas (woken c) <= cmeas c)%nat; [|lia].
  destruct c as [p t]. unfold woken, cmeas. destruct p; simpl; lia.
Qed.
Lemma cmeas_step s c c' b rs : fready s = true -> cwf true c -> cstep s c c' b rs -> (cmeas c' < cmeas c)%nat.
Proof.
  intros Hr Hw Hc. unfold cmeas. inversion Hc; subst; rewrite ?Hr; cbn [cpc ctodo length prank proceed fst]; try lia.
  unfold cmeas. destruct c0; try discriminate; destruct H0 as [-> | ->]; simpl; lia.
Qed.
Lemma ready_stage log s : I log s -> fready s = true -> fstage s = SNotify \/ fstage s = SClosing \/ fstage s = SOver.
Proof. intros HI Hr. pose proof (i_stage _ _ HI) as Hs. unfold at_ok in Hs. rewrite Hr in Hs. destruct (fstage s); sp; auto; discriminate. Qed.
Lemma meas_step log s es s' : I log s -> fready s = true -> fstep s es s' -> (meas s' < meas s)%nat.
Proof.
  intros HI Hr H. pose proof (ready_stage _ _ HI Hr) as Hst. pose proof (i_cwf _ _ HI) as Hw. rewrite Hr in Hw.
  destruct H as [s es s' Ht|s l1 c l2 c' b rs El Hc|s l1 rest l2 El Ex|s l1 l2 todo El|s l1 l2 rest El]; unfold meas.
  - destruct Ht as [s E|s E Ef|s E Ef|s E|s E|s v E|s E|s v E Eh|s v E|s E|s E|s E]; try (exfalso; rewrite E in Hst; intuition discriminate).
    + rewrite E. simpl. pose proof (sum_woken (fclients s)). lia.
    + rewrite E. simpl. lia.
  - unfold with_client. simpl. rewrite El, !sum_mid. assert (cmeas c' < cmeas c)%nat; [|lia].
    apply (cmeas_step s c c' b rs Hr); [|exact Hc]. apply Hw. rewrite El, in_app_iff. right. left. reflexivity.
  - unfold with_client. simpl. rewrite El, !sum_mid. unfold cmeas. simpl. lia.
  - unfold with_client. simpl. rewrite El, !sum_mid. unfold cmeas. simpl. lia.
  - unfold with_client. simpl. rewrite El, !sum_mid. unfold cmeas. simpl. lia.
Qed.
Lemma runs_meas n s s' : runs n s s' -> forall log, I log s -> fready s = true ->
  (n + meas s' <= meas s)%nat /\ fready s' = true /\ exists log', I log' s'.
Proof.
  induction 1 as [s|n s es s' s'' H1 H2 IH]; intros log HI Hr; [eauto|].
  pose proof (meas_step _ _ _ _ HI Hr H1). destruct (IH _ (I_step _ _ _ _ HI H1) (ready_stays _ _ _ H1 Hr)) as [A B].
  split; [lia|exact B].
Qed.
(** A thread with calls left can go on when m_monitor is free and it does not sleep. *)
Lemma client_moves log s c : I log s -> In c (fclients s) -> fheld s = false -> cpc c <> PSleep -> ctodo c <> [] ->
  exists c' b rs, cstep s c c' b rs.
Proof.
  intros HI Hin Hh Hp Ht. pose proof (i_cwf _ _ HI c Hin) as Hw. destruct c as [p [|k rest]]; [contradiction|].
  unfold cwf in Hw. simpl in *. destruct p; try contradiction.
  - destruct k; try (eexists; eexists; eexists; constructor; fail); eexists; eexists; eexists; apply c_wait; auto.
  - eexists; eexists; eexists; apply c_wait; auto.
  - subst k. eexists; eexists; eexists; apply c_timed_out; auto.
  - destruct Hw as [-> _]. eexists; eexists; eexists; apply c_read.
  - destruct Hw as [-> Hr]. destruct (fexec s) as [[|]|] eqn:Ex.
    + eexists; eexists; eexists. eapply c_cancel_exec; eauto.
    + eexists; eexists; eexists. eapply c_cancel_false; eauto.
    + exfalso. destruct (in_split _ _ Hin) as [l1 [l2 El]]. exact (uninit_never _ _ _ _ _ HI El Ex).
  - subst k. eexists; eexists; eexists; apply c_cancel_mark.
Qed.
Lemma quiet_stage log s : I log s -> (forall es s', ~ tstep s es s') -> fstage s = SDropped \/ fstage s = SOver.
Proof.
  intros HI Hq. pose proof (i_stage _ _ HI) as Hs. unfold at_ok in Hs.
  destruct (fstage s) eqn:E; auto; exfalso; sp.
  - exact (Hq _ _ (t_drop s E)).
  - exact (Hq _ _ (t_check s E)).
  - exact (Hq _ _ (t_invoke s E)).
  - exact (Hq _ _ (t_throw s E)).
  - eapply Hq. eapply t_lock; eauto.
  - eapply Hq. eapply t_store; eauto.
  - exact (Hq _ _ (t_publish s E)).
  - exact (Hq _ _ (t_notify s E)).
  - exact (Hq _ _ (t_close s E)).
Qed.
Lemma ready_all_return log s : I log s -> fready s = true -> all_return s.
Proof.
  intros HI Hr. split.
  - exists (meas s). intros n s' H. destruct (runs_meas _ _ _ H _ HI Hr). lia.
  - intros n s' H Hstop c Hin. destruct (runs_meas _ _ _ H _ HI Hr) as [_ [Hr' [log' HI']]].
    destruct (quiet_stage _ _ HI') as [E|E]; [intros es s2 Ht; exact (Hstop _ _ (f_task _ _ _ Ht))|..];
    pose proof (i_stage _ _ HI') as Hs; unfold at_ok in Hs; rewrite E, Hr' in Hs; sp; try discriminate.
    destruct (ctodo c) as [|k rest] eqn:Et; [reflexivity|]. exfalso.
    destruct (client_moves _ _ _ HI' Hin) as [c' [b [rs Hc]]]; auto; [congruence|].
    destruct (in_split _ _ Hin) as [l1 [l2 El]]. exact (Hstop _ _ (f_client _ _ _ _ _ _ _ El Hc)).
Qed.
Lemma reported_all_return fn progs log s e : fsteps (fnew fn progs) log s -> In e log -> reports_ready e -> all_return s.
Proof. intros H He Hr. pose proof (I_reach _ _ _ _ H) as HI. exact (ready_all_return _ _ HI (i_ready _ _ HI e He Hr)). Qed.
Lemma task_alone_steps s es s' : task_alone s es s' -> fsteps s es s'.
Proof. induction 1; [constructor|]. eapply fs_cons; [apply f_task; eassumption|assumption]. Qed.
Lemma returned_all_return fn progs log s v : fsteps (fnew fn progs) log s -> In (EReturn v) log -> never reports_cancelled log ->
  exists s', task_alone s [] s' /\ all_return s'.
Proof.
  intros H Hv Hn. destruct (task_delivers _ _ _ _ _ H Hv Hn) as [s' [A [B _]]]. exists s'. split; [exact A|].
  pose proof (I_steps _ _ _ (task_alone_steps _ _ _ A) _ (I_reach _ _ _ _ H)) as HI. exact (ready_all_return _ _ HI B).
Qed.
Lemma quiet_left fn progs log s : fsteps (fnew fn progs) log s -> quiet s ->
  (forall c, In c (fclients s) -> ctodo c = []) \/
  ((forall c, In c (fclients s) -> ctodo c = [] \/ asleep_in_wait c) /\
   (fn = false \/ In EThrow log \/ In EDrop log \/ exists e, In e log /\ reports_cancelled e)).
Proof.
  intros H [Ht Hc]. pose proof (I_reach _ _ _ _ H) as HI. pose proof (i_stage _ _ HI) as Hs. unfold at_ok in Hs.
  assert (Hfn : ffn s = fn).
  { clear -H. remember (fnew fn progs) as s0 eqn:E0. assert (E : ffn s0 = fn) by (subst; reflexivity). clear E0. revert E.
    induction H as [|s0 es s1 es' s2 H1 H2 IH]; intros E; [exact E|]. apply IH. rewrite <- E.
    destruct H1 as [? ? ? Hx|? ? ? ? ? ? ? ? ?|? ? ? ? ? ?|? ? ? ? ?|? ? ? ? ?]; try reflexivity.
    destruct Hx; try reflexivity. destruct (_ && _); reflexivity. }
  assert (Hsl : fheld s = false -> forall c, In c (fclients s) -> ctodo c = [] \/ asleep_in_wait c).
  { intros Hh c Hin. destruct (ctodo c) as [|k rest] eqn:Et; [auto|]. right.
    assert (Ep : cpc c = PSleep).
    { destruct (cpc c) eqn:Ep; try reflexivity; exfalso;
      destruct (client_moves _ _ c HI Hin Hh) as [c' [b [rs Hcs]]]; try congruence;
      destruct (in_split _ _ Hin) as [l1 [l2 El]]; exact (Hc _ _ _ _ _ _ El Hcs). }
    pose proof (i_cwf _ _ HI c Hin) as Hw. unfold cwf in Hw. destruct c as [p t]. simpl in *. subst. exists k, rest. auto. }
  assert (Hx : fcancel s = true -> exists e, In e log /\ reports_cancelled e).
  { rewrite (i_cancel _ _ HI), existsb_exists. intros [e [He Hb]]. exists e. split; [exact He|].
    destruct e as [| | | | |? k a|]; try discriminate. destruct k; try discriminate. destruct a as [[|]| |]; try discriminate. exact Logic.I. }
  destruct (quiet_stage _ _ HI Ht) as [E|E]; rewrite E in Hs; sp.
  - right. split; auto.
  - destruct (fready s) eqn:Er; sp.
    + left. intros c Hin. destruct (Hsl H0 c Hin) as [Hd|[k [rest [-> _]]]]; [exact Hd|]. exfalso. exact (H7 _ Hin eq_refl).
    + right. split; [auto|]. destruct H5 as [[Hw|[Hw|[Hw|Hw]]] _]; [left; congruence|auto..].
Qed.
End FutureQ.
