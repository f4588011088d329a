(** The invariant of FutureM and what follows from it. *)
From Verif Require Import Prelude FutureM FutureS.

Section FutureP.
Context {V : Type}.
Implicit Types (s : fut V) (log : list (event V)).

Fixpoint rets (log : list (event V)) : list V :=
  match log with [] => [] | EReturn v :: l => v :: rets l | _ :: l => rets l end.
Fixpoint invs (log : list (event V)) : nat :=
  match log with [] => 0%nat | EInvoke :: l => S (invs l) | _ :: l => invs l end.
Definition cancelb (e : event V) : bool := match e with EEnd _ Cancel (ABool true) => true | _ => false end.

Lemma rets_app a b : rets (a ++ b) = rets a ++ rets b.
Proof. induction a as [|e a IH]; [reflexivity|]. destruct e; simpl; rewrite ?IH; reflexivity. Qed.
Lemma invs_app a b : invs (a ++ b) = (invs a + invs b)%nat.
Proof. induction a as [|e a IH]; [reflexivity|]. destruct e; simpl; rewrite ?IH; reflexivity. Qed.
Lemma rets_In log v : In v (rets log) <-> In (EReturn v) log.
Proof.
  induction log as [|e log IH]; [reflexivity|].
  destruct e; simpl; rewrite ?IH; split; intros [H|H] || intros H; try discriminate; auto.
  all: left; congruence.
Qed.

(** Threads are where their calls can be. *)
Definition cwf (ready : bool) (c : client) : Prop :=
  match cpc c, ctodo c with
  | PAt, _ => True
  | PSleep, k :: _ | PAwake, k :: _ => waits k = true
  | PTimedOut, k :: _ => k = Timed
  | PRead, k :: _ => k = Get /\ ready = true
  | PSeenReady, k :: _ => k = Cancel /\ ready = true
  | PMark, k :: _ => k = Cancel
  | _, [] => False
  end.
Definition idle_log log : Prop := rets log = [] /\ invs log = 0%nat.
Definition got s log : Prop := exists v, fresult s = Some v /\ rets log = [v].
(** Why no value will come, with the task over. *)
Definition why s log : Prop := ffn s = false \/ In EThrow log \/ In EDrop log \/ fcancel s = true.
Definition lost s log : Prop := why s log /\ (rets log <> [] -> fcancel s = true).

Definition at_ok s log : Prop :=
  match fstage s with
  | SQueued => fready s = false /\ fheld s = false /\ fexec s = None /\ idle_log log /\ ~ In EStart log
  | SDropped => fready s = false /\ fheld s = false /\ fexec s = None /\ idle_log log /\ ~ In EStart log /\ In EDrop log
  | SChecking | SCalling => fready s = false /\ fheld s = false /\ fexec s = Some true /\ idle_log log /\ In EStart log
  | SRunning => fready s = false /\ fheld s = false /\ fexec s = Some true /\ rets log = [] /\ invs log = 1%nat /\ In EStart log
  | SSetting v => fready s = false /\ fheld s = false /\ fexec s = Some true /\ rets log = [v] /\ invs log = 1%nat /\ In EStart log
  | SStore v => fready s = false /\ fheld s = true /\ fexec s = Some true /\ rets log = [v] /\ invs log = 1%nat /\ In EStart log
  | SPublish => fready s = false /\ fheld s = true /\ fexec s = Some true /\ got s log /\ invs log = 1%nat /\ In EStart log
  | SNotify => fready s = true /\ fheld s = true /\ fexec s = Some true /\ got s log /\ invs log = 1%nat /\ In EStart log
  | SClosing => fheld s = false /\ fexec s = Some true /\ (length (rets log) <= 1)%nat /\ (invs log <= 1)%nat /\ (rets log <> [] -> invs log = 1%nat) /\
      In EStart log /\ (if fready s then got s log /\ (forall c, In c (fclients s) -> cpc c <> PSleep) else lost s log)
  | SOver => fheld s = false /\ (length (rets log) <= 1)%nat /\ (invs log <= 1)%nat /\ (rets log <> [] -> invs log = 1%nat) /\
      In EStart log /\ (if fready s then fexec s = Some false /\ got s log /\ (forall c, In c (fclients s) -> cpc c <> PSleep) else lost s log)
  end.

Record I (log : list (event V)) (s : fut V) : Prop := {
  i_stage : at_ok s log;
  i_cwf : forall c, In c (fclients s) -> cwf (fready s) c;
  i_cancel : fcancel s = existsb cancelb log;
  i_ready : forall e, In e log -> reports_ready e -> fready s = true;
  i_init : ~ In EUninit log }.

Lemma I_new fn progs : I [] (fnew fn progs).
Proof.
  split; simpl; auto; try (intros ? []).
  - repeat split; auto.
  - intros c H. apply in_map_iff in H. destruct H as [p [<- _]]. exact Logic.I.
Qed.

Lemma lost_log s s' log log' : ffn s' = ffn s -> (fcancel s = true -> fcancel s' = true) -> incl log log' -> rets log' = rets log ->
  lost s log -> lost s' log'.
Proof.
  intros E1 E2 Hi Er [H Hc]. split; [|rewrite Er; auto].
  destruct H as [H|[H|[H|H]]]; unfold why; rewrite ?E1; auto.
Qed.

Lemma nosleep_mid (l1 : list client) c l2 c' :
  (forall x, In x (l1 ++ c :: l2) -> cpc x <> PSleep) -> cpc c' <> PSleep ->
  forall x, In x (l1 ++ c' :: l2) -> cpc x <> PSleep.
Proof.
  intros H Hc x Hx. rewrite in_app_iff in Hx. destruct Hx as [Hx|[<-|Hx]]; auto; apply H; rewrite in_app_iff; auto.
  right. right. exact Hx.
Qed.
Lemma cwf_mid r r' (l1 : list client) c l2 c' :
  (forall x, In x (l1 ++ c :: l2) -> cwf r x) -> (r = true -> r' = true) -> cwf r' c' ->
  forall x, In x (l1 ++ c' :: l2) -> cwf r' x.
Proof.
  intros H Hr Hc x Hx. assert (Hm : forall y, cwf r y -> cwf r' y).
  { intros [p t]; unfold cwf; simpl. destruct p; destruct t; auto; intros [? ?]; auto. }
  rewrite in_app_iff in Hx. destruct Hx as [Hx|[<-|Hx]]; auto; apply Hm, H; rewrite in_app_iff; auto.
  right. right. exact Hx.
Qed.
Lemma cwf_up r r' c : (r = true -> r' = true) -> cwf r c -> cwf r' c.
Proof. destruct c as [p t]; unfold cwf; simpl. intros Hr. destruct p; destruct t; auto; intros [? ?]; auto. Qed.

Ltac sp := repeat match goal with H : _ /\ _ |- _ => destruct H end.

(** Task steps keep the invariant. *)
Lemma I_task log s es s' : I log s -> tstep s es s' -> I (log ++ es) s'.
Proof.
  intros [Hs Hc Hx Hr Hi] Ht. unfold at_ok in Hs.
  assert (Hin : forall e, In e (log ++ es) -> In e log \/ In e es) by (intros e He; apply in_app_or; exact He).
  destruct Ht as [s E|s E Ef|s E Ef|s E|s E|s v E|s E|s v E Eh|s v E|s E|s E|s E]; rewrite E in Hs; sp;
  split; cbn [fready fcancel fclients at_stage with_exec with_held FutureM.with_clients];
  rewrite ?app_nil_r; rewrite ?existsb_app; cbn [existsb cancelb]; rewrite ?orb_false_r; auto;
  try (intros e He Hrep; rewrite in_app_iff in He; destruct He as [He|[<-|[]]]; [eauto|contradiction]);
  try (intros He; rewrite in_app_iff in He; destruct He as [He|[He|[]]]; [auto|discriminate]);
  unfold at_ok; cbn [fstage fheld fexec fready fcancel fclients fresult ffn at_stage with_exec with_held FutureM.with_clients];
  unfold idle_log, got in *; rewrite ?rets_app, ?invs_app; cbn [rets invs]; rewrite ?app_nil_r, ?Nat.add_0_r.
  all: sp.
  - repeat split; auto; rewrite ?in_app_iff; simpl; auto. intros [?|[?|[]]]; [auto|discriminate].
  - replace (rets log) with (@nil V) by auto. repeat split; auto; try (simpl; lia).
    + intros HH; contradiction.
    + rewrite in_app_iff; simpl; auto.
    + match goal with H : fready s = false |- _ => rewrite H end. split; [left; exact Ef|]. rewrite rets_app; simpl; rewrite app_nil_r. contradiction.
  - repeat split; auto; rewrite in_app_iff; simpl; auto.
  - destruct (fcancel s) eqn:Ec.
    + replace (rets log) with (@nil V) by auto. repeat split; auto; try (simpl; lia).
      * intros HH; contradiction.
      * match goal with H : fready s = false |- _ => rewrite H end. split; [right; right; right; exact Ec|intros _; exact Ec].
    + repeat split; auto.
  - repeat split; auto; try lia. rewrite in_app_iff; auto.
  - match goal with H : rets log = _ |- _ => rewrite H end. repeat split; auto. rewrite in_app_iff; auto.
  - match goal with H : rets log = _ |- _ => rewrite H end. repeat split; auto; try (simpl; lia).
    + rewrite in_app_iff; auto.
    + match goal with H : fready s = false |- _ => rewrite H end. split; [right; left; rewrite in_app_iff; simpl; auto|].
      rewrite rets_app. replace (rets log) with (@nil V) by auto. contradiction.
  - destruct (negb (fready s) && negb (fcancel s)) eqn:Eb; cbn [fstage fheld fexec fready fcancel fclients fresult ffn at_stage with_exec with_held FutureM.with_clients].
    + repeat split; auto.
    + match goal with H : rets log = _ |- _ => rewrite H end. repeat split; auto; try (simpl; lia).
      match goal with H : fready s = false |- _ => rewrite H in Eb |- * end. simpl in Eb.
      assert (Ec : fcancel s = true) by (destruct (fcancel s); [reflexivity|discriminate]).
      split; [right; right; right; exact Ec|intros _; exact Ec].
  - destruct (negb (fready s) && negb (fcancel s)); exact Hc.
  - destruct (negb (fready s) && negb (fcancel s)); exact Hx.
  - destruct (negb (fready s) && negb (fcancel s)); exact Hr.
  - repeat split; auto. exists v. auto.
  - repeat split; auto.
  - intros c Hcin. apply cwf_up with (fready s); auto.
  - repeat match goal with H : exists _, _ |- _ => destruct H | H : _ /\ _ |- _ => destruct H end.
    replace (rets log) with [x] by auto. repeat split; auto; try (simpl; lia).
    match goal with H : fready s = true |- _ => rewrite H end. split; [eauto|].
    intros c Hcin. apply in_map_iff in Hcin. destruct Hcin as [c0 [<- _]]. unfold woken.
    destruct (cpc c0) eqn:Ep; simpl; congruence.
  - intros c Hcin. apply in_map_iff in Hcin. destruct Hcin as [c0 [<- Hin0]]. specialize (Hc c0 Hin0).
    unfold woken. destruct c0 as [p t]; simpl in *. destruct p; auto.
  - destruct (fready s).
    + sp. repeat split; auto.
    + repeat split; auto; apply H5.
Qed.

(** A thread's step keeps the invariant. *)
Definition ends_only (es : list (event V)) : Prop := forall e, In e es -> exists i c a, e = EEnd i c a.
Lemma ends_only_rets es : ends_only es -> rets es = [] /\ invs es = 0%nat.
Proof.
  induction es as [|e es IH]; intros H; [auto|].
  destruct (H e (or_introl eq_refl)) as [i [c [a ->]]]. apply IH. intros x Hx. apply H. right. exact Hx.
Qed.
Lemma I_mid log s l1 c l2 c' b es :
  I log s -> fclients s = l1 ++ c :: l2 ->
  ends_only es -> cwf (fready s) c' -> (fready s = true -> cpc c' <> PSleep) ->
  (fcancel s = true -> b = true) -> b = (fcancel s || existsb cancelb es) ->
  (forall e, In e es -> reports_ready e -> fready s = true) ->
  I (log ++ es) (with_client s l1 c' l2 b).
Proof.
  intros [Hs Hc Hx Hr Hi] El He Hw Hn Hb Hb2 Hre.
  destruct (ends_only_rets es He) as [R1 R2]. rewrite El in Hc.
  split; cbn [fready fcancel fclients with_client].
  - unfold at_ok in *. cbn [fstage with_client]. unfold idle_log, got in *.
    cbn [fready fheld fexec fresult fclients with_client].
    rewrite rets_app, invs_app, R1, R2, app_nil_r, Nat.add_0_r.
    assert (Hns : forall e, (forall i c a, e <> EEnd i c a) -> ~ In e log -> ~ In e (log ++ es)).
    { intros e Hne Hni Hin. rewrite in_app_iff in Hin. destruct Hin as [Hin|Hin]; [auto|].
      destruct (He e Hin) as [i [k [a ->]]]. eapply Hne. reflexivity. }
    assert (Hl : lost s log -> lost (with_client s l1 c' l2 b) (log ++ es)).
    { apply lost_log; auto; [apply incl_appl, incl_refl|]. rewrite rets_app, R1, app_nil_r. reflexivity. }
    assert (Hin : forall e, In e log -> In e (log ++ es)) by (intros; apply in_or_app; auto).
    destruct (fstage s); sp; repeat split; auto; try (apply Hns; [discriminate|assumption]).
    + destruct (fready s); [|auto]. sp. split; [assumption|].
      rewrite El in *. eapply nosleep_mid; eauto.
    + destruct (fready s); [|auto]. sp. repeat split; auto.
      rewrite El in *. eapply nosleep_mid; eauto.
  - eapply cwf_mid; eauto.
  - rewrite existsb_app, <- Hx. exact Hb2.
  - intros e Hin Hrep. rewrite in_app_iff in Hin. destruct Hin; eauto.
  - rewrite in_app_iff. intros [H|H]; [auto|]. destruct (He _ H) as [? [? [? ?]]]. discriminate.
Qed.

Lemma uninit_never log s l1 rest l2 :
  I log s -> fclients s = l1 ++ Client PSeenReady (Cancel :: rest) :: l2 -> fexec s = None -> False.
Proof.
  intros [Hs Hc _ _ _] El Ex. specialize (Hc (Client PSeenReady (Cancel :: rest))).
  rewrite El, in_app_iff in Hc. specialize (Hc (or_intror (or_introl eq_refl))). simpl in Hc. destruct Hc as [_ Hr].
  unfold at_ok in Hs. rewrite Hr, Ex in Hs.
  destruct (fstage s); sp; try discriminate.
Qed.

Lemma I_step log s es s' : I log s -> fstep s es s' -> I (log ++ es) s'.
Proof.
  intros HI Hs. destruct Hs as [s es s' Ht|s l1 c l2 c' b rs El Hc|s l1 rest l2 El Ex|s l1 l2 todo El|s l1 l2 rest El].
  - exact (I_task _ _ _ _ HI Ht).
  - assert (Hw : cwf (fready s) c) by (apply (i_cwf _ _ HI); rewrite El, in_app_iff; right; left; reflexivity).
    eapply I_mid; [exact HI|exact El|..].
    + intros e He. apply in_map_iff in He. destruct He as [[k a] [<- _]]. eauto.
    + inversion Hc; subst; simpl in *; try (unfold cwf; simpl; auto; fail).
      * destruct (fready s); [|assumption]. destruct c0; try discriminate; unfold cwf; simpl; auto.
      * destruct (fready s); unfold cwf; simpl; auto.
    + intros Hr. inversion Hc; subst; simpl; try discriminate.
      * rewrite Hr. destruct c0; discriminate.
      * rewrite Hr. discriminate.
    + inversion Hc; subst; auto.
    + inversion Hc; subst; simpl; rewrite ?orb_false_r, ?orb_true_r; auto.
      destruct (fready s); destruct c0; try discriminate; simpl; rewrite ?orb_false_r; reflexivity.
    + intros e He. apply in_map_iff in He. destruct He as [[k a] [<- Hin]].
      inversion Hc; subst; simpl in *; try (destruct Hin as [E|[]]; inversion E; subst; simpl); auto; try contradiction.
      * destruct (fready s); auto.
      * destruct (fready s); [auto|]. destruct c0; simpl in *; tauto.
      * destruct Hw. auto.
      * destruct Hw. auto.
  - destruct (uninit_never _ _ _ _ _ HI El Ex).
  - assert (Hw : cwf (fready s) (Client PSleep todo)) by (apply (i_cwf _ _ HI); rewrite El, in_app_iff; right; left; reflexivity).
    eapply I_mid; [exact HI|exact El|..]; simpl; rewrite ?orb_false_r; auto; try (intros _; discriminate); try (intros e []).
  - eapply I_mid; [exact HI|exact El|..]; simpl; rewrite ?orb_false_r; auto; try (intros _; discriminate); try (intros e []).
    reflexivity.
Qed.

Lemma I_steps s es s' : fsteps s es s' -> forall log, I log s -> I (log ++ es) s'.
Proof.
  induction 1 as [s|s es s' es' s'' H1 H2 IH]; intros log HI.
  - rewrite app_nil_r. exact HI.
  - rewrite app_assoc. apply IH. exact (I_step _ _ _ _ HI H1).
Qed.
Lemma I_reach fn progs log s : fsteps (fnew fn progs) log s -> I log s.
Proof. intros H. exact (I_steps _ _ _ H [] (I_new fn progs)). Qed.

(** An execution can be cut at any event. *)
Lemma step_short s es s' : fstep s es s' -> es = [] \/ exists e, es = [e].
Proof.
  intros H. destruct H as [? ? ? Ht|? ? ? ? ? ? ? ? Hc|? ? ? ? ? ?|? ? ? ? ?|? ? ? ? ?]; auto; [..|eauto].
  - destruct Ht; eauto.
  - destruct Hc; simpl; eauto. unfold proceed. destruct (fready _); [destruct c|]; simpl; eauto.
Qed.
Lemma fsteps_cut s log s' : fsteps s log s' -> forall l1 e l2, log = l1 ++ e :: l2 ->
  exists s1 s2, fsteps s l1 s1 /\ fstep s1 [e] s2 /\ fsteps s2 l2 s'.
Proof.
  induction 1 as [s|s es s' es' s'' H1 H2 IH]; intros l1 e l2 E.
  - destruct l1; discriminate.
  - destruct (step_short _ _ _ H1) as [->|[x ->]]; simpl in E.
    + destruct (IH l1 e l2 E) as [s1 [s2 [A [B C]]]]. exists s1, s2. split; [|auto].
      exact (fs_cons _ [] _ _ _ H1 A).
    + destruct l1 as [|y l1]; simpl in E; inversion E; subst.
      * exists s, s'. repeat split; auto. constructor.
      * destruct (IH l1 e l2 eq_refl) as [s1 [s2 [A [B C]]]]. exists s1, s2. split; [|auto].
        exact (fs_cons _ [y] _ _ _ H1 A).
Qed.

(** What a step's event says about the state before it. *)
Lemma event_end s i k a s' : fstep s [EEnd i k a] s' ->
  exists l1 c l2 c' b, fclients s = l1 ++ c :: l2 /\ cstep s c c' b [(k, a)] /\ s' = with_client s l1 c' l2 b /\ i = length l1.
Proof.
  intros H. inversion H; subst.
  - match goal with H : tstep _ _ _ |- _ => inversion H end.
  - destruct rs as [|[k0 a0] [|r rs]]; try discriminate.
    simpl in *. match goal with E : _ :: _ = _ :: _ |- _ => injection E as <- <- <- end.
    exists l1, c, l2, c', b. repeat split; auto.
Qed.
Lemma get_event log s i o s' : I log s -> fstep s [EEnd i Get (AVal o)] s' -> exists v, o = Some v /\ In (EReturn v) log.
Proof.
  intros HI H. destruct (event_end _ _ _ _ _ H) as [l1 [c [l2 [c' [b [El [Hc [_ _]]]]]]]].
  assert (Hw : cwf (fready s) c) by (apply (i_cwf _ _ HI); rewrite El, in_app_iff; right; left; reflexivity).
  assert (Hr : fready s = true /\ o = fresult s).
  { inversion Hc; subst; simpl in *.
    - match goal with H : map _ _ = _ |- _ => revert H end.
      destruct (fready s); [destruct c0|]; simpl; intros E; try discriminate; inversion E.
    - destruct Hw. auto. }
  destruct Hr as [Hr ->]. pose proof (i_stage _ _ HI) as Hs. unfold at_ok in Hs. rewrite Hr in Hs.
  destruct (fstage s); sp; try discriminate; unfold got in *;
  match goal with H : exists v, fresult s = Some v /\ _ |- _ => destruct H as [v [E1 E2]] end;
  exists v; (split; [exact E1|]); apply rets_In; rewrite E2; left; reflexivity.
Qed.
Lemma ready_stays s es s' : fstep s es s' -> fready s = true -> fready s' = true.
Proof.
  intros H Hr. destruct H as [? ? ? Ht|? ? ? ? ? ? ? ? Hc|? ? ? ? ? ?|? ? ? ? ?|? ? ? ? ?]; auto.
  destruct Ht; simpl; auto. rewrite Hr. exact Hr.
Qed.
Lemma unready_event s e s' : fstep s [e] s' -> reports_unready e -> fready s = false.
Proof.
  intros H Hu. destruct e as [| | | | |i k a|]; try contradiction.
  destruct (event_end _ _ _ _ _ H) as [l1 [c [l2 [c' [b [El [Hc _]]]]]]].
  destruct k; try contradiction. destruct a as [[|]| |]; try contradiction.
  inversion Hc; subst; simpl in *; try congruence.
  match goal with H : map _ _ = _ |- _ => revert H end.
  destruct (fready s); [destruct c0|]; simpl; intros E; try discriminate; inversion E.
Qed.
Lemma ready_never_un s es s' : fsteps s es s' -> fready s = true -> never reports_unready es.
Proof.
  induction 1 as [s|s es s' es' s'' H1 H2 IH]; intros Hr e He Hu; [destruct He|].
  rewrite in_app_iff in He. destruct He as [He|He]; [|exact (IH (ready_stays _ _ _ H1 Hr) e He Hu)].
  destruct (step_short _ _ _ H1) as [->|[x ->]]; [destruct He|]. destruct He as [->|[]].
  pose proof (unready_event _ _ _ H1 Hu). congruence.
Qed.

(** Once cancelled before the function has returned, no value is ever there. *)
Definition dead s : Prop :=
  fcancel s = true /\ fready s = false /\ match fstage s with SStore _ | SPublish | SNotify => False | _ => True end.
Lemma cancel_stays s c c' b rs : cstep s c c' b rs -> fcancel s = true -> b = true.
Proof. intros H Hx. destruct H; auto. Qed.
Lemma dead_stays s es s' : fstep s es s' -> dead s -> dead s'.
Proof.
  intros H [D1 [D2 D3]]. destruct H as [? ? ? Ht|? ? ? ? ? ? ? ? Hc|? ? ? ? ? ?|? ? ? ? ?|? ? ? ? ?].
  - destruct Ht as [s E|s E Ef|s E Ef|s E|s E|s v E|s E|s v E Eh|s v E|s E|s E|s E]; rewrite E in D3; try contradiction;
    unfold dead; simpl; auto.
    + rewrite D1. auto.
    + rewrite D1, D2. simpl. auto.
  - unfold dead. simpl. split; [exact (cancel_stays _ _ _ _ _ Hc D1)|auto].
  - unfold dead. simpl. auto.
  - unfold dead. simpl. auto.
  - unfold dead. simpl. auto.
Qed.
Lemma dead_steps s es s' : fsteps s es s' -> dead s -> dead s'.
Proof. induction 1; intros HD; auto. apply IHfsteps. eapply dead_stays; eassumption. Qed.
Lemma dead_never log s : I log s -> fready s = false -> never reports_ready log.
Proof. intros HI HD e He Hr. pose proof (i_ready _ _ HI e He Hr). congruence. Qed.

Lemma cancel_event log s e s' : I log s -> fstep s [e] s' -> reports_cancelled e -> fcancel s' = true /\ fready s' = fready s /\ fstage s' = fstage s.
Proof.
  intros HI H Hu. destruct e as [| | | | |i k a|]; try contradiction.
  destruct (event_end _ _ _ _ _ H) as [l1 [c [l2 [c' [b [El [Hc [-> _]]]]]]]].
  destruct k; try contradiction. destruct a as [[|]| |]; try contradiction.
  simpl. split; [|auto]. inversion Hc; subst; simpl in *; auto.
  match goal with H : map _ _ = _ |- _ => revert H end.
  destruct (fready s); [destruct c0|]; simpl; intros E; try discriminate; inversion E.
Qed.

(** Cancelled before the task starts, its function is not called. *)
Definition barred s : Prop :=
  fcancel s = true /\ match fstage s with SQueued | SDropped | SChecking | SClosing | SOver => True | _ => False end.
Lemma barred_step s es s' : fstep s es s' -> barred s -> barred s' /\ never invoked es.
Proof.
  intros H [D1 D2]. destruct H as [? ? ? Ht|? ? ? ? ? ? ? ? Hc|? ? ? ? ? ?|? ? ? ? ?|? ? ? ? ?].
  - destruct Ht as [s E|s E Ef|s E Ef|s E|s E|s v E|s E|s v E Eh|s v E|s E|s E|s E]; rewrite E in D2; try contradiction;
    unfold barred; simpl; rewrite ?D1; (split; [auto|]); intros e He Hi; simpl in He; try destruct He as [<-|[]]; contradiction.
  - unfold barred. simpl. split; [split; [exact (cancel_stays _ _ _ _ _ Hc D1)|auto]|].
    intros e He. apply in_map_iff in He. destruct He as [? [<- _]]. exact (fun h => h).
  - unfold barred. simpl. split; [auto|]. intros e [<-|[]] [].
  - unfold barred. simpl. split; [auto|]. intros e [].
  - unfold barred. simpl. split; [auto|]. intros e [].
Qed.
Lemma barred_steps s es s' : fsteps s es s' -> barred s -> never invoked es.
Proof.
  induction 1 as [s|s es s' es' s'' H1 H2 IH]; intros HB e He; [destruct He|].
  destruct (barred_step _ _ _ H1 HB) as [HB' Hn]. rewrite in_app_iff in He. destruct He as [He|He]; [exact (Hn e He)|exact (IH HB' e He)].
Qed.
End FutureP.
