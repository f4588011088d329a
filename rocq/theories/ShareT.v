(** Threads that share the pool: when nothing moves any more, all is done. *)
From Coq Require Import Sorting.Permutation.
From Verif Require Import Prelude WindowM GhostM FieldM MaskM NeboM NeboS NeboP ParM ParS ParP TPoolM TPoolS TPoolP TPoolQ ShareM ShareS ShareP ShareQ.

(** A worker that looks for a task can move. *)
Lemma seeker_moves st w : In w (pw st) -> w = WEnter \/ w = WWoken -> exists l st', internal l = true /\ free l = true /\ tstep l st st'.
Proof.
  intros I Q. apply in_split in I. destruct I as (l1 & l2 & E). destruct Q as [-> | ->].
  - destruct (Z.ltb_spec (ptarget st) (pcount st)).
    + eexists _, _. split; [|split; [|apply (ts_enter_exit _ _ _ E H)]]; reflexivity.
    + destruct (must_wait st) eqn:M.
      * eexists _, _. split; [|split; [|apply (ts_enter_sleep _ _ _ E H M)]]; reflexivity.
      * destruct (takes_ex (pkind st) (pq st)) as (t & q & T); [apply must_wait_false, M|].
        eexists _, _. split; [|split; [|apply (ts_enter_take _ _ _ _ _ E H M T)]]; reflexivity.
  - destruct (must_wait (with_active st (pactive st + 1))) eqn:M.
    + destruct (Z.ltb_spec (ptarget st) (pcount st)).
      * eexists _, _. split; [|split; [|apply (ts_woken_exit _ _ _ E M H)]]; reflexivity.
      * eexists _, _. split; [|split; [|apply (ts_woken_sleep _ _ _ E M H)]]; reflexivity.
    + destruct (takes_ex (pkind st) (pq st)) as (t & q & T); [apply (must_wait_false _ M)|].
      eexists _, _. split; [|split; [|apply (ts_woken_take _ _ _ _ _ E M T)]]; reflexivity.
Qed.
Lemma can_schedule st t : exists st', tstep (LSchedule t) st st'.
Proof.
  assert (N : exists ws, notify1 (pw st) ws).
  { destruct (existsb waiting (pw st)) eqn:E; [|eexists; apply n1_none; exact E].
    apply existsb_exists in E as (w & I & W). apply in_split in I as (l1 & l2 & ->). destruct w; try discriminate. eexists. apply n1_some. }
  destruct N as (ws & N). eexists. apply ts_schedule. exact N.
Qed.
Lemma run_in_running st t : In (WRun t) (pw st) <-> In t (running st).
Proof.
  unfold running. rewrite in_flat_map. split.
  - intros I. exists (WRun t). split; [exact I|left; reflexivity].
  - intros (w & I & J). destruct w; cbn in J; try contradiction. destruct J as [<-|[]]. exact I.
Qed.
Lemma can_finish st t : In (WRun t) (pw st) -> exists st', tstep (LDone t) st st'.
Proof. intros I. apply in_split in I as (l1 & l2 & E). eexists. apply (ts_done _ _ _ _ E). Qed.

(** What a step does to the records of the pool. *)
Lemma records_step l a b : tstep l a b ->
  gsched b = gsched a ++ match l with LSchedule t => [t] | _ => [] end /\
  gdone b = gdone a ++ match l with LDone t => [t] | _ => [] end /\
  gfail b = gfail a ++ match l with LDied t => [t] | _ => [] end /\
  (l <> LClear -> gclear b = gclear a) /\ pkind b = pkind a.
Proof.
  intros St. destruct St; cbn; rewrite ?app_nil_r; auto.
  - destruct (pterm st); [subst st'; subst st1; cbn; rewrite ?app_nil_r; auto|].
    destruct (resize_ghost _ _ _ H0) as (-> & -> & _ & -> & -> & ->). subst st1. cbn. rewrite ?app_nil_r. auto.
  - repeat split; auto. intros N. destruct N. reflexivity.
  - destruct (resize_ghost _ _ _ H0) as (-> & -> & _ & -> & -> & ->). rewrite ?app_nil_r. auto.
  - destruct wait; cbn; rewrite ?app_nil_r; auto.
Qed.

Section Rest.
Variable V : Type.
Notation heap := (heap V).
Notation sys := (sys V).
Variable h0 : heap.
Variable phs : nat -> list (prog V (list (prog V unit))).
Variable hp : nat -> nat -> heap.
Variable rdc wrc : nat -> nat -> Z -> Prop.
Notation fpc c := (fp (rdc c) (wrc c)).
Hypothesis CSep : forall c d b x, c <> d -> wrc c b x -> ~ fpc d b x.
Hypothesis Ph : forall c k p, nth_error (phs c) k = Some p -> phase_ok V (rdc c) (wrc c) p (hp c k) (hp c (S k)).
Notation sinv := (sinv V h0 phs hp rdc wrc).
Notation stage_ok := (stage_ok V hp rdc wrc).
Variable kd : skind.

Definition hosted (k : caller V) : bool := match chost k with Own => false | _ => true end.
Record pinv (st : sys) : Prop := {
  p_path : path calm (pool_new kd) (spool st);
  p_sched : gsched (spool st) = map task_of (seq 0 (length (stab st)));
  p_done : forall t, In t (gdone (spool st)) -> exists i e, t = task_of i /\ nth_error (stab st) i = Some e /\ finished st e;
  p_fail : gfail (spool st) = [];
  p_clear : gclear (spool st) = [];
  p_host : forall c i g n l, nth_error (scall st) c = Some (Caller (Hosted i) g n l) -> nth_error (stab st) i = Some (EHost c);
  p_host2 : forall i c, nth_error (stab st) i = Some (EHost c) -> exists g n l, nth_error (scall st) c = Some (Caller (Hosted i) g n l) }.

Lemma set_length {A} (l : list A) i x y : nth_error l i = Some x -> length (set_nth l i y) = length l.
Proof. intros E. destruct (set_split _ _ _ E) as (l1 & l2 & -> & _ & ->). rewrite !app_length. reflexivity. Qed.
Lemma finished_caller (st : sys) c k k' e h : nth_error (scall st) c = Some k -> (all_made k -> all_made k') ->
  finished st e -> finished (with_heap (with_caller st c k') h) e.
Proof.
  intros E M. destruct e as [o m j|o]; [exact (fun F => F)|]. cbn. intros (x & Ex & Mx). rewrite (nth_set _ _ _ _ _ E).
  destruct (Nat.eqb_spec o c) as [->|N]; [|exists x; auto]. rewrite E in Ex. injection Ex as <-. exists k'. auto.
Qed.

(** A caller moves without a task being added: the pool is as before. *)
Lemma pinv_caller st c k g n l g' n' l' h : pinv st -> nth_error (scall st) c = Some (Caller k g n l) ->
  (all_made (Caller k g n l) -> all_made (Caller k g' n' l')) -> pinv (with_heap (with_caller st c (Caller k g' n' l')) h).
Proof.
  intros [P1 P2 P3 P4 P5 P6 P7] E M. constructor; cbn [with_heap with_caller spool scall stab]; try assumption.
  - intros t I. destruct (P3 t I) as (i & e & X1 & X2 & X3). exists i, e. split; [exact X1|]. split; [exact X2|]. eapply finished_caller; eassumption.
  - intros d i gd nd ld. rewrite (nth_set _ _ _ _ _ E). destruct (Nat.eqb_spec d c) as [->|N].
    + intros X. injection X as -> <- <- <-. eapply P6. exact E.
    + apply P6.
  - intros i d X. destruct (P7 _ _ X) as (gd & nd & ld & Y). rewrite (nth_set _ _ _ _ _ E). destruct (Nat.eqb_spec d c) as [->|N].
    + rewrite E in Y. injection Y as -> <- <- <-. eauto.
    + eauto.
Qed.
Lemma finished_entry (st : sys) i o m j j' e i' h : nth_error (stab st) i = Some (EJob o m (Some j)) ->
  nth_error (stab st) i' = Some e -> finished st e ->
  exists e', nth_error (stab (with_heap (with_entry st i (EJob o m j')) h)) i' = Some e' /\ finished (with_heap (with_entry st i (EJob o m j')) h) e'.
Proof.
  intros E E' F. cbn [with_heap with_entry stab]. rewrite (nth_set _ _ _ _ _ E). destruct (Nat.eqb_spec i' i) as [->|N].
  - rewrite E in E'. injection E' as <-. discriminate F.
  - exists e. split; [exact E'|]. destruct e; exact F.
Qed.
Lemma pinv_entry st i o m j j' h : pinv st -> nth_error (stab st) i = Some (EJob o m (Some j)) -> pinv (with_heap (with_entry st i (EJob o m j')) h).
Proof.
  intros [P1 P2 P3 P4 P5 P6 P7] E. constructor; cbn [with_heap with_entry spool scall stab]; try assumption.
  - rewrite (set_length _ _ _ _ E). exact P2.
  - intros t I. destruct (P3 t I) as (i' & e & X1 & X2 & X3). destruct (finished_entry st i o m j j' e i' h E X2 X3) as (e' & Y1 & Y2). exists i', e'. auto.
  - intros c i' g n l X. rewrite (nth_set _ _ _ _ _ E). pose proof (P6 _ _ _ _ _ X) as Y. destruct (Nat.eqb_spec i' i) as [->|N]; [congruence|exact Y].
  - intros i' c. rewrite (nth_set _ _ _ _ _ E). destruct (Nat.eqb_spec i' i) as [->|N]; [discriminate|]. apply P7.
Qed.
Lemma same_heap_id (st : sys) : with_heap st (sheap st) = st.
Proof. destruct st. reflexivity. Qed.

Lemma pinv_add st c k g n l k' g' e q : pinv st -> nth_error (scall st) c = Some (Caller k g n l) ->
  tstep (LSchedule (task_of (length (stab st)))) (spool st) q -> calm (LSchedule (task_of (length (stab st)))) (spool st) q ->
  (all_made (Caller k g n l) -> all_made (Caller k' g' n l)) ->
  (e = EHost c /\ k = Unsubmitted /\ k' = Hosted (length (stab st)) \/ (exists j, e = EJob c n (Some j)) /\ k' = k) ->
  pinv (Sys q (sheap st) (set_nth (scall st) c (Caller k' g' n l)) (stab st ++ [e])).
Proof.
  intros [P1 P2 P3 P4 P5 P6 P7] E T Ca M He. destruct (records_step _ _ _ T) as (R1 & R2 & R3 & R4 & R5). rewrite app_nil_r in R2, R3.
  assert (Fin : forall e', finished st e' -> finished (Sys q (sheap st) (set_nth (scall st) c (Caller k' g' n l)) (stab st ++ [e])) e').
  { intros [o m j|o]; [exact (fun F => F)|]. cbn. intros (x & Ex & Mx). rewrite (nth_set _ _ _ _ _ E).
    destruct (Nat.eqb_spec o c) as [->|N]; [|exists x; auto]. rewrite E in Ex. injection Ex as <-. eexists. split; [reflexivity|]. apply M, Mx. }
  constructor; cbn [spool scall stab].
  - eapply pa_step; eassumption.
  - rewrite R1, P2, app_length, seq_app, map_app. reflexivity.
  - intros t I. rewrite R2 in I. destruct (P3 t I) as (i & e' & X1 & X2 & X3). exists i, e'. split; [exact X1|]. split; [|apply Fin, X3].
    rewrite nth_error_app1; [exact X2|]. apply nth_error_Some. congruence.
  - congruence.
  - rewrite R4 by discriminate. exact P5.
  - intros d i gd nd ld. rewrite (nth_set _ _ _ _ _ E). destruct (Nat.eqb_spec d c) as [->|N].
    + intros X. injection X as X <- <- <-. destruct He as [(-> & -> & ->)|((j & ->) & ->)].
      * injection X as <-. rewrite nth_error_app2, Nat.sub_diag by lia. reflexivity.
      * subst k. pose proof (P6 _ _ _ _ _ E) as Y. rewrite nth_error_app1; [exact Y|]. apply nth_error_Some. congruence.
    + intros X. pose proof (P6 _ _ _ _ _ X) as Y. rewrite nth_error_app1; [exact Y|]. apply nth_error_Some. congruence.
  - intros i d X. rewrite (nth_set _ _ _ _ _ E). destruct (Nat.lt_ge_cases i (length (stab st))) as [L|L].
    + rewrite nth_error_app1 in X by exact L. destruct (P7 _ _ X) as (gd & nd & ld & Y). destruct (Nat.eqb_spec d c) as [->|N]; [|eauto].
      rewrite E in Y. injection Y as -> <- <- <-. destruct He as [(_ & ? & _)|(_ & ->)]; [discriminate|]. eauto.
    + rewrite nth_error_app2 in X by exact L. destruct (i - length (stab st))%nat as [|dd] eqn:D; [|destruct dd; discriminate].
      cbn in X. injection X as ->. destruct He as [(He & _ & ->)|((j & He) & _)]; [|discriminate]. injection He as ->. rewrite Nat.eqb_refl.
      replace i with (length (stab st)) by lia. eauto.
Qed.

Lemma pinv_pool (st : sys) l q : pinv st -> tstep l (spool st) q -> calm l (spool st) q -> l <> LClear ->
  match l with LSchedule _ | LDied _ => False | LDone t => exists i e, t = task_of i /\ nth_error (stab st) i = Some e /\ finished st e | _ => True end ->
  pinv (Sys q (sheap st) (scall st) (stab st)).
Proof.
  intros [P1 P2 P3 P4 P5 P6 P7] T Ca Nc Hl. destruct (records_step _ _ _ T) as (R1 & R2 & R3 & R4 & R5). constructor; cbn [spool scall stab]; try assumption.
  - eapply pa_step; eassumption.
  - rewrite R1, P2. destruct l; try contradiction; apply app_nil_r.
  - intros t I. rewrite R2 in I. apply in_app_or in I as [I|I]; [exact (P3 t I)|]. destruct l; try contradiction. destruct I as [<-|[]]. exact Hl.
  - rewrite R3, P4. destruct l; try contradiction; reflexivity.
  - rewrite R4 by exact Nc. exact P5.
Qed.

Lemma pinv_step l st st' : sinv st -> pinv st -> hstep l st st' -> calm_step l st st' -> pinv st'.
Proof.
  intros I0 P St Ca. pose proof I0 as [I1 I2 I3 I4].
  destruct St as [st c k n p r E M|st c k n b i f r E M C|st c k n b i v p r E M C|st c k n jobs r E M|st c k n j t s w r q E M T
    |st c k n s w r E M Hs|st c k n s r E M|st c g n r q E T|st i o n b x f E M C|st i o n b x v p E M C|st i o n k t s w r E M Eo
    |st i e q E F T|st i e q E F T|st l q F T].
  - rewrite <- (same_heap_id (with_caller _ _ _)). eapply pinv_caller; [exact P|exact E|]. intros (_ & X). discriminate.
  - rewrite <- (same_heap_id (with_caller _ _ _)). eapply pinv_caller; [exact P|exact E|]. intros (X & _). discriminate.
  - eapply pinv_caller; [exact P|exact E|]. intros (X & _). discriminate.
  - rewrite <- (same_heap_id (with_caller _ _ _)). eapply pinv_caller; [exact P|exact E|]. intros (X & _). discriminate.
  - destruct Ca as (Ca & _). eapply pinv_add; [exact P|exact E|exact T|exact Ca| |].
    + intros (X & _). discriminate.
    + right. eauto.
  - rewrite <- (same_heap_id (with_caller _ _ _)). eapply pinv_caller; [exact P|exact E|]. intros (X & _). discriminate.
  - rewrite <- (same_heap_id (with_caller _ _ _)). eapply pinv_caller; [exact P|exact E|]. intros (X & _). discriminate.
  - destruct Ca as (Ca & _). eapply pinv_add; [exact P|exact E|exact T|exact Ca| |].
    + intros X. exact X.
    + left. auto.
  - rewrite <- (same_heap_id (with_entry _ _ _)). eapply pinv_entry; eassumption.
  - eapply pinv_entry; eassumption.
  - rewrite <- (same_heap_id (with_entry _ _ _)). eapply pinv_entry.
    + rewrite <- (same_heap_id (with_caller _ _ _)). eapply pinv_caller; [exact P|exact Eo|]. intros (X & _). discriminate.
    + cbn [with_heap with_caller stab]. exact E.
  - destruct Ca as (Ca & Nc). eapply pinv_pool; [exact P|exact T|exact Ca|exact Nc|]. cbn beta iota. exists i, e. auto.
  - exfalso. destruct (sinv_no_failure V h0 phs hp rdc wrc st I0) as (N1 & N2). destruct e as [o m j|o]; cbn in F.
    + subst j. apply N2 in E as (E & _). apply E. exact I.
    + destruct F as (k & Ek & Eg). apply (N1 _ _ _ Ek Eg). exact I.
  - destruct Ca as (Ca & Nc). eapply pinv_pool; [exact P|exact T|exact Ca|exact Nc|]. destruct l; try discriminate F; exact I.
Qed.

(** The number of callers on the pool does not change. *)
Definition nhosted (st : sys) : Z := zlength (filter hosted (scall st)).
Lemma filter_set {A} (f : A -> bool) l i x y : nth_error l i = Some x -> f y = f x -> zlength (filter f (set_nth l i y)) = zlength (filter f l).
Proof.
  intros E H. destruct (set_split _ _ _ E) as (l1 & l2 & -> & _ & ->). rewrite !filter_app, !zlength_app. cbn [filter]. rewrite H.
  destruct (f x); rewrite ?zlength_cons; reflexivity.
Qed.
Lemma nhosted_step l st st' : hstep l st st' -> nhosted st' = nhosted st.
Proof.
  intros St. unfold nhosted. destruct St; cbn [with_heap with_caller with_entry scall]; try reflexivity; eapply filter_set; try eassumption; reflexivity.
Qed.

(** Where a caller can be when nothing moves. *)
Lemma halted_caller st c k g n l : sinv st -> halted st -> nth_error (scall st) c = Some (Caller k g n l) -> moves st k ->
  (g = Between /\ l = []) \/ exists s w q j i, g = Parallel [] s (S w) /\ nth_error (own V c n (stab st)) q = Some (Some j) /\ nth_error (stab st) i = Some (EJob c n (Some j)).
Proof.
  intros I0 H E M. pose proof I0 as [I1 I2 I3 I4]. destruct (I1 _ _ _ _ _ E) as (_ & So). destruct g as [|p|todo s w].
  - left. split; [reflexivity|]. destruct l as [|p r]; [reflexivity|]. exfalso. exact (H AIn _ eq_refl (hs_begin V _ _ _ _ _ _ E M)).
  - exfalso. destruct (sinv_no_failure V h0 phs hp rdc wrc st I0) as (N1 & _). specialize (N1 _ _ _ E eq_refl). destruct p as [jobs| | | |b i f|b i v p]; cbn in N1; try tauto.
    + exact (H AIn _ eq_refl (hs_ready V _ _ _ _ _ _ E M)).
    + apply not_false_is_true in N1. exact (H AIn _ eq_refl (hs_load V _ _ _ _ _ _ _ _ E M N1)).
    + apply not_false_is_true in N1. exact (H AIn _ eq_refl (hs_store V _ _ _ _ _ _ _ _ _ E M N1)).
  - destruct todo as [|j t].
    2:{ exfalso. destruct (can_schedule (spool st) (task_of (length (stab st)))) as (q & T). refine (H _ _ _ (hs_schedule V _ _ _ _ _ _ _ _ _ _ E M T)). reflexivity. }
    destruct w as [|w]; [exfalso; exact (H AIn _ eq_refl (hs_return V _ _ _ _ _ _ E M))|]. right.
    destruct (Z.ltb_spec 0 s) as [Hs|Hs]; [exfalso; exact (H AIn _ eq_refl (hs_wait V _ _ _ _ _ _ _ E M Hs))|].
    cbn [ShareQ.stage_ok] in So. destruct (par_unfinished _ _ _ _ _ _ _ _ So Hs) as (q & j & Eq).
    destruct (own_in V c n (stab st) (Some j)) as (i & Ei); [eapply nth_error_In; exact Eq|]. exists s, w, q, j, i. auto.
Qed.
(** A task that a worker runs when nothing moves is a caller that waits. *)
Lemma halted_run st i e : sinv st -> halted st -> nth_error (stab st) i = Some e -> runs_task st i -> ~ finished st e /\ exists c, e = EHost c.
Proof.
  intros I0 H E R. split.
  - intros F. destruct (can_finish _ _ R) as (q & T). refine (H _ _ _ (hs_done V _ _ _ _ E F T)). reflexivity.
  - destruct e as [o n j|c]; [exfalso|eauto]. destruct j as [j|].
    + destruct (sinv_no_failure V h0 phs hp rdc wrc st I0) as (_ & N2). destruct (N2 _ _ _ _ E) as (N & k & t & s & w & r & Eo).
      destruct j as [[]| | | |b x f|b x v p]; cbn in N; try tauto.
      * exact (H AIn _ eq_refl (hs_post V _ _ _ _ _ _ _ _ _ E R Eo)).
      * apply not_false_is_true in N. exact (H AIn _ eq_refl (hs_job_load V _ _ _ _ _ _ _ E R N)).
      * apply not_false_is_true in N. exact (H AIn _ eq_refl (hs_job_store V _ _ _ _ _ _ _ _ E R N)).
    + destruct (can_finish _ _ R) as (q & T). refine (H _ _ _ (hs_done V _ _ _ _ E _ T)); reflexivity.
Qed.

Lemma task_of_inj i j : task_of i = task_of j -> i = j.
Proof. intros E. injection E. auto. Qed.
(** Every task is pending, running or finished. *)
Lemma place st i e : pinv st -> nth_error (stab st) i = Some e -> In (task_of i) (pq (spool st)) \/ runs_task st i \/ finished st e.
Proof.
  intros [P1 P2 P3 P4 P5 P6 P7] E. destruct (tiv_reach _ _ (path_reach _ _ _ P1)) as [T _ _ _].
  assert (I : In (task_of i) (gsched (spool st))).
  { rewrite P2. apply in_map, in_seq. split; [lia|]. cbn. apply nth_error_Some. congruence. }
  apply (Permutation_in _ T) in I. rewrite P4, P5, app_nil_r in I. cbn [app] in I. rewrite !in_app_iff in I. destruct I as [I|[I|I]].
  - left. exact I.
  - right. left. apply run_in_running. exact I.
  - right. right. destruct (P3 _ I) as (i' & e' & X & Y & Z). apply task_of_inj in X. subst i'. rewrite E in Y. injection Y as <-. exact Z.
Qed.
Lemma run_known st t : pinv st -> In t (running (spool st)) -> exists i e, t = task_of i /\ nth_error (stab st) i = Some e.
Proof.
  intros [P1 P2 P3 P4 P5 P6 P7] I. destruct (tiv_reach _ _ (path_reach _ _ _ P1)) as [T _ _ _].
  assert (J : In t (gsched (spool st))).
  { apply (Permutation_in _ (Permutation_sym T)). rewrite !in_app_iff. auto. }
  rewrite P2 in J. apply in_map_iff in J as (i & <- & J). apply in_seq in J. destruct (nth_error (stab st) i) as [e|] eqn:E; [eauto|]. apply nth_error_None in E. lia.
Qed.
Lemma run_nodup st : pinv st -> NoDup (running (spool st)).
Proof.
  intros [P1 P2 P3 P4 P5 P6 P7]. destruct (tiv_reach _ _ (path_reach _ _ _ P1)) as [T _ _ _].
  assert (N : NoDup (gsched (spool st))).
  { rewrite P2. apply FinFun.Injective_map_NoDup; [|apply seq_NoDup]. intros x y. apply task_of_inj. }
  apply (Permutation_NoDup T) in N. apply NoDup_app_r in N. apply NoDup_app_l in N. exact N.
Qed.

Lemma running_hosted st : sinv st -> pinv st -> halted st -> zlength (running (spool st)) <= nhosted st.
Proof.
  intros I0 P H.
  assert (G : forall l, NoDup l -> (forall t, In t l -> In t (running (spool st))) ->
    zlength l <= nhosted st); [|apply G; [apply run_nodup, P|auto]].
  intros l N L.
  (* map each running task to the caller it hosts *)
  assert (F : exists cl : list nat, length cl = length l /\ NoDup cl /\ forall c, In c cl -> exists i g n r, nth_error (scall st) c = Some (Caller (Hosted i) g n r) /\ In (task_of i) l).
  { induction l as [|t l IH]; [exists []; repeat split; [constructor|intros c []]|]. inversion N as [|? ? N1 N2]; subst.
    destruct IH as (cl & L1 & L2 & L3); [exact N2|intros u U; apply L; right; exact U|].
    destruct (run_known st t P (L t (or_introl eq_refl))) as (i & e & -> & E).
    destruct (halted_run st i e I0 H E) as (_ & c & ->); [apply run_in_running, L; left; reflexivity|].
    destruct (p_host2 _ P _ _ E) as (g & n & r & Ec). exists (c :: cl). split; [cbn; lia|]. split.
    - constructor; [|exact L2]. intros J. destruct (L3 c J) as (i' & g' & n' & r' & Ec' & J'). rewrite Ec in Ec'. injection Ec' as <- <- <- <-. contradiction.
    - intros d [<-|J]; [exists i, g, n, r; split; [exact Ec|left; reflexivity]|].
      destruct (L3 d J) as (i' & g' & n' & r' & Ed & J'). exists i', g', n', r'. split; [exact Ed|right; exact J']. }
  destruct F as (cl & L1 & L2 & L3). unfold nhosted. unfold zlength. rewrite <- L1.
  (* distinct hosted callers are at most as many as there are *)
  assert (Q : forall (cs : list (caller V)) k cl, NoDup cl -> (forall c, In c cl -> exists x, (k <= c)%nat /\ nth_error cs (c - k) = Some x /\ hosted x = true) ->
    (length cl <= length (filter hosted cs))%nat).
  { clear. induction cs as [|x cs IH]; intros k cl N L.
    - destruct cl as [|c cl]; [cbn; lia|]. destruct (L c (or_introl eq_refl)) as (y & _ & E & _). destruct (c - k)%nat; discriminate.
    - destruct (in_dec Nat.eq_dec k cl) as [I|I].
      + apply in_split in I as (c1 & c2 & ->). pose proof (NoDup_remove_1 _ _ _ N) as N1. pose proof (NoDup_remove_2 _ _ _ N) as N2.
        destruct (L k) as (y & _ & E & Hy); [apply in_elt|]. rewrite Nat.sub_diag in E. cbn in E. injection E as ->. cbn [filter]. rewrite Hy. cbn [length].
        rewrite app_length. cbn [length]. specialize (IH (S k) (c1 ++ c2) N1). rewrite app_length in IH.
        assert (length c1 + length c2 <= length (filter hosted cs))%nat; [|lia]. apply IH. intros c J.
        destruct (L c) as (z & Lc & E & Hz); [apply in_app_iff in J; apply in_app_iff; cbn; tauto|]. exists z.
        assert (c <> k) by (intros ->; contradiction). split; [lia|]. replace (c - k)%nat with (S (c - S k)) in E by lia. split; [exact E|exact Hz].
      + specialize (IH (S k) cl N). assert (length cl <= length (filter hosted cs))%nat; [|cbn [filter]; destruct (hosted x); cbn [length]; lia]. apply IH. intros c J.
        destruct (L c J) as (z & Lc & E & Hz). exists z. assert (c <> k) by (intros ->; contradiction). split; [lia|]. replace (c - k)%nat with (S (c - S k)) in E by lia. auto. }
  apply inj_le. apply (Q (scall st) 0%nat cl L2). intros c J. destruct (L3 c J) as (i & g & n & r & E & _). eexists. split; [lia|]. rewrite Nat.sub_0_r. split; [exact E|reflexivity].
Qed.

Theorem halted_returned st : sinv st -> pinv st -> halted st ->
  1 <= plimit (spool st) -> 1 <= pcount (spool st) -> nhosted st < Z.min (plimit (spool st)) (pcount (spool st)) -> all_returned st.
Proof.
  intros I0 P H L1 L2 L3.
  assert (Q : pq (spool st) = []).
  { destruct (pq (spool st)) as [|t q] eqn:E; [reflexivity|]. exfalso.
    pose proof (work_conserved _ _ (p_path _ P)) as W. rewrite E, zlength_cons in W. pose proof (zlength_nonneg q).
    pose proof (running_hosted st I0 P H) as R. pose proof (running_num (spool st)) as RN.
    assert (A : num awake (pw (spool st)) = num runs (pw (spool st))); [|lia].
    unfold num. f_equal. apply filter_ext_in. intros w I.
    assert (N : ~ (w = WEnter \/ w = WWoken)).
    { intros X. destruct (seeker_moves _ _ I X) as (l & q' & Il & Fl & T). refine (H _ _ _ (hs_pool V _ _ _ Fl T)). destruct l; try discriminate; reflexivity. }
    destruct w; cbn; try reflexivity; exfalso; apply N; auto. }
  assert (Stuck : forall c k g n l, nth_error (scall st) c = Some (Caller k g n l) -> moves st k -> g = Between /\ l = []).
  { intros c k g n l E M. destruct (halted_caller st c k g n l I0 H E M) as [X|(s & w & q & j & i & -> & _ & Ei)]; [exact X|]. exfalso.
    destruct (place st i _ P Ei) as [X|[X|X]].
    - rewrite Q in X. exact X.
    - destruct (halted_run st i _ I0 H Ei X) as (_ & d & Y). discriminate.
    - discriminate X. }
  intros [k g n l] I. apply In_nth_error in I as (c & E). destruct k as [| |i].
  - exact (Stuck c Own g n l E I).
  - exfalso. destruct (can_schedule (spool st) (task_of (length (stab st)))) as (q & T). refine (H _ _ _ (hs_submit V _ _ _ _ _ _ E T)). reflexivity.
  - pose proof (p_host _ P _ _ _ _ _ E) as Ei. destruct (place st i _ P Ei) as [X|[X|X]].
    + rewrite Q in X. destruct X.
    + destruct (halted_run st i _ I0 H Ei X) as (F & _). exfalso. apply F. exists (Caller (Hosted i) g n l). split; [exact E|]. exact (Stuck c _ g n l E X).
    + destruct X as (x & Ex & Mx). rewrite E in Ex. injection Ex as <-. exact Mx.
Qed.
End Rest.
