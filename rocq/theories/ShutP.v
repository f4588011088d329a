(** Proofs about destroying a thread pool. *)
From Coq Require Import Permutation.
From Verif Require Import Prelude TPoolM TPoolS TPoolP TPoolQ ShutM ShutS.

Lemma call_step st c : exists l, tstep l st (fst (do_call st c)).
Proof.
  destruct c as [| |j]; cbn [do_call fst].
  - eexists. apply (ts_wait_call st 0). lia.
  - eexists. apply ts_clear.
  - eexists. destruct j; [apply (ts_terminate st true)|apply (ts_terminate st false)].
Qed.
Lemma sstep_reach k l a b : sstep l a b -> treach (pool_new k) (spool a) -> treach (pool_new k) (spool b).
Proof.
  intros [l0 st st' d i St|c st d|st d i g E]; cbn [spool]; intros R; [eapply tr_step; eassumption| |exact R].
  destruct (call_step st c) as (l' & St). eapply tr_step; eassumption.
Qed.
Lemma srun_reach k a tr s : srun a tr s -> treach (pool_new k) (spool a) -> treach (pool_new k) (spool s).
Proof. intros R Ra. induction R as [|tr l b c R IH St]; [exact Ra|eapply sstep_reach; eassumption]. Qed.

(** ** Contained *)
Lemma cont_refl {A} (a : list A) : contained a a.
Proof. exists []. rewrite app_nil_r. reflexivity. Qed.
Lemma cont_trans {A} (a b c : list A) : contained a b -> contained b c -> contained a c.
Proof. intros (r & P) (q & Q). exists (r ++ q). rewrite app_assoc, P. exact Q. Qed.
Lemma cont_app {A} (a b c d : list A) : contained a b -> contained c d -> contained (a ++ c) (b ++ d).
Proof.
  intros (r & P) (q & Q). exists (r ++ q). rewrite <- P, <- Q, <- !app_assoc. apply Permutation_app_head. rewrite !app_assoc.
  apply Permutation_app_tail, Permutation_app_comm.
Qed.
Lemma cont_ext {A} (a x : list A) : contained a (a ++ x).
Proof. exists x. reflexivity. Qed.

Lemma resize_lists st n st' : resize st n st' -> gsched st' = gsched st /\ gdone st' = gdone st /\ gfail st' = gfail st /\ gclear st' = gclear st /\ pc st' = pc st.
Proof. intros [s0 m T|s0 m k T L K1 K2|s0 m T L]; repeat split. Qed.
Lemma step_lists l a b : tstep l a b -> contained (gsched a) (gsched b) /\ contained (settled a) (settled b).
Proof.
  intros St. unfold settled.
  destruct St; pcbn; try (split; [apply cont_refl|apply cont_refl]).
  - split; [apply cont_refl|]. rewrite <- app_assoc. apply cont_app; [apply cont_refl|]. exists [t].
    rewrite <- Permutation_cons_append. reflexivity.
  - (* died *) assert (E : gsched st' = gsched st1 /\ gdone st' = gdone st1 /\ gfail st' = gfail st1 /\ gclear st' = gclear st1).
    { destruct (pterm st); [subst st'; repeat split|]. apply resize_lists in H0. tauto. }
    destruct E as (-> & -> & -> & ->). subst st1. pcbn. split; [apply cont_refl|]. apply cont_app; [apply cont_refl|].
    apply cont_app; [apply cont_ext|apply cont_refl].
  - split; [apply cont_ext|apply cont_refl].
  - split; [apply cont_refl|]. apply cont_app; [apply cont_refl|]. apply cont_app; [apply cont_refl|apply cont_ext].
  - apply resize_lists in H0. destruct H0 as (-> & -> & -> & -> & _). split; apply cont_refl.
  - destruct wait; split; apply cont_refl.
Qed.
Lemma idle_settled k st : treach (pool_new k) st -> pq st = [] -> running st = [] -> contained (gsched st) (settled st).
Proof.
  intros R Q Ru. destruct (tiv_reach _ _ R) as [P _ _ _]. rewrite Q, Ru in P. exists []. rewrite app_nil_r. exact P.
Qed.

(** ** Clients *)
Definition goal_of (c : client) : cgoal := match c with CAsleep g | CWoken g | CBack g => g end.
Lemma nth_keep {A} (l1 l2 : list A) x y i z : nth_error (l1 ++ x :: l2) i = Some z ->
  (nth_error (l1 ++ y :: l2) i = Some z) \/ (i = length l1 /\ z = x /\ nth_error (l1 ++ y :: l2) i = Some y).
Proof.
  revert i. induction l1 as [|a l1 IH]; intros [|i]; cbn; intros E; try (left; exact E).
  - right. split; [reflexivity|]. split; [congruence|reflexivity].
  - destruct (IH i E) as [H|(H1 & H2 & H3)]; [left; exact H|right; split; [lia|split; assumption]].
Qed.
Lemma nth_app_l {A} (l x : list A) i z : nth_error l i = Some z -> nth_error (l ++ x) i = Some z.
Proof. intros E. rewrite nth_error_app1; [exact E|]. apply nth_error_Some. congruence. Qed.
Lemma nth_last {A} (l : list A) x : nth_error (l ++ [x]) (length l) = Some x.
Proof. rewrite nth_error_app2, Nat.sub_diag by lia. reflexivity. Qed.
(** A client keeps its place and what it waits for; once back, it stays back. *)
Lemma client_step l a b i c : tstep l a b -> nth_error (pc a) i = Some c ->
  exists c', nth_error (pc b) i = Some c' /\ goal_of c' = goal_of c /\ ((exists g, c = CBack g) -> c' = c).
Proof.
  intros St E.
  assert (Same : forall b', pc b' = pc a -> exists c', nth_error (pc b') i = Some c' /\ goal_of c' = goal_of c /\ ((exists g, c = CBack g) -> c' = c)).
  { intros b' ->. exists c. auto. }
  assert (Wake : forall b', pc b' = map cwake (pc a) -> exists c', nth_error (pc b') i = Some c' /\ goal_of c' = goal_of c /\ ((exists g, c = CBack g) -> c' = c)).
  { intros b' ->. exists (cwake c). rewrite nth_error_map, E. split; [reflexivity|]. split; [destruct c; reflexivity|]. intros (g & ->). reflexivity. }
  assert (App : forall b' x, pc b' = pc a ++ [x] -> exists c', nth_error (pc b') i = Some c' /\ goal_of c' = goal_of c /\ ((exists g, c = CBack g) -> c' = c)).
  { intros b' x ->. exists c. split; [apply nth_app_l, E|auto]. }
  destruct St; try (apply Same; reflexivity); try (apply Wake; reflexivity).
  - (* died *) apply Wake. destruct (pterm st); [subst st'; reflexivity|]. apply resize_lists in H0. destruct H0 as (_ & _ & _ & _ & ->). reflexivity.
  - eapply App. reflexivity.
  - pcbn. rewrite H in E. destruct (nth_keep _ _ _ (if may_return st g then CBack g else CAsleep g) _ _ E) as [E'|(_ & -> & E')].
    + exists c. auto.
    + eexists. split; [exact E'|]. split; [destruct (may_return st g); reflexivity|]. intros (g' & Eg). discriminate Eg.
  - apply Same. apply resize_lists in H0. apply H0.
  - destruct wait; [eapply App; reflexivity|apply Same; reflexivity].
  - pcbn. rewrite H in E. destruct (nth_keep _ _ _ (CWoken g) _ _ E) as [E'|(_ & -> & E')].
    + exists c. auto.
    + eexists. split; [exact E'|]. split; [reflexivity|]. intros (g' & Eg). discriminate Eg.
Qed.
Lemma may_wait0 st : may_return st (CWait 0) = true -> pactive st = 0 /\ pq st = [].
Proof. cbn. intros E. apply andb_true_iff in E. destruct E as [E1 E2]. apply Z.eqb_eq in E1. destruct (pq st); [auto|discriminate]. Qed.
Lemma zlength_zero {A} (l : list A) : zlength l <= 0 -> l = [].
Proof. unfold zlength. destruct l; [reflexivity|]. cbn [length]. lia. Qed.
Lemma idle_running k st : treach (pool_new k) st -> pactive st = 0 -> running st = [].
Proof.
  intros R A. destruct (civ_reach _ _ R) as [C _]. pose proof (runs_actv (pw st)). pose proof (num_nonneg runs (pw st)).
  apply zlength_zero. rewrite running_num. lia.
Qed.
Lemma back_wait k l a b i c : treach (pool_new k) a -> tstep l a b -> nth_error (pc a) i = Some c -> goal_of c = CWait 0 ->
  nth_error (pc b) i = Some (CBack (CWait 0)) -> c = CBack (CWait 0) \/ contained (gsched a) (settled a).
Proof.
  intros R St E G E'. destruct c as [g|g|g]; cbn in G; subst g; [right|right|left; reflexivity].
  - assert (W : zlength (pq a) + zlength (running a) <= 0) by (refine (wait_returned k a l b i (CWait 0) R St E' _); congruence).
    pose proof (zlength_nonneg (pq a)). pose proof (zlength_nonneg (running a)).
    apply (idle_settled k); [exact R|apply zlength_zero; lia|apply zlength_zero; lia].
  - assert (W : zlength (pq a) + zlength (running a) <= 0) by (refine (wait_returned k a l b i (CWait 0) R St E' _); congruence).
    pose proof (zlength_nonneg (pq a)). pose proof (zlength_nonneg (running a)).
    apply (idle_settled k); [exact R|apply zlength_zero; lia|apply zlength_zero; lia].
Qed.

(** ** Terminated pools *)
Definition doomed (st : pool) : Prop := pterm st = true /\ ptarget st = 0.
Lemma doomed_step l a b : doomed a -> tstep l a b -> doomed b.
Proof.
  intros [T G] St. unfold doomed. destruct St; pcbn; try (split; assumption).
  - rewrite T in H0. subst st' st1. pcbn. auto.
  - destruct H0; pcbn; try congruence. auto.
  - destruct wait; auto.
Qed.
Lemma doomed_count l a b : civ a -> doomed a -> pcount a = 0 -> tstep l a b -> pcount b = 0.
Proof.
  intros [_ C] [T G] Z St.
  assert (NA : forall q1 w q2, pw a = q1 ++ w :: q2 -> alive w = true -> False).
  { intros q1 w q2 E W. rewrite Z, E, num_mid, W in C. cbn [b2z] in C. pose proof (num_nonneg alive q1). pose proof (num_nonneg alive q2). lia. }
  destruct St; pcbn; try assumption; try (match goal with E : pw _ = _ ++ _ :: _ |- _ => destruct (NA _ _ _ E eq_refl) end).
  - destruct H0; pcbn; congruence.
  - destruct wait; assumption.
Qed.
Lemma count_gone k st : treach (pool_new k) st -> pcount st <= 0 -> no_workers st.
Proof.
  intros R Z w I. destruct (civ_reach _ _ R) as [_ C]. pose proof (num_nonneg alive (pw st)).
  assert (N : num alive (pw st) = 0) by lia. pose proof (num_zero _ _ N w I) as A. destruct w; try discriminate A. reflexivity.
Qed.
Lemma back_term k l a b i c : treach (pool_new k) a -> tstep l a b -> nth_error (pc a) i = Some c -> goal_of c = CTerm ->
  nth_error (pc b) i = Some (CBack CTerm) -> c = CBack CTerm \/ pcount a <= 0.
Proof.
  intros R St E G E'. destruct c as [g|g|g]; cbn in G; subst g; [right|right|left; reflexivity].
  - refine (wait_returned k a l b i CTerm R St E' _); congruence.
  - refine (wait_returned k a l b i CTerm R St E' _); congruence.
Qed.

(** ** Where the destructor is *)
Section Phases.
Variables (k : skind) (a : pool).
Inductive phase : sys -> Prop :=
| ph_clear st : phase (Sys st [KClear; KWait; KTerm true] None)
| ph_wait st : phase (Sys st [KWait; KTerm true] None)
| ph_waiting st i c : nth_error (pc st) i = Some c -> goal_of c = CWait 0 ->
    (c = CBack (CWait 0) -> contained (gsched a) (settled st)) -> phase (Sys st [KTerm true] (Some i))
| ph_waited st : contained (gsched a) (settled st) -> phase (Sys st [KTerm true] None)
| ph_joining st i c : contained (gsched a) (settled st) -> doomed st -> nth_error (pc st) i = Some c -> goal_of c = CTerm ->
    (c = CBack CTerm -> pcount st = 0) -> phase (Sys st [] (Some i))
| ph_over st : contained (gsched a) (settled st) -> doomed st -> pcount st = 0 -> phase (Sys st [] None).

Lemma phase_step l s s' : treach (pool_new k) (spool s) -> contained (gsched a) (gsched (spool s)) -> phase s -> sstep l s s' -> phase s'.
Proof.
  intros R G P St. destruct (civ_reach _ _ R) as [CA CC]. pose proof (num_nonneg alive (pw (spool s))) as NN.
  destruct St as [l0 st st' d i St|c st d|st d i g E]; cbn [spool] in *.
  - destruct (step_lists _ _ _ St) as [_ L2].
    inversion P as [st0|st0|st0 i0 c Ec Gc Bc|st0 W|st0 i0 c W D Ec Gc Bc|st0 W D Z]; subst.
    + constructor.
    + constructor.
    + destruct (client_step _ _ _ _ _ St Ec) as (c' & E' & Gc' & B). apply (ph_waiting _ _ c'); [exact E'|congruence|].
      intros ->. eapply cont_trans; [|exact L2]. destruct (back_wait k _ _ _ _ _ R St Ec Gc E') as [->|W]; [apply Bc; reflexivity|].
      eapply cont_trans; [exact G|exact W].
    + constructor. eapply cont_trans; eassumption.
    + destruct (client_step _ _ _ _ _ St Ec) as (c' & E' & Gc' & B). apply (ph_joining _ _ c').
      * eapply cont_trans; eassumption.
      * eapply doomed_step; eassumption.
      * exact E'.
      * congruence.
      * intros ->. eapply doomed_count; [constructor; eassumption|eassumption| |exact St].
        destruct (back_term k _ _ _ _ _ R St Ec Gc E') as [->|W']; [apply Bc; reflexivity|lia].
    + apply ph_over; [eapply cont_trans; eassumption|eapply doomed_step; eassumption|].
      eapply doomed_count; [constructor; eassumption|eassumption|eassumption|exact St].
  - inversion P as [st0|st0|st0 i0 c0 Ec Gc Bc|st0 W|st0 i0 c0 W D Ec Gc Bc|st0 W D Z]; subst.
    + constructor.
    + cbn [do_call fst snd]. apply (ph_waiting _ _ (if may_return st (CWait 0) then CBack (CWait 0) else CAsleep (CWait 0))).
      * unfold entered. pcbn. apply nth_last.
      * destruct (may_return _ _); reflexivity.
      * destruct (may_return st (CWait 0)) eqn:M; [|discriminate]. intros _. apply may_wait0 in M. destruct M as [M1 M2].
        eapply cont_trans; [exact G|]. change (settled (entered st (CWait 0))) with (settled st). apply (idle_settled k _ R M2), (idle_running k _ R M1).
    + cbn [do_call fst snd]. set (st1 := Pool _ _ _ _ _ _ _ _ _ _ _ _ _ _).
      apply (ph_joining _ _ (if may_return st1 CTerm then CBack CTerm else CAsleep CTerm)).
      * exact W.
      * split; reflexivity.
      * unfold entered. pcbn. apply nth_last.
      * destruct (may_return _ _); reflexivity.
      * destruct (may_return st1 CTerm) eqn:M; [|discriminate]. intros _. cbn in M. apply negb_true_iff, Z.ltb_ge in M. cbn. lia.
  - inversion P as [st0|st0|st0 i0 c0 Ec Gc Bc|st0 W|st0 i0 c0 W D Ec Gc Bc|st0 W D Z]; subst.
    + constructor. apply Bc. rewrite E in Ec. injection Ec as <-. cbn in Gc. congruence.
    + apply ph_over; [assumption|assumption|]. apply Bc. rewrite E in Ec. injection Ec as <-. cbn in *. congruence.
Qed.
Lemma phase_run p tr s : p <> Immediately -> treach (pool_new k) a -> srun (shutdown p a) tr s -> phase s /\ contained (gsched a) (gsched (spool s)).
Proof.
  intros Np R Sr. induction Sr as [|tr l b c Sr [IH1 IH2] St].
  - split; [|apply cont_refl]. destruct p; [constructor|constructor|destruct Np; reflexivity].
  - pose proof (srun_reach k _ _ _ Sr R) as Rb. split; [eapply phase_step; eassumption|]. eapply cont_trans; [exact IH2|].
    destruct St as [l0 st st' d i St|cc st d|st d i g E]; cbn [spool].
    + apply (step_lists _ _ _ St).
    + destruct (call_step st cc) as (l' & St). apply (step_lists _ _ _ St).
    + apply cont_refl.
Qed.
End Phases.

Theorem shutdown_done k p a tr s : p <> Immediately -> treach (pool_new k) a -> srun (shutdown p a) tr s -> over s ->
  contained (gsched a) (settled (spool s)) /\ no_workers (spool s).
Proof.
  intros Np R Sr [O1 O2]. destruct (phase_run k a p tr s Np R Sr) as [P _]. pose proof (srun_reach k _ _ _ Sr R) as Rs.
  destruct P as [st0|st0|st0 i0 c Ec Gc Bc|st0 W|st0 i0 c W D Ec Gc Bc|st0 W D Z]; cbn in *; try discriminate. split; [assumption|]. apply (count_gone k); [exact Rs|cbn in *; lia].
Qed.
Lemma doomed_reach k st st' : treach (pool_new k) st -> doomed st -> pcount st = 0 -> treach st st' -> treach (pool_new k) st' /\ doomed st' /\ pcount st' = 0.
Proof.
  intros R D Z T. induction T as [|l b c T (I1 & I2 & I3) St]; [auto|].
  split; [eapply tr_step; eassumption|]. split; [eapply doomed_step; eassumption|eapply doomed_count; [apply (civ_reach k)|..]; eassumption].
Qed.
Theorem shutdown_stays k p a tr s st : p <> Immediately -> treach (pool_new k) a -> srun (shutdown p a) tr s -> over s ->
  treach (spool s) st -> no_workers st.
Proof.
  intros Np R Sr [O1 O2] T. destruct (phase_run k a p tr s Np R Sr) as [P _]. pose proof (srun_reach k _ _ _ Sr R) as Rs.
  destruct P as [st0|st0|st0 i0 c Ec Gc Bc|st0 W|st0 i0 c W D Ec Gc Bc|st0 W D Z0]; cbn in *; try discriminate.
  destruct (doomed_reach k _ _ Rs D Z0 T) as (R' & _ & Z). apply (count_gone k); [exact R'|lia].
Qed.

(** ** No task starts after clear() *)
Lemma resize_pq st n st' : resize st n st' -> pq st' = pq st.
Proof. intros [s0 m T|s0 m k T L K1 K2|s0 m T L]; reflexivity. Qed.
Lemma empty_step l a b : pq a = [] -> tstep l a b -> no_schedule (SPool l) -> pq b = [] /\ no_start (SPool l).
Proof.
  intros Q St N. destruct St; cbn in N |- *; try (split; [exact Q|exact I]);
    try (match goal with T : takes _ _ _ _ |- _ => rewrite Q in T; apply takes_perm, Permutation_nil_cons in T; destruct T end).
  - split; [|exact I]. destruct (pterm st); [subst st' st1; exact Q|]. rewrite (resize_pq _ _ _ H0). exact Q.
  - destruct N.
  - split; [reflexivity|exact I].
  - split; [|exact I]. destruct H0; exact Q.
  - split; [|exact I]. destruct wait; exact Q.
Qed.
Lemma srun_app a tr1 l tr2 s : srun a (tr1 ++ l :: tr2) s -> exists b c, srun a tr1 b /\ sstep l b c /\ srun c tr2 s.
Proof.
  revert s. induction tr2 as [|x tr2 IH] using rev_ind; intros s H.
  - inversion H as [E|tr l0 b c R St E]; subst; [destruct tr1; discriminate|]. apply app_inj_tail in E. destruct E as [-> ->].
    exists b, s. split; [exact R|]. split; [exact St|constructor].
  - inversion H as [E|tr l0 b c R St E]; subst; [destruct tr1; discriminate|].
    rewrite app_comm_cons, app_assoc in E. apply app_inj_tail in E. destruct E as [-> ->].
    destruct (IH _ R) as (b0 & c0 & R1 & S1 & R2). exists b0, c0. split; [exact R1|]. split; [exact S1|]. econstructor; eassumption.
Qed.
Theorem shutdown_no_start p a tr1 tr2 s : srun (shutdown p a) (tr1 ++ SCall KClear :: tr2) s ->
  Forall no_schedule tr2 -> Forall no_start tr2.
Proof.
  intros H F. apply srun_app in H. destruct H as (b & c & _ & St & R).
  assert (Q : pq (spool c) = []) by (inversion St; reflexivity). clear St.
  assert (G : Forall no_start tr2 /\ pq (spool s) = []); [|apply G].
  induction R as [|tr l x y R IH St]; [split; [constructor|exact Q]|].
  apply Forall_app in F. destruct F as [F1 F2]. inversion F2 as [|? ? F3 _]; subst. destruct (IH F1) as [I1 I2]. clear IH F2.
  destruct St as [l0 st st' d i St|cc st d|st d i g E]; cbn [spool] in *.
  - destruct (empty_step _ _ _ I2 St F3) as [E1 E2]. split; [apply Forall_app; split; [exact I1|constructor; [exact E2|constructor]]|exact E1].
  - split; [apply Forall_app; split; [exact I1|constructor; [exact I|constructor]]|]. destruct cc as [| |[]]; cbn; auto.
  - split; [apply Forall_app; split; [exact I1|constructor; [exact I|constructor]]|exact I2].
Qed.

(** ** wait_for_all_tasks removes nothing *)
Definition keeps (c : call) : Prop := c <> KClear.
Lemma clear_step l a b : tstep l a b -> l <> LClear -> gclear b = gclear a.
Proof.
  intros T N. destruct T; try reflexivity; try congruence.
  - destruct (pterm st); [subst st'; reflexivity|]. apply resize_lists in H0. destruct H0 as (_ & _ & _ & -> & _). reflexivity.
  - apply resize_lists in H0. apply H0.
  - destruct wait; reflexivity.
Qed.
Theorem shutdown_keeps a tr s : srun (shutdown WaitAll a) tr s -> ~ In (SPool LClear) tr -> gclear (spool s) = gclear a.
Proof.
  intros R N. assert (G : Forall keeps (stodo s) /\ gclear (spool s) = gclear a); [|apply G].
  induction R as [|tr l x y R IH St]; [split; [repeat constructor; discriminate|reflexivity]|].
  destruct IH as [I1 I2]; [intros J; apply N; apply in_or_app; left; exact J|].
  destruct St as [l0 st st' d i St|cc st d|st d i g E]; cbn [spool stodo] in *.
  - split; [exact I1|]. rewrite <- I2. apply (clear_step _ _ _ St). intros ->. apply N. apply in_or_app. right. left. reflexivity.
  - inversion I1 as [|? ? K1 K2]; subst. split; [exact K2|]. rewrite <- I2. destruct cc as [| |[]]; try reflexivity. destruct (K1 eq_refl).
  - split; assumption.
Qed.
Theorem shutdown_all_run k a tr s : treach (pool_new k) a -> srun (shutdown WaitAll a) tr s -> over s -> ~ In (SPool LClear) tr ->
  contained (gsched a) (gdone (spool s) ++ gfail (spool s) ++ gclear a).
Proof.
  intros R Sr O N. rewrite <- (shutdown_keeps _ _ _ Sr N). apply (shutdown_done k WaitAll a tr s); auto. discriminate.
Qed.
