(** Proofs about the wait with a time limit. *)
From Verif Require Import Prelude TPoolM TPoolS TPoolP TPoolQ ShutM ShutS ShutP TimedM TimedS.

Lemma nth_tput ts i j t u : nth_error ts i = Some u -> nth_error (tput ts i t) j = if Nat.eqb j i then Some t else nth_error ts j.
Proof.
  unfold tput. revert i j. induction ts as [|x ts IH]; intros [|i] [|j]; cbn; intros E; try discriminate; try reflexivity.
  apply IH, E.
Qed.
Lemma tput_length ts i t u : nth_error ts i = Some u -> length (tput ts i t) = length ts.
Proof.
  unfold tput. revert i. induction ts as [|x ts IH]; intros [|i]; cbn; intros E; try discriminate; [reflexivity|]. f_equal. apply IH, E.
Qed.
(** One step, seen from the pool. *)
Lemma tm_pool_step l a b : tmstep l a b -> tpool b = tpool a \/ exists l', tstep l' (tpool a) (tpool b) /\ (l = TmPool l' \/ (l = TmCall /\ l' = LClient)).
Proof.
  intros [l0 st st' now ts St|st now now' ts L|st k lim now ts K|s i t g E T L C|s i t E T|s i t g E T C]; cbn; auto; right.
  - exists l0. auto.
  - exists LClient. split; [apply ts_wait_call; exact K|auto].
Qed.
Lemma tm_reach k now s : tmreach (tsys_new k now) s -> treach (pool_new k) (tpool s).
Proof.
  intros R. induction R as [|l b c R IH St]; [apply tr_0|]. destruct (tm_pool_step _ _ _ St) as [->|(l' & S & _)]; [exact IH|eapply tr_step; eassumption].
Qed.
Lemma tm_path k now s : tmpath clear_while_active (tsys_new k now) s -> path clear_while_active (pool_new k) (tpool s).
Proof.
  intros R. induction R as [|l b c R IH St H]; [apply pa_0|]. destruct (tm_pool_step _ _ _ St) as [->|(l' & S & [->|(-> & ->)])]; [exact IH| |].
  - eapply pa_step; [exact IH|exact S|apply H; reflexivity].
  - eapply pa_step; [exact IH|exact S|discriminate].
Qed.
Lemma tmreach_trans a b c : tmreach a b -> tmreach b c -> tmreach a c.
Proof. intros R Q. induction Q; [exact R|eapply tmr_step; eassumption]. Qed.
Lemma tmpath_reach P a b : tmpath P a b -> tmreach a b.
Proof. intros R. induction R; [apply tmr_0|eapply tmr_step; eassumption]. Qed.

(** ** Calls keep their place, threshold and limit *)
Definition same_call (t u : timer) : Prop := tmid u = tmid t /\ tmk u = tmk t /\ tmlim u = tmlim t.
(** What a step does to call number i that was there before. *)
Lemma call_kept l a b i t : tmstep l a b -> nth_error (tms a) i = Some t -> exists u, nth_error (tms b) i = Some u /\ same_call t u /\
  ((u = t) \/ (tmst t = TmIn /\ tmst u = TmExpired /\ tmlim t <= tnow a /\ exists g, nth_error (pc (tpool a)) (tmid t) = Some (CAsleep g) \/ nth_error (pc (tpool a)) (tmid t) = Some (CWoken g)) \/
   (tmst t = TmExpired /\ tmst u = TmAnswer false) \/
   (tmst t = TmIn /\ tmst u = TmAnswer true /\ exists g, nth_error (pc (tpool a)) (tmid t) = Some (CBack g))).
Proof.
  intros St E. destruct St as [l0 st st' now ts St|st now now' ts L|st k lim now ts K|s j t' g E' T L C|s j t' E' T|s j t' g E' T C]; cbn [tms tpool tset tnow] in *.
  1,2: exists t; split; [exact E|]; split; [repeat split|auto].
  - exists t. split; [apply nth_app_l, E|]. split; [repeat split|auto].
  - rewrite (nth_tput _ _ _ _ _ E'). destruct (Nat.eqb_spec i j) as [->|N].
    + assert (t' = t) by congruence. subst t'. eexists. split; [reflexivity|]. split; [repeat split|]. right. left. cbn. eauto 8.
    + exists t. split; [exact E|]. split; [repeat split|auto].
  - rewrite (nth_tput _ _ _ _ _ E'). destruct (Nat.eqb_spec i j) as [->|N].
    + assert (t' = t) by congruence. subst t'. eexists. split; [reflexivity|]. split; [repeat split|]. right. right. left. auto.
    + exists t. split; [exact E|]. split; [repeat split|auto].
  - rewrite (nth_tput _ _ _ _ _ E'). destruct (Nat.eqb_spec i j) as [->|N].
    + assert (t' = t) by congruence. subst t'. eexists. split; [reflexivity|]. split; [repeat split|]. right. right. right. eauto.
    + exists t. split; [exact E|]. split; [repeat split|auto].
Qed.
(** A call that was not there before has just been made. *)
Lemma call_new l a b i u : tmstep l a b -> nth_error (tms a) i = None -> nth_error (tms b) i = Some u ->
  0 <= tmk u /\ tmst u = TmIn /\ i = length (tms a) /\ tmid u = length (pc (tpool a)) /\ pq (tpool b) = pq (tpool a) /\ pw (tpool b) = pw (tpool a) /\ pactive (tpool b) = pactive (tpool a) /\
  nth_error (pc (tpool b)) (tmid u) = Some (if may_return (tpool a) (CWait (tmk u)) then CBack (CWait (tmk u)) else CAsleep (CWait (tmk u))).
Proof.
  intros St N E. destruct St as [l0 st st' now ts St|st now now' ts L|st k lim now ts K|s j t' g E' T L C|s j t' E' T|s j t' g E' T C]; cbn [tms tpool tset tnow] in *; try congruence.
  2-4: rewrite (nth_tput _ _ _ _ _ E') in E; destruct (Nat.eqb_spec i j) as [->|?]; congruence.
  assert (L : i = length ts).
  { apply nth_error_None in N. destruct (Nat.eq_dec i (length ts)) as [|D]; [assumption|]. rewrite nth_error_app2 in E by lia.
    destruct (i - length ts)%nat as [|[|n]] eqn:X; cbn in E; [lia|discriminate E|discriminate E]. }
  subst i. rewrite nth_last in E. injection E as <-. repeat split; try reflexivity; [exact K|]. cbn [tmid tmk pc with_clients]. apply nth_last.
Qed.
Lemma may_tasks k st n : treach (pool_new k) st -> 0 <= n -> may_return st (CWait n) = true -> zlength (pq st) + zlength (running st) <= n.
Proof.
  intros R N M. pose proof (ts_wait_call st n N) as St. rewrite M in St.
  eapply (wait_returned k st LClient _ (length (pc st)) (CWait n) R St); [cbn; apply nth_last|].
  intros X. assert (length (pc st) < length (pc st))%nat by (apply nth_error_Some; congruence). lia.
Qed.

(** ** Invariant: entries, and why an entry is back *)
Record tinv (new s : tsys) : Prop := {
  ti_entry : forall i t, nth_error (tms s) i = Some t -> exists c, nth_error (pc (tpool s)) (tmid t) = Some c /\ goal_of c = CWait (tmk t);
  ti_pos : forall i t, nth_error (tms s) i = Some t -> 0 <= tmk t;
  ti_back : forall i t g, nth_error (tms s) i = Some t -> tmst t = TmIn -> nth_error (pc (tpool s)) (tmid t) = Some (CBack g) ->
    exists b, tmreach new b /\ tmreach b s /\ under_way b i /\ tasks b <= tmk t;
  ti_true : forall i t, nth_error (tms s) i = Some t -> tmst t = TmAnswer true ->
    exists b, tmreach new b /\ tmreach b s /\ under_way b i /\ tasks b <= tmk t;
  ti_late : forall i t, nth_error (tms s) i = Some t -> (tmst t = TmExpired \/ tmst t = TmAnswer false) ->
    exists b, tmreach new b /\ tmreach b s /\ under_way b i /\ tmlim t <= tnow b }.

Lemma entry_step l a b i c : tmstep l a b -> nth_error (pc (tpool a)) i = Some c ->
  exists c', nth_error (pc (tpool b)) i = Some c' /\ goal_of c' = goal_of c /\ ((exists g, c = CBack g) -> c' = c).
Proof.
  intros St E. destruct (tm_pool_step _ _ _ St) as [->|(l' & S & _)]; [exists c; auto|eapply client_step; eassumption].
Qed.
Lemma tinv_step k now l a b : tmreach (tsys_new k now) a -> tinv (tsys_new k now) a -> tmstep l a b -> tinv (tsys_new k now) b.
Proof.
  intros R [I1 I2 I3 I4 I5] St. pose proof (tmr_step _ _ _ _ R St) as Rb.
  assert (Go : forall x, tmreach x a -> tmreach x b) by (intros x X; eapply tmr_step; eassumption).
  constructor.
  - intros i u Eu. destruct (nth_error (tms a) i) as [t|] eqn:Et.
    + destruct (call_kept _ _ _ _ _ St Et) as (u' & Eu' & (Q1 & Q2 & Q3) & _). assert (u' = u) by congruence. subst u'.
      destruct (I1 _ _ Et) as (c & Ec & Gc). destruct (entry_step _ _ _ _ _ St Ec) as (c' & Ec' & Gc' & _).
      exists c'. rewrite Q1, Q2. split; [exact Ec'|congruence].
    + destruct (call_new _ _ _ _ _ St Et Eu) as (_ & _ & _ & _ & _ & _ & _ & C). eexists. split; [exact C|]. destruct (may_return _ _); reflexivity.
  - intros i u Eu. destruct (nth_error (tms a) i) as [t|] eqn:Et.
    + destruct (call_kept _ _ _ _ _ St Et) as (u' & Eu' & (Q1 & Q2 & Q3) & _). assert (u' = u) by congruence. subst u'. rewrite Q2. eauto.
    + destruct (call_new _ _ _ _ _ St Et Eu) as (K & _). exact K.
  - intros i u g Eu Tu Cu. destruct (nth_error (tms a) i) as [t|] eqn:Et.
    + destruct (call_kept _ _ _ _ _ St Et) as (u' & Eu' & (Q1 & Q2 & Q3) & H). assert (u' = u) by congruence. subst u'.
      assert (u = t) by (destruct H as [H|[(_ & H & _)|[(_ & H)|(_ & H & _)]]]; congruence).
      subst u. destruct (I1 _ _ Et) as (c & Ec & Gc).
      assert (D : (exists g', c = CBack g') \/ ~ (exists g', c = CBack g')) by (destruct c; [right; intros (? & X); discriminate X|right; intros (? & X); discriminate X|left; eauto]).
      destruct D as [(g' & ->)|D].
      * destruct (I3 _ _ _ Et Tu Ec) as (x & X1 & X2 & X3 & X4). exists x. auto.
      * exists a. split; [exact R|]. split; [apply Go, tmr_0|]. split; [exists t; auto|].
        destruct (tm_pool_step _ _ _ St) as [Eq|(l' & S & _)]; [rewrite Eq in Cu; rewrite Cu in Ec; injection Ec as <-; exfalso; eauto|].
        destruct (entry_step _ _ _ _ _ St Ec) as (c' & Ec' & Gc' & _). assert (c' = CBack g) by congruence. subst c'. cbn in Gc'. assert (Eg : g = CWait (tmk t)) by congruence. rewrite Eg in Cu. clear Gc' Ec'.
        apply (wait_returned k _ _ _ _ _ (tm_reach _ _ _ R) S Cu). rewrite Ec. intros X. injection X as ->. eauto.
    + destruct (call_new _ _ _ _ _ St Et Eu) as (K & _ & _ & _ & Pq & Pw & _ & C). rewrite Cu in C. destruct (may_return (tpool a) (CWait (tmk u))) eqn:M; [|discriminate C].
      exists b. split; [exact Rb|]. split; [apply tmr_0|]. split; [exists u; auto|]. unfold tasks, running. rewrite Pq, Pw.
      apply (may_tasks k); [apply (tm_reach _ _ _ R)|exact K|exact M].
  - intros i u Eu Tu. destruct (nth_error (tms a) i) as [t|] eqn:Et.
    + destruct (call_kept _ _ _ _ _ St Et) as (u' & Eu' & (Q1 & Q2 & Q3) & H). assert (u' = u) by congruence. subst u'. rewrite Q2.
      destruct H as [H|[H|[H|(H1 & H2 & g & H3)]]].
      * subst u. destruct (I4 _ _ Et Tu) as (x & X1 & X2 & X3 & X4). exists x. auto.
      * exfalso. destruct H as (? & ? & _). congruence.
      * exfalso. destruct H. congruence.
      * destruct (I3 _ _ _ Et H1 H3) as (x & X1 & X2 & X3 & X4). exists x. auto.
    + destruct (call_new _ _ _ _ _ St Et Eu) as (_ & T & _). congruence.
  - intros i u Eu Tu. destruct (nth_error (tms a) i) as [t|] eqn:Et.
    + destruct (call_kept _ _ _ _ _ St Et) as (u' & Eu' & (Q1 & Q2 & Q3) & H). assert (u' = u) by congruence. subst u'. rewrite Q3.
      destruct H as [H|[(H1 & H2 & H3 & _)|[(H1 & H2)|(H1 & H2 & g & H3)]]].
      * subst u. destruct (I5 _ _ Et Tu) as (x & X1 & X2 & X3 & X4). exists x. auto.
      * exists a. split; [exact R|]. split; [apply Go, tmr_0|]. split; [exists t; auto|exact H3].
      * destruct (I5 _ _ Et (or_introl H1)) as (x & X1 & X2 & X3 & X4). exists x. auto.
      * exfalso. destruct Tu; congruence.
    + destruct (call_new _ _ _ _ _ St Et Eu) as (_ & T & _). destruct Tu; congruence.
Qed.
Lemma tinv_reach k now s : tmreach (tsys_new k now) s -> tinv (tsys_new k now) s.
Proof.
  intros R. induction R as [|l b c R IH St]; [|eapply tinv_step; eassumption].
  constructor; cbn [tms tsys_new]; intros [|i]; discriminate.
Qed.
Theorem timed_true k now s i n lim : tmreach (tsys_new k now) s -> answered s i n lim true ->
  exists b, tmreach (tsys_new k now) b /\ tmreach b s /\ under_way b i /\ tasks b <= n.
Proof. intros R (t & E & T & <- & _). exact (ti_true _ _ (tinv_reach _ _ _ R) _ _ E T). Qed.
Theorem timed_false k now s i n lim : tmreach (tsys_new k now) s -> answered s i n lim false ->
  exists b, tmreach (tsys_new k now) b /\ tmreach b s /\ under_way b i /\ lim <= tnow b.
Proof. intros R (t & E & T & _ & <-). exact (ti_late _ _ (tinv_reach _ _ _ R) _ _ E (or_intror T)). Qed.

(** ** The call returns once its time is up *)
Theorem timed_goes_on k now s i t : tmreach (tsys_new k now) s -> nth_error (tms s) i = Some t -> under_way s i -> tmlim t <= tnow s ->
  exists b, by_caller i s b.
Proof.
  intros R E (t' & E' & [T|T]) L; (assert (t' = t) by congruence; subst t').
  - destruct (ti_entry _ _ (tinv_reach _ _ _ R) _ _ E) as (c & Ec & _). destruct c as [g|g|g].
    + eexists. apply bc_expire. eapply tm_expire; eauto.
    + eexists. apply bc_expire. eapply tm_expire; eauto.
    + eexists. apply bc_return. eapply tm_true; eauto.
  - eexists. apply bc_return. eapply tm_false; eauto.
Qed.
Definition cmeas (s : tsys) (i : nat) : nat :=
  match nth_error (tms s) i with
  | Some t => match tmst t with
              | TmIn => match nth_error (pc (tpool s)) (tmid t) with Some (CWoken _) => 3 | _ => 2 end
              | TmExpired => 1
              | TmAnswer _ => 0 end
  | None => 0 end%nat.
Lemma cmeas_step i a b : by_caller i a b -> (S (cmeas b i) <= cmeas a i)%nat.
Proof.
  intros [t c1 g c2 E T C L ->|St|St]; unfold cmeas.
  - cbn [tms tpool pc with_clients]. rewrite E, T, <- L, C, !nth_error_app2, Nat.sub_diag by lia. cbn. destruct (may_return _ _); lia.
  - inversion St; subst. match goal with E : nth_error (tms a) i = Some ?t, T : tmst ?t = TmIn |- _ =>
      cbn [tms tset tpool]; rewrite (nth_tput _ _ _ _ _ E), Nat.eqb_refl, E, T; cbn [tmst]; destruct (nth_error (pc (tpool a)) (tmid t)) as [[]|]; lia end.
  - inversion St; subst; match goal with E : nth_error (tms a) i = Some ?t, T : tmst ?t = _ |- _ =>
      cbn [tms tset tpool]; rewrite (nth_tput _ _ _ _ _ E), Nat.eqb_refl, E, T; cbn [tmst]; try lia; destruct (nth_error (pc (tpool a)) (tmid t)) as [[]|]; lia end.
Qed.
Theorem timed_ends i n a b : callers i n a b -> (n <= 3)%nat.
Proof.
  intros H. assert (n + cmeas b i <= cmeas a i)%nat.
  { induction H as [a|n a b c S H IH]; [lia|]. apply cmeas_step in S. lia. }
  assert (cmeas a i <= 3)%nat; [|lia]. unfold cmeas. destruct (nth_error (tms a) i) as [t|]; [|lia]. destruct (tmst t); try lia. destruct (nth_error _ _) as [[]|]; lia.
Qed.

(** ** A call the condition of which holds at once *)
Theorem timed_at_once k now a b s i n lim x : tmreach (tsys_new k now) a -> tmstep TmCall a b -> i = length (tms a) ->
  (n = 0 -> pactive (tpool a) = 0 /\ pq (tpool a) = []) -> pactive (tpool a) + zlength (pq (tpool a)) <= n ->
  tmreach b s -> answered s i n lim x -> x = true.
Proof.
  intros R St -> Z0 Le Rs (u & Eu & Tu & Ku & Lu).
  assert (Inv : exists t, nth_error (tms s) (length (tms a)) = Some t /\
                 (tmk t = n -> (tmst t = TmIn \/ tmst t = TmAnswer true) /\ exists g, nth_error (pc (tpool s)) (tmid t) = Some (CBack g))).
  { clear u Eu Tu Ku Lu. induction Rs as [|l c d Rs IH Sd].
    - inversion St; subst. cbn [tms tpool] in *.
      exists (Timer (length (pc st)) k0 lim0 TmIn). rewrite nth_last. split; [reflexivity|]. cbn [tmk tmid tmst pc with_clients]. intros ->. split; [auto|].
      rewrite nth_last. eexists. f_equal. replace (may_return st (CWait n)) with true; [reflexivity|]. symmetry. cbn [may_return].
      destruct (Z.eqb_spec n 0) as [->|D].
      + destruct (Z0 eq_refl) as (-> & ->). reflexivity.
      + unfold zlength in Le. apply negb_true_iff, Z.ltb_ge. exact Le.
    - destruct IH as (t & Et & B). destruct (call_kept _ _ _ _ _ Sd Et) as (u & Eu & (Q1 & Q2 & Q3) & H).
      exists u. split; [exact Eu|]. rewrite Q1, Q2. intros K. destruct (B K) as (Tt & g & Eg). split.
      + destruct H as [->|[(H1 & H2 & _ & g' & [H3|H3])|[(H1 & _)|(_ & H2 & _)]]]; auto; try congruence. destruct Tt; congruence.
      + destruct (entry_step _ _ _ _ _ Sd Eg) as (c' & Ec' & _ & Same). rewrite (Same (ex_intro _ g eq_refl)) in Ec'. eauto. }
  destruct Inv as (t & Et & T). assert (t = u) by congruence. subst t. destruct (T Ku) as ([T'|T'] & _); congruence.
Qed.

(** ** When the time runs out on a sleeper, the pool is not done *)
Theorem timed_sleeper k now a i t : tmpath clear_while_active (tsys_new k now) a ->
  nth_error (tms a) i = Some t -> tmst t = TmIn -> tmk t = 0 -> (exists g, nth_error (pc (tpool a)) (tmid t) = Some (CAsleep g)) ->
  pactive (tpool a) <> 0 \/ pq (tpool a) <> [].
Proof.
  intros R E T K (g & C). destruct (sleepers_wait _ _ (tm_path _ _ _ R)) as [G _]. apply G.
  destruct (ti_entry _ _ (tinv_reach _ _ _ (tmpath_reach _ _ _ R)) _ _ E) as (c & Ec & Gc). assert (c = CAsleep g) by congruence. subst c. cbn in Gc. rewrite K in Gc. subst g.
  eapply nth_error_In, C.
Qed.
