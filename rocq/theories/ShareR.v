(** Threads that share the pool: every assignment comes to an end. *)
From Verif Require Import Prelude WindowM GhostM FieldM MaskM NeboM NeboS NeboP ParM ParS ParP TPoolM TPoolS TPoolP TPoolQ ShareM ShareS ShareP ShareQ.

Section Len.
Variable V : Type.
Notation heap := (heap V).
Notation job := (prog V unit).
(** Number of memory accesses of a program run alone. *)
Fixpoint len {R} (p : prog V R) (h : heap) : nat :=
  match p with
  | Load b i k => S (len (k (bdata (h b) i)) h)
  | Store b i v k => S (len k (upd h b i v))
  | _ => 0
  end.
Lemma agree_both (P : nat -> Z -> Prop) (h h2 : heap) b i v : agree V P h h2 -> agree V P (upd h b i v) (upd h2 b i v).
Proof.
  intros (A1 & A2). split; [intros; rewrite !upd_cells; apply A1|].
  intros b' i' H. rewrite !upd_data. destruct (Nat.eqb b' b && (i' =? i)); [reflexivity|apply A2; exact H].
Qed.
Lemma len_frame {R} rd wr (p : prog V R) h h' r h2 : solo rd wr p h h' r -> agree V (fun b i => rd b i \/ wr b i) h h2 -> len p h2 = len p h.
Proof.
  intros S0. revert h2. induction S0 as [r h|b i k h h' r C D S0 IH|b i v k h h' r C D S0 IH]; intros h2 A; cbn [len]; [reflexivity| |].
  - rewrite (proj2 A) by (left; exact D). f_equal. apply IH, A.
  - f_equal. apply IH, agree_both, A.
Qed.

Definition zsum {A} (f : A -> Z) (l : list A) : Z := fold_right (fun x n => f x + n) 0 l.
Lemma zsum_app {A} (f : A -> Z) a b : zsum f (a ++ b) = zsum f a + zsum f b.
Proof. unfold zsum. induction a as [|x a IH]; cbn [app fold_right] in *; lia. Qed.
Lemma zsum_mid {A} (f : A -> Z) a x b : zsum f (a ++ x :: b) = zsum f a + f x + zsum f b.
Proof. rewrite zsum_app. cbn. unfold zsum. lia. Qed.
Lemma zsum_ext {A} (f g : A -> Z) l : (forall x, In x l -> f x = g x) -> zsum f l = zsum g l.
Proof. intros H. induction l as [|x l IH]; [reflexivity|]. cbn. rewrite H by (left; reflexivity). f_equal. apply IH. intros; apply H; right; assumption. Qed.
Lemma zsum_nonneg {A} (f : A -> Z) l : (forall x, 0 <= f x) -> 0 <= zsum f l.
Proof. intros H. induction l as [|x l IH]; cbn; [lia|]. specialize (H x). unfold zsum in IH. lia. Qed.

Definition todo_cost (h : heap) (k : Z) (jobs : list job) : Z := zsum (fun j => Z.of_nat (len j h) + k) jobs.
Definition pcost (p : prog V (list job)) (h : heap) : Z :=
  match NeboM.run p h with RDone h1 jobs => Z.of_nat (len p h) + todo_cost h1 10 jobs + 3 | _ => 0 end.
Definition stage_cost (h : heap) (g : stage V) : Z :=
  match g with
  | Between => 0
  | Preparing p => pcost p h
  | Parallel todo s w => todo_cost h 9 todo + Z.of_nat w + 1
  end.
Lemma todo_cost_nonneg h k jobs : 0 <= k -> 0 <= todo_cost h k jobs.
Proof. intros K. apply zsum_nonneg. intros. lia. Qed.
Lemma pcost_nonneg p h : 0 <= pcost p h.
Proof. unfold pcost. destruct (NeboM.run p h) as [h1 r| | |]; try lia. pose proof (todo_cost_nonneg h1 10 r ltac:(lia)). lia. Qed.
Lemma stage_cost_nonneg h g : 0 <= stage_cost h g.
Proof. destruct g as [|p|t s w]; cbn; [lia|apply pcost_nonneg|]. pose proof (todo_cost_nonneg h 9 t ltac:(lia)). lia. Qed.
Lemma todo_cost_shift h k d jobs : todo_cost h (k + d) jobs = todo_cost h k jobs + d * zlength jobs.
Proof. unfold todo_cost. induction jobs as [|j l IH]; [cbn; lia|]. rewrite zlength_cons. cbn [zsum fold_right]. unfold zsum in IH. rewrite IH. lia. Qed.

Section Frame.
Variable rdc wrc : nat -> Z -> Prop.
Lemma jobs_cost_frame h1 h2 jobs h' k : jobs_ok V rdc wrc h1 jobs h' -> agree V (fp rdc wrc) h1 h2 -> todo_cost h2 k jobs = todo_cost h1 k jobs.
Proof.
  intros (rd & wr & J1 & J2 & J3 & J4 & _) A. apply zsum_ext. intros j I. apply In_nth_error in I as (q & E).
  destruct (J4 q j E) as (hq & S0 & _). f_equal. f_equal. eapply len_frame; [exact S0|]. eapply agree_sub; [|exact A].
  intros b x [X|X]; [eapply J1; exact X|right; eapply J2; exact X].
Qed.
Lemma pcost_frame p h h2 h' : phase_ok V rdc wrc p h h' -> agree V (fp rdc wrc) h h2 -> pcost p h2 = pcost p h.
Proof.
  intros (h1 & jobs & S0 & J) A. destruct (solo_frame V _ _ _ _ _ _ h2 S0 A) as (h2' & S2 & A2).
  unfold pcost. rewrite (solo_run _ _ _ _ _ _ _ S0), (solo_run _ _ _ _ _ _ _ S2). f_equal. f_equal.
  - f_equal. eapply len_frame; eassumption.
  - eapply jobs_cost_frame; eassumption.
Qed.
Lemma par_todo_frame h h2 hn live todo s w k : par_ok V rdc wrc h hn live todo s w -> agree V (fp rdc wrc) h h2 -> todo_cost h2 k todo = todo_cost h k todo.
Proof.
  intros (rd & wr & J1 & J2 & J3 & J4 & _) A. apply zsum_ext. intros j I. apply In_nth_error in I as (q & E).
  destruct (J4 (length live + q)%nat (Some j)) as (hq & S0 & _).
  { rewrite nth_error_app2 by lia. replace (length live + q - length live)%nat with q by lia. rewrite nth_error_map, E. reflexivity. }
  f_equal. f_equal. eapply len_frame; [exact S0|]. eapply agree_sub; [|exact A].
  intros b x [X|X]; [eapply J1; exact X|right; eapply J2; exact X].
Qed.
Lemma par_live_frame h h2 hn live todo s w q j : par_ok V rdc wrc h hn live todo s w -> agree V (fp rdc wrc) h h2 ->
  nth_error live q = Some (Some j) -> len j h2 = len j h.
Proof.
  intros (rd & wr & J1 & J2 & J3 & J4 & _) A E. destruct (J4 q (Some j)) as (hq & S0 & _); [rewrite nth_error_app1; [exact E|apply nth_error_Some; congruence]|].
  eapply len_frame; [exact S0|]. eapply agree_sub; [|exact A]. intros b x [X|X]; [eapply J1; exact X|right; eapply J2; exact X].
Qed.
(** A store of one job does not change what its siblings will do. *)
Lemma par_store_len h hn live todo s w q1 b i v k : par_ok V rdc wrc h hn live todo s w -> nth_error live q1 = Some (Some (Store b i v k)) ->
  forall q j, q <> q1 -> nth_error (live ++ map Some todo) q = Some (Some j) -> len j (upd h b i v) = len j h.
Proof.
  intros (rd & wr & J1 & J2 & J3 & J4 & _) E q j N Ej.
  assert (L1 : (q1 < length live)%nat) by (apply nth_error_Some; congruence).
  assert (Lq : (q < length live + length todo)%nat).
  { assert (X : (q < length (live ++ map Some todo))%nat) by (apply nth_error_Some; congruence). rewrite app_length, map_length in X. exact X. }
  destruct (J4 q1 (Some (Store b i v k))) as (h1 & S1 & _); [rewrite nth_error_app1; assumption|].
  apply solo_store_inv in S1 as (W & _). destruct (J4 q (Some j) Ej) as (hq & S0 & _).
  eapply len_frame; [exact S0|]. apply agree_upd. destruct (J3 q1 q b i ltac:(lia) Lq (not_eq_sym N) W). tauto.
Qed.
End Frame.
End Len.

Section Meas.
Variable V : Type.
Notation heap := (heap V).
Notation sys := (sys V).
Variable h0 : heap.
Variable phs : nat -> list (prog V (list (prog V unit))).
Variable hp : nat -> nat -> heap.
Variable rdc wrc : nat -> nat -> Z -> Prop.
Notation fpc c := (fp (rdc c) (wrc c)).
Hypothesis CSep : forall c d b x, c <> d -> wrc c b x -> ~ fpc d b x.
Hypothesis Ph : forall c k p, nth_error (phs c) k = Some p -> phase_ok V (rdc c) (wrc c) p (hp c k) (hp c (S k)).
Notation sinv := (sinv V h0 phs hp rdc wrc).
Notation stage_ok := (stage_ok V hp rdc wrc).

(** cost of the assignments caller c has still to begin, the n-th first *)
Fixpoint rest_cost (c n : nat) (l : list (prog V (list (prog V unit)))) : Z :=
  match l with [] => 0 | p :: r => 1 + pcost V p (hp c n) + rest_cost c (S n) r end.
Definition host_cost (k : host) : Z := match k with Unsubmitted => 7 | _ => 0 end.
Definition cmeas (h : heap) (c : nat) (k : caller V) : Z := host_cost (chost k) + stage_cost V h (cstage k) + rest_cost c (cnum k) (cleft k).
Definition emeas (h : heap) (e : entry V) : Z := match e with EJob _ _ (Some j) => Z.of_nat (len V j h) + 1 | _ => 0 end.
Fixpoint csum (h : heap) (c : nat) (l : list (caller V)) : Z := match l with [] => 0 | k :: l => cmeas h c k + csum h (S c) l end.
Definition total (st : sys) : Z := pmeas (spool st) + csum (sheap st) 0 (scall st) + zsum (emeas (sheap st)) (stab st).

Lemma rest_cost_nonneg c n l : 0 <= rest_cost c n l.
Proof. revert n. induction l as [|p l IH]; intros n; cbn [rest_cost]; [lia|]. specialize (IH (S n)). pose proof (pcost_nonneg V p (hp c n)). lia. Qed.
Lemma csum_mid h c l1 k l2 : csum h c (l1 ++ k :: l2) = csum h c l1 + cmeas h (c + length l1) k + csum h (c + S (length l1)) l2.
Proof.
  revert c. induction l1 as [|x l1 IH]; intros c; cbn [app csum length].
  - replace (c + 0)%nat with c by lia. replace (c + 1)%nat with (S c) by lia. lia.
  - rewrite IH. replace (S c + length l1)%nat with (c + S (length l1))%nat by lia. replace (S c + S (length l1))%nat with (c + S (S (length l1)))%nat by lia. lia.
Qed.
Lemma csum_ext h h' c l : (forall i k, nth_error l i = Some k -> cmeas h (c + i) k = cmeas h' (c + i) k) -> csum h c l = csum h' c l.
Proof.
  revert c. induction l as [|k l IH]; intros c H; cbn; [reflexivity|]. f_equal.
  - specialize (H 0%nat k eq_refl). rewrite Nat.add_0_r in H. exact H.
  - apply IH. intros i x E. specialize (H (S i) x E). replace (S c + i)%nat with (c + S i)%nat by lia. exact H.
Qed.
Lemma csum_nonneg h c l : 0 <= csum h c l.
Proof.
  revert c. induction l as [|k l IH]; intros c; cbn; [lia|]. specialize (IH (S c)). unfold cmeas.
  pose proof (stage_cost_nonneg V h (cstage k)). pose proof (rest_cost_nonneg c (cnum k) (cleft k)). destruct (chost k); cbn [host_cost]; lia.
Qed.
Lemma total_nonneg st : 0 <= total st.
Proof.
  unfold total, pmeas. pose proof (wsum_nonneg (pw (spool st))). pose proof (zlength_nonneg (pq (spool st))). pose proof (csum_nonneg (sheap st) 0 (scall st)).
  assert (0 <= zsum (emeas (sheap st)) (stab st)); [|lia]. apply zsum_nonneg. intros [o m [j|]|o]; cbn; lia.
Qed.

(** Changing memory in a way that an agent does not see does not change its cost. *)
Lemma cmeas_frame st h' c k g n l : sinv st -> nth_error (scall st) c = Some (Caller k g n l) -> agree V (fpc c) (sheap st) h' ->
  cmeas h' c (Caller k g n l) = cmeas (sheap st) c (Caller k g n l).
Proof.
  intros [I1 I2 I3 I4] E A. destruct (I1 _ _ _ _ _ E) as (_ & So). unfold cmeas. cbn [chost cstage cnum cleft]. f_equal. f_equal.
  destruct g as [|p|t s w]; cbn [ShareQ.stage_ok stage_cost] in *; [reflexivity| |].
  - eapply pcost_frame; [apply So|exact A].
  - f_equal. f_equal. eapply par_todo_frame; eassumption.
Qed.
Lemma emeas_frame st h' i o m j : sinv st -> nth_error (stab st) i = Some (EJob o m j) -> agree V (fpc o) (sheap st) h' ->
  emeas h' (EJob o m j) = emeas (sheap st) (EJob o m j).
Proof.
  intros [I1 I2 I3 I4] E A. destruct j as [j|]; [|reflexivity]. destruct (I2 _ _ _ _ E) as (k & g & n & l & Eo & _ & Q).
  destruct Q as (<- & Q); [discriminate|]. destruct g as [| |t s w]; try destruct Q. destruct (I1 _ _ _ _ _ Eo) as (_ & P). cbn [ShareQ.stage_ok] in P.
  cbn [emeas]. f_equal. f_equal. eapply par_live_frame; [exact P|exact A|]. apply own_index in E. exact E.
Qed.
Lemma notify_meas a t b : tstep (LSchedule t) a b -> pmeas b <= pmeas a + 6.
Proof.
  intros St. inversion St as [| | | | | | | | | | |st t' ws N| | | | | |]; subst. unfold pmeas; cbn [pq pw]. rewrite zlength_app. change (zlength [t]) with 1.
  inversion N as [l1 l2 E1 E2|l Ex E1 E2].
  - rewrite !wsum_mid. cbn [wmeas]. lia.
  - subst. lia.
Qed.

(** A caller changes stage: the others keep their cost. *)
Lemma caller_total st c k g n l k' g' n' l' h' :
  sinv st -> nth_error (scall st) c = Some (Caller k g n l) ->
  (forall d, d <> c -> agree V (fpc d) (sheap st) h') ->
  (h' = sheap st \/ ~ is_par V g) ->
  cmeas h' c (Caller k' g' n' l') < cmeas (sheap st) c (Caller k g n l) ->
  total (with_heap (with_caller st c (Caller k' g' n' l')) h') < total st.
Proof.
  intros I0 E A Hh L. unfold total. cbn [with_heap with_caller spool sheap scall stab].
  destruct (set_split _ _ _ E) as (l1 & l2 & El & Ll & Es). rewrite Es. rewrite El. rewrite !csum_mid. cbn [Nat.add]. rewrite Ll.
  assert (X1 : csum h' 0 l1 = csum (sheap st) 0 l1).
  { apply csum_ext. intros i [ki gi ni li] Ei. cbn [Nat.add]. assert (Li : (i < length l1)%nat) by (apply nth_error_Some; congruence).
    apply cmeas_frame; [exact I0| |apply A; lia]. rewrite El, nth_error_app1 by exact Li. exact Ei. }
  assert (X2 : csum h' (S c) l2 = csum (sheap st) (S c) l2).
  { apply csum_ext. intros i [ki gi ni li] Ei.
    apply cmeas_frame; [exact I0| |apply A; lia]. rewrite El, nth_error_app2 by lia. replace (S c + i - length l1)%nat with (S i) by lia. exact Ei. }
  assert (X3 : zsum (emeas h') (stab st) = zsum (emeas (sheap st)) (stab st)).
  { apply zsum_ext. intros e I. apply In_nth_error in I as (i & Ei). destruct e as [o m j|o]; [|reflexivity].
    destruct Hh as [->|Hh]; [reflexivity|]. destruct (Nat.eq_dec o c) as [->|N]; [|eapply emeas_frame; [exact I0|exact Ei|apply A; exact N]].
    destruct j as [j|]; [|reflexivity]. destruct I0 as [I1 I2 I3 I4]. destruct (I2 _ _ _ _ Ei) as (k1 & g1 & n1 & l3 & Y1 & _ & Y3).
    rewrite E in Y1. injection Y1 as <- <- <- <-. destruct Y3 as (_ & Y3); [discriminate|]. contradiction. }
  rewrite X1, X2, X3. lia.
Qed.
Lemma total_same (st : sys) : with_heap st (sheap st) = st.
Proof. destruct st. reflexivity. Qed.

(** A job moves on. *)
Lemma job_total st i o m p j' k t s w l s' h' :
  sinv st -> nth_error (stab st) i = Some (EJob o m (Some p)) -> nth_error (scall st) o = Some (Caller k (Parallel t s w) m l) ->
  (forall d, d <> o -> agree V (fpc d) (sheap st) h') ->
  (forall q j, q <> length (own V o m (firstn i (stab st))) -> nth_error (own V o m (stab st) ++ map Some t) q = Some (Some j) -> len V j h' = len V j (sheap st)) ->
  emeas h' (EJob o m j') < Z.of_nat (len V p (sheap st)) + 1 ->
  total (with_heap (with_entry (with_caller st o (Caller k (Parallel t s' w) m l)) i (EJob o m j')) h') < total st.
Proof.
  intros I0 Ei Eo A Sib L. unfold total. cbn [with_heap with_caller with_entry spool sheap scall stab].
  destruct (set_split _ _ _ Eo) as (l1 & l2 & El & Ll & Es). rewrite Es. rewrite El. rewrite !csum_mid. cbn [Nat.add]. rewrite Ll.
  destruct (set_split _ _ _ Ei) as (t1 & t2 & Et & Lt & Ets). rewrite Ets. rewrite Et. rewrite !zsum_mid.
  assert (X1 : csum h' 0 l1 = csum (sheap st) 0 l1).
  { apply csum_ext. intros q [ki gi ni li] Eq. cbn [Nat.add]. assert (Li : (q < length l1)%nat) by (apply nth_error_Some; congruence).
    apply cmeas_frame; [exact I0| |apply A; lia]. rewrite El, nth_error_app1 by exact Li. exact Eq. }
  assert (X2 : csum h' (S o) l2 = csum (sheap st) (S o) l2).
  { apply csum_ext. intros q [ki gi ni li] Eq.
    apply cmeas_frame; [exact I0| |apply A; lia]. rewrite El, nth_error_app2 by lia. replace (S o + q - length l1)%nat with (S q) by lia. exact Eq. }
  assert (X3 : cmeas h' o (Caller k (Parallel t s' w) m l) = cmeas (sheap st) o (Caller k (Parallel t s w) m l)).
  { unfold cmeas. cbn [chost cstage cnum cleft stage_cost]. f_equal. f_equal. f_equal. f_equal. apply zsum_ext. intros j I. apply In_nth_error in I as (q & Eq).
    f_equal. f_equal. apply (Sib (length (own V o m (stab st)) + q)%nat).
    - assert (Z : nth_error (own V o m (stab st)) (length (own V o m (firstn i (stab st)))) <> None) by (rewrite (own_index V _ _ _ _ _ Ei); discriminate).
      apply nth_error_Some in Z. lia.
    - rewrite nth_error_app2 by lia. replace (length (own V o m (stab st)) + q - length (own V o m (stab st)))%nat with q by lia. rewrite nth_error_map, Eq. reflexivity. }
  assert (X4 : forall i' e, nth_error (stab st) i' = Some e -> i' <> i -> emeas h' e = emeas (sheap st) e).
  { intros i' [o' m' j|o'] Ei' N; [|reflexivity]. destruct (Nat.eq_dec o' o) as [->|No]; [|eapply emeas_frame; [exact I0|exact Ei'|apply A; exact No]].
    destruct j as [j|]; [|reflexivity]. destruct I0 as [I1 I2 I3 I4]. destruct (I2 _ _ _ _ Ei') as (k1 & g1 & n1 & l3 & Y1 & _ & Y3).
    rewrite Eo in Y1. injection Y1 as <- <- <- <-. destruct Y3 as (-> & _); [discriminate|]. cbn [emeas]. f_equal. f_equal.
    apply (Sib (length (own V o m (firstn i' (stab st))))).
    - eapply own_index_inj; eassumption.
    - pose proof (own_index V _ _ _ _ _ Ei') as Z. rewrite nth_error_app1; [exact Z|apply nth_error_Some; congruence]. }
  assert (X5 : zsum (emeas h') t1 = zsum (emeas (sheap st)) t1).
  { apply zsum_ext. intros e I. apply In_nth_error in I as (q & Eq). assert (Lq : (q < length t1)%nat) by (apply nth_error_Some; congruence).
    apply (X4 q); [rewrite Et, nth_error_app1 by exact Lq; exact Eq|lia]. }
  assert (X6 : zsum (emeas h') t2 = zsum (emeas (sheap st)) t2).
  { apply zsum_ext. intros e I. apply In_nth_error in I as (q & Eq).
    apply (X4 (S i + q)%nat); [|lia]. rewrite Et, nth_error_app2 by lia. replace (S i + q - length t1)%nat with (S q) by lia. exact Eq. }
  rewrite X1, X2, X3, X5, X6. cbn [emeas] in L |- *. lia.
Qed.

Lemma stay c (h : heap) b i v : wrc c b i -> forall d, d <> c -> agree V (fpc d) h (upd h b i v).
Proof. intros W d N. apply agree_upd. intros F. exact (CSep c d b i (not_eq_sym N) W F). Qed.

Lemma total_step l st st' : sinv st -> hstep l st st' -> inside l = true -> total st' < total st.
Proof.
  intros I0 St In. pose proof I0 as [I1 I2 I3 I4].
  destruct St as [st c k n p r E M|st c k n b i f r E M C|st c k n b i v p r E M C|st c k n jobs r E M|st c k n j t s w r q E M T
    |st c k n s w r E M Hs|st c k n s r E M|st c g n r q E T|st i o n b x f E M C|st i o n b x v p E M C|st i o n k t s w r E M Eo
    |st i e q E F T|st i e q E F T|st l q F T].
  - destruct (I1 _ _ _ _ _ E) as (Y1 & Y2). apply skipn_cons in Y1 as (Y1 & ->).
    rewrite <- (total_same (with_caller _ _ _)). eapply caller_total; [exact I0|exact E|intros; apply agree_refl|left; reflexivity|].
    unfold cmeas. cbn [chost cstage cnum cleft stage_cost rest_cost with_caller sheap]. rewrite (pcost_frame V _ _ _ _ _ _ (Ph _ _ _ Y1) Y2). lia.
  - destruct (I1 _ _ _ _ _ E) as (-> & (h1 & jobs & S0 & J) & Y3).
    rewrite <- (total_same (with_caller _ _ _)). eapply caller_total; [exact I0|exact E|intros; apply agree_refl|left; reflexivity|].
    unfold cmeas. cbn [chost cstage cnum cleft stage_cost with_caller sheap]. unfold pcost. rewrite (solo_run _ _ _ _ _ _ _ S0).
    apply solo_load_inv in S0. rewrite (solo_run _ _ _ _ _ _ _ S0). cbn [len]. lia.
  - destruct (I1 _ _ _ _ _ E) as (-> & (h1 & jobs & S0 & J) & Y3). pose proof (solo_run _ _ _ _ _ _ _ S0) as R0. apply solo_store_inv in S0 as (W & S0).
    eapply caller_total; [exact I0|exact E|apply stay; exact W|right; intros []|].
    unfold cmeas. cbn [chost cstage cnum cleft stage_cost with_caller sheap]. unfold pcost. rewrite R0, (solo_run _ _ _ _ _ _ _ S0). cbn [len]. lia.
  - destruct (I1 _ _ _ _ _ E) as (-> & _ & Y3).
    rewrite <- (total_same (with_caller _ _ _)). eapply caller_total; [exact I0|exact E|intros; apply agree_refl|left; reflexivity|].
    unfold cmeas. cbn [chost cstage cnum cleft stage_cost with_caller sheap]. unfold pcost. cbn [NeboM.run len].
    change 10 with (9 + 1). rewrite todo_cost_shift. unfold zlength. lia.
  - pose proof (notify_meas _ _ _ T) as P. unfold total. cbn [spool sheap scall stab].
    destruct (set_split _ _ _ E) as (l1 & l2 & El & Ll & Es). rewrite Es. rewrite El. rewrite !csum_mid. rewrite zsum_app. cbn [zsum fold_right emeas].
    unfold cmeas. cbn [chost cstage cnum cleft stage_cost]. unfold todo_cost. cbn [zsum fold_right]. unfold zsum. lia.
  - destruct (I1 _ _ _ _ _ E) as (-> & _).
    rewrite <- (total_same (with_caller _ _ _)). eapply caller_total; [exact I0|exact E|intros; apply agree_refl|left; reflexivity|].
    unfold cmeas. cbn [chost cstage cnum cleft stage_cost with_caller sheap]. lia.
  - destruct (I1 _ _ _ _ _ E) as (-> & _).
    rewrite <- (total_same (with_caller _ _ _)). eapply caller_total; [exact I0|exact E|intros; apply agree_refl|left; reflexivity|].
    unfold cmeas. cbn [chost cstage cnum cleft stage_cost with_caller sheap todo_cost zsum fold_right]. cbn. lia.
  - pose proof (notify_meas _ _ _ T) as P. unfold total. cbn [spool sheap scall stab].
    destruct (set_split _ _ _ E) as (l1 & l2 & El & Ll & Es). rewrite Es. rewrite El. rewrite !csum_mid. rewrite zsum_app. cbn [zsum fold_right emeas].
    unfold cmeas. cbn [chost cstage cnum cleft host_cost]. unfold zsum. lia.
  - destruct (I2 _ _ _ _ E) as (k & g & n' & l & Eo & _ & Q). destruct Q as (<- & Q); [discriminate|]. destruct g as [| |t s w]; try destruct Q.
    assert (Es : with_entry st i (EJob o n (Some (f (bdata (sheap st b) x)))) =
      with_heap (with_entry (with_caller st o (Caller k (Parallel t s w) n l)) i (EJob o n (Some (f (bdata (sheap st b) x))))) (sheap st)).
    { unfold with_entry, with_heap, with_caller. cbn [spool sheap scall stab]. f_equal. destruct (set_split _ _ _ Eo) as (l1 & l2 & -> & _ & ->). reflexivity. }
    rewrite Es. eapply job_total; [exact I0|exact E|exact Eo|intros; apply agree_refl|reflexivity|]. cbn [emeas len]. lia.
  - destruct (I2 _ _ _ _ E) as (k & g & n' & l & Eo & _ & Q). destruct Q as (<- & Q); [discriminate|]. destruct g as [| |t s w]; try destruct Q.
    assert (Es : with_heap (with_entry st i (EJob o n (Some p))) (upd (sheap st) b x v) =
      with_heap (with_entry (with_caller st o (Caller k (Parallel t s w) n l)) i (EJob o n (Some p))) (upd (sheap st) b x v)).
    { unfold with_entry, with_heap, with_caller. cbn [spool sheap scall stab]. f_equal. destruct (set_split _ _ _ Eo) as (l1 & l2 & -> & _ & ->). reflexivity. }
    rewrite Es. destruct (I1 _ _ _ _ _ Eo) as (_ & P). cbn [ShareQ.stage_ok] in P. pose proof (own_index V _ _ _ _ _ E) as Eq.
    eapply job_total; [exact I0|exact E|exact Eo| | |].
    + apply stay. destruct (par_job _ _ _ _ _ _ _ _ _ _ _ P Eq) as (_ & A). exact (A _ eq_refl).
    + apply (par_store_len V _ _ _ _ _ _ _ _ _ _ _ _ _ P Eq).
    + cbn [emeas len]. lia.
  - rewrite <- (total_same (with_entry _ _ _)). eapply job_total; [exact I0|exact E|exact Eo|intros; apply agree_refl|reflexivity|]. cbn [emeas len]. lia.
  - unfold total. cbn [spool sheap scall stab]. pose proof (pmeas_step _ _ _ (eq_refl : internal (LDone (task_of i)) = true) T). lia.
  - discriminate In.
  - unfold total. cbn [spool sheap scall stab]. assert (Q : internal l = true) by (destruct l; try discriminate; reflexivity). pose proof (pmeas_step _ _ _ Q T). lia.
Qed.
Lemma histeps_bounded st : sinv st -> exists bound : nat, forall n st', histeps n st st' -> (n <= bound)%nat.
Proof.
  intros I0. exists (Z.to_nat (total st)). intros n st' H. assert (Z.of_nat n <= total st); [|lia].
  induction H as [st|n l a b c In St R IH]; [pose proof (total_nonneg st); lia|].
  pose proof (total_step _ _ _ I0 St In). specialize (IH (sinv_step V h0 phs hp rdc wrc CSep Ph _ _ _ I0 St)). lia.
Qed.
End Meas.
