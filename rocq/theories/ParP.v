From Verif Require Import Prelude WindowM WindowS WindowP GhostM FieldM MaskM NeboM NeboS NeboP ParM ParS.

Section ParP.
Variable V : Type.
Notation heap := (heap V).
Notation job := (prog V unit).
Notation par := (par V).

(** ** Replacing one list entry *)
Lemma repl_split {A} (L : list A) i x y : nth_error L i = Some x ->
  exists l1 l2, L = l1 ++ x :: l2 /\ length l1 = i /\ firstn i L ++ y :: skipn (S i) L = l1 ++ y :: l2.
Proof.
  intros H. destruct (nth_error_split L i H) as (l1 & l2 & -> & <-). exists l1, l2. split; [reflexivity|]. split; [reflexivity|].
  rewrite firstn_app, firstn_all, Nat.sub_diag. cbn [firstn]. rewrite app_nil_r. f_equal. f_equal.
  rewrite skipn_app. rewrite skipn_all2 by lia. replace (S (length l1) - length l1)%nat with 1%nat by lia. reflexivity.
Qed.
Lemma nth_split_eq {A} (l1 l2 : list A) x : nth_error (l1 ++ x :: l2) (length l1) = Some x.
Proof. rewrite nth_error_app2 by lia. rewrite Nat.sub_diag. reflexivity. Qed.
Lemma nth_split_ne {A} (l1 l2 : list A) x y k : k <> length l1 -> nth_error (l1 ++ x :: l2) k = nth_error (l1 ++ y :: l2) k.
Proof.
  intros H. destruct (Nat.lt_ge_cases k (length l1)).
  - rewrite !nth_error_app1 by assumption. reflexivity.
  - rewrite !nth_error_app2 by assumption. replace (k - length l1)%nat with (S (k - length l1 - 1))%nat by lia. reflexivity.
Qed.

(** ** Counting finished jobs *)
Fixpoint done (l : list (option job)) : nat :=
  match l with [] => 0 | None :: t => S (done t) | Some _ :: t => done t end.
Lemma done_app a b : done (a ++ b) = (done a + done b)%nat.
Proof. induction a as [|[x|] a IH]; cbn; rewrite ?IH; reflexivity. Qed.
Lemma done_le l : (done l <= length l)%nat.
Proof. induction l as [|[x|] l IH]; cbn; lia. Qed.
Lemma done_all l : done l = length l -> forall i j, nth_error l i = Some j -> j = None.
Proof.
  induction l as [|[x|] l IH]; cbn; intros E [|i] j H; cbn in H; try discriminate.
  - pose proof (done_le l). lia.
  - pose proof (done_le l). lia.
  - congruence.
  - apply (IH ltac:(lia) i j H).
Qed.

Definition count_inv (n : nat) (st : par) : Prop :=
  (length (plive st) + length (ptodo st) = n)%nat /\
  Z.of_nat (pwaits st) + Z.of_nat (done (plive st)) = Z.of_nat n + psem st /\ 0 <= psem st /\ (pwaits st <= n)%nat.

Lemma count_step n a b : count_inv n a -> pstep a b -> count_inv n b.
Proof.
  intros (L & C & P & W) S. destruct S as [h j t l s w|st i b c k H _|st i b c v k H _|st i H|h l s w Hs]; unfold count_inv in *; cbn [plive ptodo psem pwaits] in *.
  - rewrite app_length, done_app. cbn in *. lia.
  - destruct (repl_split _ _ _ (Some (k (bdata (pheap st b) c))) H) as (l1 & l2 & E & _ & R). unfold set_live. rewrite R.
    rewrite E in L, C. rewrite app_length, done_app in *. cbn in *. lia.
  - destruct (repl_split _ _ _ (Some k) H) as (l1 & l2 & E & _ & R). unfold set_live. rewrite R.
    rewrite E in L, C. rewrite app_length, done_app in *. cbn in *. lia.
  - destruct (repl_split _ _ _ None H) as (l1 & l2 & E & _ & R). unfold set_live. rewrite R.
    rewrite E in L, C. rewrite app_length, done_app in *. cbn in *. lia.
  - lia.
Qed.
Lemma count_start h jobs : count_inv (length jobs) (par_start h jobs).
Proof. unfold count_inv; cbn. lia. Qed.
Lemma count_reach n a b : count_inv n a -> reachable a b -> count_inv n b.
Proof. intros A (k & S). induction S as [|k a b c S IH T]; [exact A|]. eapply count_step; [apply IH; exact A|exact T]. Qed.

Lemma psteps_front m (a b c : par) : pstep a b -> psteps m b c -> psteps (S m) a c.
Proof.
  intros S1 H. revert a S1. induction H as [b|m b c d H IH S2]; intros a S1.
  - eapply psteps_S; [apply psteps_0|exact S1].
  - eapply psteps_S; [apply IH; exact S1|exact S2].
Qed.
Lemma reach_front (a b c : par) : pstep a b -> reachable b c -> reachable a c.
Proof. intros S1 (m & H). exists (S m). eapply psteps_front; eauto. Qed.
Lemma reach_refl (a : par) : reachable a a.
Proof. exists 0%nat. apply psteps_0. Qed.
Lemma returned_all_done h jobs (st : par) : reachable (par_start h jobs) st -> returned st ->
  length (plive st) = length jobs /\ forall i j, nth_error (plive st) i = Some j -> j = None.
Proof.
  intros R (T & W). destruct (count_reach _ _ _ (count_start h jobs) R) as (L & C & P & _).
  rewrite T in L. rewrite W in C. cbn in L. pose proof (done_le (plive st)). split; [lia|].
  apply done_all. lia.
Qed.
(** If the caller cannot go on and no job can, some job has failed. *)
Lemma blocked_failure h jobs (st : par) : reachable (par_start h jobs) st -> ~ returned st -> (forall st', ~ pstep st st') ->
  exists i j, nth_error (plive st) i = Some (Some j) /\ stuck_job (pheap st) j.
Proof.
  intros R N B. destruct (count_reach _ _ _ (count_start h jobs) R) as (L & C & P & W).
  destruct st as [hp td lv sm wt]; cbn in *. destruct td as [|j t].
  2:{ exfalso. apply (B _ (ps_schedule V hp j t lv sm wt)). }
  destruct wt as [|wt]; [exfalso; apply N; split; reflexivity|].
  destruct (Z_lt_le_dec 0 sm) as [Q|Q]; [exfalso; apply (B _ (ps_wait V hp lv sm wt Q))|].
  assert (D : (done lv < length lv)%nat) by (cbn in L; lia).
  assert (G : exists i j, nth_error lv i = Some (Some j)).
  { clear -D. induction lv as [|[x|] lv IH]; cbn in D; [lia| |].
    - exists 0%nat, x. reflexivity.
    - destruct IH as (i & j & E); [lia|]. exists (S i), j. exact E. }
  destruct G as (i & j & E). exists i, j. split; [exact E|].
  set (st := Par hp [] lv sm (S wt)) in *. assert (E' : nth_error (plive st) i = Some (Some j)) by exact E.
  destruct j as [[]| | | |b c k|b c v k]; cbn; auto.
  - apply (B _ (ps_post V st i E')).
  - destruct (bcells (hp b) c) eqn:X; [|reflexivity]. exfalso. apply (B _ (ps_load V st i b c k E' X)).
  - destruct (bcells (hp b) c) eqn:X; [|reflexivity]. exfalso. apply (B _ (ps_store V st i b c v k E' X)).
Qed.

(** ** Jobs with disjoint footprints *)
Inductive solon (rd wr : nat -> Z -> Prop) : nat -> job -> heap -> heap -> Prop :=
| solon_ret h : solon rd wr 0 (Ret tt) h h
| solon_load n b i k h h' : bcells (h b) i = true -> rd b i ->
    solon rd wr n (k (bdata (h b) i)) h h' -> solon rd wr (S n) (Load b i k) h h'
| solon_store n b i v k h h' : bcells (h b) i = true -> wr b i ->
    solon rd wr n k (upd h b i v) h' -> solon rd wr (S n) (Store b i v k) h h'.
Lemma solo_n rd wr (p : job) h h' : solo rd wr p h h' tt -> exists n, solon rd wr n p h h'.
Proof.
  intros S. remember tt as u eqn:U. induction S as [[]|? ? ? ? ? ? C D _ IH|? ? ? ? ? ? ? C D _ IH].
  - exists 0%nat. constructor.
  - destruct (IH U) as (n & X). exists (S n). constructor; assumption.
  - destruct (IH U) as (n & X). exists (S n). constructor; assumption.
Qed.

Definition agree (P : nat -> Z -> Prop) (h h2 : heap) : Prop :=
  (forall b i, bcells (h2 b) i = bcells (h b) i) /\ forall b i, P b i -> bdata (h2 b) i = bdata (h b) i.
Lemma upd_cells (h : heap) b i v b' i' : bcells (upd h b i v b') i' = bcells (h b') i'.
Proof. unfold upd. destruct (Nat.eqb b' b); reflexivity. Qed.
Lemma upd_data (h : heap) b i v b' i' :
  bdata (upd h b i v b') i' = if Nat.eqb b' b && (i' =? i) then v else bdata (h b') i'.
Proof. unfold upd. destruct (Nat.eqb b' b); cbn; [destruct (i' =? i)|]; reflexivity. Qed.

Lemma solon_frame rd wr n p h h' h2 : solon rd wr n p h h' -> agree (fun b i => rd b i \/ wr b i) h h2 ->
  exists h2', solon rd wr n p h2 h2' /\ agree (fun b i => rd b i \/ wr b i) h' h2'.
Proof.
  intros S. revert h2. induction S as [h|n b i k h h' C D S IH|n b i v k h h' C D S IH]; intros h2 A.
  - exists h2. split; [constructor|exact A].
  - destruct (IH h2 A) as (h2' & S' & A'). exists h2'. split; [|exact A'].
    constructor; [rewrite (proj1 A); exact C|exact D|]. rewrite (proj2 A) by (left; exact D). exact S'.
  - destruct (IH (upd h2 b i v)) as (h2' & S' & A').
    { destruct A as (A1 & A2). split; [intros; rewrite !upd_cells; apply A1|].
      intros b' i' H. rewrite !upd_data. destruct (Nat.eqb b' b && (i' =? i)); [reflexivity|apply A2; exact H]. }
    exists h2'. split; [|exact A']. constructor; [rewrite (proj1 A); exact C|exact D|exact S'].
Qed.

Section Disjoint.
Variable h0 : heap.
Variable n : nat.
Variable rd wr : nat -> nat -> Z -> Prop.
Variable post : nat -> heap -> Prop.
Hypothesis Sep : forall i k b c, (i < n)%nat -> (k < n)%nat -> i <> k -> wr i b c -> ~ rd k b c /\ ~ wr k b c.
Hypothesis Loc : forall i h h', (i < n)%nat -> (forall b c, wr i b c -> bdata (h' b) c = bdata (h b) c) -> post i h -> post i h'.

Definition job_inv (i : nat) (j : option job) (m : nat) (h : heap) : Prop :=
  match j with
  | None => m = 0%nat /\ post i h
  | Some p => exists k h', m = S k /\ solon (rd i) (wr i) k p h h' /\ post i h'
  end.
Lemma job_inv_frame i j m h h2 : (i < n)%nat -> agree (fun b c => rd i b c \/ wr i b c) h h2 -> job_inv i j m h -> job_inv i j m h2.
Proof.
  intros Hi A. destruct j as [p|]; cbn.
  - intros (k & h' & -> & S & P). destruct (solon_frame _ _ _ _ _ _ _ S A) as (h2' & S2 & A2).
    exists k, h2'. split; [reflexivity|]. split; [exact S2|]. eapply Loc; [exact Hi| |exact P]. intros b c W. apply (proj2 A2). right. exact W.
  - intros (-> & P). split; [reflexivity|]. eapply Loc; [exact Hi| |exact P]. intros b c W. apply (proj2 A). right. exact W.
Qed.

Definition all_jobs (st : par) : list (option job) := plive st ++ map Some (ptodo st).
Definition sum (l : list nat) : nat := fold_right Nat.add 0%nat l.
Definition dis_inv (ms : list nat) (st : par) : Prop :=
  length ms = n /\ length (all_jobs st) = n /\
  (forall b c, bcells (pheap st b) c = bcells (h0 b) c) /\
  (forall b c, (forall i, (i < n)%nat -> ~ wr i b c) -> bdata (pheap st b) c = bdata (h0 b) c) /\
  forall i j m, nth_error (all_jobs st) i = Some j -> nth_error ms i = Some m -> job_inv i j m (pheap st).
Definition measure (ms : list nat) (st : par) : nat := (sum ms + length (ptodo st) + pwaits st)%nat.
Lemma sum_app a b : sum (a ++ b) = (sum a + sum b)%nat.
Proof. unfold sum. induction a as [|x a IH]; cbn; [reflexivity|]. rewrite IH. lia. Qed.

(** One job moves on, the others keep their invariant. *)
Lemma move ms st i p (j' : option job) m' h' l :
  dis_inv ms st -> nth_error (plive st) i = Some (Some p) ->
  (forall b c, bcells (h' b) c = bcells (pheap st b) c) ->
  (forall b c, ~ wr i b c -> bdata (h' b) c = bdata (pheap st b) c) ->
  (forall m, job_inv i (Some p) m (pheap st) -> m = S m' -> job_inv i j' m' h') ->
  nth_error ms i = Some (S m') ->
  l = set_live st i j' ->
  exists ms', forall s w, dis_inv ms' (Par h' (ptodo st) l s w) /\
    (sum ms' < sum ms)%nat.
Proof.
  intros (Lm & La & Cc & Fr & J) H Hc Hd Hj Hm ->.
  destruct (repl_split _ _ _ j' H) as (l1 & l2 & E & Ei & R).
  destruct (nth_error_split ms i Hm) as (m1 & m2 & Em & Eim).
  exists (m1 ++ m' :: m2). intros s w. split; [|rewrite Em, !sum_app; cbn; lia].
  assert (Hi : (i < n)%nat) by (rewrite <- Lm; apply nth_error_Some; congruence).
  unfold dis_inv, all_jobs; cbn [plive ptodo pheap]. unfold set_live. rewrite R.
  unfold all_jobs in La, J. rewrite E in La, J.
  split; [rewrite <- Lm, Em, !app_length; reflexivity|].
  split; [rewrite <- La, !app_length; reflexivity|].
  split; [intros; rewrite Hc; apply Cc|].
  split; [intros b c W; rewrite Hd by (apply W; exact Hi); apply Fr; exact W|].
  intros k j m. rewrite <- app_assoc. cbn [app]. rewrite <- app_assoc in J. cbn [app] in J.
  destruct (Nat.eq_dec k i) as [->|N].
  - rewrite <- Ei at 1. rewrite nth_split_eq. intros X. injection X as <-.
    rewrite <- Eim. rewrite nth_split_eq. intros X. injection X as <-.
    rewrite Eim. eapply Hj; [|reflexivity]. apply J; [rewrite <- Ei; apply nth_split_eq|rewrite Em, <- Eim; apply nth_split_eq].
  - rewrite (nth_split_ne l1 _ j' (Some p)) by congruence. rewrite (nth_split_ne m1 _ m' (S m')) by congruence.
    rewrite <- Em. intros X Y. assert (Hk : (k < n)%nat) by (rewrite <- Lm; apply nth_error_Some; congruence).
    apply (job_inv_frame k j m (pheap st)); [exact Hk| |apply J; assumption].
    split; [exact Hc|]. intros b c RW. apply Hd. intros W. destruct (Sep i k b c Hi Hk (not_eq_sym N) W). tauto.
Qed.

Lemma live_measure ms st i p : dis_inv ms st -> nth_error (plive st) i = Some (Some p) ->
  (i < n)%nat /\ exists k h', nth_error ms i = Some (S k) /\ solon (rd i) (wr i) k p (pheap st) h' /\ post i h'.
Proof.
  intros (Lm & La & Cc & Fr & J) H.
  assert (H' : nth_error (all_jobs st) i = Some (Some p)).
  { unfold all_jobs. rewrite nth_error_app1; [exact H|]. apply nth_error_Some. congruence. }
  assert (Hi : (i < n)%nat) by (rewrite <- La; apply nth_error_Some; congruence).
  split; [exact Hi|]. destruct (nth_error ms i) as [m|] eqn:Em.
  - destruct (J i (Some p) m H' Em) as (k & h' & -> & S & P). eauto.
  - apply nth_error_None in Em. lia.
Qed.

Lemma dis_step ms a b : dis_inv ms a -> pstep a b -> exists ms', dis_inv ms' b /\ (measure ms' b < measure ms a)%nat.
Proof.
  intros I St. destruct St as [h j t l s w|st i b c k H C|st i b c v k H C|st i H|h l s w Hs].
  - exists ms. split; [|unfold measure; cbn; lia]. destruct I as (Lm & La & Cc & Fr & J).
    unfold dis_inv, all_jobs in *; cbn [plive ptodo pheap map] in *. rewrite <- app_assoc. auto.
  - destruct (live_measure _ _ _ _ I H) as (Hi & m & h' & Em & So & P).
    inversion So as [|m' b' c' k' ? ? C' D S' |]; subst.
    destruct (move ms st i (Load b c k) (Some (k (bdata (pheap st b) c))) (S m') (pheap st) (set_live st i (Some (k (bdata (pheap st b) c)))) I H) as (ms' & M); auto.
    { intros m _ _. cbn. exists m', h'. auto. }
    exists ms'. destruct (M (psem st) (pwaits st)) as (M1 & M2). split; [exact M1|]. unfold measure; cbn. lia.
  - destruct (live_measure _ _ _ _ I H) as (Hi & m & h' & Em & So & P).
    inversion So as [| |m' b' c' v' k' ? ? C' D S']; subst.
    destruct (move ms st i (Store b c v k) (Some k) (S m') (upd (pheap st) b c v) (set_live st i (Some k)) I H) as (ms' & M); auto.
    { intros b' c'. apply upd_cells. }
    { intros b' c' W. rewrite upd_data. destruct (Nat.eqb b' b && (c' =? c)) eqn:E; [|reflexivity].
      exfalso. apply W. apply andb_true_iff in E as [E1 E2]. apply Nat.eqb_eq in E1. apply Z.eqb_eq in E2. subst. exact D. }
    { intros m _ _. cbn. exists m', h'. auto. }
    exists ms'. destruct (M (psem st) (pwaits st)) as (M1 & M2). split; [exact M1|]. unfold measure; cbn. lia.
  - destruct (live_measure _ _ _ _ I H) as (Hi & m & h' & Em & So & P).
    inversion So; subst.
    destruct (move ms st i (Ret tt) None 0 (pheap st) (set_live st i None) I H) as (ms' & M); auto.
    { intros m _ _. cbn. inversion So; subst. auto. }
    exists ms'. destruct (M (psem st + 1) (pwaits st)) as (M1 & M2). split; [exact M1|]. unfold measure; cbn. lia.
  - exists ms. split; [|unfold measure; cbn; lia]. exact I.
Qed.

Lemma dis_steps ms a b k : dis_inv ms a -> psteps k a b -> exists ms', dis_inv ms' b /\ (measure ms' b + k <= measure ms a)%nat.
Proof.
  intros I S. induction S as [|k a b c S IH T]; [exists ms; split; [exact I|lia]|].
  destruct (IH I) as (m1 & I1 & M1). destruct (dis_step _ _ _ I1 T) as (m2 & I2 & M2). exists m2. split; [exact I2|lia].
Qed.

Lemma solon_not_stuck r w k p h h' : solon r w k p h h' -> ~ stuck_job h p.
Proof. intros S. inversion S; subst; cbn; congruence || auto. Qed.
Lemma solon_next r w k p h h' x : solon r w k p h h' -> next_access p = Some x ->
  match x with ALoad b c => r b c | AStore b c => w b c end.
Proof. intros S E. inversion S; subst; cbn in E; try discriminate; injection E as <-; assumption. Qed.

Theorem disjoint_parallel jobs : length jobs = n ->
  (forall i p, nth_error jobs i = Some p -> exists h', solo (rd i) (wr i) p h0 h' tt /\ post i h') ->
  bounded (par_start h0 jobs) /\
  forall st : par, reachable (par_start h0 jobs) st ->
    no_failure st /\ race_free st /\ (returned st \/ exists st', pstep st st') /\
    (forall b c, bcells (pheap st b) c = bcells (h0 b) c) /\
    (forall b c, (forall i, (i < n)%nat -> ~ wr i b c) -> bdata (pheap st b) c = bdata (h0 b) c) /\
    (returned st -> forall i, (i < n)%nat -> post i (pheap st)).
Proof.
  intros Ln Hj.
  assert (Hms : exists ms, length ms = length jobs /\ forall i p m, nth_error jobs i = Some p -> nth_error ms i = Some m -> job_inv i (Some p) m h0).
  { assert (G : forall l k, (forall i p, nth_error l i = Some p -> exists h', solo (rd (k + i)%nat) (wr (k + i)%nat) p h0 h' tt /\ post (k + i)%nat h') ->
      exists ms, length ms = length l /\ forall i p m, nth_error l i = Some p -> nth_error ms i = Some m -> job_inv (k + i)%nat (Some p) m h0).
    { induction l as [|p l IH]; intros k H.
      - exists []. split; [reflexivity|]. intros [|i]; discriminate.
      - destruct (IH (S k)) as (ms & L & Q).
        { intros i q E. specialize (H (S i) q E). replace (S k + i)%nat with (k + S i)%nat by lia. exact H. }
        destruct (H 0%nat p eq_refl) as (h' & So & P). destruct (solo_n _ _ _ _ _ So) as (m & So').
        exists (S m :: ms). split; [cbn; lia|]. intros [|i] q x; cbn [nth_error]; intros E1 E2.
        + injection E1 as <-. injection E2 as <-. exists m, h'. auto.
        + replace (k + S i)%nat with (S k + i)%nat by lia. eapply Q; eauto. }
    destruct (G jobs 0%nat Hj) as (ms & L & Q). exists ms. split; [exact L|exact Q]. }
  destruct Hms as (ms & Lms & Hms).
  assert (I0 : dis_inv ms (par_start h0 jobs)).
  { unfold dis_inv, all_jobs, par_start; cbn [plive ptodo pheap app]. split; [lia|]. split; [rewrite map_length; exact Ln|].
    split; [reflexivity|]. split; [reflexivity|]. intros i j m E1 E2. rewrite nth_error_map in E1.
    destruct (nth_error jobs i) as [p|] eqn:E; cbn in E1; [|discriminate]. injection E1 as <-. eapply Hms; eauto. }
  split.
  - exists (measure ms (par_start h0 jobs)). intros k st' St. destruct (dis_steps _ _ _ _ I0 St) as (? & _ & ?). lia.
  - intros st (k & St). destruct (dis_steps _ _ _ _ I0 St) as (m & I & _).
    assert (NF : no_failure st).
    { intros i p H. destruct (live_measure _ _ _ _ I H) as (_ & ? & ? & _ & So & _). eapply solon_not_stuck; exact So. }
    split; [exact NF|]. split; [|split; [|split; [apply I|split; [apply I|]]]].
    + intros i j a b x y N Ha Hb Ex Ey R.
      destruct (live_measure _ _ _ _ I Ha) as (Hi & ? & ? & _ & Sa & _). destruct (live_measure _ _ _ _ I Hb) as (Hk & ? & ? & _ & Sb & _).
      pose proof (solon_next _ _ _ _ _ _ _ Sa Ex) as Fa. pose proof (solon_next _ _ _ _ _ _ _ Sb Ey) as Fb.
      destruct x as [b1 c1|b1 c1], y as [b2 c2|b2 c2]; cbn in R, Fa, Fb; try contradiction; destruct R as [-> ->].
      * destruct (Sep j i b2 c2 Hk Hi (not_eq_sym N) Fb). tauto.
      * destruct (Sep i j b2 c2 Hi Hk N Fa). tauto.
      * destruct (Sep i j b2 c2 Hi Hk N Fa). tauto.
    + destruct (ptodo st) as [|p t] eqn:T.
      * destruct st as [hp td lv sm wt]. cbn in T. subst td. destruct wt as [|wt]; [left; split; reflexivity|right].
        destruct (Z_lt_le_dec 0 sm) as [P|P]; [eexists; apply ps_wait; exact P|].
        destruct (count_reach _ _ _ (count_start h0 jobs) (ex_intro _ k St)) as (L & C & P0 & W). cbn -[Z.of_nat] in L, C, W, P0.
        assert (D : (done lv < length lv)%nat) by lia.
        assert (G : exists i j, nth_error lv i = Some (Some j)).
        { clear -D. induction lv as [|[x|] lv IH]; cbn in D; [lia| |].
          - exists 0%nat, x. reflexivity.
          - destruct IH as (i & j & E); [lia|]. exists (S i), j. exact E. }
        destruct G as (i & j & E). specialize (NF i j E). set (st := Par hp [] lv sm (S wt)) in *.
        destruct j as [[]| | | |b c q|b c v q]; cbn in NF; try tauto.
        -- eexists. apply (ps_post V st i E).
        -- eexists. apply (ps_load V st i b c q E). cbn. destruct (bcells (hp b) c); [reflexivity|congruence].
        -- eexists. apply (ps_store V st i b c v q E). cbn. destruct (bcells (hp b) c); [reflexivity|congruence].
      * right. destruct st as [hp td lv sm wt]. cbn in T. subst td. eexists. apply ps_schedule.
    + intros R i Hi. destruct (returned_all_done _ _ _ (ex_intro _ k St) R) as (L & A).
      destruct I as (Lm & La & _ & _ & J). destruct R as (T & _).
      assert (X : exists j, nth_error (plive st) i = Some j).
      { destruct (nth_error (plive st) i) as [j|] eqn:E; [eauto|]. apply nth_error_None in E. lia. }
      destruct X as (j & X). pose proof (A i j X). subst j.
      destruct (nth_error m i) as [mm|] eqn:Em; [|apply nth_error_None in Em; lia].
      assert (Y : job_inv i None mm (pheap st)).
      { apply J; [|exact Em]. unfold all_jobs. rewrite nth_error_app1; [exact X|]. apply nth_error_Some. congruence. }
      apply Y.
Qed.
End Disjoint.
End ParP.
