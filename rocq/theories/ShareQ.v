(** Threads that share the pool: what holds in every reachable state. *)
From Verif Require Import Prelude WindowM GhostM FieldM MaskM NeboM NeboS NeboP ParM ParS ParP TPoolM TPoolS ShareM ShareS ShareP.

Section Own.
Variable V : Type.
(** The jobs of the n-th assignment of caller c, in the order scheduled. *)
Definition own1 (c n : nat) (e : entry V) : list (option (prog V unit)) :=
  match e with EJob o m j => if Nat.eqb o c && Nat.eqb m n then [j] else [] | EHost _ => [] end.
Definition own (c n : nat) (tab : list (entry V)) : list (option (prog V unit)) := flat_map (own1 c n) tab.
Lemma own_app c n a b : own c n (a ++ b) = own c n a ++ own c n b.
Proof. apply flat_map_app. Qed.
Lemma own_mid c n t1 e t2 : own c n (t1 ++ e :: t2) = own c n t1 ++ own1 c n e ++ own c n t2.
Proof. rewrite own_app. reflexivity. Qed.
Lemma own1_same c n j : own1 c n (EJob c n j) = [j].
Proof. cbn. rewrite !Nat.eqb_refl. reflexivity. Qed.
Lemma own1_other c n o m j : (c, n) <> (o, m) -> own1 c n (EJob o m j) = [].
Proof. intros N. cbn. destruct (Nat.eqb_spec o c); [|reflexivity]. destruct (Nat.eqb_spec m n); [|reflexivity]. subst. congruence. Qed.
Lemma own_in c n tab j : In j (own c n tab) -> exists i, nth_error tab i = Some (EJob c n j).
Proof.
  intros I. apply in_flat_map in I as (e & I & J). apply In_nth_error in I as (i & E). exists i. rewrite E. f_equal.
  destruct e as [o m j'|o]; cbn in J; [|contradiction]. destruct (Nat.eqb_spec o c); [|contradiction]. destruct (Nat.eqb_spec m n); [|contradiction].
  destruct J as [->|[]]. subst. reflexivity.
Qed.
Lemma own_index c n tab i j : nth_error tab i = Some (EJob c n j) ->
  nth_error (own c n tab) (length (own c n (firstn i tab))) = Some j.
Proof.
  intros E. destruct (nth_error_split tab i E) as (t1 & t2 & -> & <-). rewrite firstn_app, Nat.sub_diag, firstn_all. cbn [firstn]. rewrite app_nil_r.
  rewrite own_mid, own1_same. cbn [app]. apply nth_split_eq.
Qed.
Lemma own_index_inj c n tab i i' j j' : nth_error tab i = Some (EJob c n j) -> nth_error tab i' = Some (EJob c n j') -> i <> i' ->
  length (own c n (firstn i tab)) <> length (own c n (firstn i' tab)).
Proof.
  assert (G : forall tab i i' j j', nth_error tab i = Some (EJob c n j) -> nth_error tab i' = Some (EJob c n j') -> (i < i')%nat ->
    (length (own c n (firstn i tab)) < length (own c n (firstn i' tab)))%nat).
  { clear. intros tab i i' j j' E E' L. destruct (nth_error_split tab i E) as (t1 & t2 & -> & <-).
    rewrite firstn_app, Nat.sub_diag, firstn_all. cbn [firstn]. rewrite app_nil_r.
    rewrite firstn_app, (firstn_all2 t1) by lia. destruct (i' - length t1)%nat as [|d] eqn:D; [lia|]. cbn [firstn].
    rewrite own_mid, own1_same, !app_length. cbn [length]. lia. }
  intros E E' N. destruct (Nat.lt_ge_cases i i') as [L|L]; [pose proof (G _ _ _ _ _ E E' L)|pose proof (G tab i' i j' j E' E ltac:(lia))]; lia.
Qed.
End Own.

Section System.
Variable V : Type.
Notation heap := (heap V).
Notation sys := (sys V).
Variable h0 : heap.
Variable phs : nat -> list (prog V (list (prog V unit))).
Variable hp : nat -> nat -> heap.
Variable rdc wrc : nat -> nat -> Z -> Prop.
Notation fpc c := (fp (rdc c) (wrc c)).
Hypothesis CSep : forall c d b x, c <> d -> wrc c b x -> ~ fpc d b x.
Hypothesis Ph : forall c k p, nth_error (phs c) k = Some p -> phase_ok V (rdc c) (wrc c) p (hp c k) (hp c (S k)).

Definition stage_ok (h : heap) (tab : list (entry V)) (c : nat) (g : stage V) (n : nat) : Prop :=
  match g with
  | Between => agree V (fpc c) (hp c n) h
  | Preparing p => phase_ok V (rdc c) (wrc c) p h (hp c n) /\ own V c n tab = []
  | Parallel todo s w => par_ok V (rdc c) (wrc c) h (hp c n) (own V c n tab) todo s w
  end.
Definition is_par (g : stage V) : Prop := match g with Parallel _ _ _ => True | _ => False end.
Record sinv (st : sys) : Prop := {
  i_call : forall c k g n l, nth_error (scall st) c = Some (Caller k g n l) ->
    l = skipn n (phs c) /\ stage_ok (sheap st) (stab st) c g n;
  i_tab : forall i o m j, nth_error (stab st) i = Some (EJob o m j) ->
    exists k g n l, nth_error (scall st) o = Some (Caller k g n l) /\ (m <= n)%nat /\ (j <> None -> m = n /\ is_par g);
  i_cells : forall b x, bcells (sheap st b) x = bcells (h0 b) x;
  i_rest : forall b x, (forall c, ~ wrc c b x) -> bdata (sheap st b) x = bdata (h0 b) x }.

Lemma stage_frame h h2 tab tab2 c g n : agree V (fpc c) h h2 -> own V c n tab2 = own V c n tab -> stage_ok h tab c g n -> stage_ok h2 tab2 c g n.
Proof.
  intros A E. destruct g as [|p|todo s w]; cbn.
  - intros B. eapply agree_trans; eassumption.
  - rewrite E. intros (P & Q). split; [|exact Q]. eapply phase_frame; eassumption.
  - rewrite E. apply par_frame. exact A.
Qed.
Lemma skipn_cons {A} n (l : list A) p r : p :: r = skipn n l -> nth_error l n = Some p /\ r = skipn (S n) l.
Proof.
  revert l. induction n as [|n IH]; intros l E.
  - cbn in E. subst l. split; reflexivity.
  - destruct l as [|y l]; [discriminate|]. cbn [skipn nth_error] in *. apply IH in E. exact E.
Qed.

(** The caller c changes its stage; its jobs stay as they are. *)
Lemma caller_step st c k g n l k' g' n' h' :
  sinv st -> nth_error (scall st) c = Some (Caller k g n l) ->
  (forall b x, bcells (h' b) x = bcells (sheap st b) x) -> (forall b x, ~ wrc c b x -> bdata (h' b) x = bdata (sheap st b) x) ->
  stage_ok h' (stab st) c g' n' -> (n <= n')%nat ->
  (is_par g -> n = n' /\ is_par g' \/ forall j, In j (own V c n (stab st)) -> j = None) ->
  sinv (with_heap (with_caller st c (Caller k' g' n' (skipn n' (phs c)))) h').
Proof.
  intros [I1 I2 I3 I4] E Hc Hd So Hn Hp. constructor; cbn [with_heap with_caller scall sheap stab].
  - intros d kd gd nd ld. rewrite (nth_set _ _ _ _ _ E). destruct (Nat.eqb_spec d c) as [->|N].
    + intros X. injection X as <- <- <- <-. split; [reflexivity|exact So].
    + intros X. destruct (I1 _ _ _ _ _ X) as (Y1 & Y2). split; [exact Y1|]. eapply stage_frame; [|reflexivity|exact Y2].
      split; [exact Hc|]. intros b x F. apply Hd. intros W. exact (CSep c d b x (not_eq_sym N) W F).
  - intros i o m j X. destruct (I2 _ _ _ _ X) as (k1 & g1 & n1 & l1 & Y1 & Y2 & Y3). rewrite (nth_set _ _ _ _ _ E).
    destruct (Nat.eqb_spec o c) as [->|N].
    + rewrite E in Y1. injection Y1 as <- <- <- <-. exists k', g', n', (skipn n' (phs c)). split; [reflexivity|]. split; [lia|].
      intros J. destruct (Y3 J) as (-> & P). destruct (Hp P) as [Q|Q]; [exact Q|]. exfalso. apply J, Q.
      apply in_flat_map. exists (EJob c n j). split; [eapply nth_error_In; exact X|]. rewrite own1_same. left. reflexivity.
    + exists k1, g1, n1, l1. auto.
  - intros. rewrite Hc. apply I3.
  - intros b x W. rewrite Hd by apply W. apply I4. exact W.
Qed.

Lemma heap_same (st : sys) : with_heap st (sheap st) = st.
Proof. destruct st. reflexivity. Qed.

(** A job moves on. *)
Lemma job_step st i o m p j' k t s w l s' h' :
  sinv st -> nth_error (stab st) i = Some (EJob o m (Some p)) -> nth_error (scall st) o = Some (Caller k (Parallel t s w) m l) ->
  (forall b x, bcells (h' b) x = bcells (sheap st b) x) -> (forall b x, ~ wrc o b x -> bdata (h' b) x = bdata (sheap st b) x) ->
  (forall l1 l2, par_ok V (rdc o) (wrc o) (sheap st) (hp o m) (l1 ++ Some p :: l2) t s w -> par_ok V (rdc o) (wrc o) h' (hp o m) (l1 ++ j' :: l2) t s' w) ->
  sinv (with_heap (with_entry (with_caller st o (Caller k (Parallel t s' w) m l)) i (EJob o m j')) h').
Proof.
  intros [I1 I2 I3 I4] Ei Eo Hc Hd Hp. destruct (I1 _ _ _ _ _ Eo) as (-> & P). cbn [stage_ok] in P.
  destruct (set_split _ _ _ Ei) as (t1 & t2 & Et & Lt & Es).
  assert (Eo' : own V o m (stab st) = own V o m t1 ++ Some p :: own V o m t2) by (rewrite Et, own_mid, own1_same; reflexivity).
  constructor; cbn [with_heap with_caller with_entry scall sheap stab].
  - intros d kd gd nd ld. rewrite (nth_set _ _ _ _ _ Eo). destruct (Nat.eqb_spec d o) as [->|N].
    + intros X. injection X as <- <- <- <-. split; [reflexivity|]. cbn [stage_ok]. rewrite Es, own_mid, own1_same. cbn [app]. apply Hp. rewrite <- Eo'. exact P.
    + intros X. destruct (I1 _ _ _ _ _ X) as (Y1 & Y2). split; [exact Y1|]. eapply stage_frame; [| |exact Y2].
      * split; [exact Hc|]. intros b x F. apply Hd. intros W. exact (CSep o d b x (not_eq_sym N) W F).
      * rewrite Es, Et, !own_mid. rewrite !own1_other by congruence. reflexivity.
  - intros i1 o1 m1 j1. rewrite (nth_set _ _ _ _ _ Ei). destruct (Nat.eqb_spec i1 i) as [->|N].
    + intros X. injection X as <- <- <-. rewrite (nth_set _ _ _ _ _ Eo), Nat.eqb_refl. eexists _, _, _, _. split; [reflexivity|]. split; [lia|].
      intros _. split; [reflexivity|exact I].
    + intros X. destruct (I2 _ _ _ _ X) as (k1 & g1 & n1 & l1 & Y1 & Y2 & Y3). rewrite (nth_set _ _ _ _ _ Eo).
      destruct (Nat.eqb_spec o1 o) as [->|No].
      * rewrite Eo in Y1. injection Y1 as <- <- <- <-. eexists _, _, _, _. split; [reflexivity|]. split; [lia|]. intros J. split; [apply Y3, J|exact I].
      * exists k1, g1, n1, l1. auto.
  - intros. rewrite Hc. apply I3.
  - intros b x W. rewrite Hd by apply W. apply I4. exact W.
Qed.

Lemma upd_keeps (h : heap) b i v (P : nat -> Z -> Prop) : P b i -> forall b' x, ~ P b' x -> bdata (upd h b i v b') x = bdata (h b') x.
Proof.
  intros D b' x N. rewrite upd_data. destruct (Nat.eqb b' b && (x =? i)) eqn:E; [|reflexivity].
  apply andb_true_iff in E as [E1 E2]. apply Nat.eqb_eq in E1. apply Z.eqb_eq in E2. subst. contradiction.
Qed.

Lemma pool_only st q : sinv st -> sinv (Sys q (sheap st) (scall st) (stab st)).
Proof. intros [I1 I2 I3 I4]. constructor; assumption. Qed.

(** A caller keeps its stage but its host changes, or it hands over a job; a task
    is added. *)
Lemma add_entry st c k g n l k' g' e q :
  sinv st -> nth_error (scall st) c = Some (Caller k g n l) ->
  (e = EHost c /\ g' = g \/ exists j t s w, e = EJob c n (Some j) /\ g = Parallel (j :: t) s w /\ g' = Parallel t s w) ->
  sinv (Sys q (sheap st) (set_nth (scall st) c (Caller k' g' n l)) (stab st ++ [e])).
Proof.
  intros [I1 I2 I3 I4] E He. constructor; cbn [scall sheap stab]; [| |exact I3|exact I4].
  - intros d kd gd nd ld. rewrite (nth_set _ _ _ _ _ E). destruct (Nat.eqb_spec d c) as [->|N].
    + intros X. injection X as <- <- <- <-. destruct (I1 _ _ _ _ _ E) as (Y1 & Y2). split; [exact Y1|].
      destruct He as [(-> & ->)|(j & t & s & w & -> & -> & ->)].
      * eapply stage_frame; [apply agree_refl| |exact Y2]. rewrite own_app. cbn. apply app_nil_r.
      * cbn [stage_ok] in *. rewrite own_app. unfold own at 2. cbn [flat_map]. rewrite own1_same. cbn [app]. apply par_hand. exact Y2.
    + intros X. destruct (I1 _ _ _ _ _ X) as (Y1 & Y2). split; [exact Y1|]. eapply stage_frame; [apply agree_refl| |exact Y2].
      rewrite own_app. unfold own at 2. cbn [flat_map]. rewrite app_nil_r.
      destruct He as [(-> & _)|(j & t & s & w & -> & _)]; [apply app_nil_r|]. rewrite own1_other by congruence. apply app_nil_r.
  - intros i o m j X. rewrite (nth_set _ _ _ _ _ E). destruct (Nat.lt_ge_cases i (length (stab st))) as [L|L].
    + rewrite nth_error_app1 in X by exact L. destruct (I2 _ _ _ _ X) as (k1 & g1 & n1 & l1 & Y1 & Y2 & Y3).
      destruct (Nat.eqb_spec o c) as [->|No]; [|exists k1, g1, n1, l1; auto].
      rewrite E in Y1. injection Y1 as <- <- <- <-. eexists _, _, _, _. split; [reflexivity|]. split; [exact Y2|].
      intros J. destruct (Y3 J) as (Y & P). split; [exact Y|]. destruct He as [(_ & ->)|(j1 & t & s & w & _ & _ & ->)]; [exact P|exact I].
    + rewrite nth_error_app2 in X by exact L. destruct (i - length (stab st))%nat as [|d]; [|destruct d; discriminate].
      cbn in X. injection X as ->. destruct He as [(He & _)|(j1 & t & s & w & He & _ & ->)]; [discriminate|].
      injection He as -> -> ->. rewrite Nat.eqb_refl. eexists _, _, _, _. split; [reflexivity|]. split; [lia|]. intros _. split; [reflexivity|exact I].
Qed.

Lemma solo_load_inv {R} rd wr b i (f : V -> prog V R) h h' r : solo rd wr (Load b i f) h h' r -> solo rd wr (f (bdata (h b) i)) h h' r.
Proof. intros S0. inversion S0; subst. assumption. Qed.
Lemma solo_store_inv {R} rd wr b i v (p : prog V R) h h' r : solo rd wr (Store b i v p) h h' r -> wr b i /\ solo rd wr p (upd h b i v) h' r.
Proof. intros S0. inversion S0; subst. auto. Qed.
Lemma solo_ret_inv {R} rd wr (a : R) (h h' : heap) r : solo rd wr (Ret a) h h' r -> h' = h /\ r = a.
Proof. intros S0. inversion S0; subst. auto. Qed.

Lemma sinv_step l st st' : sinv st -> hstep l st st' -> sinv st'.
Proof.
  intros I0 St. pose proof I0 as [I1 I2 I3 I4].
  destruct St as [st c k n p r E M|st c k n b i f r E M C|st c k n b i v p r E M C|st c k n jobs r E M|st c k n j t s w r q E M T
    |st c k n s w r E M Hs|st c k n s r E M|st c g n r q E T|st i o n b x f E M C|st i o n b x v p E M C|st i o n k t s w r E M Eo
    |st i e q E F T|st i e q E F T|st l q F T].
  - destruct (I1 _ _ _ _ _ E) as (Y1 & Y2). apply skipn_cons in Y1 as (Y1 & ->).
    rewrite <- (heap_same (with_caller _ _ _)). apply (caller_step st c k Between n (p :: skipn (S n) (phs c))); auto; [|intros []].
    cbn [stage_ok with_caller sheap stab]. split; [eapply phase_frame; [exact Y2|apply Ph; exact Y1]|].
    destruct (own V c (S n) (stab st)) as [|j0 l0] eqn:Eo; [reflexivity|]. exfalso.
    destruct (own_in V c (S n) (stab st) j0) as (i & X); [rewrite Eo; left; reflexivity|].
    destruct (I2 _ _ _ _ X) as (k1 & g1 & n1 & l1 & Z1 & Z2 & _). rewrite E in Z1. injection Z1 as <- <- <- <-. lia.
  - destruct (I1 _ _ _ _ _ E) as (-> & (h1 & jobs & S0 & J) & Y3).
    rewrite <- (heap_same (with_caller _ _ _)). eapply caller_step; [exact I0|exact E|reflexivity|reflexivity| |lia|intros []].
    cbn [stage_ok with_caller sheap stab]. split; [|exact Y3]. exists h1, jobs. split; [|exact J]. apply solo_load_inv. exact S0.
  - destruct (I1 _ _ _ _ _ E) as (-> & (h1 & jobs & S0 & J) & Y3). apply solo_store_inv in S0 as (W & S0).
    eapply caller_step; [exact I0|exact E|intros; apply upd_cells| | |lia|intros []].
    + intros b' x' N. apply (upd_keeps _ _ _ _ (wrc c)); assumption.
    + cbn [stage_ok with_caller sheap stab]. split; [|exact Y3]. exists h1, jobs. auto.
  - destruct (I1 _ _ _ _ _ E) as (-> & (h1 & jobs' & S0 & J) & Y3). apply solo_ret_inv in S0 as (-> & ->).
    rewrite <- (heap_same (with_caller _ _ _)). eapply caller_step; [exact I0|exact E|reflexivity|reflexivity| |lia|intros []].
    cbn [stage_ok with_caller sheap stab]. rewrite Y3. apply par_begin. exact J.
  - eapply add_entry; [exact I0|exact E|]. right. exists j, t, s, w. auto.
  - destruct (I1 _ _ _ _ _ E) as (-> & P). rewrite <- (heap_same (with_caller _ _ _)). eapply caller_step; [exact I0|exact E|reflexivity|reflexivity| |lia|intros _; left; split; [reflexivity|exact I]].
    cbn [stage_ok with_caller sheap stab]. apply par_wait; assumption.
  - destruct (I1 _ _ _ _ _ E) as (-> & P). cbn [stage_ok] in P. destruct (par_end _ _ _ _ _ _ _ P) as (An & Ag).
    rewrite <- (heap_same (with_caller _ _ _)). eapply caller_step; [exact I0|exact E|reflexivity|reflexivity|exact Ag|lia|intros _; right; exact An].
  - eapply add_entry; [exact I0|exact E|]. left. auto.
  - destruct (I2 _ _ _ _ E) as (k & g & n' & l & Eo & _ & Q). destruct Q as (<- & Q); [discriminate|]. destruct g as [| |t s w]; try destruct Q.
    pose proof (job_step st i o n (Load b x f) (Some (f (bdata (sheap st b) x))) k t s w l s (sheap st) I0 E Eo) as X.
    assert (Es : with_entry st i (EJob o n (Some (f (bdata (sheap st b) x)))) =
      with_heap (with_entry (with_caller st o (Caller k (Parallel t s w) n l)) i (EJob o n (Some (f (bdata (sheap st b) x))))) (sheap st)).
    { unfold with_entry, with_heap, with_caller. cbn [spool sheap scall stab]. f_equal. destruct (set_split _ _ _ Eo) as (l1 & l2 & -> & _ & ->). reflexivity. }
    rewrite Es. apply X; auto. intros l1 l2. apply par_load.
  - destruct (I2 _ _ _ _ E) as (k & g & n' & l & Eo & _ & Q). destruct Q as (<- & Q); [discriminate|]. destruct g as [| |t s w]; try destruct Q.
    pose proof (job_step st i o n (Store b x v p) (Some p) k t s w l s (upd (sheap st) b x v) I0 E Eo) as X.
    assert (Es : with_heap (with_entry st i (EJob o n (Some p))) (upd (sheap st) b x v) =
      with_heap (with_entry (with_caller st o (Caller k (Parallel t s w) n l)) i (EJob o n (Some p))) (upd (sheap st) b x v)).
    { unfold with_entry, with_heap, with_caller. cbn [spool sheap scall stab]. f_equal. destruct (set_split _ _ _ Eo) as (l1 & l2 & -> & _ & ->). reflexivity. }
    rewrite Es. apply X.
    + intros. apply upd_cells.
    + destruct (I1 _ _ _ _ _ Eo) as (_ & P). cbn [stage_ok] in P. apply own_index in E.
      destruct (par_job _ _ _ _ _ _ _ _ _ _ _ P E) as (_ & A). specialize (A _ eq_refl). cbn in A. intros b' x' N. apply (upd_keeps _ _ _ _ (wrc o)); assumption.
    + intros l1 l2 P. apply par_store in P. apply P.
  - rewrite <- (heap_same (with_entry _ _ _)). eapply job_step; eauto. intros l1 l2. apply par_post.
  - apply pool_only, I0.
  - apply pool_only, I0.
  - apply pool_only, I0.
Qed.

Lemma sinv_reach st0 st : sinv st0 -> hpath any_step st0 st -> sinv st.
Proof. intros I0 P. induction P; [exact I0|]. eapply sinv_step; eassumption. Qed.

Lemma sinv_no_failure st : sinv st -> no_share_failure st.
Proof.
  intros [I1 I2 I3 I4]. split.
  - intros c [k g n l] p E Eg. cbn in Eg. subst g. destruct (I1 _ _ _ _ _ E) as (_ & (h1 & jobs & S0 & _) & _).
    inversion S0; subst; cbn; [auto|congruence..].
  - intros i o n j E. destruct (I2 _ _ _ _ E) as (k & g & n' & l & Eo & _ & Q). destruct Q as (<- & Q); [discriminate|]. destruct g as [| |t s w]; try destruct Q.
    split; [|eauto 6]. destruct (I1 _ _ _ _ _ Eo) as (_ & P). cbn [stage_ok] in P. apply own_index in E. apply (par_job _ _ _ _ _ _ _ _ _ _ _ P E).
Qed.

(** What the next access of an agent may touch. *)
Definition owner_of (st : sys) (a : agent) : nat :=
  match a with ByCaller c => c | ByJob i => match nth_error (stab st) i with Some (EJob o _ _) => o | _ => 0%nat end end.
Lemma agent_access st a x : sinv st -> accesses_next st a = Some x ->
  match x with ALoad b i => fpc (owner_of st a) b i | AStore b i => wrc (owner_of st a) b i end.
Proof.
  intros [I1 I2 I3 I4] A. destruct a as [c|i]; cbn in A |- *.
  - destruct (nth_error (scall st) c) as [[k g n l]|] eqn:E; [|discriminate]. cbn in A. destruct g as [|p|]; try discriminate.
    destruct (I1 _ _ _ _ _ E) as (_ & (h1 & jobs & S0 & _) & _). inversion S0; subst; cbn in A; [discriminate|injection A as <-..]; [left|]; assumption.
  - destruct (nth_error (stab st) i) as [[o n [j|]|o]|] eqn:E; try discriminate.
    destruct (I2 _ _ _ _ E) as (k & g & n' & l & Eo & _ & Q). destruct Q as (<- & Q); [discriminate|]. destruct g as [| |t s w]; try destruct Q.
    destruct (I1 _ _ _ _ _ Eo) as (_ & P). cbn [stage_ok] in P. pose proof (own_index V _ _ _ _ _ E) as E'. apply (par_job _ _ _ _ _ _ _ _ _ _ _ P E'). exact A.
Qed.
Lemma sinv_race_free st : sinv st -> share_race_free st.
Proof.
  intros I0 a b x y N A B R. destruct (Nat.eq_dec (owner_of st a) (owner_of st b)) as [E|Ne].
  - pose proof I0 as [I1 I2 I3 I4]. destruct a as [c|i], b as [d|k]; cbn in E.
    + congruence.
    + cbn in A, B. destruct (nth_error (stab st) k) as [[o n [j|]|o]|] eqn:Ek; try discriminate. subst o.
      destruct (I2 _ _ _ _ Ek) as (k1 & g & n' & l & Eo & _ & Q). destruct Q as (<- & Q); [discriminate|].
      rewrite Eo in A. cbn in A. destruct g; [discriminate|destruct Q|discriminate].
    + cbn in A, B. destruct (nth_error (stab st) i) as [[o n [j|]|o]|] eqn:Ek; try discriminate. subst o.
      destruct (I2 _ _ _ _ Ek) as (k1 & g & n' & l & Eo & _ & Q). destruct Q as (<- & Q); [discriminate|].
      rewrite Eo in B. cbn in B. destruct g; [discriminate|destruct Q|discriminate].
    + cbn in A, B. destruct (nth_error (stab st) i) as [[o n [j|]|o]|] eqn:Ei; try discriminate.
      destruct (nth_error (stab st) k) as [[o' n' [j'|]|o']|] eqn:Ek; try discriminate. subst o'.
      destruct (I2 _ _ _ _ Ei) as (k1 & g & n1 & l & Eo & _ & Q). destruct Q as (<- & Q); [discriminate|].
      destruct (I2 _ _ _ _ Ek) as (k2 & g2 & n2 & l2 & Eo2 & _ & Q2). destruct Q2 as (<- & Q2); [discriminate|].
      rewrite Eo in Eo2. injection Eo2 as <- <- <- <-. destruct g as [| |t s w]; try destruct Q.
      destruct (I1 _ _ _ _ _ Eo) as (_ & P). cbn [stage_ok] in P.
      pose proof (own_index V _ _ _ _ _ Ei) as Xi. pose proof (own_index V _ _ _ _ _ Ek) as Xk.
      assert (Nik : i <> k) by congruence.
      exact (par_no_race _ _ _ _ _ _ _ _ _ _ _ _ _ _ _ P (own_index_inj V _ _ _ _ _ _ _ Ei Ek Nik) Xi Xk A B R).
  - pose proof (agent_access st a x I0 A) as FA. pose proof (agent_access st b y I0 B) as FB.
    destruct x as [b1 c1|b1 c1], y as [b2 c2|b2 c2]; cbn in R; try contradiction; destruct R as [-> ->].
    + exact (CSep _ _ _ _ (not_eq_sym Ne) FB FA).
    + exact (CSep _ _ _ _ Ne FA FB).
    + exact (CSep _ _ _ _ Ne FA (or_intror FB)).
Qed.
End System.
