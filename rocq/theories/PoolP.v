(** Proofs about the memory pool. *)
From Coq Require Import Permutation Sorted.
From Verif Require Import Prelude PoolM PoolS.

Definition keys (m : list (Z * list nat)) := map fst m.
Definition queued (m : list (Z * list nat)) := flat_map snd m.

Lemma lb_some m n k q : lower_bound m n = Some (k, q) -> In (k, q) m /\ n <= k.
Proof.
  induction m as [|[k0 q0] m IH]; cbn; [discriminate|]. destruct (Z.leb_spec n k0).
  - intros E. injection E as <- <-. auto.
  - intros E. destruct (IH E). auto.
Qed.
Lemma lb_none m n : lower_bound m n = None -> forall k q, In (k, q) m -> k < n.
Proof.
  induction m as [|[k0 q0] m IH]; cbn; [intros _ k q []|]. destruct (Z.leb_spec n k0); [discriminate|].
  intros E k q [X|X]; [injection X as <- <-; lia|eauto].
Qed.
Lemma lb_key m k q : StronglySorted Z.lt (keys m) -> In (k, q) m -> lower_bound m k = Some (k, q).
Proof.
  unfold keys. induction m as [|[k0 q0] m IH]; cbn; [intros _ []|]. intros S I. apply StronglySorted_inv in S as [S F].
  destruct I as [E|I].
  - injection E as -> ->. rewrite Z.leb_refl. reflexivity.
  - rewrite Forall_forall in F. specialize (F k (in_map fst _ _ I)). cbn in F.
    destruct (Z.leb_spec k k0); [lia|]. auto.
Qed.
Lemma key_unique m k q q' : StronglySorted Z.lt (keys m) -> In (k, q) m -> In (k, q') m -> q = q'.
Proof. intros S A B. apply (lb_key _ _ _ S) in A. apply (lb_key _ _ _ S) in B. congruence. Qed.

Lemma set_keys m k q : keys (set_queue m k q) = keys m.
Proof. unfold keys. induction m as [|[k0 q0] m IH]; cbn; [reflexivity|]. destruct (k0 =? k); cbn; congruence. Qed.
Lemma set_in m k q k' q' : StronglySorted Z.lt (keys m) -> In (k', q') (set_queue m k q) ->
  (k' = k /\ q' = q) \/ (k' <> k /\ In (k', q') m).
Proof.
  unfold keys. induction m as [|[k0 q0] m IH]; cbn; [intros _ []|]. intros S. apply StronglySorted_inv in S as [S F]. rewrite Forall_forall in F.
  destruct (Z.eqb_spec k0 k) as [->|N]; cbn.
  - intros [E|I]; [injection E as <- <-; auto|]. right. split; [|auto]. specialize (F k' (in_map fst _ _ I)). lia.
  - intros [E|I]; [injection E as <- <-; auto|]. destruct (IH S I) as [?|[? ?]]; auto.
Qed.
Lemma set_queued_push m k q t : In (k, q) m -> StronglySorted Z.lt (keys m) ->
  Permutation (queued (set_queue m k (t :: q))) (t :: queued m).
Proof.
  unfold keys. induction m as [|[k0 q0] m IH]; cbn; [intros []|]. intros I S. apply StronglySorted_inv in S as [S F]. rewrite Forall_forall in F.
  destruct (Z.eqb_spec k0 k) as [->|N]; cbn.
  - destruct I as [E|I]; [injection E as ->; reflexivity|]. specialize (F k (in_map fst _ _ I)). lia.
  - destruct I as [E|I]; [injection E as -> ->; congruence|]. rewrite (IH I S). symmetry. apply Permutation_middle.
Qed.
Lemma set_queued_pop m k q t : In (k, t :: q) m -> StronglySorted Z.lt (keys m) ->
  Permutation (t :: queued (set_queue m k q)) (queued m).
Proof.
  unfold keys. induction m as [|[k0 q0] m IH]; cbn; [intros []|]. intros I S. apply StronglySorted_inv in S as [S F]. rewrite Forall_forall in F.
  destruct (Z.eqb_spec k0 k) as [->|N]; cbn.
  - destruct I as [E|I]; [injection E as ->; reflexivity|]. specialize (F k (in_map fst _ _ I)). lia.
  - destruct I as [E|I]; [injection E as -> ->; congruence|]. rewrite <- (IH I S). apply Permutation_middle.
Qed.
Lemma queued_in m p : In p (queued m) <-> exists k q, In (k, q) m /\ In p q.
Proof.
  unfold queued. rewrite in_flat_map. split.
  - intros ([k q] & I & J). exists k, q. auto.
  - intros (k & q & I & J). exists (k, q). auto.
Qed.
Lemma queued_app a b : queued (a ++ b) = queued a ++ queued b.
Proof. unfold queued. apply flat_map_app. Qed.
Lemma queued_length m : pool_queued (Pool m [] 0 0) = Z.of_nat (length (queued m)).
Proof.
  unfold pool_queued; cbn [pfqm]. assert (H : forall a, fold_left (fun n e => n + Z.of_nat (length (snd e))) m a = a + Z.of_nat (length (queued m))).
  { induction m as [|[k q] m IH]; intros a; cbn [fold_left queued flat_map snd]; [cbn; lia|]. rewrite IH, app_length. unfold queued. lia. }
  rewrite H. lia.
Qed.

Lemma size_in mem p k : NoDup (map fst mem) -> In (p, k) mem -> size_of mem p = k.
Proof.
  unfold size_of. induction mem as [|[a s] mem IH]; cbn; [intros _ []|]. intros N I. apply NoDup_cons_iff in N as [N1 N2].
  destruct (Nat.eqb_spec a p) as [->|D].
  - destruct I as [E|I]; [congruence|]. destruct N1. exact (in_map fst _ _ I).
  - destruct I as [E|I]; [congruence|]. auto.
Qed.
Lemma fsm_size mem p k : NoDup (map fst mem) -> In (p, k) mem -> fsm_get mem p = k.
Proof.
  induction mem as [|[a s] mem IH]; cbn; [intros _ []|]. intros N I. apply NoDup_cons_iff in N as [N1 N2].
  destruct (Nat.eqb_spec a p) as [->|D].
  - destruct I as [E|I]; [congruence|]. destruct N1. exact (in_map fst _ _ I).
  - destruct I as [E|I]; [congruence|]. auto.
Qed.
Lemma count_perm mem a b k : Permutation a b -> count_size mem a k = count_size mem b k.
Proof.
  unfold count_size. intros P. induction P as [|x a b P IH|x y a|a b c P1 IH1 P2 IH2]; cbn; auto; try congruence.
  - destruct (size_of mem x =? k); cbn; congruence.
  - destruct (size_of mem x =? k), (size_of mem y =? k); reflexivity.
Qed.
Lemma count_app mem a b k : count_size mem (a ++ b) k = (count_size mem a k + count_size mem b k)%nat.
Proof. unfold count_size. rewrite filter_app, app_length. reflexivity. Qed.
Lemma count_ext mem mem' l k : (forall p, In p l -> size_of mem p = size_of mem' p) -> count_size mem l k = count_size mem' l k.
Proof.
  unfold count_size. induction l as [|p l IH]; cbn; [reflexivity|]. intros H. rewrite (H p (or_introl eq_refl)).
  destruct (size_of mem' p =? k); cbn; rewrite IH; auto.
Qed.
Lemma count_zero mem l k : (forall p, In p l -> size_of mem p <> k) -> count_size mem l k = 0%nat.
Proof.
  unfold count_size. induction l as [|p l IH]; cbn; [reflexivity|]. intros H.
  destruct (Z.eqb_spec (size_of mem p) k) as [E|E]; [destruct (H p (or_introl eq_refl) E)|]. auto.
Qed.

Record inv (w : world) : Prop := {
  i_sorted : StronglySorted Z.lt (keys (pfqm (wpool w)));
  i_nodup : NoDup (map fst (wmem w));
  i_fsm : pfsm (wpool w) = wmem w;
  i_perm : Permutation (wout w ++ queued (pfqm (wpool w))) (map fst (wmem w));
  i_sizes : forall k q p, In (k, q) (pfqm (wpool w)) -> In p q -> In (p, k) (wmem w);
  i_buckets : forall p k, In (p, k) (wmem w) -> exists q, In (k, q) (pfqm (wpool w));
  i_high : phigh (wpool w) = Z.of_nat (length (wmem w));
  i_pad : 0 <= ppad (wpool w);
  i_peak : forall k, count_size (wmem w) (map fst (wmem w)) k = wpeak w k
}.

Lemma inv_new : inv world_new.
Proof. constructor; cbn; try constructor; try lia; try intros; try contradiction; reflexivity. Qed.

Lemma sorted_snoc m n : StronglySorted Z.lt (keys m) -> (forall k q, In (k, q) m -> k < n) ->
  StronglySorted Z.lt (keys (m ++ [(n, [])])).
Proof.
  unfold keys. induction m as [|[k q] m IH]; cbn.
  - intros _ _. repeat constructor.
  - intros S H. apply StronglySorted_inv in S as [S F]. constructor.
    + apply IH; [exact S|]. intros k' q' I. apply (H k' q'). right. exact I.
    + rewrite map_app. apply Forall_app. split; [exact F|]. constructor; [|constructor]. cbn. apply (H k q). auto.
Qed.

Lemma get_inv w a n : inv w -> ~ In a (map fst (wmem w)) -> 0 <= n ->
  let '(p, w') := do_get w a n in
  inv w' /\ ~ In p (wout w) /\ wout w' = p :: wout w /\ exists k, In (p, k) (wmem w') /\ n <= k.
Proof.
  intros I Fr Hn. destruct I as [S N Fs P Sz B Hi Pd Pk].
  unfold do_get, pool_get. set (pad := if ppad (wpool w) =? 0 then Z.quot n 10 else ppad (wpool w)).
  assert (Hpad : 0 <= pad).
  { unfold pad. destruct (ppad (wpool w) =? 0); [|exact Pd]. apply Z.quot_pos; lia. }
  set (m := pfqm (wpool w)) in *. 
  assert (K : exists m' n' fq, (match lower_bound m (n + pad) with
      | Some (k, q) => (m, k, q) | None => (m ++ [(n + pad, [])], n + pad, []) end) = (m', n', fq) /\
    StronglySorted Z.lt (keys m') /\ queued m' = queued m /\ In (n', fq) m' /\ n + pad <= n' /\
    (forall k q, In (k, q) m -> In (k, q) m') /\ (forall k q, In (k, q) m' -> In (k, q) m \/ (k, q) = (n + pad, []))).
  { destruct (lower_bound m (n + pad)) as [[k q]|] eqn:L.
    - apply lb_some in L as (L1 & L2). exists m, k, q.
      split; [reflexivity|]. split; [exact S|]. split; [reflexivity|]. split; [exact L1|]. split; [exact L2|]. split; auto.
    - pose proof (lb_none _ _ L) as L1. exists (m ++ [(n + pad, [])]), (n + pad), [].
      split; [reflexivity|]. split; [apply sorted_snoc; assumption|]. split; [rewrite queued_app; cbn; apply app_nil_r|].
      split; [apply in_app_iff; right; left; reflexivity|]. split; [lia|]. split.
      + intros k q I. apply in_app_iff. auto.
      + intros k q I. apply in_app_iff in I as [I|[I|[]]]; auto. }
  destruct K as (m' & n' & fq & -> & S' & Q' & In' & Hn' & M1 & M2).
  assert (Hsz : forall k q p, In (k, q) m' -> In p q -> In (p, k) (wmem w)).
  { intros k q p I J. destruct (M2 k q I) as [I'|E]; [eapply Sz; eauto|]. injection E as _ ->. destruct J. }
  destruct fq as [|t q].
  - (* fresh block *)
    assert (Na : ~ In a (wout w)).
    { intros I. apply Fr. eapply Permutation_in; [exact P|]. apply in_app_iff. auto. }
    assert (Sa : forall p, size_of ((a, n') :: wmem w) p = if (a =? p)%nat then n' else size_of (wmem w) p).
    { intros p. unfold size_of. cbn. destruct (a =? p)%nat; reflexivity. }
    assert (Ce : forall l k, ~ In a l -> count_size ((a, n') :: wmem w) (a :: l) k
                 = ((if (n' =? k)%Z then 1 else 0) + count_size (wmem w) l k)%nat).
    { intros l k Nl. change (a :: l) with ([a] ++ l). rewrite count_app. f_equal.
      - unfold count_size; cbn [filter]. rewrite Sa, Nat.eqb_refl. destruct (n' =? k); reflexivity.
      - apply count_ext. intros p Ip. rewrite Sa. destruct (Nat.eqb_spec a p) as [->|]; [contradiction|reflexivity]. }
    split; [|split; [exact Na|split; [reflexivity|exists n'; cbn; split; [auto|lia]]]].
    constructor; cbn [wpool wout wmem wpeak pfqm pfsm phigh ppad].
    + exact S'.
    + cbn. constructor; assumption.
    + rewrite Fs. reflexivity.
    + cbn [map fst app]. constructor. rewrite Q'. exact P.
    + intros k q p I J. right. eapply Hsz; eauto.
    + intros p k [E|I]; [injection E as <- <-; eauto|]. destruct (B p k I) as (q & J). exists q. apply M1. exact J.
    + rewrite Hi. cbn [length]. lia.
    + exact Hpad.
    + intros k. cbn [map fst]. rewrite !Ce by assumption. rewrite <- Pk, <- (count_perm _ _ _ k P), count_app.
      destruct (Z.eqb_spec n' k) as [<-|Nk]; [|lia].
      rewrite (count_zero (wmem w) (queued m) n'); [lia|]. intros p Ip Es. rewrite <- Q' in Ip.
      apply queued_in in Ip as (k2 & q2 & I2 & J2). pose proof (Hsz k2 q2 p I2 J2) as Im.
      rewrite (size_in _ _ _ N Im) in Es. subst k2. rewrite (key_unique m' n' q2 [] S' I2 In') in J2. destruct J2.
  - pose proof (set_queued_pop m' n' q t In' S') as Pq.
    assert (Pt : Permutation ((t :: wout w) ++ queued (set_queue m' n' q)) (map fst (wmem w))).
    { rewrite <- P, <- Q'. cbn [app]. rewrite <- Pq. apply Permutation_middle. }
    assert (Nt : ~ In t (wout w)).
    { assert (ND : NoDup ((t :: wout w) ++ queued (set_queue m' n' q))) by (eapply Permutation_NoDup; [symmetry; exact Pt|exact N]).
      cbn in ND. apply NoDup_cons_iff in ND as [X _]. intros I. apply X, in_app_iff. auto. }
    assert (It : In (t, n') (wmem w)) by (eapply Hsz; [exact In'|left; reflexivity]).
    split; [|split; [exact Nt|split; [reflexivity|exists n'; cbn; split; [exact It|lia]]]].
    constructor; cbn [wpool wout wmem wpeak pfqm pfsm phigh ppad].
    + rewrite set_keys. exact S'.
    + exact N.
    + exact Fs.
    + exact Pt.
    + intros k q1 p I J. apply (set_in _ _ _ _ _ S') in I as [(-> & ->)|(_ & I)]; [|eapply Hsz; eauto].
      eapply Hsz; [exact In'|right; exact J].
    + intros p k I. destruct (B p k I) as (q1 & J). apply M1 in J. apply in_map with (f := fst) in J. cbn in J.
      fold (keys m') in J. rewrite <- (set_keys m' n' q) in J. apply in_map_iff in J as ([k1 q2] & E & J). cbn in E; subst k1. eauto.
    + exact Hi.
    + exact Hpad.
    + intros k. rewrite <- Pk. rewrite <- (count_perm _ _ _ k Pt), count_app. lia.
Qed.

Lemma remove1_perm p l : In p l -> Permutation l (p :: remove1 p l).
Proof.
  induction l as [|x l IH]; [intros []|]. intros I. cbn. destruct (Nat.eqb_spec x p) as [->|N]; [reflexivity|].
  destruct I as [E|I]; [congruence|]. rewrite (IH I) at 1. apply perm_swap.
Qed.

Lemma put_inv w p : inv w -> In p (wout w) -> exists w', do_put w p = Ok w' /\ inv w' /\
  wout w' = remove1 p (wout w) /\ wmem w' = wmem w /\
  forall k, In (p, k) (wmem w) -> exists q, In (k, p :: q) (pfqm (wpool w')).
Proof.
  intros I Ip. destruct I as [S N Fs P Sz B Hi Pd Pk].
  assert (Im : In p (map fst (wmem w))) by (eapply Permutation_in; [exact P|apply in_app_iff; auto]).
  apply in_map_iff in Im as ([p' k] & E & Im). cbn in E; subst p'.
  destruct (B p k Im) as (q & Iq). unfold do_put, pool_put.
  rewrite Fs, (fsm_size _ _ _ N Im), (lb_key _ _ _ S Iq).
  assert (Ex : existsb (fun e => (fst e =? p)%nat) (wmem w) = true) by (apply existsb_exists; exists (p, k); split; [exact Im|apply Nat.eqb_refl]).
  rewrite Ex. cbn [obind]. eexists. split; [reflexivity|].
  assert (Kin : In (k, p :: q) (set_queue (pfqm (wpool w)) k (p :: q))).
  { assert (X : In k (keys (set_queue (pfqm (wpool w)) k (p :: q)))) by (rewrite set_keys; exact (in_map fst _ _ Iq)).
    unfold keys in X. apply in_map_iff in X as ([k1 q1] & E & X). cbn in E; subst k1.
    destruct (set_in _ _ _ _ _ S X) as [(_ & ->)|(C & _)]; [exact X|congruence]. }
  split; [|split; [reflexivity|split; [reflexivity|]]].
  - constructor; cbn [wpool wout wmem wpeak pfqm pfsm phigh ppad]; auto.
    + rewrite set_keys. exact S.
    + rewrite (set_queued_push _ _ _ p Iq S). rewrite <- Permutation_middle. change (p :: remove1 p (wout w) ++ queued (pfqm (wpool w))) with ((p :: remove1 p (wout w)) ++ queued (pfqm (wpool w))).
      rewrite <- (remove1_perm p (wout w) Ip). exact P.
    + intros k1 q1 x I J. apply (set_in _ _ _ _ _ S) in I as [(-> & ->)|(_ & I)]; [|eapply Sz; eauto].
      destruct J as [<-|J]; [exact Im|eapply Sz; eauto].
    + intros x k1 I. destruct (B x k1 I) as (q1 & J). apply in_map with (f := fst) in J. cbn in J.
      fold (keys (pfqm (wpool w))) in J. rewrite <- (set_keys _ k (p :: q)) in J. apply in_map_iff in J as ([k2 q2] & E & J). cbn in E; subst k2. eauto.
  - intros k1 I1. assert (k1 = k) as ->; [|eauto]. rewrite <- (size_in _ _ _ N I1). apply size_in; assumption.
Qed.

Lemma history_inv w : history w -> inv w.
Proof.
  intros H. induction H as [|w a n H IH Fr Hn|w p w' H IH Ip E].
  - apply inv_new.
  - pose proof (get_inv w a n IH Fr Hn) as G. destruct (do_get w a n) as [p w']. apply G.
  - destruct (put_inv w p IH Ip) as (w2 & E2 & I2 & _). rewrite E in E2. injection E2 as ->. exact I2.
Qed.

Lemma get_exclusive w a n : history w -> ~ In a (map fst (wmem w)) -> 0 <= n ->
  let '(p, w') := do_get w a n in
  ~ In p (wout w) /\ wout w' = p :: wout w /\ NoDup (map fst (wmem w')) /\ exists k, In (p, k) (wmem w') /\ n <= k.
Proof.
  intros H Fr Hn. pose proof (get_inv w a n (history_inv w H) Fr Hn) as G. destruct (do_get w a n) as [p w'].
  destruct G as (I & G1 & G2 & G3). exact (conj G1 (conj G2 (conj (i_nodup _ I) G3))).
Qed.
Lemma put_accepted w p : history w -> In p (wout w) -> exists w', do_put w p = Ok w' /\
  forall k, In (p, k) (wmem w) -> exists q, In (k, p :: q) (pfqm (wpool w')).
Proof. intros H Ip. destruct (put_inv w p (history_inv w H) Ip) as (w' & E & _ & _ & _ & Q). exists w'. auto. Qed.

Lemma accounting w : history w ->
  pool_active (wpool w) = Z.of_nat (length (wout w)) /\
  pool_total (wpool w) = Z.of_nat (length (wmem w)) /\
  NoDup (wout w ++ pool_destroy (wpool w)) /\
  (forall p, In p (map fst (wmem w)) <-> In p (wout w ++ pool_destroy (wpool w))) /\
  forall k, count_size (wmem w) (map fst (wmem w)) k = wpeak w k.
Proof.
  intros H. destruct (history_inv w H) as [S N Fs P Sz B Hi Pd Pk].
  pose proof (Permutation_length P) as L. rewrite app_length, map_length in L.
  change (pool_destroy (wpool w)) with (queued (pfqm (wpool w))).
  split; [|split; [|split; [|split]]].
  - unfold pool_active. replace (pool_queued (wpool w)) with (Z.of_nat (length (queued (pfqm (wpool w))))); [lia|].
    rewrite <- queued_length. reflexivity.
  - exact Hi.
  - eapply Permutation_NoDup; [symmetry; exact P|exact N].
  - intros p. split; apply Permutation_in; [symmetry|]; exact P.
  - exact Pk.
Qed.

Lemma set_keys_in m k q k1 q1 : In (k1, q1) (set_queue m k q) -> exists q2, In (k1, q2) m.
Proof.
  intros I. apply in_map with (f := fst) in I. cbn in I. fold (keys (set_queue m k q)) in I. rewrite set_keys in I.
  apply in_map_iff in I as ([k2 q2] & E & I). cbn in E; subst k2. eauto.
Qed.
Lemma sizes_nonneg2 w : history w ->
  (forall k q, In (k, q) (pfqm (wpool w)) -> 0 <= k) /\ forall p k, In (p, k) (wmem w) -> 0 <= k.
Proof.
  intros H. induction H as [|w a n H [IK IM] Fr Hn|w p w' H [IK IM] Ip E].
  - split; intros ? ? [].
  - pose proof (i_pad _ (history_inv w H)) as Pd. unfold do_get, pool_get.
    set (pad := if ppad (wpool w) =? 0 then n ÷ 10 else ppad (wpool w)).
    assert (Hpad : 0 <= pad) by (unfold pad; destruct (_ =? 0); [apply Z.quot_pos; lia|lia]). clearbody pad.
    destruct (lower_bound (pfqm (wpool w)) (n + pad)) as [[k0 q0]|] eqn:L.
    + pose proof (IK k0 q0 (proj1 (lb_some _ _ _ _ L))) as K0. destruct q0 as [|t q0]; cbn [wpool wmem pfqm snd fst].
      * split; [exact IK|]. intros p k [X|X]; [injection X as <- <-; lia|eauto].
      * split; [|exact IM]. intros k q X. apply set_keys_in in X as (q2 & X). eauto.
    + cbn [wpool wmem pfqm snd fst]. split.
      * intros k q X. apply in_app_iff in X as [X|[X|[]]]; [eauto|injection X as <- <-; lia].
      * intros p k [X|X]; [injection X as <- <-; lia|eauto].
  - unfold do_put, pool_put in E. destruct (lower_bound _ _) as [[k0 q0]|]; [|discriminate]. cbn in E. injection E as <-.
    cbn. split; [|exact IM]. intros k q X. apply set_keys_in in X as (q2 & X). eauto.
Qed.
Lemma sizes_nonneg w : history w -> forall p k, In (p, k) (wmem w) -> 0 <= k.
Proof. intros H. apply sizes_nonneg2, H. Qed.

(** Misuse. *)
Definition w_one : world := snd (do_get world_new 1 100).
Lemma h_one : history w_one.
Proof. apply h_get; [exact h_new|intros []|lia]. Qed.
Lemma lb_le k q n : n <= k -> lower_bound [(k, q)] n = Some (k, q).
Proof. intros H. cbn. destruct (Z.leb_spec n k); [reflexivity|lia]. Qed.

Lemma double_put : exists w p w1 w2, history w /\ In p (wout w) /\
  do_put w p = Ok w1 /\ ~ In p (wout w1) /\ do_put w1 p = Ok w2 /\
  forall a b n, 0 <= n <= 100 ->
    fst (do_get w2 a n) = p /\ fst (do_get (snd (do_get w2 a n)) b n) = p.
Proof.
  exists w_one, 1%nat, (World (Pool [(110, [1%nat])] [(1%nat, 110)] 10 1) [] [(1%nat, 110)] (wpeak w_one)),
    (World (Pool [(110, [1%nat; 1%nat])] [(1%nat, 110)] 10 1) [] [(1%nat, 110)] (wpeak w_one)).
  split; [exact h_one|]. split; [cbn; auto|].
  split; [reflexivity|]. split; [cbn; intros []|]. split; [reflexivity|].
  intros a b n H. assert (G : forall q out pk c, let w := World (Pool [(110, 1%nat :: q)] [(1%nat, 110)] 10 1) out [(1%nat, 110)] pk in
    fst (do_get w c n) = 1%nat /\ exists pk', snd (do_get w c n) = World (Pool [(110, q)] [(1%nat, 110)] 10 1) (1%nat :: out) [(1%nat, 110)] pk').
  { intros q out pk c. unfold do_get, pool_get. cbn [wpool pfqm ppad pfsm phigh wout wmem wpeak]. change (10 =? 0) with false. cbn iota.
    rewrite lb_le by lia. cbn [fst snd set_queue]. change (110 =? 110) with true. cbn iota. eauto. }
  destruct (G [1%nat] [] (wpeak w_one) a) as [G1 [pk G2]]. split; [exact G1|]. rewrite G2. apply G.
Qed.

Lemma foreign_put : exists w, history w /\ forall p, ~ In p (map fst (wmem w)) ->
  exists w1, do_put w p = Ok w1 /\ forall a n, 0 <= n <= 100 -> fst (do_get w1 a n) = p.
Proof.
  exists w_one. split; [exact h_one|]. intros p Np.
  assert (N1 : (1 =? p)%nat = false) by (apply Nat.eqb_neq; intros E; apply Np; rewrite <- E; left; reflexivity).
  unfold do_put, pool_put. change (pfsm (wpool w_one)) with [(1%nat, 110)]. cbn [fsm_get existsb fst]. rewrite N1.
  cbn [orb]. change (pfqm (wpool w_one)) with [(110, @nil nat)]. rewrite lb_le by lia. cbn [obind].
  eexists. split; [reflexivity|]. intros a n H. unfold do_get, pool_get.
  cbn [wpool pfqm ppad set_queue]. change (110 =? 110) with true. cbn iota.
  change (ppad (wpool w_one)) with 10. change (10 =? 0) with false. rewrite lb_le by lia. reflexivity.
Qed.

Lemma put_never_rejected w p : history w -> wmem w <> [] -> exists w', do_put w p = Ok w'.
Proof.
  intros H Nm. destruct (history_inv w H) as [S N Fs P Sz B Hi Pd Pk].
  destruct (in_dec Nat.eq_dec p (map fst (wmem w))) as [Ip|Np].
  - apply in_map_iff in Ip as ([p' k] & E & Im). cbn in E; subst p'. destruct (B p k Im) as (q & Iq).
    unfold do_put, pool_put. rewrite Fs, (fsm_size _ _ _ N Im), (lb_key _ _ _ S Iq). cbn. eauto.
  - assert (Fz : fsm_get (wmem w) p = 0).
    { clear -Np. induction (wmem w) as [|[u n] l IH]; [reflexivity|]. cbn in *. destruct (Nat.eqb_spec u p); [tauto|]. apply IH. tauto. }
    unfold do_put, pool_put. rewrite Fs, Fz. destruct (wmem w) as [|[u k] mem] eqn:Em; [congruence|].
    destruct (B u k (or_introl eq_refl)) as (q & Iq).
    destruct (lower_bound (pfqm (wpool w)) 0) as [[k1 q1]|] eqn:L; [cbn; eauto|].
    exfalso. pose proof (sizes_nonneg w H u k) as X. rewrite Em in X. specialize (X (or_introl eq_refl)).
    pose proof (lb_none _ _ L k q Iq). lia.
Qed.
Lemma put_unused p : do_put world_new p = UB.
Proof. reflexivity. Qed.
Lemma active_wrong : exists w p w1 w2, history w /\ In p (wout w) /\
  do_put w p = Ok w1 /\ do_put w1 p = Ok w2 /\ wout w2 = [] /\ pool_active (wpool w2) = -1.
Proof.
  exists w_one, 1%nat. do 2 eexists. split; [exact h_one|]. split; [cbn; auto|].
  split; [reflexivity|]. split; [reflexivity|]. split; reflexivity.
Qed.
