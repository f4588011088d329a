(** Consequences for users of the memory pool when memory may run out. *)
From Coq Require Import Permutation Sorted.
From Verif Require Import Prelude PoolM PoolS PoolP PoolOomM PoolOomS PoolOomP.

Lemma rounded_unique asked n k k' : rounded asked n k -> rounded asked n k' -> k = k'.
Proof.
  intros [(I & L & M)|(-> & M)] [(I' & L' & M')|(-> & M')].
  - pose proof (M k' I' L'). pose proof (M' k I L). lia.
  - specialize (M' k I). lia.
  - specialize (M k' I'). lia.
  - reflexivity.
Qed.
Lemma padding_again reqs n : padding (n :: n :: reqs) = padding (n :: reqs).
Proof.
  cbn [padding]. destruct (Z.eqb_spec (padding reqs) 0) as [E|E].
  - destruct (Z.eqb_spec (Z.quot n 10) 0) as [E'|E']; [|reflexivity]. rewrite E'. reflexivity.
  - destruct (Z.eqb_spec (padding reqs) 0); [contradiction|reflexivity].
Qed.

Section Cuda.
Variable cuda : bool.

Lemma get_spec w d sys n : ohistory cuda w -> sys_ok cuda w d sys -> 0 <= n -> d = false \/ cuda = true ->
  exists k, rounded (ow_asked w d) (n + padding (n :: ow_reqs w)) k /\ n <= k /\ outcome_of w d sys n k (oget cuda w d sys n).
Proof.
  intros H Sy Hn Hd. apply (get_step cuda w d sys n (ohistory_inv cuda w H) Sy Hn).
  destruct Hd as [-> | ->]; [reflexivity|apply Bool.andb_false_r].
Qed.
Lemma get_no_gpu w sys n : cuda = false -> ohistory cuda w -> 0 <= n ->
  fst (oget cuda w true sys n) = None /\ ow_out (snd (oget cuda w true sys n)) = ow_out w /\ ow_mem (snd (oget cuda w true sys n)) = ow_mem w.
Proof.
  intros C H Hn. destruct (get_unsupported cuda w true sys n (ohistory_inv cuda w H) Hn) as (_ & A & B & D & _); [rewrite C; reflexivity|auto].
Qed.
Lemma put_spec w d p : ohistory cuda w -> In p (ow_out w d) -> exists w', oput cuda w d p = Ok w' /\
  ow_out w' = on (ow_out w) d (remove1 p (ow_out w d)) /\ ow_mem w' = ow_mem w.
Proof.
  intros H I. destruct (put_step cuda w d p (ohistory_inv cuda w H) I) as (w' & E & _ & A & B & _). exists w'. auto.
Qed.

(** the queues hold exactly the idle blocks *)
Lemma queued_idle w d p : ohistory cuda w -> (In p (queued (bk_fqm (p2_bank (ow_pool w) d))) <-> exists k, idle w d p k).
Proof.
  intros H. pose proof (o_bank cuda w (ohistory_inv cuda w H) d) as [S N P Sz B A]. split.
  - intros I. pose proof I as I0. apply queued_in in I as (k & q & I & J). exists k. split; [eapply Sz; eauto|].
    intros O. pose proof (Permutation_NoDup (Permutation_sym P) N) as ND.
    apply in_split in O as (l1 & l2 & E). rewrite E in ND. rewrite <- app_assoc in ND. cbn in ND. apply NoDup_remove_2 in ND.
    apply ND. rewrite !in_app_iff. auto.
  - intros (k & I & O). assert (X : In p (ow_out w d ++ queued (bk_fqm (p2_bank (ow_pool w) d)))).
    { eapply Permutation_in; [symmetry; exact P|exact (in_map fst _ _ I)]. }
    apply in_app_iff in X as [X|X]; [contradiction|exact X].
Qed.
Lemma blocks w : ohistory cuda w ->
  (forall d, NoDup (ow_out w d) /\ NoDup (map fst (ow_mem w d)) /\ incl (ow_out w d) (map fst (ow_mem w d))) /\
  (forall p, ~ (In p (map fst (ow_mem w true)) /\ In p (map fst (ow_mem w false)))) /\
  NoDup (map fst (destroy2 cuda (ow_pool w))) /\
  (forall p, In p (map fst (destroy2 cuda (ow_pool w))) <-> exists d k, idle w d p k).
Proof.
  intros H. pose proof (ohistory_inv cuda w H) as I. repeat split.
  - pose proof (o_bank _ _ I d) as [S N P Sz B A]. pose proof (Permutation_NoDup (Permutation_sym P) N) as ND.
    clear - ND. induction (ow_out w d) as [|x l IH]; [constructor|]. cbn in ND. apply NoDup_cons_iff in ND as [X ND].
    constructor; [intros J; apply X, in_app_iff; auto|exact (IH ND)].
  - apply (o_bank _ _ I d).
  - intros p J. pose proof (o_bank _ _ I d) as [S N P Sz B A]. eapply Permutation_in; [exact P|]. apply in_app_iff. auto.
  - intros p [J1 J2]. exact (o_apart _ _ I p J1 J2).
  - unfold destroy2. rewrite map_app, !map_map. cbn [fst]. rewrite !map_id.
    fold (queued (bk_fqm (p2_bank (ow_pool w) false))) (queued (bk_fqm (p2_bank (ow_pool w) true))).
    assert (Q : forall d, NoDup (queued (bk_fqm (p2_bank (ow_pool w) d)))).
    { intros d. pose proof (o_bank _ _ I d) as [S N P Sz B A]. pose proof (Permutation_NoDup (Permutation_sym P) N) as ND.
      clear - ND. induction (ow_out w d) as [|x l IH]; [exact ND|]. cbn in ND. apply NoDup_cons_iff in ND as [_ ND]. exact (IH ND). }
    assert (D : forall p, In p (queued (bk_fqm (p2_bank (ow_pool w) false))) -> ~ In p (queued (bk_fqm (p2_bank (ow_pool w) true)))).
    { intros p J1 J2. apply (queued_idle w _ p H) in J1 as (k1 & J1 & _). apply (queued_idle w _ p H) in J2 as (k2 & J2 & _).
      exact (o_apart _ _ I p (in_map fst _ _ J2) (in_map fst _ _ J1)). }
    pose proof (Q false) as Q1. pose proof (Q true) as Q2. revert Q1 D. generalize (queued (bk_fqm (p2_bank (ow_pool w) false))).
    intros l. induction l as [|x l IH]; intros Q1 D; [exact Q2|]. cbn. apply NoDup_cons_iff in Q1 as [X Q1]. constructor.
    + rewrite in_app_iff. intros [J|J]; [exact (X J)|]. exact (D x (or_introl eq_refl) J).
    + apply IH; [exact Q1|]. intros p J. apply D. right. exact J.
  - unfold destroy2. rewrite map_app, !map_map. cbn [fst]. rewrite !map_id, in_app_iff.
    fold (queued (bk_fqm (p2_bank (ow_pool w) false))) (queued (bk_fqm (p2_bank (ow_pool w) true))).
    rewrite !(queued_idle w _ _ H). intros [J|J]; [exists false|exists true]; exact J.
  - unfold destroy2. rewrite map_app, !map_map. cbn [fst]. rewrite !map_id, in_app_iff.
    fold (queued (bk_fqm (p2_bank (ow_pool w) false))) (queued (bk_fqm (p2_bank (ow_pool w) true))).
    rewrite !(queued_idle w _ _ H). intros (d & J). destruct d; [right|left]; exact J.
Qed.
Lemma counts w : ohistory cuda w ->
  active2 (ow_pool w) = Z.of_nat (length (ow_out w false)) + ow_failed w false /\
  total2 (ow_pool w) = Z.of_nat (length (ow_mem w false)) + ow_failed w false.
Proof.
  intros H. pose proof (ohistory_inv cuda w H) as I. pose proof (o_high _ _ I false eq_refl) as Hh.
  split; [|exact Hh]. unfold active2. rewrite Hh.
  pose proof (queued_length (bk_fqm (p2_bank (ow_pool w) false))) as Q. unfold pool_queued in Q. cbn [pfqm] in Q. rewrite Q.
  pose proof (Permutation_length (b_perm _ _ _ _ (o_bank _ _ I false))) as L. rewrite app_length, map_length in L. lia.
Qed.
Lemma freed_right w : ohistory cuda w -> (cuda = true -> ow_fell w = false) ->
  forall p how, In (p, how) (destroy2 cuda (ow_pool w)) -> how = ow_how w p.
Proof.
  intros H F p how J. pose proof (ohistory_inv cuda w H) as I. unfold destroy2 in J. apply in_app_iff in J as [J|J].
  - apply in_map_iff in J as (x & E & J). injection E as -> <-. fold (queued (bk_fqm (p2_bank (ow_pool w) false))) in J.
    apply (queued_idle w _ p H) in J as (k & J & _). rewrite (o_how _ _ I false p (in_map fst _ _ J)).
    destruct (Bool.bool_dec cuda true) as [C|C].
    + rewrite (o_pin _ _ I C), (F C), C. reflexivity.
    + apply Bool.not_true_is_false in C. rewrite C. reflexivity.
  - apply in_map_iff in J as (x & E & J). injection E as -> <-. fold (queued (bk_fqm (p2_bank (ow_pool w) true))) in J.
    apply (queued_idle w _ p H) in J as (k & J & _). rewrite (o_how _ _ I true p (in_map fst _ _ J)). reflexivity.
Qed.

(** a request made again after its block was put back *)
Lemma again w d sys n p w1 w2 sys2 : ohistory cuda w -> sys_ok cuda w d sys -> 0 <= n -> d = false \/ cuda = true ->
  oget cuda w d sys n = (Some p, w1) -> oput cuda w1 d p = Ok w2 -> sys_ok cuda w2 d sys2 ->
  exists q w3, oget cuda w2 d sys2 n = (Some q, w3) /\ ow_asked w3 = ow_asked w2.
Proof.
  intros H Sy Hn Hd E1 E2 Sy2.
  destruct (get_spec w d sys n H Sy Hn Hd) as (k & R & _ & O). rewrite E1 in O.
  assert (H1 : ohistory cuda w1) by (change w1 with (snd (Some p, w1)); rewrite <- E1; constructor; assumption).
  assert (Rq : ow_reqs w1 = n :: ow_reqs w).
  { unfold oget in E1. destruct (get2 cuda (ow_pool w) d sys n) as [[r a] pl]. destruct a as [a|]; [destruct (sys a) as [[]|]|]; injection E1 as _ <-; reflexivity. }
  assert (O' : ow_out w1 d = p :: ow_out w d /\ In (p, k) (ow_mem w1 d) /\ ~ In p (ow_out w d) /\
    (ow_asked w1 d = ow_asked w d /\ In k (ow_asked w d) \/ ow_asked w1 d = k :: ow_asked w d)).
  { inversion O as [p0 w0 Hi Ho Hm Ha Hf|p0 how w0 Hi Hs Ho Hm Ha Hf|]; subst.
    - rewrite Ho, Hm, Ha, on_same. destruct Hi as [Hi1 Hi2]. split; [reflexivity|]. split; [exact Hi1|]. split; [exact Hi2|].
      left. split; [reflexivity|]. pose proof (o_bank _ _ (ohistory_inv cuda w H) d) as [S N P Sz B A]. apply A.
      destruct (B p k Hi1) as (q & J). apply in_keys. eauto.
    - rewrite Ho, Hm, Ha, !on_same. split; [reflexivity|]. split; [left; reflexivity|]. split; [|right; reflexivity].
      intros J. apply (proj1 (Sy k p how Hs) d). pose proof (o_bank _ _ (ohistory_inv cuda w H) d) as [S N P Sz B A].
      eapply Permutation_in; [exact P|]. apply in_app_iff. auto. }
  destruct O' as (Oo & Om & On & Oa).
  destruct (put_step cuda w1 d p (ohistory_inv cuda w1 H1) ltac:(rewrite Oo; left; reflexivity)) as (w2' & E2' & _ & Po & Pm & Pa & _ & Pr).
  rewrite E2 in E2'. injection E2' as <-.
  assert (H2 : ohistory cuda w2) by (apply (oh_put cuda w1 d p w2 H1); [rewrite Oo; left; reflexivity|exact E2]).
  destruct (get_spec w2 d sys2 n H2 Sy2 Hn Hd) as (k2 & R2 & _ & O2).
  rewrite Pr, Rq, padding_again in R2.
  assert (R1 : rounded (ow_asked w2 d) (n + padding (n :: ow_reqs w)) k).
  { rewrite Pa. destruct Oa as [[-> Ik]|E]; [exact R|]. rewrite E. left.
    destruct R as [(I & L & M)|(-> & M)].
    - split; [left; reflexivity|]. split; [exact L|]. intros j [<-|J] Lj; [lia|exact (M j J Lj)].
    - split; [left; reflexivity|]. split; [lia|]. intros j [<-|J] Lj; [lia|specialize (M j J); lia]. }
  rewrite <- (rounded_unique _ _ _ _ R1 R2) in O2.
  assert (Id : idle w2 d p k).
  { split; [rewrite Pm; exact Om|]. rewrite Po, on_same, Oo. cbn. rewrite Nat.eqb_refl. exact On. }
  destruct (oget cuda w2 d sys2 n) as [r w3]. inversion O2 as [q w0 Hi Ho Hm Ha Hf|p0 how w0 Hi|w0 Hi]; subst.
  - exists q, w3. split; [reflexivity|exact Ha].
  - destruct (Hi p Id).
  - destruct (Hi p Id).
Qed.

(** a size that was asked for and never given stands in the way *)
Lemma blocked w d sys n k : ohistory cuda w -> sys_ok cuda w d sys -> 0 <= n -> d = false \/ cuda = true ->
  rounded (ow_asked w d) (n + padding (n :: ow_reqs w)) k -> (forall p, ~ In (p, k) (ow_mem w d)) -> sys k = None ->
  fst (oget cuda w d sys n) = None.
Proof.
  intros H Sy Hn Hd R N Sk. destruct (get_spec w d sys n H Sy Hn Hd) as (k2 & R2 & _ & O2).
  rewrite (rounded_unique _ _ _ _ R2 R) in O2. inversion O2 as [q w0 [Hi _] Ho Hm Ha Hf|p0 how w0 Hi Hs|w0 Hi]; cbn.
  - destruct (N q Hi).
  - congruence.
  - reflexivity.
Qed.
End Cuda.

(** A system that gives up to 1000 elements at a time. *)
Definition small_system (a : nat) : system := fun k => if k <=? 1000 then Some (a, ByDelete) else None.
Lemma small_ok w a : (forall e, ~ In a (map fst (ow_mem w e))) -> sys_ok false w false (small_system a).
Proof. intros F k b how. unfold small_system. destruct (k <=? 1000); [|discriminate]. intros E. injection E as <- <-. split; [exact F|reflexivity]. Qed.
Definition oom1 : oworld := snd (oget false oworld_new false (small_system 1) 100).
Definition oom2 : oworld := snd (oget false oom1 false (small_system 2) 5000).
Lemma oom1_ok : ohistory false oom1.
Proof. apply oh_get; [constructor|apply small_ok; intros e []|lia]. Qed.
Lemma oom2_ok : ohistory false oom2.
Proof.
  apply oh_get; [exact oom1_ok|apply small_ok|lia]. intros e. destruct e; vm_compute; [tauto|]. intros [E|[]]. discriminate.
Qed.
Lemma active_wrong2 : ohistory false oom2 /\ ow_out oom2 false = [1%nat] /\ active2 (ow_pool oom2) = 2.
Proof. split; [exact oom2_ok|]. split; vm_compute; reflexivity. Qed.
Lemma blocked_demo : ohistory false oom2 /\ sys_ok false oom2 false (small_system 3) /\
  small_system 3 (200 + padding (200 :: ow_reqs oom2)) = Some (3%nat, ByDelete) /\
  fst (oget false oom2 false (small_system 3) 200) = None /\
  fst (oget false oom1 false (small_system 3) 200) = Some 3%nat.
Proof.
  split; [exact oom2_ok|]. split.
  { apply small_ok. intros e. destruct e; vm_compute; [tauto|]. intros [E|[]]. discriminate. }
  repeat split; vm_compute; reflexivity.
Qed.
(** CUDA: one pinned block, then one from new because pinned memory has run out;
    both are put back. *)
Definition pin1 : oworld := snd (oget true oworld_new false (fun _ => Some (1%nat, ByFreeHost)) 100).
Definition pin2 : oworld := snd (oget true pin1 false (fun _ => Some (2%nat, ByDelete)) 100).
Definition pin3 : oworld := match oput true pin2 false 1 with Ok w => w | _ => pin2 end.
Lemma pin3_ok : ohistory true pin3.
Proof.
  assert (H1 : ohistory true pin1).
  { apply oh_get; [constructor| |lia]. intros k a how E. injection E as <- <-. split; [intros e []|left; reflexivity]. }
  assert (H2 : ohistory true pin2).
  { apply oh_get; [exact H1| |lia]. intros k a how E. injection E as <- <-. split; [|right; reflexivity].
    intros e. destruct e; vm_compute; [tauto|]. intros [E|[]]. discriminate. }
  apply (oh_put true pin2 false 1 pin3 H2); [vm_compute; auto|reflexivity].
Qed.
Lemma pinned_wrong : ohistory true pin3 /\ In (1%nat, ByDelete) (destroy2 true (ow_pool pin3)) /\ ow_how pin3 1 = ByFreeHost.
Proof. split; [exact pin3_ok|]. split; vm_compute; auto. Qed.
