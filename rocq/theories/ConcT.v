From Coq Require Import Sorting.Permutation.
From Verif Require Import Prelude PoolM PoolS PoolP PtrM PtrP ConcM ConcS ConcP ConcQ ConcR.

Lemma start_inv w progs : history w -> Forall (Forall store_op) progs ->
  cinv w (csh (conc_start w progs)) (cthr (conc_start w progs)) w.
Proof.
  intros Hw Fo. cbn. set (mk := fun p => Thr [] [] p PIdle).
  assert (Th : forall i t, nth_error (map mk progs) i = Some t -> exists p, In p progs /\ t = mk p).
  { intros i t Hi. apply nth_error_In in Hi. apply in_map_iff in Hi. destruct Hi as (p & <- & I). eauto. }
  rewrite Forall_forall in Fo.
  constructor; cbn.
  - exact Hw.
  - intros i t Hi. destruct (Th i t Hi) as (p & I & ->). constructor; cbn; try contradiction; auto.
  - intros i j t t' H H' _ Hi _ I. destruct (Th i t Hi) as (p & _ & ->). contradiction.
  - intros c N. destruct (N eq_refl).
  - replace (flat_map held (map mk progs)) with (@nil nat); [rewrite app_nil_r; reflexivity|].
    clear. induction progs as [|p l IH]; cbn; [reflexivity|exact IH].
  - apply incl_refl.
  - unfold lock_inv. cbn. split; [|auto]. intros j t Hj (x & q & E). destruct (Th j t Hj) as (p & _ & ->). discriminate E.
Qed.
Lemma reach_inv w progs st : history w -> Forall (Forall store_op) progs -> creach (conc_start w progs) st ->
  exists w', cinv w (csh st) (cthr st) w'.
Proof.
  intros Hw Fo R. induction R as [|x y R (w1 & C) St].
  - exists w. apply start_inv; assumption.
  - inversion St as [s ts i t a s' t' Hi Fr E|]; subst. cbn in *.
    pose proof (step_inv _ _ _ _ _ _ _ C Fr Hi) as P. rewrite E in P. exact P.
Qed.
Lemma no_ub w progs st : history w -> Forall (Forall store_op) progs -> creach (conc_start w progs) st -> ~ cstep st UB.
Proof.
  intros Hw Fo R St. destruct (reach_inv _ _ _ Hw Fo R) as (w1 & C). inversion St as [|s ts i t a Hi Fr E]; subst. cbn in *.
  pose proof (step_inv _ _ _ _ _ _ _ C Fr Hi) as P. rewrite E in P. exact P.
Qed.

Lemma handles_incl t : incl (handles t) (thdl t).
Proof. unfold handles. destruct (dropping t); [apply remove_nth_incl|apply incl_refl]. Qed.
Lemma handles_held t H : In H (handles t) -> In (hblk H) (held t).
Proof.
  intros I. unfold held. apply arrays_in. exists H. split; [|reflexivity]. pose proof (handles_incl t H I) as I'.
  unfold handles, dropping in I. destruct (tpc t); try assumption. 
Qed.
Lemma nodup_split {A} (l1 l2 l3 : list A) x : NoDup (l1 ++ l2 ++ l3) -> In x l2 -> In x (l1 ++ l3) -> False.
Proof.
  intros N I2 I. apply in_split in I2. destruct I2 as (a & b & ->).
  assert (P : Permutation (l1 ++ (a ++ x :: b) ++ l3) (x :: (l1 ++ l3) ++ a ++ b)).
  { rewrite <- app_assoc. cbn. rewrite <- Permutation_middle, <- Permutation_middle. constructor. rewrite <- app_assoc. apply Permutation_app_head.
    rewrite app_assoc. apply Permutation_app_comm. }
  apply (Permutation_NoDup P) in N. inversion N as [|y l Ny _]; subst. apply Ny. apply in_or_app. auto.
Qed.
Lemma out_nodup w0 s ts w : cinv w0 s ts w -> NoDup (wout w0 ++ flat_map held ts).
Proof.
  intros C. eapply Permutation_NoDup; [exact (c_out _ _ _ _ C)|]. destruct (accounting w (c_hist _ _ _ _ C)) as (_ & _ & N & _).
  clear - N. induction (wout w) as [|x l IH]; [constructor|]. inversion N as [|y m Ny Nm]; subst. constructor; [|exact (IH Nm)].
  intros I. apply Ny. apply in_or_app. auto.
Qed.
Lemma held_apart w0 s ts w i j t t' b : cinv w0 s ts w -> nth_error ts i = Some t -> nth_error ts j = Some t' ->
  In b (held t) -> In b (held t') -> i = j.
Proof.
  intros C Hi Hj I I'. destruct (Nat.eq_dec i j) as [|N]; [assumption|]. exfalso.
  pose proof (out_nodup _ _ _ _ C) as Nd. destruct (cset_split ts i t Hi) as (l1 & l2 & -> & L & _).
  rewrite flat_map_app in Nd. cbn [flat_map] in Nd. rewrite app_assoc in Nd. apply (nodup_split _ _ _ _ Nd I).
  apply in_or_app. destruct (Nat.lt_ge_cases j (length l1)) as [Lt|Ge].
  - rewrite nth_error_app1 in Hj by exact Lt. left. apply in_or_app. right. apply in_flat_map. exists t'. split; [eapply nth_error_In; exact Hj|exact I'].
  - rewrite nth_error_app2 in Hj by exact Ge. right. destruct (j - length l1)%nat as [|d] eqn:Ed; [lia|]. cbn in Hj.
    apply in_flat_map. exists t'. split; [eapply nth_error_In; exact Hj|exact I'].
Qed.
Lemma mem_of_lock s ts w : lock_inv s ts w -> incl (wmem w) (smem s).
Proof.
  unfold lock_inv. destruct (smut s).
  - intros (i & t & _ & B & _). unfold busy in B. destruct (tpc t) as [|j|j q| | | |]; try contradiction. destruct j as [n|k|n|k]; try contradiction.
    + assert (K : exists l, smem s = l ++ wmem w).
      { unfold at_get in B. destruct q as [m|m|m|m|m|k|k|k|k b|k|k b|b|b|b m|b k|]; try contradiction.
        1-5: exists []; cbn; tauto.
        1: destruct B as (? & ? & ? & ? & ?); exists []; assumption.
        1-2: destruct B as (? & ? & ? & ?); exists []; assumption.
        1: destruct B as (? & ? & ? & -> & ?); exists [(b, k)]; reflexivity.
        1: destruct B as (? & ? & ? & ? & ? & ?); exists []; assumption.
        1: destruct B as (? & ? & ? & ? & ?); exists []; assumption.
        destruct B as (a & _ & _ & _ & E). rewrite <- E. unfold do_get. destruct (pool_get (wpool w) a n) as [[p al] pl]. cbn.
        destruct al as [k|]; [exists [(a, k)]|exists []]; reflexivity. }
      destruct K as (l & ->). intros x I. apply in_or_app. auto.
    + destruct B as (H & _ & (-> & _)). apply incl_refl.
  - intros (_ & _ & ->). apply incl_refl.
Qed.

Lemma conc_exclusive w progs st : history w -> Forall (Forall store_op) progs -> creach (conc_start w progs) st ->
  ~ cstep st UB /\
  (forall i j t t' H H', nth_error (cthr st) i = Some t -> nth_error (cthr st) j = Some t' -> In H (handles t) -> In H' (handles t') ->
     hblk H = hblk H' -> i = j /\ hcnt H = hcnt H') /\
  (forall i t H, nth_error (cthr st) i = Some t -> In H (handles t) ->
     ~ In (hblk H) (wout w) /\ exists k, In (hblk H, k) (smem (csh st)) /\ hpts H <= k) /\
  (forall i j t t', nth_error (cthr st) i = Some t -> nth_error (cthr st) j = Some t' -> in_pool t -> in_pool t' -> i = j).
Proof.
  intros Hw Fo R. split; [eapply no_ub; eassumption|]. destruct (reach_inv _ _ _ Hw Fo R) as (w1 & C). split; [|split].
  - intros i j t t' H H' Hi Hj I I' E. pose proof (handles_held t H I) as Ih. pose proof (handles_held t' H' I') as Ih'. rewrite E in Ih.
    pose proof (held_apart _ _ _ _ _ _ _ _ _ C Hi Hj Ih Ih') as ->. split; [reflexivity|]. rewrite Hi in Hj. injection Hj as <-.
    apply (k_same _ _ _ (c_thr _ _ _ _ C j t Hi) H H'); [apply handles_incl; exact I|apply handles_incl; exact I'|exact E].
  - intros i t H Hi I. split.
    + intros Iw. pose proof (out_nodup _ _ _ _ C) as Nd. pose proof (handles_held t H I) as Ih.
      apply (nodup_split [] (wout w) (flat_map held (cthr st)) (hblk H)); [exact Nd|exact Iw|]. cbn. apply in_flat_map. exists t.
      split; [eapply nth_error_In; exact Hi|exact Ih].
    + destruct (k_size _ _ _ (c_thr _ _ _ _ C i t Hi) H (handles_incl t H I)) as (k & Ik & L). exists k. split; [|exact L].
      exact (mem_of_lock _ _ _ (c_lock _ _ _ _ C) _ Ik).
  - intros i j t t' Hi Hj I I'. destruct (lock_held _ _ _ _ _ (c_lock _ _ _ _ C) Hj I') as (_ & _ & O). exact (O i t Hi I).
Qed.

Lemma conc_in_turn w progs st : history w -> Forall (Forall store_op) progs -> creach (conc_start w progs) st ->
  (forall t, In t (cthr st) -> ~ in_pool t) ->
  exists w', history w' /\ wpool w' = spl (csh st) /\ wmem w' = smem (csh st) /\ Permutation (wout w') (wout w ++ flat_map held (cthr st)).
Proof.
  intros Hw Fo R N. destruct (reach_inv _ _ _ Hw Fo R) as (w1 & C). exists w1. split; [exact (c_hist _ _ _ _ C)|].
  pose proof (c_lock _ _ _ _ C) as L. unfold lock_inv in L. destruct (smut (csh st)).
  - destruct L as (i & t & Hi & B & _). destruct (N t (nth_error_In _ _ Hi) (busy_in _ _ _ B)).
  - destruct L as (_ & E1 & E2). split; [auto|]. split; [auto|]. exact (c_out _ _ _ _ C).
Qed.

Lemma conc_count w progs st : history w -> Forall (Forall store_op) progs -> creach (conc_start w progs) st ->
  forall t H, In t (cthr st) -> tpc t = PIdle -> In H (thdl t) -> aget (scnt (csh st)) (hcnt H) = Some (sharing (thdl t) (hcnt H)).
Proof.
  intros Hw Fo R t H It Ep I. destruct (reach_inv _ _ _ Hw Fo R) as (w1 & C). apply In_nth_error in It. destruct It as (i & Hi).
  pose proof (k_cnt _ _ _ (c_thr _ _ _ _ C i t Hi) H I) as K. unfold counted in K. rewrite Ep in K. exact K.
Qed.
Lemma conc_returned w progs st : history w -> Forall (Forall store_op) progs -> creach (conc_start w progs) st ->
  (forall t, In t (cthr st) -> tpc t = PIdle /\ thdl t = []) ->
  scnt (csh st) = [] /\ pool_active (spl (csh st)) = pool_active (wpool w) /\
  exists w', history w' /\ wpool w' = spl (csh st) /\ Permutation (wout w') (wout w).
Proof.
  intros Hw Fo R E. destruct (reach_inv _ _ _ Hw Fo R) as (w1 & C).
  destruct (conc_in_turn _ _ _ Hw Fo R) as (w2 & H2 & E1 & _ & P).
  { intros t I (j & q & Eq). destruct (E t I) as [Ei _]. rewrite Ei in Eq. discriminate. }
  assert (Z0 : flat_map held (cthr st) = []).
  { clear - E. induction (cthr st) as [|t l IH]; [reflexivity|]. cbn. destruct (E t (or_introl eq_refl)) as [E1 E2].
    unfold held at 1. rewrite E1, E2. cbn. apply IH. intros u I. apply E. right. exact I. }
  rewrite Z0, app_nil_r in P. split; [|split].
  - destruct (scnt (csh st)) as [|[c z] l] eqn:Es; [reflexivity|]. exfalso.
    destruct (c_dom _ _ _ _ C c) as (i & t & H & Hi & I & _); [rewrite Es, aget_cons, Nat.eqb_refl; discriminate|].
    destruct (E t (nth_error_In _ _ Hi)) as [_ E2]. rewrite E2 in I. exact I.
  - rewrite <- E1. destruct (accounting w2 H2) as (-> & _). destruct (accounting w Hw) as (-> & _). rewrite (Permutation_length P). reflexivity.
  - exists w2. auto.
Qed.

Lemma fresh_ex s : exists a, fresh s a.
Proof.
  set (l := map fst (smem s) ++ map fst (scnt s)). exists (S (list_max l)).
  assert (N : ~ In (S (list_max l)) l). { intros I. pose proof (proj1 (list_max_le l (list_max l)) (le_n _)) as F. rewrite Forall_forall in F. specialize (F _ I). lia. }
  unfold l in N. rewrite in_app_iff in N. split; [tauto|]. apply aget_none. tauto.
Qed.
Lemma ended_dec t : ended t \/ ~ ended t.
Proof. unfold ended. destruct (tpc t), (tops t); (left; split; reflexivity) || (right; intros [A B]; discriminate). Qed.
Lemma conc_progress w progs st : history w -> Forall (Forall store_op) progs -> creach (conc_start w progs) st ->
  (exists t, In t (cthr st) /\ ~ ended t) -> exists st', cstep st (Ok st').
Proof.
  intros Hw Fo R (t & It & Ne). destruct (reach_inv _ _ _ Hw Fo R) as (w1 & C). destruct st as [s ts]. cbn in *.
  destruct (fresh_ex s) as (a & Fr).
  assert (Mv : exists i u, nth_error ts i = Some u /\ ~ ended u /\ (smut s = true -> in_pool u)).
  { destruct (smut s) eqn:Em.
    - pose proof (c_lock _ _ _ _ C) as L. unfold lock_inv in L. rewrite Em in L. destruct L as (i & u & Hi & B & _). exists i, u.
      split; [exact Hi|]. pose proof (busy_in _ _ _ B) as Iu. split; [|auto]. intros [E _]. destruct Iu as (j & q & E'). rewrite E in E'. discriminate.
    - apply In_nth_error in It. destruct It as (i & Hi). exists i, t. split; [exact Hi|]. split; [exact Ne|discriminate]. }
  destruct Mv as (i & u & Hi & Nu & Lu). pose proof (step_inv _ _ _ _ _ _ _ C Fr Hi) as P.
  destruct (move a s u) as [[[s' u']| |]|] eqn:E; try contradiction.
  - exists (CState s' (cset ts i u')). exact (cs_ok s ts i u a s' u' Hi Fr E).
  - destruct P as [P|[P1 P2]]; [contradiction|]. destruct (P2 (Lu P1)).
Qed.

Definition qrank (q : qpc) : nat :=
  match q with
  | QPad _ => 10 | QPadSet _ => 9 | QAdd _ => 8 | QFind _ => 7 | QInsert _ => 6 | QEmpty _ => 5 | QHigh _ => 4 | QNew _ => 3
  | QFsm _ _ => 2 | QTop _ => 3 | QPop _ _ => 2 | QGot _ => 1 | QSize _ => 5 | QSlot _ _ => 4 | QPush _ _ => 3 | QPut => 2
  end.
Definition prank (p : pc) : nat :=
  match p with
  | PIdle => 0 | PDelete _ => 1 | PIn _ q => qrank q | PLock (CRestore _) => 6 | PLock _ => 11
  | PTest _ => 7 | PStore _ _ _ => 8 | PLoad _ _ => 9
  end.
Definition trank (t : thr) : nat := 12 * length (tops t) + prank (tpc t).
Lemma move_rank a s t s' t' : move a s t = Some (Ok (s', t')) -> (trank t' < trank t)%nat.
Proof.
  unfold move. destruct t as [h f o p]. cbn [tpc thdl tfld tops]. unfold trank. cbn [tpc tops].
  destruct p as [|j|j q|up k|up k z|k|k].
  - destruct o as [|op r]; [discriminate|]. intros [= _ <-].
    destruct op as [n|k|k|n|k]; cbn [go thdl tfld tops tpc]; try (destruct (nth_error _ k)); cbn [go thdl tfld tops tpc length prank qrank]; lia.
  - destruct (smut s); [discriminate|]. destruct j; try discriminate.
    + intros [= _ <-]. cbn. lia.
    + destruct (nth_error h k); [|discriminate]. intros [= _ <-]. cbn. lia.
  - destruct q as [m|m|m|m|m|k|k|k|k b|k|k b|b|b|b m|b k|]; cbn [pool_move obind].
    all: try (destruct (queue _ _); try discriminate); try (destruct (lower_bound _ _) as [[? ?]|]; try discriminate);
         try (destruct (ppad _ =? 0)); try (destruct j; try discriminate); intros [= _ <-]; cbn; lia.
  - destruct (nth_error h k); [|discriminate]. destruct (aget _ _); [|discriminate]. intros [= _ <-]. cbn. lia.
  - destruct (nth_error h k); [|discriminate]. destruct (aget _ _); [|discriminate]. destruct up; intros [= _ <-]; cbn; lia.
  - destruct (nth_error h k); [|discriminate]. destruct (aget _ _) as [z|]; [|discriminate]. destruct (z =? 0); intros [= _ <-]; cbn; lia.
  - destruct (nth_error h k); [|discriminate]. destruct (aget _ _) as [z|]; [|discriminate]. intros [= _ <-]; cbn; lia.
Qed.
Definition rank (st : cstate) : nat := list_sum (map trank (cthr st)).
Lemma step_rank st st' : cstep st (Ok st') -> (rank st' < rank st)%nat.
Proof.
  intros St. inversion St as [s ts i t a s' t' Hi Fr E|]; subst. apply move_rank in E. unfold rank. cbn.
  destruct (cset_split ts i t Hi) as (l1 & l2 & -> & _ & Ec). rewrite Ec, !map_app, !list_sum_app. cbn [map list_sum fold_right]. lia.
Qed.
Lemma conc_bounded w progs n st : csteps n (conc_start w progs) st -> (n <= 12 * list_sum (map (@length cop) progs))%nat.
Proof.
  intros R. assert (G : forall a b k, csteps k a b -> (k + rank b <= rank a)%nat).
  { clear. intros a b k R. induction R as [|k x y z St R IH]; [lia|]. apply step_rank in St. lia. }
  apply G in R. assert (E : rank (conc_start w progs) = (12 * list_sum (map (@length cop) progs))%nat).
  { unfold rank. cbn [conc_start cthr]. clear. induction progs as [|p l IH]; [reflexivity|]. cbn [map list_sum fold_right] in *. 
    unfold list_sum in *. cbn [map fold_right]. rewrite IH. unfold trank. cbn [tops tpc prank]. lia. }
  lia.
Qed.
