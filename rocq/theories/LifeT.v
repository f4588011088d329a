(** Proofs about the lifetime of a thread pool: histories. *)
From Verif Require Import Prelude ShutM LifeM LifeS LifeP.

Definition phase_n (p : phase) : Z := match p with NotCalled => 1 | Called | Flagged => 2 | Returned => 0 end.
Definition held_n (w : lworld) : Z := Z.of_nat (lw_h w) + Z.of_nat (lw_c w) + phase_n (l_phase (lw_st w)).
Record inv (pol : policy) (w : lworld) : Prop := {
  i_counts : counts (lw_st w) (held_n w) none;
  i_ctl : ctl_rc (lw_st w) = Z.of_nat (lw_h w);
  i_shut : shut_calls (lw_st w) = if Nat.eqb (lw_h w) 0 then 1 else 0;
  i_phase : l_phase (lw_st w) = NotCalled <-> (0 < lw_h w)%nat;
  i_flag : l_flag (lw_st w) = match l_phase (lw_st w) with Flagged | Returned => true | _ => false end;
  i_term : l_flag (lw_st w) = false -> l_term (lw_st w) = [];
  i_wait : pol <> Immediately -> l_phase (lw_st w) = Returned -> l_term (lw_st w) = [] /\ at_work (lw_st w) = false;
  i_now : pol = Immediately -> (l_phase (lw_st w) = NotCalled \/ l_phase (lw_st w) = Returned) /\
          (l_phase (lw_st w) = Returned -> (lw_left w = true <-> at_work (lw_st w) = true \/ l_term (lw_st w) <> [])) }.

Lemma thr_map st i : thr st i = nth_error (map w_thr (l_ws st)) i.
Proof. unfold thr. rewrite nth_error_map. reflexivity. Qed.
Definition is_running (t : tstate) : bool := match t with Running => true | _ => false end.
Lemma at_work_map st : at_work st = existsb is_running (map w_thr (l_ws st)).
Proof. unfold at_work. induction (l_ws st); cbn; f_equal; auto. Qed.
Lemma same_work a b : same a b -> at_work a = at_work b.
Proof. intros (_ & _ & _ & _ & _ & M). rewrite !at_work_map, M. reflexivity. Qed.
Lemma at_work_true st : at_work st = true <-> exists i, thr st i = Some Running.
Proof.
  rewrite at_work_map, existsb_exists. split.
  - intros (t & I & T). apply In_nth_error in I as (i & N). exists i. rewrite thr_map, N. destruct t; try discriminate; reflexivity.
  - intros (i & T). rewrite thr_map in T. exists Running. split; [eapply nth_error_In; eassumption|reflexivity].
Qed.

Lemma use_ok st k e : counts st k e -> 1 <= core_rc st -> use_core st = Ok st.
Proof. intros (_ & B & _) H. unfold use_core. rewrite B. destruct (Z.eqb_spec (core_rc st) 0); [lia|reflexivity]. Qed.
Lemma use_held st k e : counts st k e -> 1 <= k -> use_core st = Ok st.
Proof. intros C H. unfold use_core. rewrite (held _ _ _ C H). reflexivity. Qed.

Lemma after_spec st k : counts st k none -> 2 <= k ->
  exists st', after_shutdown st = Ok st' /\ counts st' (k - 2) none /\ same st' (with_phase st Returned).
Proof.
  intros C K. unfold after_shutdown.
  destruct (release_core_spec (with_phase st Returned) k none) as (s1 & P & C1 & S1 & _); [exact C|lia|unfold none; lia|].
  rewrite P; cbn [obind].
  destruct (release_core_spec s1 (k - 1) none) as (s2 & P2 & C2 & S2 & _); [exact C1|lia|unfold none; lia|].
  exists s2. split; [exact P2|]. split; [replace (k - 2) with (k - 1 - 1) by lia; exact C2|]. eapply same_trans; eassumption.
Qed.

Lemma counts_k st k k' e : k = k' -> counts st k e -> counts st k' e.
Proof. intros ->; auto. Qed.
Lemma bump st k : counts st k none -> 1 <= k -> counts (with_core st (core_rc st + 1) (core_freed st)) (k + 1) none.
Proof.
  intros (A & B & D & R) K. pose proof (alive_nonneg (l_ws st)). unfold counts; cbn [with_core core_rc core_freed l_ws l_term].
  split; [lia|]. split; [|split; assumption]. rewrite B. destruct (Z.eqb_spec (core_rc st) 0), (Z.eqb_spec (core_rc st + 1) 0); lia.
Qed.

(** A step that keeps phase, flag, list of ended workers and threads. *)
Lemma keep pol w st h c left : inv pol w -> l_phase st = l_phase (lw_st w) -> l_flag st = l_flag (lw_st w) ->
  l_term st = l_term (lw_st w) -> at_work st = at_work (lw_st w) -> left = lw_left w ->
  ((0 < h)%nat <-> (0 < lw_h w)%nat) -> ctl_rc st = Z.of_nat h -> shut_calls st = shut_calls (lw_st w) ->
  counts st (Z.of_nat h + Z.of_nat c + phase_n (l_phase st)) none -> inv pol (LWorld st h c left).
Proof.
  intros I P F T A -> H R S C. destruct I. constructor; cbn [lw_st lw_h lw_c lw_left]; rewrite ?P, ?F, ?T, ?A, ?R, ?S; auto.
  - rewrite i_shut0. destruct (Nat.eqb_spec (lw_h w) 0), (Nat.eqb_spec h 0); try reflexivity; lia.
  - rewrite i_phase0. symmetry; exact H.
Qed.

Lemma new_inv pol : inv pol lworld_new.
Proof.
  constructor; cbn; auto; try discriminate; try (split; auto; lia); try (split; [auto|discriminate]).
  split; [reflexivity|]. split; [reflexivity|]. split; [intros i []|]. intros i w N. cbn in N. destruct i; discriminate.
Qed.

Lemma add_inv pol w : inv pol w -> 1 <= core_rc (lw_st w) ->
  exists st, add_worker (lw_st w) = Ok st /\ inv pol (LWorld st (lw_h w) (lw_c w) (lw_left w)).
Proof.
  intros I A. pose proof I as [C CT SH PH FL TE WT NW].
  unfold held_n in C.
  unfold add_worker.
  rewrite (use_ok _ _ _ C A); cbn [obind].
  destruct (l_flag (lw_st w)) eqn:F.
  + eexists; split; [reflexivity|]. apply (keep pol w); auto; lia.
  + eexists; split; [reflexivity|].
    assert (T0 : l_term (lw_st w) = []) by (apply TE; reflexivity).
    destruct C as (C1 & C2 & C3 & C4). pose proof (alive_nonneg (l_ws (lw_st w))).
    constructor; cbn; auto.
    * unfold held_n, counts; cbn. rewrite alive_app. change (alive_n [Worker Running 1]) with 1.
      split; [lia|]. split; [rewrite C2; destruct (Z.eqb_spec (core_rc (lw_st w)) 0), (Z.eqb_spec (core_rc (lw_st w) + 1) 0); lia|].
      rewrite T0. split; [intros i []|]. intros i x N.
      destruct (Nat.lt_ge_cases i (length (l_ws (lw_st w)))) as [L|L].
      -- rewrite nth_error_app1 in N by exact L. rewrite (C4 _ _ N), T0. reflexivity.
      -- rewrite nth_error_app2 in N by exact L. destruct (i - length (l_ws (lw_st w)))%nat as [|[|]]; cbn in N; try discriminate.
         injection N as <-. reflexivity.
    * rewrite F; auto.
    * intros _ P. rewrite P in FL. discriminate.
    * intros P. split; [apply NW; exact P|]. intros Q. rewrite Q in FL. discriminate.
Qed.

Lemma end_inv pol w i : inv pol w -> thr (lw_st w) i = Some Running ->
  exists st, worker_end (lw_st w) i = Ok st /\ inv pol (LWorld st (lw_h w) (lw_c w) (lw_left w)) /\ core_rc st = core_rc (lw_st w) /\ 1 <= core_rc st.
Proof.
  intros I A. pose proof I as [C CT SH PH FL TE WT NW].
  unfold held_n in C.
  assert (PN : 0 <= phase_n (l_phase (lw_st w))) by (destruct (l_phase (lw_st w)); cbn; lia).
  unfold worker_end.
  unfold thr in A. destruct (nth_error (l_ws (lw_st w)) i) as [x|] eqn:N; [|discriminate]. cbn in A. injection A as A.
  assert (AW : at_work (lw_st w) = true) by (apply at_work_true; exists i; unfold thr; rewrite N; cbn; congruence).
  pose proof C as (C1 & C2 & C3 & C4). pose proof (C4 _ _ N) as W. rewrite A in W. cbn [thr_n] in W. unfold none in W.
  pose proof (occ_nonneg i (l_term (lw_st w))). pose proof (alive_pos _ _ _ N ltac:(lia)).
  rewrite (use_ok _ _ _ C ltac:(lia)); cbn [obind].
  assert (LT : (i < length (l_ws (lw_st w)))%nat) by (apply nth_error_Some; congruence).
  destruct (l_flag (lw_st w)) eqn:F.
  + eexists; split; [reflexivity|]; split; [|split; [reflexivity|cbn; lia]]. constructor; cbn; auto.
    * unfold held_n, counts; cbn.
      assert (N' : nth_error (upd_w i (fun y => Worker Ended (w_rc y)) (l_ws (lw_st w))) i = Some (Worker Ended (w_rc x)))
        by (rewrite upd_nth, Nat.eqb_refl, N; reflexivity).
      rewrite (alive_upd _ _ _ _ N'), (alive_upd _ _ _ _ N). cbn [raise w_rc].
      split; [destruct (Z.ltb_spec 0 (w_rc x)), (Z.ltb_spec 0 (w_rc x + 1)); cbn [b2z]; lia|]. split; [exact C2|].
      rewrite !upd_length. split.
      -- intros j J. apply in_app_iff in J as [J|[<-|[]]]; auto.
      -- intros j y. rewrite occ_app, occ_cons, !upd_nth. destruct (Nat.eqb_spec i j) as [<-|].
         ++ rewrite N. cbn [option_map]. intros [= <-]. cbn [raise w_rc w_thr thr_n]. change (occ i []) with 0. unfold none. lia.
         ++ intros J. rewrite (C4 _ _ J). change (occ j []) with 0. lia.
    * rewrite F; auto.
    * congruence.
    * intros P Q. specialize (WT P Q). destruct WT. congruence.
    * intros P. split; [apply NW; exact P|]. intros Q. rewrite (proj2 (NW P) Q). split; intros _; [right|left; exact AW].
      destruct (l_term (lw_st w)); discriminate.
  + eexists; split; [reflexivity|]; split; [|split; [reflexivity|cbn; lia]]. constructor; cbn; auto.
    * unfold held_n, counts; cbn. rewrite (alive_upd _ _ _ _ N). cbn [w_rc].
      split; [lia|]. split; [exact C2|]. rewrite upd_length. split; [exact C3|].
      intros j y. rewrite upd_nth. destruct (Nat.eqb_spec i j) as [<-|].
      -- rewrite N. cbn [option_map]. intros [= <-]. cbn [w_rc w_thr thr_n]. unfold none. lia.
      -- apply C4.
    * rewrite F; auto.
    * intros _ P. rewrite P in FL. discriminate.
    * intros P. split; [apply NW; exact P|]. intros Q. rewrite Q in FL. discriminate.
Qed.

Lemma step_inv pol w o : inv pol w -> lallowed w o -> exists st, lstep pol (lw_st w) o = Ok st /\ inv pol (lnext w o st).
Proof.
  intros I A. pose proof I as [C CT SH PH FL TE WT NW].
  assert (PN : 0 <= phase_n (l_phase (lw_st w))) by (destruct (l_phase (lw_st w)); cbn; lia).
  unfold held_n in C.
  assert (N0 : forall i, 0 <= none i) by (unfold none; lia).
  destruct o as [ | | | | | |i|i|i| | ]; cbn [lallowed] in A; cbn [lstep lnext].
  - (* HCopy *)
    rewrite (use_held _ _ _ C ltac:(lia)); cbn [obind]. eexists; split; [reflexivity|].
    apply (keep pol w); auto; try (cbn; lia).
    eapply counts_k; [|exact (bump _ _ C ltac:(lia))]. cbn [l_phase with_ctl with_core]. lia.
  - (* HDrop *)
    assert (PNC : l_phase (lw_st w) = NotCalled) by (apply PH; exact A).
    rewrite PNC in *. cbn [phase_n] in C.
    destruct (Z.eqb_spec (ctl_rc (lw_st w)) 1) as [H1|H1].
    + assert (H : lw_h w = 1%nat) by lia. rewrite H in *.
      set (s0 := with_ctl (lw_st w) 0 (shut_calls (lw_st w) + 1)).
      assert (C0 : counts s0 (Z.of_nat 1 + Z.of_nat (lw_c w) + 1) none) by exact C.
      rewrite (use_held _ _ _ C0 ltac:(lia)); cbn [obind Nat.eqb Nat.pred].
      assert (TE0 : l_term (lw_st w) = []) by (apply TE; exact FL).
      destruct (match pol with Immediately => true | _ => false end) eqn:PB.
      * assert (pol = Immediately) as -> by (destruct pol; congruence).
        assert (C0' : counts (with_flag s0) (Z.of_nat 1 + Z.of_nat (lw_c w) + 1) none) by exact C.
        destruct (after_spec _ _ C0' ltac:(lia)) as (st & P & C' & S). exists st. split; [exact P|].
        pose proof (same_work _ _ S) as AW. destruct S as (S1 & S2 & S3 & S4 & S5 & S6). cbn in S1, S2, S3, S4, S5.
        constructor; cbn [lw_st lw_h lw_c lw_left]; rewrite ?S1, ?S2, ?S3, ?S4, ?S5; cbn; auto; try discriminate; try congruence.
        -- unfold held_n; cbn [lw_st lw_h lw_c]. rewrite S3. cbn [phase_n]. replace (Z.of_nat 0 + Z.of_nat (lw_c w) + 0) with (Z.of_nat 1 + Z.of_nat (lw_c w) + 1 - 2) by lia. exact C'.
        -- cbn in SH. lia.
        -- split; [discriminate|lia].
        -- intros _. split; [auto|]. intros _. rewrite AW, TE0. change (at_work (with_phase (with_flag s0) Returned)) with (at_work (lw_st w)). intuition congruence.
      * exists (with_phase s0 Called). split; [destruct pol; try reflexivity; discriminate|].
        constructor; cbn [lw_st lw_h lw_c lw_left with_phase l_phase l_flag l_term s0 with_ctl ctl_rc shut_calls]; auto; try discriminate.
        -- unfold held_n; cbn [lw_st lw_h lw_c with_phase l_phase phase_n]. replace (Z.of_nat 0 + Z.of_nat (lw_c w) + 2) with (Z.of_nat 1 + Z.of_nat (lw_c w) + 1) by lia. exact C.
        -- cbn in SH. cbn. lia.
        -- split; [discriminate|lia].
        -- intros ->. discriminate.
    + set (s0 := with_ctl (lw_st w) (ctl_rc (lw_st w) - 1) (shut_calls (lw_st w))).
      assert (C0 : counts s0 (Z.of_nat (lw_h w) + Z.of_nat (lw_c w) + 1) none) by exact C.
      destruct (release_core_spec _ _ _ C0 ltac:(lia) N0) as (st & P & C' & S & _). exists st. split; [exact P|].
      pose proof (same_work _ _ S) as AW. destruct S as (S1 & S2 & S3 & S4 & S5 & S6).
      destruct (Nat.eqb_spec (lw_h w) 1); [lia|].
      apply (keep pol w); auto; try lia.
      * rewrite S1. cbn. lia.
      * rewrite S3. cbn [s0 with_ctl l_phase]. rewrite PNC. cbn [phase_n].
        replace (Z.of_nat (Nat.pred (lw_h w)) + Z.of_nat (lw_c w) + 1) with (Z.of_nat (lw_h w) + Z.of_nat (lw_c w) + 1 - 1) by lia. exact C'.
  - (* CGet *)
    rewrite (use_held _ _ _ C ltac:(lia)); cbn [obind]. eexists; split; [reflexivity|].
    apply (keep pol w); auto; try (cbn; lia).
    eapply counts_k; [|exact (bump _ _ C ltac:(lia))]. cbn [l_phase with_ctl with_core]. lia.
  - (* CCopy *)
    rewrite (use_held _ _ _ C ltac:(lia)); cbn [obind]. eexists; split; [reflexivity|].
    apply (keep pol w); auto; try (cbn; lia).
    eapply counts_k; [|exact (bump _ _ C ltac:(lia))]. cbn [l_phase with_ctl with_core]. lia.
  - (* CDrop *)
    destruct (release_core_spec _ _ _ C ltac:(lia) N0) as (st & P & C' & S & _). exists st. split; [exact P|].
    pose proof (same_work _ _ S) as AW. destruct S as (S1 & S2 & S3 & S4 & S5 & S6).
    apply (keep pol w); auto; try lia.
    rewrite S3. replace (Z.of_nat (lw_h w) + Z.of_nat (Nat.pred (lw_c w)) + phase_n (l_phase (lw_st w))) with (Z.of_nat (lw_h w) + Z.of_nat (lw_c w) + phase_n (l_phase (lw_st w)) - 1) by lia. exact C'.
  - (* Resize *)
    apply add_inv; [exact I|]. destruct C as (C1 & _). pose proof (alive_nonneg (l_ws (lw_st w))). lia.
  - (* WEnd *)
    destruct (end_inv pol w i I A) as (st & P & J & _). exists st. auto.
  - (* WDie *)
    destruct (end_inv pol w i I A) as (s1 & P & J & _ & K). rewrite P; cbn [obind].
    exact (add_inv pol (LWorld s1 (lw_h w) (lw_c w) (lw_left w)) J K).
  - (* WExit *)
    unfold thr in A. destruct (nth_error (l_ws (lw_st w)) i) as [x|] eqn:N; [|discriminate]. cbn in A. injection A as A.
    pose proof C as (C1 & C2 & C3 & C4). pose proof (C4 _ _ N) as W. rewrite A in W. cbn [thr_n] in W. unfold none in W.
    assert (LT : (i < length (l_ws (lw_st w)))%nat) by (apply nth_error_Some; congruence).
    set (s0 := with_ws (lw_st w) (l_term (lw_st w)) (upd_w i (fun y => Worker Exited (w_rc y)) (l_ws (lw_st w)))).
    assert (AW0 : at_work s0 = at_work (lw_st w)).
    { unfold at_work, s0, with_ws; cbn [l_ws]. clear - N A. revert i N. induction (l_ws (lw_st w)) as [|y l IH]; intros [|i] N; cbn in *; try discriminate.
      - injection N as ->. rewrite A. reflexivity.
      - f_equal. apply IH; exact N. }
    assert (C0 : counts s0 (Z.of_nat (lw_h w) + Z.of_nat (lw_c w) + phase_n (l_phase (lw_st w))) (fun j => if Nat.eqb i j then 1 else 0)).
    { unfold counts, s0; cbn. rewrite (alive_upd _ _ _ _ N). cbn [w_rc]. split; [lia|]. split; [exact C2|]. rewrite upd_length. split; [exact C3|].
      intros j y. rewrite upd_nth. destruct (Nat.eqb_spec i j) as [<-|].
      - rewrite N. cbn [option_map]. intros [= <-]. cbn [w_rc w_thr thr_n]. lia.
      - intros J. rewrite (C4 _ _ J). unfold none. lia. }
    destruct (release_worker_spec s0 _ _ i C0) as (st & P & C' & S).
    + lia.
    + intros j; cbv beta; destruct (Nat.eqb i j); lia.
    + cbv beta. rewrite Nat.eqb_refl. lia.
    + unfold s0; cbn. rewrite upd_length. exact LT.
    + exists st. split; [exact P|].
      pose proof (same_work _ _ S) as AW. destruct S as (S1 & S2 & S3 & S4 & S5 & S6).
      apply (keep pol w); auto; try lia.
      * congruence.
      * rewrite S1. exact CT.
      * rewrite S3. cbn [s0 with_ws l_phase]. eapply counts_ext; [|exact C']. intros j. unfold less, none. destruct (Nat.eqb i j); lia.
  - (* SFlag *)
    rewrite A in *. cbn [phase_n] in C.
    rewrite (use_held _ _ _ C ltac:(lia)); cbn [obind]. eexists; split; [reflexivity|].
    assert (T0 : l_term (lw_st w) = []) by (apply TE; exact FL).
    constructor; cbn; auto; try discriminate.
    * split; [discriminate|]. intros H. apply PH in H. discriminate.
    * intros P. destruct (NW P) as [[Q|Q] _]; discriminate.
  - (* SJoin *)
    destruct A as (A & AW & EX). rewrite A in *. cbn [phase_n] in C.
    rewrite (use_held _ _ _ C ltac:(lia)); cbn [obind].
    assert (H0 : lw_h w = 0%nat).
    { destruct (lw_h w) eqn:E; [reflexivity|]. assert (X : Flagged = NotCalled) by (apply PH; lia). discriminate. }
    destruct (release_workers_spec (l_term (lw_st w)) (with_ws (lw_st w) [] (l_ws (lw_st w))) (Z.of_nat (lw_h w) + Z.of_nat (lw_c w) + 2)) as (s2 & P & C2 & S2).
    { destruct C as (C1 & C2 & C3 & C4). unfold counts; cbn. split; [exact C1|]. split; [exact C2|]. split; [intros i []|].
      intros i x N. rewrite (C4 _ _ N). unfold none, occ; cbn. lia. }
    { lia. }
    { cbn. apply C. }
    rewrite P; cbn [obind].
    destruct (after_spec _ _ C2 ltac:(lia)) as (st & P' & C' & S').
    exists st. split; [exact P'|].
    pose proof (same_work _ _ S') as AW'. pose proof (same_work _ _ S2) as AW2.
    change (at_work (with_phase s2 Returned)) with (at_work s2) in AW'.
    change (at_work (with_ws (lw_st w) [] (l_ws (lw_st w)))) with (at_work (lw_st w)) in AW2.
    destruct S' as (S1 & S2' & S3 & S4 & S5 & S6). destruct S2 as (R1 & R2 & R3 & R4 & R5 & R6). cbn in S1, S2', S3, S4, S5, R1, R2, R3, R4, R5.
    constructor; cbn [lw_st lw_h lw_c lw_left]; rewrite ?S1, ?S2', ?S3, ?S4, ?S5, ?R1, ?R2, ?R4, ?R5, ?H0; auto.
    + unfold held_n; cbn [lw_st lw_h lw_c]. rewrite S3, H0 in *. cbn [phase_n].
      replace (Z.of_nat 0 + Z.of_nat (lw_c w) + 0) with (Z.of_nat 0 + Z.of_nat (lw_c w) + 2 - 2) by lia. exact C'.
    + rewrite CT, H0; reflexivity.
    + rewrite SH, H0; reflexivity.
    + split; [discriminate|lia].
    + intros _ _. split; [reflexivity|]. congruence.
    + intros Q. destruct (NW Q) as [[X|X] _]; discriminate.
Qed.

Lemma lhist_inv pol w : lhistory pol w -> inv pol w.
Proof.
  induction 1 as [|w o st _ IH A P]; [apply new_inv|].
  destruct (step_inv _ _ _ IH A) as (st' & P' & I). rewrite P in P'. injection P' as <-. exact I.
Qed.

Lemma safe pol w o : lhistory pol w -> lallowed w o -> exists st, lstep pol (lw_st w) o = Ok st.
Proof. intros H A. destruct (step_inv _ _ _ (lhist_inv _ _ H) A) as (st & P & _). exists st; exact P. Qed.

Lemma once pol w : lhistory pol w ->
  shut_calls (lw_st w) = (if Nat.eqb (lw_h w) 0 then 1 else 0) /\ (l_phase (lw_st w) = NotCalled <-> (0 < lw_h w)%nat).
Proof. intros H. destruct (lhist_inv _ _ H). auto. Qed.

Lemma returned pol w : lhistory pol w -> pol <> Immediately -> l_phase (lw_st w) = Returned ->
  forall x, In x (l_ws (lw_st w)) -> w_thr x <> Running.
Proof.
  intros H P R x I. destruct (lhist_inv _ _ H). destruct (i_wait0 P R) as (_ & A). intros T.
  assert (at_work (lw_st w) = true); [|congruence]. unfold at_work. apply existsb_exists. exists x. rewrite T. auto.
Qed.

Lemma freed pol w : lhistory pol w ->
  (core_freed (lw_st w) = 0 \/ core_freed (lw_st w) = 1) /\
  (core_freed (lw_st w) = 1 <-> all_gone w /\ (pol = Immediately -> lw_left w = false)).
Proof.
  intros H. destruct (lhist_inv _ _ H) as [C CT SH PH FL TE WT NW].
  pose proof C as (C1 & C2 & C3 & C4). pose proof (alive_nonneg (l_ws (lw_st w))).
  unfold held_n in *. split; [rewrite C2; destruct (core_rc (lw_st w) =? 0); auto|].
  split.
  - intros F. assert (Z0 : core_rc (lw_st w) = 0) by (rewrite C2 in F; destruct (Z.eqb_spec (core_rc (lw_st w)) 0); [assumption|discriminate]).
    assert (PN : 0 <= phase_n (l_phase (lw_st w))) by (destruct (l_phase (lw_st w)); cbn; lia).
    assert (PR : l_phase (lw_st w) = Returned) by (destruct (l_phase (lw_st w)); cbn [phase_n] in C1; try lia; reflexivity).
    assert (DEAD : forall i x, nth_error (l_ws (lw_st w)) i = Some x -> w_thr x = Exited /\ occ i (l_term (lw_st w)) = 0).
    { intros i x N. pose proof (C4 _ _ N) as W. unfold none in W. pose proof (occ_nonneg i (l_term (lw_st w))).
      destruct (Z_lt_le_dec 0 (w_rc x)) as [L|L]; [pose proof (alive_pos _ _ _ N L); lia|].
      destruct (w_thr x); cbn [thr_n] in W; try lia. split; [reflexivity|lia]. }
    assert (TN : l_term (lw_st w) = []).
    { destruct (l_term (lw_st w)) as [|i t] eqn:T; [reflexivity|exfalso]. assert (I : In i (i :: t)) by (left; reflexivity).
      pose proof (C3 _ I). destruct (nth_error (l_ws (lw_st w)) i) as [x|] eqn:N; [|apply nth_error_None in N; lia].
      destruct (DEAD _ _ N) as (_ & O). apply occ_in in I. lia. }
    split; [split; [lia|split; [lia|split; [exact PR|]]]|].
    + intros x I. apply In_nth_error in I as (i & N). apply (DEAD _ _ N).
    + intros P. destruct (NW P) as (_ & Q). specialize (Q PR). destruct (lw_left w); [|reflexivity].
      destruct (proj1 Q eq_refl) as [X|X]; [|congruence]. apply at_work_true in X as (i & X). unfold thr in X.
      destruct (nth_error (l_ws (lw_st w)) i) as [x|] eqn:N; [|discriminate]. destruct (DEAD _ _ N) as (E & _). cbn in X. congruence.
  - intros ((HH & HC & PR & EX) & L).
    assert (TN : l_term (lw_st w) = []).
    { destruct pol; [apply WT; [discriminate|exact PR] .. |].
      destruct (NW eq_refl) as (_ & Q). specialize (Q PR). rewrite (L eq_refl) in Q.
      destruct (l_term (lw_st w)) as [|i t]; [reflexivity|]. exfalso. assert (false = true) by (apply Q; right; discriminate). discriminate. }
    rewrite C2, C1, HH, HC, PR. cbn [phase_n].
    rewrite alive_zero; [reflexivity|]. intros i x N. rewrite (C4 _ _ N), TN, (EX x (nth_error_In _ _ N)). unfold none; cbn. lia.
Qed.

Lemma workers pol w x : lhistory pol w -> pol <> Immediately -> l_phase (lw_st w) = NotCalled \/ l_phase (lw_st w) = Returned ->
  In x (l_ws (lw_st w)) -> w_rc x = match w_thr x with Exited => 0 | _ => 1 end.
Proof.
  intros H P R I. destruct (lhist_inv _ _ H) as [C CT SH PH FL TE WT NW].
  apply In_nth_error in I as (i & N). destruct C as (_ & _ & _ & C4). rewrite (C4 _ _ N).
  assert (T : l_term (lw_st w) = []) by (destruct R as [R|R]; [apply TE; rewrite FL, R; reflexivity|apply WT; assumption]).
  rewrite T. unfold none; cbn. destruct (w_thr x); reflexivity.
Qed.

(** ** The workers and the shutting-down thread get done *)
Lemma core_same st st' : release_core st = Ok st' -> same st' st.
Proof.
  unfold release_core. destruct (core_freed st =? 0); [|discriminate]. destruct (core_rc st =? 1).
  - destruct (l_term st) eqn:T; [|discriminate]. intros [= <-]. repeat split.
  - intros [= <-]. repeat split.
Qed.
Lemma worker_same st i st' : release_worker st i = Ok st' -> same st' st.
Proof.
  unfold release_worker. destruct (nth_error (l_ws st) i) as [w|]; [|discriminate].
  assert (M : same (with_ws st (l_term st) (upd_w i lower (l_ws st))) st).
  { repeat split. cbn. generalize (l_ws st); intros l; revert i; induction l; destruct i; cbn; f_equal; auto. }
  destruct (w_rc w =? 1).
  - intros H. apply core_same in H. eapply same_trans; eassumption.
  - intros [= <-]. exact M.
Qed.
Lemma workers_same l : forall st st', release_workers st l = Ok st' -> same st' st.
Proof.
  induction l as [|i l IH]; intros st st'; cbn [release_workers].
  - intros [= <-]. apply same_refl.
  - destruct (release_worker st i) as [s1| |] eqn:R; cbn [obind]; try discriminate. intros H.
    eapply same_trans; [apply (IH _ _ H)|apply (worker_same _ _ _ R)].
Qed.
Lemma after_same st st' : after_shutdown st = Ok st' -> same st' (with_phase st Returned).
Proof.
  unfold after_shutdown. destruct (release_core (with_phase st Returned)) as [s1| |] eqn:R; cbn [obind]; try discriminate. intros H.
  eapply same_trans; [apply (core_same _ _ H)|apply (core_same _ _ R)].
Qed.
Lemma use_same st st' : use_core st = Ok st' -> st' = st.
Proof. unfold use_core. destruct (core_freed st =? 0); congruence. Qed.

Definition thr_left (t : tstate) : nat := match t with Running => 2 | Ended => 1 | Exited => 0 end.
Definition phase_left (p : phase) : nat := match p with NotCalled => 3 | Called => 2 | Flagged => 1 | Returned => 0 end.
Definition todo (ts : list tstate) (p : phase) : nat := (list_sum (map thr_left ts) + phase_left p)%nat.
Definition left_of (st : life) : nat := todo (map w_thr (l_ws st)) (l_phase st).
Lemma same_left a b : same a b -> left_of a = left_of b.
Proof. intros (_ & _ & P & _ & _ & M). unfold left_of. rewrite P, M. reflexivity. Qed.
Lemma upd_left g l : forall i w, nth_error l i = Some w -> (thr_left (w_thr (g w)) < thr_left (w_thr w))%nat ->
  (list_sum (map thr_left (map w_thr (upd_w i g l))) < list_sum (map thr_left (map w_thr l)))%nat.
Proof.
  induction l as [|x l IH]; intros [|i] w; cbn [upd_w nth_error map list_sum fold_right]; try discriminate.
  - intros [= ->] H. cbn. lia.
  - intros H L. pose proof (IH _ _ H L). unfold list_sum in *. lia.
Qed.
Lemma thr_upd l g : (forall w, w_thr (g w) = w_thr w) -> forall i, map w_thr (upd_w i g l) = map w_thr l.
Proof. intros G. induction l; intros [|i]; cbn; f_equal; auto. Qed.

Lemma own_lowers pol w o st : lallowed w o -> own o -> lstep pol (lw_st w) o = Ok st -> (left_of st < left_of (lw_st w))%nat.
Proof.
  intros A O. destruct o as [ | | | | | |i|i|i| | ]; try contradiction; cbn [lallowed] in A; cbn [lstep].
  - unfold worker_end. destruct (use_core (lw_st w)) as [s1| |] eqn:U; cbn [obind]; try discriminate. apply use_same in U as ->.
    unfold thr in A. destruct (nth_error (l_ws (lw_st w)) i) as [x|] eqn:N; [|discriminate]. injection A as A.
    pose proof (upd_left (fun y => Worker Ended (w_rc y)) _ _ _ N) as L. cbn [w_thr] in L. rewrite A in L. cbn [thr_left] in L. specialize (L ltac:(lia)).
    destruct (l_flag (lw_st w)); intros [= <-]; unfold left_of, todo; cbn [with_ws l_ws l_phase].
    + rewrite (thr_upd _ raise) by reflexivity. lia.
    + lia.
  - unfold thr in A. destruct (nth_error (l_ws (lw_st w)) i) as [x|] eqn:N; [|discriminate]. injection A as A.
    pose proof (upd_left (fun y => Worker Exited (w_rc y)) _ _ _ N) as L. cbn [w_thr] in L. rewrite A in L. cbn [thr_left] in L. specialize (L ltac:(lia)).
    intros H. apply worker_same in H. rewrite (same_left _ _ H). unfold left_of, todo; cbn [with_ws l_ws l_phase]. lia.
  - destruct (use_core (lw_st w)) as [s1| |] eqn:U; cbn [obind]; try discriminate. apply use_same in U as ->.
    intros [= <-]. unfold left_of, todo; cbn [with_phase with_flag l_ws l_phase phase_left]. rewrite A. cbn [phase_left]. lia.
  - destruct A as (A & _).
    destruct (use_core (lw_st w)) as [s1| |] eqn:U; cbn [obind]; try discriminate. apply use_same in U as ->.
    destruct (release_workers (with_ws (lw_st w) [] (l_ws (lw_st w))) (l_term (lw_st w))) as [s2| |] eqn:R; cbn [obind]; try discriminate.
    intros H. apply after_same in H. apply workers_same in R. rewrite (same_left _ _ H).
    destruct R as (_ & _ & _ & _ & _ & M). unfold left_of, todo; cbn [with_phase l_ws l_phase phase_left]. rewrite M, A. cbn [with_ws l_ws phase_left]. lia.
Qed.

(** Unless all is done, one of them can go on. *)
Lemma own_next pol w : lhistory pol w -> lw_h w = 0%nat ->
  (l_phase (lw_st w) = Returned /\ forall x, In x (l_ws (lw_st w)) -> w_thr x = Exited) \/ exists o, own o /\ lallowed w o.
Proof.
  intros H H0. destruct (lhist_inv _ _ H) as [C CT SH PH FL TE WT NW].
  destruct (existsb (fun x => match w_thr x with Exited => false | _ => true end) (l_ws (lw_st w))) eqn:E.
  - right. apply existsb_exists in E as (x & I & T). apply In_nth_error in I as (i & N).
    destruct (w_thr x) eqn:X; try discriminate.
    + exists (WEnd i). split; [exact Logic.I|]. cbn. unfold thr. rewrite N. cbn. congruence.
    + exists (WExit i). split; [exact Logic.I|]. cbn. unfold thr. rewrite N. cbn. congruence.
  - assert (EX : forall x, In x (l_ws (lw_st w)) -> w_thr x = Exited).
    { intros x I. destruct (w_thr x) eqn:X; try reflexivity.
      all: assert (Q : existsb (fun x => match w_thr x with Exited => false | _ => true end) (l_ws (lw_st w)) = true)
        by (apply existsb_exists; exists x; rewrite X; auto); congruence. }
    destruct (l_phase (lw_st w)) eqn:P.
    + exfalso. assert (0 < lw_h w)%nat by (apply PH; reflexivity). lia.
    + right. exists SFlag. split; [exact Logic.I|exact P].
    + right. exists SJoin. split; [exact Logic.I|]. split; [exact P|]. split.
      * destruct (at_work (lw_st w)) eqn:W; [|reflexivity]. apply at_work_true in W as (i & T). unfold thr in T.
        destruct (nth_error (l_ws (lw_st w)) i) as [x|] eqn:N; [|discriminate]. cbn in T. rewrite (EX x (nth_error_In _ _ N)) in T. discriminate.
      * intros i I. destruct C as (_ & _ & C3 & _). pose proof (C3 _ I) as L. unfold thr.
        destruct (nth_error (l_ws (lw_st w)) i) as [x|] eqn:N; [|apply nth_error_None in N; lia]. cbn. rewrite (EX x (nth_error_In _ _ N)). reflexivity.
    + left. auto.
Qed.
Lemma own_keeps w o st : own o -> lw_h (lnext w o st) = lw_h w /\ lw_c (lnext w o st) = lw_c w /\ lw_left (lnext w o st) = lw_left w /\ lw_st (lnext w o st) = st.
Proof. destruct o; try contradiction; intros _; cbn; auto. Qed.

Lemma reclaimed_n pol m : forall w, (left_of (lw_st w) <= m)%nat -> lhistory pol w -> lw_h w = 0%nat -> lw_c w = 0%nat ->
  exists n w', own_steps pol n w w' /\ all_gone w' /\ lw_left w' = lw_left w.
Proof.
  induction m as [|m IH]; intros w N H H0 C0.
  - destruct (own_next _ _ H H0) as [(P & E)|(o & O & A)].
    + exists 0%nat, w. split; [constructor|]. split; [split; [|split; [|split]]|]; auto.
    + destruct (safe _ _ _ H A) as (st & S). pose proof (own_lowers _ _ _ _ A O S). lia.
  - destruct (own_next _ _ H H0) as [(P & E)|(o & O & A)].
    + exists 0%nat, w. split; [constructor|]. split; [split; [|split; [|split]]|]; auto.
    + destruct (safe _ _ _ H A) as (st & S). pose proof (own_lowers _ _ _ _ A O S).
      destruct (own_keeps w o st O) as (K1 & K2 & K3 & K4).
      destruct (IH (lnext w o st)) as (n & w' & R & G & L).
      * rewrite K4. lia.
      * econstructor; eassumption.
      * congruence.
      * congruence.
      * exists (Datatypes.S n), w'. split; [econstructor; eassumption|]. split; [exact G|congruence].
Qed.
Lemma own_hist pol n w w' : own_steps pol n w w' -> lhistory pol w -> lhistory pol w'.
Proof. induction 1; intros; auto. apply IHown_steps. econstructor; eassumption. Qed.

Lemma reclaimed pol w : lhistory pol w -> pol <> Immediately -> lw_h w = 0%nat -> lw_c w = 0%nat ->
  exists n w', own_steps pol n w w' /\ core_freed (lw_st w') = 1.
Proof.
  intros H P H0 C0. destruct (reclaimed_n _ _ _ (le_n _) H H0 C0) as (n & w' & R & G & _).
  exists n, w'. split; [exact R|]. apply (freed _ _ (own_hist _ _ _ _ R H)). split; [exact G|contradiction].
Qed.
(** and they cannot go on for ever. *)
Lemma left_bound st : (left_of st <= 2 * length (l_ws st) + 3)%nat.
Proof.
  unfold left_of, todo. assert (phase_left (l_phase st) <= 3)%nat by (destruct (l_phase st); cbn; lia).
  assert (L : (list_sum (map thr_left (map w_thr (l_ws st))) <= 2 * length (l_ws st))%nat); [|lia].
  induction (l_ws st) as [|x l IH]; cbn [map length]; [cbn; lia|].
  change (thr_left (w_thr x) + list_sum (map thr_left (map w_thr l)) <= 2 * S (length l))%nat. destruct (w_thr x); cbn [thr_left]; lia.
Qed.
Lemma no_longer0 pol w w' n : own_steps pol n w w' -> (n <= left_of (lw_st w))%nat.
Proof.
  induction 1 as [|n w o st w' A O S _ IH]; [lia|].
  pose proof (own_lowers _ _ _ _ A O S). destruct (own_keeps w o st O) as (_ & _ & _ & K). rewrite K in IH. lia.
Qed.
Lemma no_longer pol w w' n : own_steps pol n w w' -> (n <= 2 * length (l_ws (lw_st w)) + 3)%nat.
Proof. intros H. apply no_longer0 in H. pose proof (left_bound (lw_st w)). lia. Qed.

(** ** A worker left behind *)
Definition leak_w : lworld :=
  LWorld (Life 1 0 0 1 Returned true [0%nat] [Worker Exited 1]) 0 0 true.
Lemma leak_hist : lhistory Immediately leak_w.
Proof.
  pose (w1 := lnext lworld_new Resize (Life 3 0 1 0 NotCalled false [] [Worker Running 1])).
  pose (w2 := lnext w1 HDrop (Life 1 0 0 1 Returned true [] [Worker Running 1])).
  pose (w3 := lnext w2 (WEnd 0) (Life 1 0 0 1 Returned true [0%nat] [Worker Ended 2])).
  change leak_w with (lnext w3 (WExit 0) (Life 1 0 0 1 Returned true [0%nat] [Worker Exited 1])).
  apply lh_step; [|reflexivity|reflexivity].
  apply lh_step; [|reflexivity|reflexivity].
  apply lh_step; [|cbn; lia|reflexivity].
  apply lh_step; [apply lh_new|cbn; lia|reflexivity].
Qed.
Lemma leak : lhistory Immediately leak_w /\ all_gone leak_w /\ core_freed (lw_st leak_w) = 0.
Proof.
  split; [exact leak_hist|]. split; [|reflexivity]. repeat split. intros x [<-|[]]. reflexivity.
Qed.
(** A history of a waiting pool in which a controller outlives everything else. *)
Definition late_w : lworld := LWorld (Life 1 0 0 1 Returned true [] [Worker Exited 0]) 0 1 true.
Lemma late_hist : lhistory WaitAll late_w.
Proof.
  pose (w1 := lnext lworld_new CGet (Life 3 0 1 0 NotCalled false [] [])).
  pose (w2 := lnext w1 Resize (Life 4 0 1 0 NotCalled false [] [Worker Running 1])).
  pose (w3 := lnext w2 HDrop (Life 4 0 0 1 Called false [] [Worker Running 1])).
  pose (w4 := lnext w3 SFlag (Life 4 0 0 1 Flagged true [] [Worker Running 1])).
  pose (w5 := lnext w4 (WEnd 0) (Life 4 0 0 1 Flagged true [0%nat] [Worker Ended 2])).
  pose (w6 := lnext w5 (WExit 0) (Life 4 0 0 1 Flagged true [0%nat] [Worker Exited 1])).
  change late_w with (lnext w6 SJoin (Life 1 0 0 1 Returned true [] [Worker Exited 0])).
  apply lh_step; [|split; [reflexivity|split; [reflexivity|intros i [<-|[]]; reflexivity]]|reflexivity].
  apply lh_step; [|reflexivity|reflexivity].
  apply lh_step; [|reflexivity|reflexivity].
  apply lh_step; [|reflexivity|reflexivity].
  apply lh_step; [|cbn; lia|reflexivity].
  apply lh_step; [|cbn; lia|reflexivity].
  apply lh_step; [apply lh_new|cbn; lia|reflexivity].
Qed.

(** ** A task that destroys the last handle of its own pool *)
Lemma same_thr a b i : same a b -> thr a i = thr b i.
Proof. intros (_ & _ & _ & _ & _ & M). rewrite !thr_map, M. reflexivity. Qed.
Lemma same_phase a b : same a b -> l_phase a = l_phase b.
Proof. intros (_ & _ & P & _). exact P. Qed.
Lemma end_thr st i j st' : worker_end st j = Ok st' -> i <> j -> thr st' i = thr st i /\ l_phase st' = l_phase st.
Proof.
  unfold worker_end. destruct (use_core st) as [s1| |] eqn:U; cbn [obind]; try discriminate. apply use_same in U as ->. intros H N.
  destruct (l_flag st); injection H as <-; unfold thr; cbn [with_ws l_ws l_phase]; rewrite !upd_nth;
    destruct (Nat.eqb_spec j i); try congruence; auto.
Qed.
Lemma add_thr st i st' : add_worker st = Ok st' -> (thr st i = Some Running -> thr st' i = Some Running) /\ l_phase st' = l_phase st.
Proof.
  unfold add_worker. destruct (use_core st) as [s1| |] eqn:U; cbn [obind]; try discriminate. apply use_same in U as ->. intros H.
  destruct (l_flag st); injection H as <-; unfold thr; cbn [with_ws l_ws l_phase]; [auto|]. split; [|reflexivity].
  destruct (nth_error (l_ws st) i) eqn:N; [|discriminate]. rewrite nth_error_app1 by (apply nth_error_Some; congruence). rewrite N. auto.
Qed.
Lemma busy_step pol w o st i : pol <> Immediately -> lallowed w o -> o <> WEnd i -> o <> WDie i -> lstep pol (lw_st w) o = Ok st ->
  thr (lw_st w) i = Some Running -> l_phase (lw_st w) <> Returned -> thr st i = Some Running /\ l_phase st <> Returned.
Proof.
  intros PI A N1 N2 H T P. destruct o as [ | | | | | |j|j|j| | ]; cbn [lstep lallowed] in *.
  - destruct (use_core (lw_st w)) as [s1| |] eqn:U; cbn [obind] in H; try discriminate. apply use_same in U as ->. injection H as <-. auto.
  - destruct (ctl_rc (lw_st w) =? 1).
    + destruct (use_core (with_ctl (lw_st w) 0 (shut_calls (lw_st w) + 1))) as [s1| |] eqn:U; cbn [obind] in H; try discriminate. apply use_same in U as ->.
      destruct pol; try congruence; injection H as <-; (split; [exact T|discriminate]).
    + apply core_same in H. rewrite (same_thr _ _ i H), (same_phase _ _ H). auto.
  - destruct (use_core (lw_st w)) as [s1| |] eqn:U; cbn [obind] in H; try discriminate. apply use_same in U as ->. injection H as <-. auto.
  - destruct (use_core (lw_st w)) as [s1| |] eqn:U; cbn [obind] in H; try discriminate. apply use_same in U as ->. injection H as <-. auto.
  - apply core_same in H. rewrite (same_thr _ _ i H), (same_phase _ _ H). auto.
  - destruct (add_thr _ i _ H) as (X & Y). rewrite Y. auto.
  - destruct (end_thr _ i j _ H) as (X & Y); [congruence|]. rewrite X, Y. auto.
  - destruct (worker_end (lw_st w) j) as [s1| |] eqn:E; cbn [obind] in H; try discriminate.
    destruct (end_thr _ i j _ E) as (X & Y); [congruence|]. destruct (add_thr _ i _ H) as (X' & Y'). rewrite Y', Y. split; [apply X'; congruence|exact P].
  - assert (N : i <> j) by (intros <-; congruence). apply worker_same in H. rewrite (same_thr _ _ i H), (same_phase _ _ H).
    unfold thr. cbn [with_ws l_ws l_phase]. rewrite upd_nth. destruct (Nat.eqb_spec j i); [congruence|]. auto.
  - destruct (use_core (lw_st w)) as [s1| |] eqn:U; cbn [obind] in H; try discriminate. apply use_same in U as ->. injection H as <-. split; [exact T|discriminate].
  - exfalso. destruct A as (_ & A & _). assert (at_work (lw_st w) = true) by (apply at_work_true; exists i; exact T). congruence.
Qed.
Lemma self_wait pol i w w' : pol <> Immediately -> busy_run pol i w w' -> thr (lw_st w) i = Some Running -> l_phase (lw_st w) <> Returned ->
  l_phase (lw_st w') <> Returned.
Proof.
  intros PI. induction 1 as [|w o st w' A N1 N2 S _ IH]; intros T P; [exact P|].
  destruct (busy_step _ _ _ _ _ PI A N1 N2 S T P) as (T' & P'). apply IH; destruct o; assumption.
Qed.
Definition busy_w : lworld := LWorld (Life 3 0 0 1 Called false [] [Worker Running 1]) 0 0 true.
Lemma busy_hist : lhistory WaitAll busy_w.
Proof.
  pose (w1 := lnext lworld_new Resize (Life 3 0 1 0 NotCalled false [] [Worker Running 1])).
  change busy_w with (lnext w1 HDrop (Life 3 0 0 1 Called false [] [Worker Running 1])).
  apply lh_step; [|cbn; lia|reflexivity].
  apply lh_step; [apply lh_new|cbn; lia|reflexivity].
Qed.
