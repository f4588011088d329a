(** Proofs about the lifetime of a thread pool: the counts. *)
From Verif Require Import Prelude ShutM LifeM LifeS.

Definition alive_n (ws : list worker) : Z := Z.of_nat (length (filter (fun w => 0 <? w_rc w) ws)).
Definition thr_n (t : tstate) : Z := match t with Exited => 0 | _ => 1 end.
Definition occ (i : nat) (l : list nat) : Z := Z.of_nat (count_occ Nat.eq_dec l i).
Definition b2z (b : bool) : Z := if b then 1 else 0.

Lemma upd_length i g l : length (upd_w i g l) = length l.
Proof. revert i; induction l; destruct i; simpl; auto. Qed.
Lemma upd_nth i g l j : nth_error (upd_w i g l) j = if Nat.eqb i j then option_map g (nth_error l j) else nth_error l j.
Proof.
  revert i j; induction l as [|w l IH]; destruct i, j; simpl; auto.
  destruct (Nat.eqb i j); auto.
Qed.
Lemma alive_nonneg l : 0 <= alive_n l.
Proof. unfold alive_n; lia. Qed.
Lemma alive_cons w l : alive_n (w :: l) = b2z (0 <? w_rc w) + alive_n l.
Proof. unfold alive_n; simpl; destruct (0 <? w_rc w); cbn [b2z length]; lia. Qed.
Lemma alive_app l k : alive_n (l ++ k) = alive_n l + alive_n k.
Proof. unfold alive_n; rewrite filter_app, app_length; lia. Qed.
Lemma alive_upd i g l w : nth_error l i = Some w -> alive_n (upd_w i g l) = alive_n l - b2z (0 <? w_rc w) + b2z (0 <? w_rc (g w)).
Proof.
  revert i; induction l as [|x l IH]; intros [|i]; simpl; try discriminate.
  - intros [= ->]; rewrite !alive_cons; lia.
  - intros H; rewrite !alive_cons, (IH _ H); lia.
Qed.
Lemma alive_pos i l w : nth_error l i = Some w -> 0 < w_rc w -> 1 <= alive_n l.
Proof.
  revert i; induction l as [|x l IH]; intros [|i]; simpl; try discriminate; rewrite alive_cons.
  - intros [= ->] H; pose proof (alive_nonneg l); destruct (Z.ltb_spec 0 (w_rc w)); cbn [b2z]; lia.
  - intros H R; pose proof (IH _ H R); destruct (0 <? w_rc x); cbn [b2z]; lia.
Qed.
Lemma alive_zero l : (forall i w, nth_error l i = Some w -> w_rc w <= 0) -> alive_n l = 0.
Proof.
  induction l as [|x l IH]; intros H; [reflexivity|].
  rewrite alive_cons, IH by (intros i w; apply (H (S i))).
  pose proof (H 0%nat x eq_refl); destruct (Z.ltb_spec 0 (w_rc x)); cbn [b2z]; lia.
Qed.
Lemma occ_in i l : In i l <-> 1 <= occ i l.
Proof. unfold occ; rewrite (count_occ_In Nat.eq_dec); lia. Qed.
Lemma occ_out i l : ~ In i l -> occ i l = 0.
Proof. unfold occ; intros; rewrite (proj1 (count_occ_not_In Nat.eq_dec _ _)); auto. Qed.
Lemma occ_nonneg i l : 0 <= occ i l.
Proof. unfold occ; lia. Qed.
Lemma occ_app i l k : occ i (l ++ k) = occ i l + occ i k.
Proof. unfold occ; rewrite count_occ_app; lia. Qed.
Lemma occ_cons i j l : occ i (j :: l) = (if Nat.eqb j i then 1 else 0) + occ i l.
Proof. unfold occ; simpl; destruct (Nat.eq_dec j i), (Nat.eqb_spec j i); try congruence; lia. Qed.

(** The counts when k pointers to the core are held elsewhere, with e i extra
    pointers to worker i. *)
Definition counts (st : life) (k : Z) (e : nat -> Z) : Prop :=
  core_rc st = k + alive_n (l_ws st) /\ core_freed st = (if core_rc st =? 0 then 1 else 0) /\
  (forall i, In i (l_term st) -> (i < length (l_ws st))%nat) /\
  (forall i w, nth_error (l_ws st) i = Some w -> w_rc w = thr_n (w_thr w) + occ i (l_term st) + e i).
Definition none (i : nat) : Z := 0.
(** The same but for the counts. *)
Definition same (a b : life) : Prop :=
  ctl_rc a = ctl_rc b /\ shut_calls a = shut_calls b /\ l_phase a = l_phase b /\ l_flag a = l_flag b /\ l_term a = l_term b /\
  map w_thr (l_ws a) = map w_thr (l_ws b).
Lemma same_refl a : same a a.
Proof. repeat split. Qed.
Lemma same_trans a b c : same a b -> same b c -> same a c.
Proof. unfold same; intuition congruence. Qed.

Lemma held st k e : counts st k e -> 1 <= k -> (core_freed st =? 0) = true.
Proof.
  intros (A & B & _) K. pose proof (alive_nonneg (l_ws st)). rewrite B. destruct (Z.eqb_spec (core_rc st) 0); [lia|reflexivity].
Qed.
Lemma release_core_spec st k e : counts st k e -> 1 <= k -> (forall i, 0 <= e i) ->
  exists st', release_core st = Ok st' /\ counts st' (k - 1) e /\ same st' st /\ l_ws st' = l_ws st.
Proof.
  intros C K E. unfold release_core. rewrite (held _ _ _ C K).
  pose proof (held _ _ _ C K) as F. apply Z.eqb_eq in F.
  destruct C as (A & B & D & R). pose proof (alive_nonneg (l_ws st)).
  destruct (Z.eqb_spec (core_rc st) 1) as [H1|H1].
  - assert (T : l_term st = []).
    { destruct (l_term st) as [|i t] eqn:T; [reflexivity|exfalso].
      assert (I : In i (i :: t)) by (left; reflexivity).
      pose proof (D _ I) as L. destruct (nth_error (l_ws st) i) as [w|] eqn:N; [|apply nth_error_None in N; lia].
      pose proof (R _ _ N) as W. apply occ_in in I. specialize (E i).
      assert (0 <= thr_n (w_thr w)) by (destruct (w_thr w); cbn; lia).
      pose proof (alive_pos _ _ _ N ltac:(lia)). lia. }
    rewrite T. exists (with_core st 0 (core_freed st + 1)). split; [reflexivity|]. split; [|split; [repeat split|reflexivity]].
    unfold counts, with_core; cbn [core_rc core_freed l_term l_ws]. split; [lia|]. split; [cbn; lia|]. split; assumption.
  - exists (with_core st (core_rc st - 1) (core_freed st)). split; [reflexivity|]. split; [|split; [repeat split|reflexivity]].
    unfold counts, with_core; cbn [core_rc core_freed l_term l_ws]. split; [lia|].
    split; [destruct (Z.eqb_spec (core_rc st - 1) 0); lia|]. split; assumption.
Qed.

Definition less (e : nat -> Z) (i : nat) (j : nat) : Z := if Nat.eqb i j then e j - 1 else e j.
Lemma release_worker_spec st k e i : counts st k e -> 0 <= k -> (forall j, 0 <= e j) -> 1 <= e i -> (i < length (l_ws st))%nat ->
  exists st', release_worker st i = Ok st' /\ counts st' k (less e i) /\ same st' st.
Proof.
  intros C K E Ei L. unfold release_worker.
  destruct (nth_error (l_ws st) i) as [w|] eqn:N; [|apply nth_error_None in N; lia].
  pose proof C as (A & B & D & R). pose proof (R _ _ N) as W.
  assert (0 <= thr_n (w_thr w)) by (destruct (w_thr w); cbn; lia). pose proof (occ_nonneg i (l_term st)).
  assert (M : map w_thr (upd_w i lower (l_ws st)) = map w_thr (l_ws st)).
  { clear; generalize (l_ws st); intros l; revert i; induction l; destruct i; cbn; f_equal; auto. }
  pose proof (alive_upd _ lower _ _ N) as U. cbn [w_rc lower] in U.
  set (st1 := with_ws st (l_term st) (upd_w i lower (l_ws st))).
  assert (S1 : same st1 st) by (repeat split; exact M).
  assert (R1 : forall j v, nth_error (l_ws st1) j = Some v -> w_rc v = thr_n (w_thr v) + occ j (l_term st1) + less e i j).
  { intros j v. unfold st1, with_ws; cbn [l_ws l_term]. rewrite upd_nth. unfold less. destruct (Nat.eqb_spec i j) as [<-|].
    - rewrite N; cbn. intros [= <-]; cbn. lia.
    - apply R. }
  assert (D1 : forall j, In j (l_term st1) -> (j < length (l_ws st1))%nat).
  { unfold st1, with_ws; cbn [l_ws l_term]. rewrite upd_length. exact D. }
  assert (E1 : forall j, 0 <= less e i j).
  { intros j; unfold less; destruct (Nat.eqb_spec i j) as [<-|]; [lia|apply E]. }
  destruct (Z.eqb_spec (w_rc w) 1) as [H1|H1].
  - assert (C1 : counts st1 (k + 1) (less e i)).
    { unfold counts. split; [|split; [exact B|split; assumption]].
      unfold st1, with_ws; cbn [l_ws core_rc]. rewrite U. rewrite H1 in *; cbn [b2z]. cbn. lia. }
    destruct (release_core_spec _ _ _ C1 ltac:(lia) E1) as (st' & P & C' & S' & _).
    exists st'. split; [exact P|]. split; [replace k with (k + 1 - 1) by lia; exact C'|]. eapply same_trans; eassumption.
  - exists st1. split; [reflexivity|]. split; [|exact S1].
    unfold counts. split; [|split; [exact B|split; assumption]].
    unfold st1, with_ws; cbn [l_ws core_rc]. rewrite U.
    destruct (Z.ltb_spec 0 (w_rc w)), (Z.ltb_spec 0 (w_rc w - 1)); cbn [b2z]; lia.
Qed.

Lemma counts_ext st k e e' : (forall i, e i = e' i) -> counts st k e -> counts st k e'.
Proof. intros H (A & B & D & R). repeat split; auto. intros i w N. rewrite <- H. apply R; exact N. Qed.

Lemma release_workers_spec l : forall st k, counts st k (fun i => occ i l) -> 0 <= k -> (forall i, In i l -> (i < length (l_ws st))%nat) ->
  exists st', release_workers st l = Ok st' /\ counts st' k none /\ same st' st.
Proof.
  induction l as [|i l IH]; intros st k C K L.
  - exists st. split; [reflexivity|]. split; [|apply same_refl]. eapply counts_ext; [|exact C]. reflexivity.
  - cbn [release_workers].
    destruct (release_worker_spec _ _ _ i C K) as (st1 & P & C1 & S1).
    + intros; apply occ_nonneg.
    + apply occ_in; left; reflexivity.
    + apply L; left; reflexivity.
    + rewrite P; cbn [obind].
      destruct (IH st1 k) as (st' & P' & C' & S').
      * eapply counts_ext; [|exact C1]. intros j; unfold less; cbv beta. rewrite occ_cons. destruct (Nat.eqb i j); lia.
      * exact K.
      * intros j J. destruct S1 as (_ & _ & _ & _ & _ & M). apply (f_equal (@length _)) in M. rewrite !map_length in M.
        rewrite M. apply L; right; exact J.
      * exists st'. split; [exact P'|]. split; [exact C'|]. eapply same_trans; eassumption.
Qed.
