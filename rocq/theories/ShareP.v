(** Threads that share the pool: one assignment in a changing memory. *)
From Verif Require Import Prelude WindowM GhostM FieldM MaskM NeboM NeboS NeboP ParM ParS ParP TPoolM TPoolS ShareM ShareS.

Lemma set_split {A} (l : list A) i x : nth_error l i = Some x ->
  exists l1 l2, l = l1 ++ x :: l2 /\ length l1 = i /\ forall y, set_nth l i y = l1 ++ y :: l2.
Proof.
  intros H. destruct (nth_error_split l i H) as (l1 & l2 & -> & <-). exists l1, l2. split; [reflexivity|]. split; [reflexivity|].
  intros y. unfold set_nth. rewrite firstn_app, Nat.sub_diag, firstn_all. cbn [firstn]. rewrite app_nil_r. f_equal. f_equal.
  rewrite skipn_app. replace (S (length l1) - length l1)%nat with 1%nat by lia. rewrite skipn_all2 by lia. reflexivity.
Qed.
Lemma nth_set {A} (l : list A) i x y k : nth_error l i = Some x -> nth_error (set_nth l i y) k = if Nat.eqb k i then Some y else nth_error l k.
Proof.
  intros H. destruct (set_split l i x H) as (l1 & l2 & -> & <- & ->). destruct (Nat.eqb_spec k (length l1)) as [->|N].
  - apply nth_split_eq.
  - apply nth_split_ne. exact N.
Qed.

Section One.
Variable V : Type.
Notation heap := (heap V).
Notation job := (prog V unit).
Variable rdc wrc : nat -> Z -> Prop.       (* what the calling thread and its jobs may read and write *)
Definition fp (b : nat) (x : Z) : Prop := rdc b x \/ wrc b x.

Lemma solo_frame {R} rd wr (p : prog V R) h h' r h2 : solo rd wr p h h' r -> agree V (fun b i => rd b i \/ wr b i) h h2 ->
  exists h2', solo rd wr p h2 h2' r /\ agree V (fun b i => rd b i \/ wr b i) h' h2'.
Proof.
  intros S0. revert h2. induction S0 as [r h|b i k h h' r C D S0 IH|b i v k h h' r C D S0 IH]; intros h2 A.
  - exists h2. split; [constructor|exact A].
  - destruct (IH h2 A) as (h2' & S' & A'). exists h2'. split; [|exact A'].
    constructor; [rewrite (proj1 A); exact C|exact D|]. rewrite (proj2 A) by (left; exact D). exact S'.
  - destruct (IH (upd h2 b i v)) as (h2' & S' & A').
    { destruct A as (A1 & A2). split; [intros; rewrite !upd_cells; apply A1|].
      intros b' i' H. rewrite !upd_data. destruct (Nat.eqb b' b && (i' =? i)); [reflexivity|apply A2; exact H]. }
    exists h2'. split; [|exact A']. constructor; [rewrite (proj1 A); exact C|exact D|exact S'].
Qed.
Lemma solo_cells {R} rd wr (p : prog V R) h h' r b x : solo rd wr p h h' r -> bcells (h' b) x = bcells (h b) x.
Proof. intros S0. induction S0; [reflexivity|assumption|]. rewrite IHS0. apply upd_cells. Qed.
Lemma solo_keeps {R} rd wr (p : prog V R) h h' r b x : solo rd wr p h h' r -> ~ wr b x -> bdata (h' b) x = bdata (h b) x.
Proof.
  intros S0 N. induction S0 as [| |b' i v k h h' r C D S0 IH]; [reflexivity|assumption|]. rewrite IH by exact N. rewrite upd_data.
  destruct (Nat.eqb b b' && (x =? i)) eqn:E; [|reflexivity]. apply andb_true_iff in E as [E1 E2]. apply Nat.eqb_eq in E1. apply Z.eqb_eq in E2. subst. contradiction.
Qed.
Lemma agree_sub (P Q : nat -> Z -> Prop) (h h2 : heap) : (forall b x, Q b x -> P b x) -> agree V P h h2 -> agree V Q h h2.
Proof. intros H (A & B). split; [exact A|]. intros; apply B; auto. Qed.
Lemma agree_refl P (h : heap) : agree V P h h.
Proof. split; reflexivity. Qed.
Lemma agree_trans P (h1 h2 h3 : heap) : agree V P h1 h2 -> agree V P h2 h3 -> agree V P h1 h3.
Proof. intros (A & B) (C & D). split; [intros; rewrite C; apply A|intros; rewrite D by assumption; apply B; assumption]. Qed.
Lemma agree_sym P (h1 h2 : heap) : agree V P h1 h2 -> agree V P h2 h1.
Proof. intros (A & B). split; [intros; symmetry; apply A|intros; symmetry; apply B; assumption]. Qed.
Lemma agree_upd (P : nat -> Z -> Prop) (h : heap) b i v : ~ P b i -> agree V P h (upd h b i v).
Proof.
  intros N. split; [intros; apply upd_cells|]. intros b' i' H. rewrite upd_data. destruct (Nat.eqb b' b && (i' =? i)) eqn:E; [|reflexivity].
  apply andb_true_iff in E as [E1 E2]. apply Nat.eqb_eq in E1. apply Z.eqb_eq in E2. subst. contradiction.
Qed.

(** Jobs that lead from h1 to h' on the caller's part of memory. *)
Definition jobs_ok (h1 : heap) (jobs : list job) (h' : heap) : Prop := exists rd wr : nat -> nat -> Z -> Prop,
  (forall q b x, rd q b x -> fp b x) /\ (forall q b x, wr q b x -> wrc b x) /\
  (forall i k b x, (i < length jobs)%nat -> (k < length jobs)%nat -> i <> k -> wr i b x -> ~ rd k b x /\ ~ wr k b x) /\
  (forall q j, nth_error jobs q = Some j -> exists hq, solo (rd q) (wr q) j h1 hq tt /\ forall b x, wr q b x -> bdata (hq b) x = bdata (h' b) x) /\
  (forall b x, fp b x -> (exists q, (q < length jobs)%nat /\ wr q b x) \/
     (forall q, (q < length jobs)%nat -> ~ wr q b x) /\ bdata (h1 b) x = bdata (h' b) x) /\
  (forall b x, bcells (h1 b) x = bcells (h' b) x).
Definition phase_ok (p : prog V (list job)) (h h' : heap) : Prop :=
  exists h1 jobs, solo rdc wrc p h h1 jobs /\ jobs_ok h1 jobs h'.

Lemma jobs_frame h1 h2 jobs h' : agree V fp h1 h2 -> jobs_ok h1 jobs h' -> jobs_ok h2 jobs h'.
Proof.
  intros A (rd & wr & J1 & J2 & J3 & J4 & J5 & J6). exists rd, wr. split; [exact J1|]. split; [exact J2|]. split; [exact J3|].
  split; [|split].
  - intros q j E. destruct (J4 q j E) as (hq & S0 & W). destruct (solo_frame _ _ _ _ _ _ h2 S0) as (h2' & S2 & A2).
    { eapply agree_sub; [|exact A]. intros b x [X|X]; [eapply J1; exact X|right; eapply J2; exact X]. }
    exists h2'. split; [exact S2|]. intros b x X. rewrite (proj2 A2) by (right; exact X). apply W. exact X.
  - intros b x F. rewrite (proj2 A) by exact F. apply J5; assumption.
  - intros. rewrite (proj1 A). apply J6.
Qed.
Lemma phase_frame p h h2 h' : agree V fp h h2 -> phase_ok p h h' -> phase_ok p h2 h'.
Proof.
  intros A (h1 & jobs & S0 & J). destruct (solo_frame _ _ _ _ _ _ h2 S0 A) as (h2' & S2 & A2). exists h2', jobs. split; [exact S2|].
  eapply jobs_frame; eassumption.
Qed.

(** A job of an assignment under way, in memory [h]; [hn] is the memory the
    assignment leads to. *)
Definition job_state (rd wr : nat -> Z -> Prop) (j : option job) (h hn : heap) : Prop :=
  match j with
  | None => forall b x, wr b x -> bdata (h b) x = bdata (hn b) x
  | Some p => exists hq, solo rd wr p h hq tt /\ forall b x, wr b x -> bdata (hq b) x = bdata (hn b) x
  end.
Lemma job_state_frame rd wr j h h2 hn : agree V (fun b x => rd b x \/ wr b x) h h2 -> job_state rd wr j h hn -> job_state rd wr j h2 hn.
Proof.
  intros A. destruct j as [p|]; cbn.
  - intros (hq & S0 & W). destruct (solo_frame _ _ _ _ _ _ h2 S0 A) as (h2' & S2 & A2). exists h2'. split; [exact S2|].
    intros b x X. rewrite (proj2 A2) by (right; exact X). apply W, X.
  - intros W b x X. rewrite (proj2 A) by (right; exact X). apply W, X.
Qed.
(** An assignment under way: jobs handed to the pool, jobs to be handed over, the
    semaphore, the waits to be made. *)
Definition par_ok (h hn : heap) (live : list (option job)) (todo : list job) (s : Z) (w : nat) : Prop :=
  exists rd wr : nat -> nat -> Z -> Prop,
  (forall q b x, rd q b x -> fp b x) /\ (forall q b x, wr q b x -> wrc b x) /\
  (forall i k b x, (i < length live + length todo)%nat -> (k < length live + length todo)%nat -> i <> k -> wr i b x -> ~ rd k b x /\ ~ wr k b x) /\
  (forall q j, nth_error (live ++ map Some todo) q = Some j -> job_state (rd q) (wr q) j h hn) /\
  (forall b x, fp b x -> (exists q, (q < length live + length todo)%nat /\ wr q b x) \/
     (forall q, (q < length live + length todo)%nat -> ~ wr q b x) /\ bdata (h b) x = bdata (hn b) x) /\
  (forall b x, bcells (h b) x = bcells (hn b) x) /\
  Z.of_nat w + Z.of_nat (done V live) = Z.of_nat (length live + length todo) + s /\ 0 <= s /\ (w <= length live + length todo)%nat.

Lemma par_begin h jobs hn : jobs_ok h jobs hn -> par_ok h hn [] jobs 0 (length jobs).
Proof.
  intros (rd & wr & J1 & J2 & J3 & J4 & J5 & J6). exists rd, wr. cbn [length Nat.add app done]. repeat (split; [assumption|]).
  split; [|split; [exact J5|split; [exact J6|lia]]].
  intros q j E. rewrite nth_error_map in E. destruct (nth_error jobs q) as [p|] eqn:X; cbn in E; [|discriminate]. injection E as <-. apply J4, X.
Qed.
Lemma par_frame h h2 hn live todo s w : agree V fp h h2 -> par_ok h hn live todo s w -> par_ok h2 hn live todo s w.
Proof.
  intros A (rd & wr & J1 & J2 & J3 & J4 & J5 & J6 & J7). exists rd, wr. repeat (split; [assumption|]). split; [|split; [|split]].
  - intros q j E. eapply job_state_frame; [|apply J4, E]. eapply agree_sub; [|exact A]. intros b x [X|X]; [eapply J1; exact X|right; eapply J2; exact X].
  - intros b x F. rewrite (proj2 A) by exact F. apply J5; assumption.
  - intros. rewrite (proj1 A). apply J6.
  - exact J7.
Qed.
Lemma par_hand h hn live j todo s w : par_ok h hn live (j :: todo) s w -> par_ok h hn (live ++ [Some j]) todo s w.
Proof.
  intros (rd & wr & J). exists rd, wr. rewrite app_length, done_app. cbn [length done]. cbn [length] in J.
  replace (length live + 1 + length todo)%nat with (length live + S (length todo))%nat by lia.
  rewrite <- app_assoc. cbn [app map] in *. rewrite Nat.add_0_r. exact J.
Qed.

(** One job moves on. *)
Lemma par_move h hn l1 p j' l2 todo s w h' s' w' : par_ok h hn (l1 ++ Some p :: l2) todo s w ->
  (forall b x, bcells (h' b) x = bcells (h b) x) ->
  (forall rd wr, job_state rd wr (Some p) h hn -> job_state rd wr j' h' hn /\ forall b x, ~ wr b x -> bdata (h' b) x = bdata (h b) x) ->
  Z.of_nat w' + Z.of_nat (done V (l1 ++ j' :: l2)) = Z.of_nat (length (l1 ++ j' :: l2) + length todo) + s' ->
  0 <= s' -> (w' <= w)%nat ->
  par_ok h' hn (l1 ++ j' :: l2) todo s' w'.
Proof.
  intros (rd & wr & J1 & J2 & J3 & J4 & J5 & J6 & J7 & J8 & J9) Hc Hj Hs Hs' Hw. exists rd, wr.
  assert (L : length (l1 ++ j' :: l2) = length (l1 ++ Some p :: l2)) by (rewrite !app_length; reflexivity).
  assert (Jp : job_state (rd (length l1)) (wr (length l1)) (Some p) h hn).
  { apply J4. rewrite <- app_assoc. cbn [app]. apply nth_split_eq. }
  destruct (Hj _ _ Jp) as (Jn & Keep).
  assert (Lp : (length l1 < length (l1 ++ Some p :: l2) + length todo)%nat) by (rewrite app_length; cbn [length]; lia).
  split; [exact J1|]. split; [exact J2|]. rewrite L in *. split; [exact J3|].
  split; [|split; [|split; [|split; [exact Hs|split; [exact Hs'|lia]]]]].
  - intros q j E. rewrite <- app_assoc in E. cbn [app] in E. destruct (Nat.eq_dec q (length l1)) as [->|N].
    + rewrite nth_split_eq in E. injection E as <-. exact Jn.
    + rewrite (nth_split_ne l1 _ j' (Some p)) in E by exact N.
      assert (E' : nth_error ((l1 ++ Some p :: l2) ++ map Some todo) q = Some j) by (rewrite <- app_assoc; exact E).
      eapply job_state_frame; [|apply J4; exact E'].
      assert (Lq : (q < length (l1 ++ Some p :: l2) + length todo)%nat).
      { assert (X : (q < length ((l1 ++ Some p :: l2) ++ map Some todo))%nat) by (apply nth_error_Some; rewrite E'; discriminate).
        rewrite app_length, map_length in X. exact X. }
      split; [exact Hc|]. intros b x F. apply Keep. intros W. destruct (J3 _ _ b x Lp Lq (not_eq_sym N) W). tauto.
  - intros b x F. destruct (J5 b x F) as [W|(N & E)]; [left; exact W|right]. split; [exact N|]. rewrite Keep by (apply N; exact Lp). exact E.
  - intros. rewrite Hc. apply J6.
Qed.
Lemma done_mid l1 j l2 : done V (l1 ++ j :: l2) = (done V l1 + match j with None => 1 | Some _ => 0 end + done V l2)%nat.
Proof. rewrite done_app. cbn [done]. destruct j; lia. Qed.
Lemma par_load h hn l1 b i k l2 todo s w : par_ok h hn (l1 ++ Some (Load b i k) :: l2) todo s w ->
  par_ok h hn (l1 ++ Some (k (bdata (h b) i)) :: l2) todo s w.
Proof.
  intros P. pose proof P as (rd0 & wr0 & _ & _ & _ & _ & _ & _ & Q & Q2 & Q3). eapply par_move; [exact P|reflexivity| | |exact Q2|lia].
  - intros rd wr (hq & S0 & W). split; [|reflexivity]. inversion S0; subst. exists hq. auto.
  - rewrite done_mid, app_length in *. cbn [length] in *. lia.
Qed.
Lemma par_store h hn l1 b i v k l2 todo s w : par_ok h hn (l1 ++ Some (Store b i v k) :: l2) todo s w ->
  wrc b i /\ par_ok (upd h b i v) hn (l1 ++ Some k :: l2) todo s w.
Proof.
  intros P. split.
  - destruct P as (rd & wr & _ & J2 & _ & J4 & _). destruct (J4 (length l1) (Some (Store b i v k))) as (hq & S0 & _).
    { rewrite <- app_assoc. cbn [app]. apply nth_split_eq. }
    inversion S0; subst. eapply J2; eassumption.
  - pose proof P as (rd0 & wr0 & _ & _ & _ & _ & _ & _ & Q & Q2 & Q3). eapply par_move; [exact P|intros; apply upd_cells| | |exact Q2|lia].
    + intros rd wr (hq & S0 & W). inversion S0; subst. split; [exists hq; auto|].
      intros b' x' N. rewrite upd_data. destruct (Nat.eqb b' b && (x' =? i)) eqn:E; [|reflexivity].
      apply andb_true_iff in E as [E1 E2]. apply Nat.eqb_eq in E1. apply Z.eqb_eq in E2. subst. contradiction.
    + rewrite done_mid, app_length in *. cbn [length] in *. lia.
Qed.
Lemma par_post h hn l1 l2 todo s w : par_ok h hn (l1 ++ Some (Ret tt) :: l2) todo s w ->
  par_ok h hn (l1 ++ None :: l2) todo (s + 1) w.
Proof.
  intros P. pose proof P as (rd & wr & _ & _ & _ & _ & _ & _ & Q1 & Q2 & Q3). eapply par_move; [exact P|reflexivity| | |lia|lia].
  - intros rd' wr' (hq & S0 & W). split; [|reflexivity]. inversion S0; subst. exact W.
  - rewrite done_mid, app_length in *. cbn [length] in *. lia.
Qed.
Lemma par_wait h hn live s w : par_ok h hn live [] s (S w) -> 0 < s -> par_ok h hn live [] (s - 1) w.
Proof. intros (rd & wr & J1 & J2 & J3 & J4 & J5 & J6 & J7 & J8 & J9) P. exists rd, wr. repeat (split; [assumption|]). lia. Qed.
Lemma par_end h hn live s : par_ok h hn live [] s 0 -> (forall j, In j live -> j = None) /\ agree V fp hn h.
Proof.
  intros (rd & wr & J1 & J2 & J3 & J4 & J5 & J6 & J7 & J8 & J9). cbn [length map] in *. rewrite app_nil_r in J4. rewrite Nat.add_0_r in *.
  assert (D : done V live = length live) by (pose proof (done_le V live); lia).
  assert (N : forall q j, nth_error live q = Some j -> j = None) by (apply (done_all V), D).
  split; [intros j I; apply In_nth_error in I as (q & I); eapply N, I|].
  split; [exact J6|]. intros b x F. destruct (J5 b x F) as [(q & Lq & W)|(_ & E)]; [|exact E].
  destruct (nth_error live q) as [j|] eqn:E; [|apply nth_error_None in E; lia]. pose proof (J4 q j E) as Q. rewrite (N q j E) in Q. apply Q, W.
Qed.
(** A job under way does not fail, stays in its part of memory, and does not race
    with its siblings. *)
Lemma par_job h hn live todo s w q j : par_ok h hn live todo s w -> nth_error live q = Some (Some j) ->
  ~ stuck h j /\ forall x, naccess j = Some x -> match x with ALoad b i => fp b i | AStore b i => wrc b i end.
Proof.
  intros (rd & wr & J1 & J2 & _ & J4 & _) E. destruct (J4 q (Some j)) as (hq & S0 & _).
  { rewrite nth_error_app1; [exact E|]. apply nth_error_Some. congruence. }
  split.
  - inversion S0; subst; cbn; [auto|congruence..].
  - intros x X. inversion S0; subst; cbn in X; [discriminate|injection X as <-; eauto..].
Qed.
Lemma par_no_race h hn live todo s w q1 q2 j1 j2 x y : par_ok h hn live todo s w -> q1 <> q2 ->
  nth_error live q1 = Some (Some j1) -> nth_error live q2 = Some (Some j2) ->
  naccess j1 = Some x -> naccess j2 = Some y -> ~ races x y.
Proof.
  intros (rd & wr & J1 & J2 & J3 & J4 & _) N E1 E2 X Y.
  assert (L1 : (q1 < length live + length todo)%nat) by (assert (Q : (q1 < length live)%nat) by (apply nth_error_Some; congruence); lia).
  assert (L2 : (q2 < length live + length todo)%nat) by (assert (Q : (q2 < length live)%nat) by (apply nth_error_Some; congruence); lia).
  destruct (J4 q1 (Some j1)) as (h1 & S1 & _); [rewrite nth_error_app1; [exact E1|apply nth_error_Some; congruence]|].
  destruct (J4 q2 (Some j2)) as (h2 & S2 & _); [rewrite nth_error_app1; [exact E2|apply nth_error_Some; congruence]|].
  assert (A1 : match x with ALoad b i => rd q1 b i | AStore b i => wr q1 b i end) by (inversion S1; subst; cbn in X; [discriminate|injection X as <-; assumption..]).
  assert (A2 : match y with ALoad b i => rd q2 b i | AStore b i => wr q2 b i end) by (inversion S2; subst; cbn in Y; [discriminate|injection Y as <-; assumption..]).
  destruct x as [b1 c1|b1 c1], y as [b2 c2|b2 c2]; cbn; try tauto; intros [<- <-].
  - destruct (J3 _ _ _ _ L2 L1 (not_eq_sym N) A2). tauto.
  - destruct (J3 _ _ _ _ L1 L2 N A1). tauto.
  - destruct (J3 _ _ _ _ L1 L2 N A1). tauto.
Qed.
(** While waits are to be made and the semaphore is zero, some job has not posted. *)
Lemma par_unfinished h hn live s w : par_ok h hn live [] s (S w) -> s <= 0 -> exists q j, nth_error live q = Some (Some j).
Proof.
  intros (rd & wr & _ & _ & _ & _ & _ & _ & Q1 & Q2 & Q3) Hs. cbn [length] in *. rewrite Nat.add_0_r in *.
  assert (D : (done V live < length live)%nat) by lia. clear - D. induction live as [|[x|] l IH]; cbn in D; [lia| |].
  - exists 0%nat, x. reflexivity.
  - destruct IH as (q & j & E); [lia|]. exists (S q), j. exact E.
Qed.
End One.
