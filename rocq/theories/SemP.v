(** Proofs about the semaphore. *)
From Verif Require Import Prelude SemM SemS.

Definition sumf (f : thr -> Z) (l : list thr) : Z := fold_right (fun t n => f t + n) 0 l.
Lemma sumf_app f l1 l2 : sumf f (l1 ++ l2) = sumf f l1 + sumf f l2.
Proof. induction l1 as [|a l1 IH]; cbn; [reflexivity|]. unfold sumf in *. lia. Qed.
Lemma sumf_mid f l1 t l2 : sumf f (l1 ++ t :: l2) = f t + sumf f (l1 ++ l2).
Proof. rewrite !sumf_app. cbn. unfold sumf. lia. Qed.
Lemma sumf_nonneg f l : (forall t, 0 <= f t) -> 0 <= sumf f l.
Proof. intros H. induction l as [|a l IH]; cbn; [lia|]. pose proof (H a). unfold sumf in *. lia. Qed.
Lemma sumf_pos f l : (forall t, 0 <= f t) -> 0 < sumf f l -> exists t, In t l /\ 0 < f t.
Proof.
  intros H. induction l as [|a l IH]; cbn; [lia|]. intros P. destruct (Z.ltb_spec 0 (f a)).
  - exists a. auto.
  - destruct IH as (t & I & J); [pose proof (H a); unfold sumf in *; lia|]. eauto.
Qed.
Lemma sumf_in f l t : (forall t, 0 <= f t) -> In t l -> f t <= sumf f l.
Proof.
  intros H. induction l as [|a l IH]; [intros []|]. cbn. intros [->|I].
  - pose proof (sumf_nonneg f l H). unfold sumf in *. lia.
  - specialize (IH I). pose proof (H a). unfold sumf in *. lia.
Qed.

Definition b2z (b : bool) : Z := if b then 1 else 0.
Definition f_hold t := b2z (holds t).
Definition f_p34 t := match t with TPost3 _ | TPost4 _ => 1 | _ => 0 end.
Definition f_w4 t := match t with TWait4 _ => 1 | _ => 0 end.
Definition f_sleep t := b2z (asleep t).
Definition f_way t := match t with TWoken _ | TWait2 _ | TWait3 _ | TPost3 _ => 1 | _ => 0 end.
Definition f_w3 t := match t with TWait3 _ => 1 | _ => 0 end.
Definition rest t := match t with TAt os | TPost2 os | TPost3 os | TPost4 os | TWait2 os | TWait3 os | TWait4 os | TSleep os | TWoken os => os end.
(** calls still to return *)
Definition f_posts t := count_ops SPost (rest t) + match t with TPost2 _ | TPost3 _ | TPost4 _ => 1 | _ => 0 end.
Definition f_waits t := count_ops SWait (rest t) + match t with TWait2 _ | TWait3 _ | TWait4 _ | TSleep _ | TWoken _ => 1 | _ => 0 end.

Lemma wake_sum f l m : wake l m -> (forall os, f (TWoken os) = f (TSleep os)) -> sumf f m = sumf f l.
Proof. intros [l1 os l2] E. rewrite !sumf_mid, E. reflexivity. Qed.
Lemma wake_sum_gen f l m d : wake l m -> (forall os, f (TWoken os) = f (TSleep os) + d) -> sumf f m = sumf f l + d.
Proof. intros [l1 os l2] E. rewrite !sumf_mid, E. lia. Qed.

Record siv (init P W : Z) (st : sem) : Prop := SIv {
  v_hold : sumf f_hold (sthr st) = b2z (slocked st);
  v_val : 0 <= sval st;
  v_w3 : sumf f_w3 (sthr st) <= sval st;
  v_p34 : sumf f_p34 (sthr st) <= sval st;
  v_bal : sreturned st + sumf f_w4 (sthr st) + sval st = init + sposted st + sumf f_p34 (sthr st);
  v_wake : 0 < sumf f_sleep (sthr st) -> sval st <= sumf f_way (sthr st);
  v_posts : sposted st + sumf f_posts (sthr st) = P;
  v_waits : sreturned st + sumf f_waits (sthr st) = W }.

Lemma start_sum f scripts n : (forall os, f (TAt os) = n) -> sumf f (map TAt scripts) = n * Z.of_nat (length scripts).
Proof. intros H. induction scripts as [|a l IH]; cbn [map sumf fold_right length]; [lia|]. fold (sumf f (map TAt l)). rewrite IH, H. lia. Qed.
Lemma siv_start init scripts : 0 <= init -> siv init (total_posts scripts) (total_waits scripts) (sem_start init scripts).
Proof.
  intros H. constructor; cbn [sem_start sthr slocked sval sposted sreturned].
  - rewrite (start_sum f_hold _ 0) by reflexivity. cbn. lia.
  - exact H.
  - rewrite (start_sum f_w3 _ 0) by reflexivity. lia.
  - rewrite (start_sum f_p34 _ 0) by reflexivity. lia.
  - rewrite (start_sum f_w4 _ 0), (start_sum f_p34 _ 0) by reflexivity. lia.
  - rewrite (start_sum f_sleep _ 0) by reflexivity. lia.
  - induction scripts as [|a l IH]; [reflexivity|]. cbn [map sumf fold_right total_posts]. unfold f_posts at 1. cbn [rest]. fold (sumf f_posts (map TAt l)) (total_posts l). lia.
  - induction scripts as [|a l IH]; [reflexivity|]. cbn [map sumf fold_right total_waits]. unfold f_waits at 1. cbn [rest]. fold (sumf f_waits (map TAt l)) (total_waits l). lia.
Qed.

Ltac mid := rewrite ?sumf_mid in *.
Lemma count_cons o x os : count_ops o (x :: os) = match o, x with SPost, SPost | SWait, SWait => 1 | _, _ => 0 end + count_ops o os.
Proof. unfold count_ops. cbn. destruct o, x; cbn [length]; lia. Qed.

Lemma existsb_sum l : existsb asleep l = false -> sumf f_sleep l = 0.
Proof.
  induction l as [|a l IH]; [reflexivity|]. cbn. destruct (asleep a) eqn:E; [discriminate|]. intros H. unfold f_sleep at 1. rewrite E.
  fold (sumf f_sleep l). rewrite IH by exact H. reflexivity.
Qed.

Ltac nn := repeat match goal with |- context [sumf ?f ?l] =>
   lazymatch goal with H : 0 <= sumf f l |- _ => fail | _ => idtac end;
   assert (0 <= sumf f l) by (apply sumf_nonneg; intros []; cbn; lia) end.


Lemma sumf_le f g l : (forall t, f t <= g t) -> sumf f l <= sumf g l.
Proof. intros H. induction l as [|a l IH]; cbn; [lia|]. pose proof (H a). unfold sumf in *. lia. Qed.

Ltac gen_sums := repeat match goal with
  | |- context [sumf ?f ?l] => let x := fresh "s" in set (x := sumf f l) in *; clearbody x
  | H : context [sumf ?f ?l] |- _ => let x := fresh "s" in set (x := sumf f l) in *; clearbody x end.
Ltac eval_f := unfold f_hold, f_p34, f_w4, f_sleep, f_way, f_w3, f_posts, f_waits in *; cbn [rest holds asleep b2z] in *; rewrite ?count_cons in *.

Lemma siv_step init P W a b : siv init P W a -> sstep a b -> siv init P W b.
Proof.
  intros [h1 h2 h3 h4 h5 h6 h7 h8] St.
  assert (N1 : forall l, 0 <= sumf f_hold l) by (intros; apply sumf_nonneg; intros []; cbn; lia).
  assert (N2 : forall l, 0 <= sumf f_w3 l) by (intros; apply sumf_nonneg; intros []; cbn; lia).
  assert (N3 : forall l, 0 <= sumf f_p34 l) by (intros; apply sumf_nonneg; intros []; cbn; lia).
  assert (N4 : forall l, sumf f_p34 l <= sumf f_hold l) by (intros; apply sumf_le; intros []; cbn; lia).
  assert (N5 : forall l, sumf f_w3 l <= sumf f_hold l) by (intros; apply sumf_le; intros []; cbn; lia).
  assert (N6 : forall l, 0 <= sumf f_way l) by (intros; apply sumf_nonneg; intros []; cbn; lia).
  destruct St; cbn [sthr slocked sval sposted sreturned] in *;
    pose proof (N1 (l1 ++ l2)); pose proof (N2 (l1 ++ l2)); pose proof (N3 (l1 ++ l2)); pose proof (N4 (l1 ++ l2)); pose proof (N5 (l1 ++ l2)); pose proof (N6 (l1 ++ l2));
    clear N1 N2 N3 N4 N5 N6.
  3: { (* notify *)
    pose proof (wake_sum f_hold _ _ H ltac:(reflexivity)) as e1. pose proof (wake_sum f_p34 _ _ H ltac:(reflexivity)) as e2.
    pose proof (wake_sum f_w4 _ _ H ltac:(reflexivity)) as e3. pose proof (wake_sum f_w3 _ _ H ltac:(reflexivity)) as e4.
    pose proof (wake_sum f_posts _ _ H ltac:(reflexivity)) as e5. pose proof (wake_sum f_waits _ _ H ltac:(reflexivity)) as e6.
    pose proof (wake_sum_gen f_way _ _ 1 H ltac:(reflexivity)) as e7. pose proof (wake_sum_gen f_sleep _ _ (-1) H ltac:(reflexivity)) as e8.
    clear H. constructor; cbn [sthr slocked sval sposted sreturned]; mid; gen_sums; eval_f; lia. }
  3: apply existsb_sum in H.
  all: constructor; cbn [sthr slocked sval sposted sreturned]; mid; gen_sums; eval_f; try destruct b; cbn [b2z] in *; try lia.
Qed.
Lemma siv_spur init P W a b : siv init P W a -> spurious a b -> siv init P W b.
Proof.
  intros [h1 h2 h3 h4 h5 h6 h7 h8] St. destruct St as [v b l m p r H]. cbn [sthr slocked sval sposted sreturned] in *.
    pose proof (wake_sum f_hold _ _ H ltac:(reflexivity)) as e1. pose proof (wake_sum f_p34 _ _ H ltac:(reflexivity)) as e2.
    pose proof (wake_sum f_w4 _ _ H ltac:(reflexivity)) as e3. pose proof (wake_sum f_w3 _ _ H ltac:(reflexivity)) as e4.
    pose proof (wake_sum f_posts _ _ H ltac:(reflexivity)) as e5. pose proof (wake_sum f_waits _ _ H ltac:(reflexivity)) as e6.
    pose proof (wake_sum_gen f_way _ _ 1 H ltac:(reflexivity)) as e7. pose proof (wake_sum_gen f_sleep _ _ (-1) H ltac:(reflexivity)) as e8.
    constructor; cbn [sthr slocked sval sposted sreturned]; lia.
Qed.
Lemma siv_reach init scripts st : 0 <= init -> sreach (sem_start init scripts) st -> siv init (total_posts scripts) (total_waits scripts) st.
Proof.
  intros H R. induction R as [|a b R IH St|a b R IH St].
  - apply siv_start, H.
  - eapply siv_step; eassumption.
  - eapply siv_spur; eassumption.
Qed.

Theorem returned_bound init scripts st : 0 <= init -> sreach (sem_start init scripts) st ->
  sreturned st <= init + sposted st /\ 0 <= sval st.
Proof.
  intros H R. destruct (siv_reach _ _ _ H R) as [h1 h2 h3 h4 h5 h6 h7 h8]. split; [|exact h2].
  assert (0 <= sumf f_w4 (sthr st)) by (apply sumf_nonneg; intros []; cbn; lia). lia.
Qed.
Theorem exact_count init scripts st : 0 <= init -> sreach (sem_start init scripts) st -> slocked st = false ->
  sreturned st + sval st = init + sposted st.
Proof.
  intros H R L. destruct (siv_reach _ _ _ H R) as [h1 h2 h3 h4 h5 h6 h7 h8]. rewrite L in h1. cbn in h1.
  assert (sumf f_p34 (sthr st) <= sumf f_hold (sthr st)) by (apply sumf_le; intros []; cbn; lia).
  assert (sumf f_w4 (sthr st) <= sumf f_hold (sthr st)) by (apply sumf_le; intros []; cbn; lia).
  assert (0 <= sumf f_w4 (sthr st)) by (apply sumf_nonneg; intros []; cbn; lia).
  assert (0 <= sumf f_p34 (sthr st)) by (apply sumf_nonneg; intros []; cbn; lia). lia.
Qed.
Theorem no_lost_wakeup init scripts st os : 0 <= init -> sreach (sem_start init scripts) st ->
  In (TSleep os) (sthr st) -> 0 < sval st -> exists t, In t (sthr st) /\ on_its_way t.
Proof.
  intros H R I V. destruct (siv_reach _ _ _ H R) as [h1 h2 h3 h4 h5 h6 h7 h8].
  assert (P : 0 < sumf f_way (sthr st)).
  { pose proof (sumf_in f_sleep _ _ ltac:(intros []; cbn; lia) I) as G. cbn in G. lia. }
  destruct (sumf_pos f_way _ ltac:(intros []; cbn; lia) P) as (t & J & K). exists t. split; [exact J|].
  destruct t; cbn in K |- *; try lia; exact I0 || exact Logic.I.
Qed.

Lemma in_mid (t : thr) l : In t l -> exists l1 l2, l = l1 ++ t :: l2.
Proof. intros I. destruct (in_split _ _ I) as (l1 & l2 & E). eauto. Qed.
Lemma existsb_asleep l : existsb asleep l = true -> exists l1 os l2, l = l1 ++ TSleep os :: l2.
Proof.
  intros E. apply existsb_exists in E. destruct E as (t & I & A). destruct t; try discriminate A.
  destruct (in_mid _ _ I) as (l1 & l2 & ->). eauto.
Qed.
(** Some step is possible for every thread that holds the mutex. *)
Lemma holder_steps v b l p r t : In t l -> holds t = true -> exists st', sstep (Sem v b l p r) st'.
Proof.
  intros I Hd. destruct (in_mid _ _ I) as (l1 & l2 & ->). destruct t; try discriminate Hd.
  - eexists; apply ss_post_inc.
  - destruct (existsb asleep (l1 ++ l2)) eqn:E.
    + assert (E' : existsb asleep (l1 ++ TPost4 os :: l2) = true).
      { rewrite existsb_app in *. cbn. exact E. }
      destruct (existsb_asleep _ E') as (m1 & o & m2 & F). eexists. eapply ss_notify. rewrite F. constructor.
    + eexists. apply ss_notify_none. exact E.
  - eexists; apply ss_post_unlock.
  - destruct (Z.ltb_spec 0 v); eexists; [apply ss_wait_pass|apply ss_wait_sleep]; lia.
  - eexists; apply ss_wait_dec.
  - eexists; apply ss_wait_unlock.
Qed.
Theorem stuck_asleep init scripts st : 0 <= init -> sreach (sem_start init scripts) st -> stuck st ->
  (forall t, In t (sthr st) -> finished t \/ asleep t = true) /\
  (Exists (fun t => asleep t = true) (sthr st) -> sval st = 0).
Proof.
  intros H R K. pose proof (siv_reach _ _ _ H R) as [h1 h2 h3 h4 h5 h6 h7 h8]. destruct st as [v b l p r]. cbn [sthr slocked sval sposted sreturned] in *.
  assert (NH : forall t, In t l -> holds t = false).
  { intros t I. destruct (holds t) eqn:E; [|reflexivity]. destruct (holder_steps v b l p r t I E) as [st' S']. destruct (K _ S'). }
  assert (B : b = false).
  { destruct b; [|reflexivity]. cbn in h1. destruct (sumf_pos f_hold l ltac:(intros []; cbn; lia) ltac:(lia)) as (t & I & J).
    specialize (NH t I). unfold f_hold in J. rewrite NH in J. cbn in J. lia. }
  subst b.
  assert (A : forall t, In t l -> finished t \/ asleep t = true).
  { intros t I. specialize (NH t I). destruct (in_mid _ _ I) as (l1 & l2 & E). destruct t as [[|[|] os]|os|os|os|os|os|os|os|os]; try discriminate NH.
    - left. reflexivity.
    - subst l. destruct (K _ (ss_post_lock v l1 os l2 p r)).
    - subst l. destruct (K _ (ss_wait_lock v l1 os l2 p r)).
    - right. reflexivity.
    - subst l. destruct (K _ (ss_relock v l1 os l2 p r)). }
  split; [exact A|]. intros X. apply Exists_exists in X. destruct X as (t & I & J).
  pose proof (sumf_in f_sleep _ _ ltac:(intros []; cbn; lia) I) as G. unfold f_sleep at 1 in G. rewrite J in G. cbn in G.
  destruct (Z.ltb_spec 0 v); [|lia].
  assert (P : 0 < sumf f_way l) by lia. destruct (sumf_pos f_way _ ltac:(intros []; cbn; lia) P) as (t' & I' & J').
  specialize (A t' I'). destruct t'; cbn in J'; try lia; destruct A as [A|A]; discriminate A.
Qed.

(** Each step brings the end nearer. *)
Definition f_meas t := 8 * Z.of_nat (length (rest t)) +
  match t with TAt _ => 0 | TPost2 _ => 7 | TPost3 _ => 6 | TPost4 _ => 1 | TWoken _ => 5 | TWait2 _ => 4 | TWait3 _ => 3 | TWait4 _ => 2 | TSleep _ => 1 end.
Lemma meas_step a b : sstep a b -> sumf f_meas (sthr b) < sumf f_meas (sthr a).
Proof.
  intros St. destruct St; cbn [sthr]; 
    try solve [mid; gen_sums; unfold f_meas in *; cbn [rest length]; lia].
  pose proof (wake_sum_gen f_meas _ _ 4 H ltac:(intros; unfold f_meas; cbn [rest]; lia)) as E. mid. gen_sums. unfold f_meas in *. cbn [rest] in *. lia.
Qed.
Lemma meas_nonneg st : 0 <= sumf f_meas (sthr st).
Proof. apply sumf_nonneg. intros []; unfold f_meas; lia. Qed.
Theorem bounded_run n a b : ssteps n a b -> Z.of_nat n <= sumf f_meas (sthr a).
Proof.
  intros R. induction R as [st|n a b c St R IH]; [apply meas_nonneg|]. pose proof (meas_step _ _ St). lia.
Qed.

Definition wfb t := match t with TAt os | TPost2 os | TPost3 os | TPost4 os => posts_first os
  | TWait2 os | TWait3 os | TWait4 os | TSleep os | TWoken os => Z.eqb (count_ops SPost os) 0 end.
Lemma no_posts_first os : Z.eqb (count_ops SPost os) 0 = true -> posts_first os = true.
Proof.
  induction os as [|[|] os IH]; [reflexivity| |]; rewrite count_cons; cbn [posts_first].
  - intros E. apply Z.eqb_eq in E. assert (0 <= count_ops SPost os) by (unfold count_ops; lia). lia.
  - intros E. exact E.
Qed.
Lemma wake_wf l m : wake l m -> forallb wfb l = true -> forallb wfb m = true.
Proof. intros [l1 os l2]. rewrite !forallb_app. cbn. tauto. Qed.
Lemma wf_step a b : sstep a b -> forallb wfb (sthr a) = true -> forallb wfb (sthr b) = true.
Proof.
  intros St. destruct St; cbn [sthr]; try (rewrite !forallb_app; cbn [forallb wfb posts_first];
    intros E; apply andb_prop in E; destruct E as [E1 E]; apply andb_prop in E; destruct E as [E2 E3]; rewrite E1, E3; rewrite ?E2; rewrite ?(no_posts_first _ E2); reflexivity).
  intros E. apply (wake_wf _ _ H). rewrite !forallb_app in *. exact E.
Qed.
Lemma wf_reach init scripts st : forallb posts_first scripts = true -> sreach (sem_start init scripts) st -> forallb wfb (sthr st) = true.
Proof.
  intros H R. induction R as [|a b R IH St|a b R IH St].
  - cbn. clear -H. induction scripts as [|a l IH]; [reflexivity|]. cbn in *. apply andb_prop in H. destruct H as [H1 H2]. rewrite H1. apply IH, H2.
  - eapply wf_step; eassumption.
  - destruct St. cbn in *. eapply wake_wf; eassumption.
Qed.

Theorem stuck_all_used init scripts st t : 0 <= init -> sreach (sem_start init scripts) st -> stuck st ->
  In t (sthr st) -> ~ finished t -> sreturned st = init + sposted st.
Proof.
  intros H R K I N. destruct (stuck_asleep _ _ _ H R K) as [A V]. destruct (A t I) as [F|F]; [contradiction|].
  assert (V0 : sval st = 0) by (apply V, Exists_exists; eauto).
  assert (L : slocked st = false).
  { destruct (slocked st) eqn:L; [|reflexivity]. pose proof (siv_reach _ _ _ H R) as [h1 _ _ _ _ _ _ _]. rewrite L in h1. cbn in h1.
    destruct (sumf_pos f_hold (sthr st) ltac:(intros []; cbn; lia) ltac:(lia)) as (u & J & G).
    destruct (A u J) as [X|X]; [unfold finished in X; subst u; cbn in G; lia|destruct u; cbn in *; try lia; discriminate X]. }
  pose proof (exact_count _ _ _ H R L). lia.
Qed.
Theorem enough_posts_finish init scripts st : 0 <= init -> forallb posts_first scripts = true ->
  total_waits scripts <= init + total_posts scripts ->
  sreach (sem_start init scripts) st -> stuck st -> Forall finished (sthr st).
Proof.
  intros H F0 E R K. destruct (stuck_asleep _ _ _ H R K) as [A V]. pose proof (siv_reach _ _ _ H R) as [h1 h2 h3 h4 h5 h6 h7 h8].
  apply Forall_forall. intros t I. destruct (A t I) as [F|F]; [exact F|]. exfalso.
  assert (U : sreturned st = init + sposted st).
  { apply (stuck_all_used _ _ _ t H R K I). unfold finished. intros ->. discriminate F. }
  assert (P0 : sumf f_posts (sthr st) = 0).
  { pose proof (wf_reach _ _ _ F0 R) as Wf. assert (0 <= sumf f_posts (sthr st)) by (apply sumf_nonneg; intros []; unfold f_posts, count_ops; lia).
    destruct (Z.ltb_spec 0 (sumf f_posts (sthr st))) as [Q|Q]; [|lia].
    destruct (sumf_pos f_posts _ ltac:(intros []; unfold f_posts, count_ops; lia) Q) as (u & J & G).
    pose proof (proj1 (forallb_forall _ _) Wf u J) as B. destruct (A u J) as [X|X].
    - unfold finished in X. subst u. cbn in G. lia.
    - destruct u; try discriminate X. cbn [wfb] in B. apply Z.eqb_eq in B. unfold f_posts in G. cbn [rest] in G. lia. }
  assert (1 <= sumf f_waits (sthr st)).
  { pose proof (sumf_in f_waits _ _ ltac:(intros []; unfold f_waits, count_ops; lia) I) as G. destruct t; try discriminate F.
    unfold f_waits at 1 in G. assert (0 <= count_ops SWait (rest (TSleep os))) by (unfold count_ops; lia). lia. }
  lia.
Qed.
Theorem mutual_exclusion init scripts st l1 t l2 u l3 : 0 <= init -> sreach (sem_start init scripts) st ->
  sthr st = l1 ++ t :: l2 ++ u :: l3 -> holds t = true -> holds u = true -> False.
Proof.
  intros H R E T U. destruct (siv_reach _ _ _ H R) as [h1 _ _ _ _ _ _ _]. rewrite E in h1. rewrite sumf_mid, app_assoc, sumf_mid in h1.
  assert (0 <= sumf f_hold ((l1 ++ l2) ++ l3)) by (apply sumf_nonneg; intros []; cbn; lia).
  assert (T' : f_hold t = 1) by (unfold f_hold; rewrite T; reflexivity). assert (U' : f_hold u = 1) by (unfold f_hold; rewrite U; reflexivity).
  destruct (slocked st); cbn [b2z] in h1; lia.
Qed.
Theorem finish init scripts st : 0 <= init -> forallb posts_first scripts = true ->
  total_waits scripts <= init + total_posts scripts ->
  sreach (sem_start init scripts) st ->
  (exists bound : nat, forall n st', ssteps n st st' -> (n <= bound)%nat) /\
  (forall n st', ssteps n st st' -> stuck st' -> Forall finished (sthr st')).
Proof.
  intros H F E R. split.
  - exists (Z.to_nat (sumf f_meas (sthr st))). intros n st' S'. pose proof (bounded_run _ _ _ S'). lia.
  - intros n st' S' K. refine (enough_posts_finish _ _ _ H F E _ K).
    clear K. induction S' as [st|n a b c St S' IH]; [exact R|]. apply IH. eapply sr_step; eassumption.
Qed.

(** After the last unit has been waited for nobody is inside post(). *)
Theorem last_wait init scripts st : 0 <= init -> sreach (sem_start init scripts) st ->
  sreturned st = init + total_posts scripts ->
  forall t, In t (sthr st) -> inside_post t = false /\ count_ops SPost (pending t) = 0.
Proof.
  intros H R E t I. destruct (siv_reach _ _ _ H R) as [h1 h2 h3 h4 h5 h6 h7 h8].
  pose proof (proj1 (returned_bound _ _ _ H R)) as B.
  assert (N : forall t, 0 <= f_posts t).
  { intros u. unfold f_posts, count_ops. destruct u; lia. }
  pose proof (sumf_in f_posts (sthr st) t N I) as P.
  assert (Q : f_posts t <= 0) by lia.
  unfold f_posts in Q. assert (C : 0 <= count_ops SPost (rest t)) by (unfold count_ops; lia).
  change (pending t) with (rest t). destruct t; cbn [inside_post] in *; split; try reflexivity; lia.
Qed.
