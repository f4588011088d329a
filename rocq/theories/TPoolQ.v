(** Proofs about the thread pool: limits, wake-ups, shrinking, wait(). *)
From Coq Require Import Permutation.
From Verif Require Import Prelude TPoolM TPoolS TPoolP.

Lemma civ_path P k st : path P (pool_new k) st -> civ st.
Proof. intros H. eapply civ_reach, path_reach, H. Qed.
Lemma must_wait_false st : must_wait st = false -> pq st <> [] /\ pactive st <= plimit st.
Proof. unfold must_wait. destruct (pq st); [discriminate|]. cbn. intros E. apply Z.ltb_ge in E. split; [discriminate|exact E]. Qed.
Lemma must_wait_true st : must_wait st = true -> pq st = [] \/ plimit st < pactive st.
Proof. unfold must_wait. destruct (pq st); [auto|]. cbn. intros E. apply Z.ltb_lt in E. auto. Qed.

Ltac ev := cbn [actv alive runs awake exiting waiting quiet b2z] in *.
Ltac nums l := pose proof (num_nonneg actv l); pose proof (num_nonneg alive l); pose proof (num_nonneg runs l);
  pose proof (num_nonneg awake l); pose proof (num_nonneg exiting l); pose proof (num_nonneg waiting l).
Lemma runs_actv l : num runs l <= num actv l.
Proof. apply num_le. intros []; cbn; lia. Qed.
Lemma runs_awake l : num runs l <= num awake l.
Proof. apply num_le. intros []; cbn; lia. Qed.
Lemma actv_split l : num actv l <= num awake l + num exiting l.
Proof. induction l as [|w l IH]; [cbn; lia|]. rewrite !num_cons. destruct w; ev; lia. Qed.
Lemma alive_split l : num alive l = num awake l + num exiting l + num waiting l.
Proof. induction l as [|w l IH]; [cbn; lia|]. rewrite !num_cons. destruct w; ev; lia. Qed.
Lemma existsb_num p l : existsb p l = false -> num p l = 0.
Proof. induction l as [|w l IH]; [reflexivity|]. cbn. rewrite num_cons. destruct (p w); [discriminate|]. intros E. rewrite IH by exact E. reflexivity. Qed.

(** Starting a task. *)
Theorem start_limit k st t st' : treach (pool_new k) st -> tstep (LStart t) st st' -> zlength (running st') <= plimit st'.
Proof.
  intros R St. pose proof (civ_reach _ _ R) as C. pose proof (civ_step _ _ _ C St) as [A' _]. rewrite running_num.
  pose proof (runs_actv (pw st')). inversion St; subst; pcbn;
    match goal with H : must_wait _ = false |- _ => apply must_wait_false in H; destruct H as [_ H]; pcbn end; lia.
Qed.
Lemma runs_resize st n st' : resize st n st' -> num runs (pw st') = num runs (pw st) /\ plimit st' = plimit st.
Proof.
  intros R. destruct R; pcbn; (split; [|reflexivity]); [reflexivity| |].
  - rewrite num_app, num_repeat. ev. lia.
  - apply num_map. intros []; reflexivity.
Qed.
Theorem limit_kept k st : path not_lowered (pool_new k) st -> zlength (running st) <= plimit st.
Proof.
  intros H. induction H as [|l b c Pa IH St NL]; [cbn; lia|].
  assert (SL : forall t, l = LStart t -> zlength (running c) <= plimit c).
  { intros t ->. eapply start_limit; [eapply path_reach, Pa|exact St]. }
  rewrite running_num in *. unfold not_lowered in NL. destruct St; try (exact (SL _ eq_refl)); pcbn;
    try (match goal with E : pw _ = _ |- _ => rewrite E in * end); rewrite ?num_mid in *; ev; try lia.
  - (* died *) destruct (pterm st).
    + subst st'. subst st1. pcbn. rewrite num_mid. ev. lia.
    + destruct (runs_resize _ _ _ H0) as [E1 E2]. subst st1. pcbn. rewrite E1, num_mid in *. ev. lia.
  - (* schedule *) rewrite (notify1_num _ _ _ H) by reflexivity. lia.
  - destruct (runs_resize _ _ _ H0) as [E1 E2]. rewrite E1 in *. lia.
  - destruct wait; pcbn; rewrite num_map by (intros []; reflexivity); assumption.
Qed.

(** No lost wake-up. *)
Record wiv (st : pool) : Prop := WIv {
  w_civ : civ st; w_target : pcount st <= ptarget st; w_exit : num exiting (pw st) = 0; w_term : pterm st = false }.
Definition busy (st : pool) : Prop :=
  Z.min (plimit st) (Z.min (pcount st) (zlength (pq st) + num runs (pw st))) <= num awake (pw st).

Lemma wiv_step l a b : wiv a -> tstep l a b -> not_shrunk l a b -> wiv b.
Proof.
  intros [C T X M] St N. pose proof (civ_step _ _ _ C St) as C'.
  destruct St; cbn [not_shrunk] in N; try (match goal with E : pw _ = _ |- _ => rewrite E in * end); rewrite ?num_mid in *; ev;
    try lia; try (constructor; [assumption|pcbn; rewrite ?num_mid; ev; try assumption; lia ..]).
  - (* died *) rewrite M in *. inversion H0; subst.
    + subst st1. pcbn. congruence.
    + constructor; [assumption| | |]; subst st1; pcbn; [lia| |assumption]. rewrite num_app, num_repeat, num_mid. ev. lia.
    + subst st1. pcbn. lia.
  - pose proof (num_nonneg exiting l1). pose proof (num_nonneg exiting l2). lia.
  - constructor; [assumption|pcbn; try assumption ..]. rewrite (notify1_num _ _ _ H) by reflexivity. assumption.
  - inversion H0; subst.
    + constructor; assumption.
    + constructor; [assumption| | |]; pcbn; [lia| |assumption]. rewrite num_app, num_repeat. ev. lia.
    + lia.
Qed.
Lemma busy_step l a b : wiv a -> busy a -> tstep l a b -> calm l a b -> busy b.
Proof.
  intros [C T X M] B St [N L]. pose proof C as [h1 h2]. unfold busy in *.
  pose proof (runs_awake (pw a)) as RA. pose proof (actv_split (pw a)) as AS. pose proof (alive_split (pw a)) as LS. pose proof (zlength_nonneg (pq a)) as ZP.
  destruct St; cbn [not_shrunk] in N; try (match goal with E : pw _ = _ |- _ => rewrite E in * end);
    rewrite ?num_mid in *; pcbn; rewrite ?num_mid in *; ev; try lia.
  (* sleeping *)
  - pose proof (runs_awake l1). pose proof (runs_awake l2). pose proof (actv_split l1). pose proof (actv_split l2). apply must_wait_true in H1. destruct H1 as [Q|Q]; [rewrite Q in *; cbn [zlength length] in *|]; pcbn; unfold zlength in *; cbn [length] in *; lia.
  - apply takes_perm, Permutation_length in H2. unfold zlength in *. cbn [length] in *. lia.
  - pose proof (runs_awake l1). pose proof (runs_awake l2). pose proof (actv_split l1). pose proof (actv_split l2). apply must_wait_true in H0. pcbn. destruct H0 as [Q|Q]; [rewrite Q in *|]; unfold zlength in *; cbn [length] in *; lia.
  - apply takes_perm, Permutation_length in H1. unfold zlength in *. cbn [length] in *. lia.
  - (* died *) rewrite M in *. inversion H0; subst; subst st1; pcbn; try lia; try congruence.
    rewrite (num_app runs), (num_app awake), !num_repeat, !num_mid. ev. assert (k = 1) by lia. subst k. lia.
  - (* schedule *) inversion H as [l1 l2 E1 E2|l Ex E1 E2].
    + rewrite <- E1 in *. rewrite ?num_mid in *. ev. rewrite zlength_app. unfold zlength at 2. cbn [length]. lia.
    + subst ws. rewrite (existsb_num _ _ Ex) in LS. lia.
  - (* clear *) unfold zlength in *. cbn [length]. lia.
  - (* resize *) inversion H0; subst; pcbn; try assumption; try lia. rewrite !num_app, !num_repeat. ev. lia.
  - (* active *) destruct (Z.ltb_spec n (pcount st)).
    + destruct (Z.ltb_spec (plimit st) n) as [Q|Q]; [rewrite (L Q) in *; unfold zlength in *; cbn [length] in *|]; lia.
    + destruct (Z.ltb_spec (plimit st) (pcount st)) as [Q|Q]; [rewrite (L Q) in *; unfold zlength in *; cbn [length] in *|]; lia.
Qed.
Lemma wiv_new k : wiv (pool_new k).
Proof. constructor; [apply civ_new|cbn; lia|reflexivity|reflexivity]. Qed.
Theorem work_conserved k st : path calm (pool_new k) st ->
  Z.min (plimit st) (Z.min (pcount st) (zlength (pq st) + zlength (running st))) <= num awake (pw st).
Proof.
  intros H. rewrite running_num. assert (G : wiv st /\ busy st); [|exact (proj2 G)].
  induction H as [|l b c Pa [IH1 IH2] St N].
  - split; [apply wiv_new|]. unfold busy. cbn. lia.
  - split; [eapply wiv_step; [eassumption|eassumption|apply N]|eapply busy_step; eassumption].
Qed.

(** With the limit at least one, some worker is awake while work is queued. *)
Definition some_awake (st : pool) : Prop := pq st <> [] -> 1 <= pcount st -> 1 <= num awake (pw st).
Lemma some_awake_step l a b : wiv a -> some_awake a -> tstep l a b -> limit_positive l a b -> some_awake b.
Proof.
  intros [C T X M] B St [N L]. pose proof C as [h1 h2]. unfold some_awake in *.
  pose proof (runs_awake (pw a)) as RA. pose proof (actv_split (pw a)) as AS. pose proof (alive_split (pw a)) as LS.
  destruct St; cbn [not_shrunk] in N; try (match goal with E : pw _ = _ |- _ => rewrite E in * end);
    rewrite ?num_mid in *; pcbn; rewrite ?num_mid in *; ev; try assumption;
    try (pose proof (num_nonneg awake l1); pose proof (num_nonneg awake l2); pose proof (num_nonneg exiting l1); pose proof (num_nonneg exiting l2)); try lia.
  - intros Q K. apply must_wait_true in H1. destruct H1 as [Q'|Q']; [contradiction|]. lia.
  - intros Q K. pose proof (actv_split l1). pose proof (actv_split l2). apply must_wait_true in H0. pcbn. destruct H0 as [Q'|Q']; [contradiction|]. lia.
  - (* died *) rewrite M in *. inversion H0; subst; subst st1; pcbn; try lia; try congruence.
    rewrite (num_app awake), !num_repeat, !num_mid. ev. lia.
  - (* schedule *) intros _ K. inversion H as [l1 l2 E1 E2|l Ex E1 E2].
    + rewrite num_mid. ev. pose proof (num_nonneg awake l1). pose proof (num_nonneg awake l2). lia.
    + subst ws. rewrite (existsb_num _ _ Ex) in LS. lia.
  - intros Q K. destruct Q. reflexivity.
  - (* resize *) inversion H0; subst; pcbn; try assumption; try lia. rewrite !num_app, !num_repeat. ev. intros Q K. pose proof (num_nonneg awake (pw st)).
    destruct (Z.eq_dec (pcount st) 0); [|specialize (B Q); lia]. lia.
Qed.
Lemma pool_init_reach k n st : 0 <= n -> pool_init k n st -> treach (pool_new k) st.
Proof.
  intros H [s R]. assert (K : pkind s = k) by (inversion R; subst; reflexivity).
  eapply tr_step; [eapply tr_step; [constructor|apply (ts_resize _ _ _ H R)]|]. rewrite <- K. apply (ts_active s n H).
Qed.

Lemma pool_init_wiv k n st : 0 <= n -> pool_init k n st -> wiv st /\ pq st = [].
Proof.
  intros H I. pose proof (civ_reach _ _ (pool_init_reach _ _ _ H I)) as C. destruct I as [s R]. inversion R; subst; cbn in *; try discriminate; try lia.
  split; [|reflexivity]. constructor; [assumption|cbn; lia|cbn|reflexivity]. rewrite num_repeat. reflexivity.
Qed.
Theorem awake_while_queued k n a st : 0 <= n -> pool_init k n a -> path limit_positive a st ->
  pq st <> [] -> 1 <= pcount st -> exists w, In w (pw st) /\ awake w = true.
Proof.
  intros H I Pa Q K. destruct (pool_init_wiv _ _ _ H I) as [W0 E0].
  assert (G : wiv st /\ some_awake st).
  { clear Q K. induction Pa as [|l b c Pa [IH1 IH2] St N].
    - split; [exact W0|]. intros Q. rewrite E0 in Q. destruct Q. reflexivity.
    - split; [eapply wiv_step; [eassumption|eassumption|apply N]|eapply some_awake_step; eassumption]. }
  destruct G as [_ G]. specialize (G Q K). destruct (num_pos awake (pw st)) as (l1 & w & l2 & E & A); [lia|].
  exists w. rewrite E. split; [apply in_elt|exact A].
Qed.

(** A worker that is not quiet can move. *)
Lemma max_prio q : q <> [] -> exists q1 t q2, q = q1 ++ t :: q2 /\ forall u : task, In u (q1 ++ q2) -> snd u <= snd t.
Proof.
  induction q as [|t q IH]; [intros []; reflexivity|]. intros _. destruct q as [|t' q'].
  - exists [], t, []. split; [reflexivity|]. intros u [].
  - destruct IH as (q1 & m & q2 & E & M); [discriminate|]. rewrite E. destruct (Z.leb_spec (snd t) (snd m)) as [L|L].
    + exists (t :: q1), m, q2. split; [reflexivity|]. intros u [<-|J]; [exact L|apply M, J].
    + exists [], t, (q1 ++ m :: q2). split; [reflexivity|]. intros u J. cbn in J. apply in_app_or in J. destruct J as [J|[<-|J]].
      * specialize (M u). rewrite in_app_iff in M. specialize (M (or_introl J)). lia.
      * lia.
      * specialize (M u). rewrite in_app_iff in M. specialize (M (or_intror J)). lia.
Qed.
Lemma takes_ex k q : q <> [] -> exists t q', takes k q t q'.
Proof.
  intros Q. destruct k.
  - destruct q as [|t q]; [destruct Q; reflexivity|]. exists t, q. constructor.
  - destruct (exists_last Q) as (q' & t & ->). exists t, q'. constructor.
  - destruct (max_prio q Q) as (q1 & t & q2 & -> & M). exists t, (q1 ++ q2). constructor. exact M.
Qed.
Lemma not_quiet_moves st w : In w (pw st) -> quiet w = false -> exists l st', internal l = true /\ tstep l st st'.
Proof.
  intros I Q. apply in_split in I. destruct I as (l1 & l2 & E). destruct w as [| | |t| |]; try discriminate Q.
  - destruct (Z.ltb_spec (ptarget st) (pcount st)).
    + eexists _, _. split; [|apply (ts_enter_exit _ _ _ E H)]. reflexivity.
    + destruct (must_wait st) eqn:M.
      * eexists _, _. split; [|apply (ts_enter_sleep _ _ _ E H M)]. reflexivity.
      * destruct (takes_ex (pkind st) (pq st)) as (t & q & T); [apply must_wait_false, M|].
        eexists _, _. split; [|apply (ts_enter_take _ _ _ _ _ E H M T)]. reflexivity.
  - destruct (must_wait (with_active st (pactive st + 1))) eqn:M.
    + destruct (Z.ltb_spec (ptarget st) (pcount st)).
      * eexists _, _. split; [|apply (ts_woken_exit _ _ _ E M H)]. reflexivity.
      * eexists _, _. split; [|apply (ts_woken_sleep _ _ _ E M H)]. reflexivity.
    + destruct (takes_ex (pkind st) (pq st)) as (t & q & T); [apply (must_wait_false _ M)|].
      eexists _, _. split; [|apply (ts_woken_take _ _ _ _ _ E M T)]. reflexivity.
  - eexists _, _. split; [|apply (ts_done _ _ _ _ E)]. reflexivity.
  - eexists _, _. split; [|apply (ts_destructed _ _ _ E)]. reflexivity.
Qed.
Lemma at_rest_quiet st : at_rest st -> forall w, In w (pw st) -> quiet w = true.
Proof.
  intros H w I. destruct (quiet w) eqn:Q; [reflexivity|]. destruct (not_quiet_moves _ _ I Q) as (l & st' & E & S'). destruct (H l st' E S').
Qed.
Lemma quiet_num p l : (forall w, In w l -> quiet w = true) -> (forall w, quiet w = true -> p w = false) -> num p l = 0.
Proof.
  intros H G. induction l as [|w l IH]; [reflexivity|]. rewrite num_cons, IH by (intros; apply H; right; assumption). rewrite G by (apply H; left; reflexivity). reflexivity.
Qed.
Theorem rest_means_done k st : path calm (pool_new k) st -> 1 <= plimit st -> 1 <= pcount st ->
  at_rest st ->
  pq st = [] /\ running st = [] /\ Permutation (gsched st) (gdone st ++ gfail st ++ gclear st).
Proof.
  intros Pa L C R. pose proof (at_rest_quiet _ R) as Q. pose proof (work_conserved _ _ Pa) as W.
  assert (RN : zlength (running st) = 0) by (rewrite running_num; apply quiet_num; [exact Q|intros []; cbn; congruence]).
  rewrite (quiet_num awake) in W by (try exact Q; intros []; cbn; congruence).
  assert (E1 : running st = []) by (destruct (running st); [reflexivity|rewrite zlength_cons in RN; pose proof (zlength_nonneg l); lia]).
  assert (E2 : pq st = []) by (destruct (pq st) as [|x y]; [reflexivity|rewrite zlength_cons in W; pose proof (zlength_nonneg y); lia]).
  split; [exact E2|]. split; [exact E1|]. destruct (tiv_reach _ _ (path_reach _ _ _ Pa)) as [T _ _ _]. rewrite E1, E2 in T. exact T.
Qed.

(** The pool comes to rest by itself. *)
Definition wmeas (w : wkr) : Z := match w with WEnter | WWoken => 2 | WRun _ => 3 | WExit => 1 | _ => 0 end.
Definition wsum (l : list wkr) : Z := fold_right (fun w n => wmeas w + n) 0 l.
Lemma wsum_mid l1 w l2 : wsum (l1 ++ w :: l2) = wmeas w + (wsum l1 + wsum l2).
Proof. unfold wsum. induction l1 as [|x l1 IH]; cbn [app fold_right] in *; lia. Qed.
Lemma wsum_nonneg l : 0 <= wsum l.
Proof. unfold wsum. induction l as [|w l IH]; cbn [fold_right]; [lia|]. destruct w; cbn [wmeas]; lia. Qed.
Definition pmeas (st : pool) : Z := 4 * zlength (pq st) + wsum (pw st).
Lemma pmeas_step l a b : internal l = true -> tstep l a b -> pmeas b < pmeas a.
Proof.
  intros I St. unfold pmeas. destruct St; try discriminate I; pcbn; try (match goal with E : pw _ = _ |- _ => rewrite E end); rewrite ?wsum_mid; cbn [wmeas];
    try (match goal with T : takes _ _ _ _ |- _ => apply takes_perm, Permutation_length in T; unfold zlength; cbn [length] in T end); lia.
Qed.
Theorem comes_to_rest a : exists bound : nat, forall n b, isteps n a b -> (n <= bound)%nat.
Proof.
  exists (Z.to_nat (pmeas a)). intros n b H. assert (Z.of_nat n <= pmeas a); [|lia].
  induction H as [st|n l a b c I St R IH]; [unfold pmeas; pose proof (wsum_nonneg (pw st)); pose proof (zlength_nonneg (pq st)); lia|].
  pose proof (pmeas_step _ _ _ I St). lia.
Qed.

(** Shrinking. *)
Lemma siv_step l a b : (0 < num waiting (pw a) -> pcount a <= ptarget a) -> tstep l a b -> 0 < num waiting (pw b) -> pcount b <= ptarget b.
Proof.
  intros H St. destruct St; pcbn; try (match goal with E : pw _ = _ |- _ => rewrite E in * end); rewrite ?num_mid in *; pcbn; rewrite ?num_mid in *; ev; try lia; try assumption.
  - intros W. destruct (pterm st).
    + subst st'. subst st1. pcbn. rewrite num_mid in W. ev. lia.
    + inversion H1; subst; subst st1; pcbn; lia.
  - inversion H0 as [l1 l2 E1 E2|l Ex E1 E2]; [|subst ws; assumption]. rewrite <- E1 in *. rewrite num_mid in *. ev. intros _. apply H. pose proof (num_nonneg waiting l1). pose proof (num_nonneg waiting l2). lia.
  - inversion H1; subst; pcbn; try assumption; try lia.
    assert (E : num waiting (map wwake (pw st)) = 0); [|lia]. clear. induction (pw st) as [|w l IH]; [reflexivity|]. cbn [map]. rewrite num_cons, IH. destruct w; reflexivity.
  - assert (E : num waiting (map wwake (pw st)) = 0); [|destruct wait; pcbn; lia]. clear. induction (pw st) as [|w l IH]; [reflexivity|]. cbn [map]. rewrite num_cons, IH. destruct w; reflexivity.
Qed.
Theorem waiting_means_fits k st : treach (pool_new k) st -> 0 < num waiting (pw st) -> pcount st <= ptarget st.
Proof. intros H. induction H; [cbn; lia|]. eapply siv_step; eassumption. Qed.
Theorem at_most k st : treach (pool_new k) st -> 0 <= ptarget st -> (forall w, In w (pw st) -> quiet w = true) -> pcount st <= ptarget st.
Proof.
  intros H T Q. destruct (Z.ltb_spec 0 (num waiting (pw st))) as [W|W]; [eapply waiting_means_fits; eassumption|].
  destruct (civ_reach _ _ H) as [_ C]. rewrite alive_split in C.
  rewrite (quiet_num awake), (quiet_num exiting) in C by (try exact Q; intros []; cbn; congruence). lia.
Qed.
Theorem serial_exact k a st : treach (pool_new k) a -> ptarget a <= pcount a -> num exiting (pw a) = 0 -> 0 <= ptarget a ->
  path serial_exit a st -> (forall w, In w (pw st) -> quiet w = true) -> pcount st = ptarget a.
Proof.
  intros R T E0 N Pa Q.
  assert (G : ptarget st = ptarget a /\ treach (pool_new k) st /\ (num exiting (pw st) <= 1) /\ ptarget st + num exiting (pw st) <= pcount st).
  { clear Q. induction Pa as [|l b c Pa IH St [S1 S2]]; [repeat split; [exact R|lia|lia]|]. destruct IH as (I1 & I2 & I3 & I4).
    assert (R' : treach (pool_new k) c) by (econstructor; eassumption). split; [|split; [exact R'|split; [exact S1|]]].
    - destruct St; pcbn; try assumption; try (destruct S2).
    - clear R'. destruct St; try (destruct S2; fail); pcbn; try (match goal with E : pw _ = _ |- _ => rewrite E in * end); rewrite ?num_mid in *; pcbn; rewrite ?num_mid in *; ev; try lia.
      + rewrite (notify1_num _ _ _ H) by reflexivity. lia. }
  destruct G as (G1 & G2 & G3 & G4). pose proof (at_most _ _ G2 ltac:(lia) Q). pose proof (num_nonneg exiting (pw st)). lia.
Qed.

(** wait() *)
Lemma nth_cwake cs i g : nth_error (map cwake cs) i = Some (CBack g) -> nth_error cs i = Some (CBack g).
Proof. rewrite nth_error_map. destruct (nth_error cs i) as [[]|]; cbn; congruence. Qed.
Lemma nth_mid {A} (c1 c2 : list A) x y i z : nth_error (c1 ++ x :: c2) i = Some z -> nth_error (c1 ++ y :: c2) i = Some z \/ z = x.
Proof.
  revert i. induction c1 as [|a c1 IH]; intros [|i]; cbn; intros E.
  - right. congruence.
  - left. exact E.
  - left. exact E.
  - apply IH, E.
Qed.
Lemma nth_snoc {A} (c : list A) x i z : nth_error (c ++ [x]) i = Some z -> nth_error c i = Some z \/ z = x.
Proof.
  revert i. induction c as [|a c IH]; intros [|i]; cbn; intros E; auto.
  - right. congruence.
  - destruct i; discriminate E.
Qed.
Theorem wait_returned k st l st' i g : treach (pool_new k) st -> tstep l st st' ->
  nth_error (pc st') i = Some (CBack g) -> nth_error (pc st) i <> Some (CBack g) ->
  match g with CWait n => zlength (pq st) + zlength (running st) <= n | CTerm => pcount st <= 0 end.
Proof.
  intros R St J NJ. destruct (civ_reach _ _ R) as [A C].
  assert (M : may_return st g = true -> match g with CWait n => zlength (pq st) + zlength (running st) <= n | CTerm => pcount st <= 0 end).
  { rewrite running_num. pose proof (runs_actv (pw st)). unfold may_return. destruct g as [n|].
    - destruct (Z.eqb_spec n 0).
      + intros E. apply andb_prop in E. destruct E as [E1 E2]. apply Z.eqb_eq in E1. destruct (pq st); [|discriminate E2]. cbn. lia.
      + intros E. apply negb_true_iff, Z.ltb_ge in E. unfold zlength. lia.
    - intros E. apply negb_true_iff, Z.ltb_ge in E. exact E. }
  destruct St; pcbn; try (destruct (NJ (nth_cwake _ _ _ J))); try (destruct (NJ J)).
  - (* died *) destruct (pterm st); [subst st' st1; pcbn; destruct (NJ (nth_cwake _ _ _ J))|]. inversion H0; subst; subst st1; pcbn; destruct (NJ (nth_cwake _ _ _ J)).
  - apply nth_snoc in J. destruct J as [J|J]; [destruct (NJ J)|]. destruct (may_return st (CWait k0)) eqn:E; [|discriminate J]. injection J as ->. apply M, E.
  - rewrite H in NJ. apply (nth_mid _ _ _ (CWoken g0)) in J. destruct J as [J|J]; [destruct (NJ J)|].
    destruct (may_return st g0) eqn:E; [|discriminate J]. injection J as ->. apply M, E.
  - inversion H0; subst; pcbn; destruct (NJ J).
  - destruct wait; pcbn; [|destruct (NJ J)]. apply nth_snoc in J. destruct J as [J|J]; [destruct (NJ J)|].
    cbn [may_return pcount] in *. destruct (0 <? pcount st) eqn:E; cbn [negb] in *; [discriminate J|]. injection J as ->. apply Z.ltb_ge in E. exact E.
  - rewrite H in NJ. apply (nth_mid _ _ _ (CAsleep g0)) in J. destruct J as [J|J]; [destruct (NJ J)|discriminate J].
Qed.
(** A client that sleeps in wait() or in terminate_all_workers is waiting for
    something that has not happened yet. *)
Definition good_sleep (st : pool) : Prop :=
  (In (CAsleep (CWait 0)) (pc st) -> pactive st <> 0 \/ pq st <> []) /\ (In (CAsleep CTerm) (pc st) -> 0 < pcount st).
Lemma cwake_no_sleep cs g : ~ In (CAsleep g) (map cwake cs).
Proof. induction cs as [|c cs IH]; [intros []|]. intros [E|I]; [destruct c; discriminate E|destruct (IH I)]. Qed.
Lemma good_sleep_step l a b : civ a -> good_sleep a -> tstep l a b -> clear_while_active l a b -> good_sleep b.
Proof.
  intros [A C] [G1 G2] St CA. unfold good_sleep.
  assert (NA : forall q1 w q2, pw a = q1 ++ w :: q2 -> actv w = true -> 0 < pactive a).
  { intros q1 w q2 E W. rewrite A, E, num_mid, W. cbn [b2z]. pose proof (num_nonneg actv q1). pose proof (num_nonneg actv q2). lia. }
  pose proof (num_nonneg actv (pw a)) as PA.
  destruct St; pcbn; try (split; intros J; try (destruct (cwake_no_sleep _ _ J)); auto; fail); try (split; assumption).
  - (* enter take *) split; [|assumption]. intros _. left. specialize (NA _ _ _ H eq_refl). lia.
  - split; [|assumption]. intros _. left. lia.
  - (* woken take *) split; [|assumption]. intros _. left. lia.
  - (* died *) destruct (pterm st); [subst st' st1; pcbn; split; intros J; destruct (cwake_no_sleep _ _ J)|].
    inversion H0; subst; subst st1; pcbn; split; intros J; destruct (cwake_no_sleep _ _ J).
  - (* wait call *) split.
    + intros J. apply in_app_or in J. destruct J as [J|[J|[]]]; [apply G1, J|]. destruct (may_return st (CWait k)) eqn:E; [discriminate J|]. injection J as ->.
      cbn in E. destruct (Z.eqb_spec (pactive st) 0); [right|left; assumption]. destruct (pq st); [discriminate E|discriminate].
    + intros J. apply in_app_or in J. destruct J as [J|[J|[]]]; [apply G2, J|]. destruct (may_return st (CWait k)); discriminate J.
  - (* client *) rewrite H in *. assert (X : forall h, In (CAsleep h) (c1 ++ (if may_return st g then CBack g else CAsleep g) :: c2) -> In (CAsleep h) (c1 ++ CWoken g :: c2) \/ (may_return st g = false /\ h = g)).
    { intros h J. apply in_app_or in J. destruct J as [J|[J|J]]; [left; apply in_or_app; auto| |left; apply in_or_app; right; right; exact J].
      destruct (may_return st g); [discriminate J|]. injection J as ->. auto. }
    split; intros J; destruct (X _ J) as [Y|[Y1 Y2]]; auto; subst g; cbn in Y1.
    + destruct (Z.eqb_spec (pactive st) 0); [right|left; assumption]. destruct (pq st); [discriminate Y1|discriminate].
    + apply negb_false_iff, Z.ltb_lt in Y1. exact Y1.
  - (* schedule *) split; [|assumption]. intros _. right. destruct (pq st); discriminate.
  - (* clear *) split; [|assumption]. intros _. left. specialize (CA eq_refl). lia.
  - (* resize *) inversion H0; subst; pcbn; split; try assumption; intros J.
    + destruct (G1 J) as [X|X]; [left; lia|right; exact X].
    + specialize (G2 J). lia.
  - (* terminate *) destruct wait; pcbn; split; try assumption; intros J; apply in_app_or in J; destruct J as [J|[J|[]]]; auto; cbn [may_return pcount] in J.
    + destruct (0 <? pcount st); discriminate J.
    + destruct (Z.ltb_spec 0 (pcount st)); [assumption|discriminate J].
  - (* spurious client *) rewrite H in *. assert (X : forall h, In (CAsleep h) (c1 ++ CWoken g :: c2) -> In (CAsleep h) (c1 ++ CAsleep g :: c2)).
    { intros h J. apply in_app_or in J. destruct J as [J|[J|J]]; [apply in_or_app; auto|discriminate J|apply in_or_app; right; right; exact J]. }
    split; auto.
Qed.
Theorem sleepers_wait k st : path clear_while_active (pool_new k) st -> good_sleep st.
Proof.
  intros H. induction H as [|l b c Pa IH St N]; [split; intros []|]. eapply good_sleep_step; try eassumption. eapply civ_path, Pa.
Qed.
(** At rest nobody is left asleep in wait(). *)
Theorem rest_no_sleeper k st : path (fun l b c => calm l b c /\ clear_while_active l b c) (pool_new k) st -> 1 <= plimit st -> 1 <= pcount st ->
  at_rest st -> ~ In (CAsleep (CWait 0)) (pc st).
Proof.
  intros Pa L C R J.
  assert (P1 : path calm (pool_new k) st) by (clear -Pa; induction Pa; econstructor; try eassumption; tauto).
  assert (P2 : path clear_while_active (pool_new k) st) by (clear -Pa; induction Pa; econstructor; try eassumption; tauto).
  destruct (rest_means_done _ _ P1 L C R) as (E1 & _ & _). destruct (sleepers_wait _ _ P2) as [G _].
  destruct (G J) as [X|X]; [|contradiction]. destruct (civ_path _ _ _ P1) as [A _]. apply X. rewrite A.
  apply quiet_num; [apply at_rest_quiet, R|intros []; cbn; congruence].
Qed.

(** Histories. *)
Lemma run_reach a tr b : run a tr b -> treach a b.
Proof. intros H. induction H; [constructor|econstructor; eassumption]. Qed.
Lemma resize_ghost st n st' : resize st n st' -> pkind st' = pkind st /\ gsched st' = gsched st /\ gstart st' = gstart st /\ gdone st' = gdone st /\ gfail st' = gfail st /\ gclear st' = gclear st.
Proof. intros R. destruct R; repeat split. Qed.
Lemma run_ghost k tr st : run (pool_new k) tr st ->
  pkind st = k /\ gsched st = scheduled tr /\ gstart st = started tr /\ gdone st = returned tr /\ gfail st = threw tr /\ (~ In LClear tr -> gclear st = []).
Proof.
  intros H. induction H as [|tr l b c R IH St]; [cbn; repeat split; reflexivity|].
  unfold scheduled, started, returned, threw in *. rewrite !flat_map_app. cbn [flat_map]. destruct IH as (I1 & I2 & I3 & I4 & I5 & I6). rewrite <- I2, <- I3, <- I4, <- I5.
  assert (I7 : ~ In LClear (tr ++ [l]) -> gclear b = []) by (intros N; apply I6; intros J; apply N, in_or_app; auto). clear I6.
  destruct St; cbn [app]; rewrite ?app_nil_r; try (pcbn; repeat split; try assumption; reflexivity).
  - destruct (pterm st).
    + subst st' st1. pcbn. repeat split; assumption || reflexivity.
    + destruct (resize_ghost _ _ _ H0) as (e1 & e2 & e3 & e4 & e5 & e6). rewrite e1, e2, e3, e4, e5, e6. subst st1. pcbn. repeat split; assumption || reflexivity.
  - pcbn. repeat split; try assumption; try reflexivity. intros N. destruct N. apply in_or_app. right. left. reflexivity.
  - destruct (resize_ghost _ _ _ H0) as (e1 & e2 & e3 & e4 & e5 & e6). rewrite e1, e2, e3, e4, e5, e6. repeat split; assumption || reflexivity.
  - destruct wait; pcbn; repeat split; try assumption; reflexivity.
Qed.
Theorem task_places k tr st : run (pool_new k) tr st -> ~ In LClear tr ->
  Permutation (scheduled tr) (pq st ++ running st ++ returned tr ++ threw tr) /\
  Permutation (started tr) (running st ++ returned tr ++ threw tr).
Proof.
  intros R N. destruct (run_ghost _ _ _ R) as (e1 & e2 & e3 & e4 & e5 & e6). destruct (tiv_reach _ _ (run_reach _ _ _ R)) as [h1 h2 _ _].
  rewrite e2, e4, e5, (e6 N), app_nil_r in h1. rewrite e3, e4, e5 in h2. auto.
Qed.
Lemma NoDup_app_r {A} (a b : list A) : NoDup (a ++ b) -> NoDup b.
Proof. induction a as [|x a IH]; [auto|]. cbn. intros H. inversion H; subst. apply IH. assumption. Qed.
Lemma NoDup_app_l {A} (a b : list A) : NoDup (a ++ b) -> NoDup a.
Proof. intros H. apply (Permutation_NoDup (Permutation_app_comm a b)) in H. apply NoDup_app_r in H. exact H. Qed.
Theorem started_once k tr st : run (pool_new k) tr st -> NoDup (scheduled tr) -> NoDup (started tr).
Proof.
  intros R N. destruct (run_ghost _ _ _ R) as (e1 & e2 & e3 & e4 & e5 & e6). destruct (tiv_reach _ _ (run_reach _ _ _ R)) as [h1 h2 _ _].
  rewrite <- e3. rewrite <- e2 in N. apply (Permutation_NoDup h1) in N. apply (Permutation_NoDup (Permutation_sym h2)).
  apply NoDup_app_r in N. rewrite !app_assoc in N. apply NoDup_app_l in N. rewrite <- app_assoc in N. exact N.
Qed.
Theorem fifo_order tr st : run (pool_new Fifo) tr st -> subseq (started tr ++ pq st) (scheduled tr) /\ (~ In LClear tr -> scheduled tr = started tr ++ pq st).
Proof.
  intros R. destruct (run_ghost _ _ _ R) as (e1 & e2 & e3 & e4 & e5 & e6). destruct (tiv_reach _ _ (run_reach _ _ _ R)) as [_ _ h3 h4].
  rewrite <- e2, <- e3. split; [apply h3, e1|]. intros N. apply h4; [exact e1|apply e6, N].
Qed.
Lemma takes_prio_inv q t q' : takes Prio q t q' -> forall u, In u q' -> snd u <= snd t.
Proof. intros T. inversion T; subst. assumption. Qed.
Theorem prio_order tr st t st' : run (pool_new Prio) tr st -> tstep (LStart t) st st' -> forall u, In u (pq st') -> snd u <= snd t.
Proof.
  intros R St u J. destruct (run_ghost _ _ _ R) as (e1 & _). inversion St; subst; pcbn; match goal with T : takes _ _ _ _ |- _ => rewrite e1 in T; exact (takes_prio_inv _ _ _ T _ J) end.
Qed.
Lemma path_weaken (P Q : label -> pool -> pool -> Prop) a b : (forall l x y, P l x y -> Q l x y) -> path P a b -> path Q a b.
Proof. intros H R. induction R; [constructor|econstructor; eauto]. Qed.
