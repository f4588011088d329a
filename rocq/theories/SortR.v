(** The merge sort program: it comes to its end, or not. *)
From Coq Require Import Lia Arith Permutation.
From Verif Require Import Prelude TPoolM TPoolS TPoolP TPoolQ SortM SortS SortP SortQ.
Local Open Scope nat_scope.
Local Arguments Nat.pow : simpl never.
Local Arguments Nat.mul : simpl never.

(** ** A pool made without threads *)
Definition no_limit_set (l : label) (_ _ : pool) : Prop := forall n, l <> LActive n.
Lemma limit_same l a b : tstep l a b -> no_limit_set l a b -> plimit b = plimit a.
Proof.
  intros St N. destruct St; pcbn; try reflexivity.
  - destruct (pterm st); [subst st'; reflexivity|]. destruct (runs_resize _ _ _ H0) as [_ E]. rewrite E. reflexivity.
  - apply (runs_resize _ _ _ H0).
  - destruct (N n eq_refl).
  - destruct wait; reflexivity.
Qed.
Lemma init_zero_limit k a : pool_init k 0 a -> plimit a = 0%Z.
Proof. intros [s R]. cbn. inversion R; subst; cbn in *; try discriminate; try lia. destruct (Z.ltb_spec 0 k0); lia. Qed.
Lemma zero_no_start k st t st' : treach (pool_new k) st -> tstep (LStart t) st st' -> plimit st = 0%Z -> False.
Proof.
  intros R St L. pose proof (start_limit k _ _ _ R St) as X. rewrite (limit_same _ _ _ St), L in X by (intros n; discriminate).
  destruct (step_start _ _ _ St) as (_ & E & _). apply Permutation_length in E. unfold zlength in X. rewrite E in X. cbn [length] in X. lia.
Qed.
Lemma gstart_same l a b : tstep l a b -> (forall t, l <> LStart t) -> gstart b = gstart a.
Proof.
  intros St N. destruct St; pcbn; try reflexivity; try (destruct (N _ eq_refl)).
  - destruct (pterm st); [subst st'; reflexivity|]. apply (resize_ghost _ _ _ H0).
  - apply (resize_ghost _ _ _ H0).
  - destruct wait; reflexivity.
Qed.
Theorem zero_pool k a st : pool_init k 0 a -> path no_limit_set a st -> plimit st = 0%Z /\ gstart st = [].
Proof.
  intros I Pa. pose proof (pool_init_reach k 0 a ltac:(lia) I) as R.
  assert (G : gstart a = []) by (destruct I as [s X]; inversion X; subst; reflexivity).
  induction Pa as [|l b c Pa (IH1 & IH2) St N]; [split; [apply (init_zero_limit k), I|exact G]|].
  rewrite (limit_same _ _ _ St N). split; [exact IH1|].
  assert (Rb : treach (pool_new k) b).
  { clear -R Pa. induction Pa; [exact R|]. eapply tr_step; [|eassumption]. apply IHPa. }
  destruct (match l with LStart _ => true | _ => false end) eqn:S.
  - destruct l; try discriminate S. destruct (zero_no_start k _ _ _ Rb St IH1).
  - rewrite (gstart_same _ _ _ St); [exact IH2|]. intros t ->. discriminate S.
Qed.

(** ** Steps that keep the pool going *)
Definition ours (l : label) : bool := match l with LWorker | LStart _ | LDone _ | LClient | LSchedule _ | LSpurious => true | _ => false end.
Definition waits0 (c : client) : Prop := match c with CAsleep g | CWoken g | CBack g => g = CWait 0 end.
Definition good (l : label) (b c : pool) : Prop := calm l b c /\ clear_while_active l b c.
Record lively (P : pool) : Prop := Lively {
  l_path : path good (pool_new Fifo) P; l_wiv : wiv P; l_limit : (1 <= plimit P)%Z; l_count : (1 <= pcount P)%Z }.
Lemma ours_limit l a b : ours l = true -> tstep l a b -> plimit b = plimit a.
Proof. intros O St. apply (limit_same _ _ _ St). intros n ->. discriminate O. Qed.
Lemma ours_good l a b : ours l = true -> tstep l a b -> good l a b.
Proof.
  intros O St. split; [split|].
  - destruct l; try discriminate O; exact I.
  - rewrite (ours_limit _ _ _ O St). lia.
  - intros ->. discriminate O.
Qed.
Lemma ours_count l a b : wiv a -> ours l = true -> tstep l a b -> pcount b = pcount a.
Proof.
  intros W O St. destruct W as [_ _ X _]. destruct St; try discriminate O; pcbn; try reflexivity.
  exfalso. rewrite H, num_mid in X. cbn [exiting b2z] in X. pose proof (num_nonneg exiting l1). pose proof (num_nonneg exiting l2). lia.
Qed.
Lemma lively_step l a b : lively a -> tstep l a b -> ours l = true -> lively b.
Proof.
  intros [H1 H2 H3 H4] St O. pose proof (ours_good _ _ _ O St) as G. constructor.
  - eapply pa_step; eassumption.
  - apply (wiv_step _ _ _ H2 St). apply G.
  - rewrite (ours_limit _ _ _ O St). exact H3.
  - rewrite (ours_count _ _ _ H2 O St). exact H4.
Qed.
Lemma waits0_wake cs : Forall waits0 cs -> Forall waits0 (map cwake cs).
Proof. intros H. rewrite Forall_map. revert H. apply Forall_impl. intros []; exact (fun x => x). Qed.
Lemma waits0_mid c1 c c' c2 : Forall waits0 (c1 ++ c :: c2) -> (waits0 c -> waits0 c') -> Forall waits0 (c1 ++ c' :: c2).
Proof. rewrite !Forall_app. intros (H1 & H2) I. inversion H2; subst. split; [exact H1|]. constructor; auto. Qed.
Lemma waits0_step l a b : ours l = true -> tstep l a b -> length (pc b) = length (pc a) -> Forall waits0 (pc a) -> Forall waits0 (pc b).
Proof.
  intros O St L F. destruct St; try discriminate O; pcbn; try exact F; try (apply waits0_wake; exact F).
  - rewrite app_length in L. cbn in L. lia.
  - rewrite H in F. eapply waits0_mid; [exact F|]. destruct (may_return st g); exact (fun x => x).
  - rewrite H in F. eapply waits0_mid; [exact F|]. exact (fun x => x).
Qed.
Lemma worker_len l a b : tstep l a b -> internal l = true -> length (pc b) = length (pc a).
Proof. intros St I. destruct St; try discriminate I; pcbn; rewrite ?map_length; reflexivity. Qed.
Lemma notify1_ex l : exists m, notify1 l m.
Proof.
  destruct (existsb waiting l) eqn:E; [|exists l; constructor; exact E]. apply existsb_exists in E. destruct E as (w & I & W). destruct w; try discriminate W.
  apply in_split in I. destruct I as (l1 & l2 & ->). eexists. constructor.
Qed.

Section Finite.
Variable A : Type.
Variable content : A -> Z.
Variable e : nat.
Notation sstep := (sstep A content e).
(** *** Without spurious wake-ups and unfinished merges there is an end. *)
Definition woken (c : client) : bool := match c with CWoken _ => true | _ => false end.
Definition rank (m : mpc) : nat := match m with MSched step _ => 2 * (e - step) + 3 | MWait step => 2 * (e - step) + 2 | MDone => 0 end.
Definition left (m : mpc) : nat := match m with MSched step p => 2 ^ e / 2 ^ step - p | _ => 0 end.
Definition pm (P : pool) : nat := Z.to_nat (pmeas P).
Definition wk (P : pool) : nat := length (filter woken (pc P)).
Lemma pmeas_nonneg P : (0 <= pmeas P)%Z.
Proof. unfold pmeas. pose proof (wsum_nonneg (pw P)). pose proof (zlength_nonneg (pq P)). lia. Qed.
Lemma pm_step l a b : tstep l a b -> internal l = true -> pm b < pm a.
Proof. intros St I. unfold pm. pose proof (pmeas_step _ _ _ I St). pose proof (pmeas_nonneg b). lia. Qed.
Lemma round_rank step : rank (round e (S step)) < 2 * (e - step) + 2.
Proof. unfold round. destruct (Nat.leb_spec (S step) e); cbn [rank]; lia. Qed.

Lemma falls x y : sstep true x y -> match x, y with
  | Fine x, Fine y =>
      rank (s_main y) < rank (s_main x) \/ rank (s_main y) = rank (s_main x) /\
      (left (s_main y) < left (s_main x) \/ left (s_main y) = left (s_main x) /\
      (pm (s_pool y) < pm (s_pool x) \/ pm (s_pool y) = pm (s_pool x) /\ wk (s_pool y) < wk (s_pool x)))
  | Undefined, _ => False | _, Undefined => True end.
Proof.
  intros St. inversion St; subst; cbn [s_main s_pool rank left].
  - right. split; [reflexivity|]. left. lia.
  - left. lia.
  - left. apply round_rank.
  - right. split; [reflexivity|]. right. split; [reflexivity|]. destruct H as [->| ->].
    + left. apply (pm_step _ _ _ H0 eq_refl).
    + right. inversion H0; subst; cbn [pc with_clients] in *.
      * rewrite app_length in H1. cbn in H1. lia.
      * split; [reflexivity|]. unfold wk. cbn [pc with_clients]. rewrite H, !filter_app, !app_length. cbn [filter woken]. destruct (may_return P g); cbn [woken length]; lia.
  - destruct (job_ok _ _ _ _ _ _); [|exact I]. cbn [s_main s_pool]. right. split; [reflexivity|]. right. split; [reflexivity|]. left. apply (pm_step _ _ _ H eq_refl).
  - right. split; [reflexivity|]. right. split; [reflexivity|]. left. apply (pm_step _ _ _ H eq_refl).
Qed.
Lemma no_fall (f : nat -> state A) k0 : (forall k, k0 <= k -> sstep true (f k) (f (S k))) -> False.
Proof.
  intros H.
  assert (G : forall a b c d k y, k0 <= k -> f k = Fine y -> rank (s_main y) = a -> left (s_main y) = b -> pm (s_pool y) = c -> wk (s_pool y) = d -> False).
  { induction a as [a IHa] using (well_founded_induction lt_wf). induction b as [b IHb] using (well_founded_induction lt_wf).
    induction c as [c IHc] using (well_founded_induction lt_wf). induction d as [d IHd] using (well_founded_induction lt_wf).
    intros k y Hk E <- <- <- <-. pose proof (H k Hk) as St. rewrite E in St.
    pose proof (falls _ _ St) as Fl. destruct (f (S k)) as [z|] eqn:Ez.
    - destruct Fl as [Fl|(E1 & [Fl|(E2 & [Fl|(E3 & Fl)])])].
      + eapply (IHa _ Fl _ _ _ (S k) z); eauto.
      + eapply (IHb _ Fl _ _ (S k) z); eauto.
      + eapply (IHc _ Fl _ (S k) z); eauto.
      + eapply (IHd _ Fl (S k) z); eauto.
    - pose proof (H (S k) ltac:(lia)) as St'. rewrite Ez in St'. inversion St'. }
  pose proof (H k0 (le_n _)) as St. destruct (f k0) as [y|] eqn:E; [|inversion St]. exact (G _ _ _ _ k0 y (le_n _) E eq_refl eq_refl eq_refl eq_refl).
Qed.
Theorem sort_finite (f : nat -> state A) (o : nat -> bool) : (forall k, sstep (o k) (f k) (f (S k))) -> forall k, ~ (forall k', k <= k' -> o k' = true).
Proof. intros H k N. apply (no_fall f k). intros k' L. rewrite <- (N k' L). apply H. Qed.

End Finite.

Section Sort.
Variable A : Type.
Variable content : A -> Z.
Variable e : nat.
Variable init : nat -> A.
Notation sstep := (sstep A content e).
Notation sreach := (sreach A content e).
Notation inv := (inv A content e init).

Definition alive_sys (x : state A) : Prop := match x with Fine x => lively (s_pool x) /\ Forall waits0 (pc (s_pool x)) | Undefined => True end.
Lemma wait_clients P P' : tstep LClient P P' -> length (pc P') = S (length (pc P)) -> exists c, pc P' = pc P ++ [c].
Proof.
  intros St L. inversion St; subst; pcbn.
  - eexists. reflexivity.
  - rewrite H in L. cbn [pc with_clients] in L. rewrite !app_length in L. cbn [length] in L. lia.
Qed.
Lemma alive_step o x y : alive_sys x -> sstep o x y -> alive_sys y.
Proof.
  intros Al St. destruct St; cbn [alive_sys s_pool] in *; try (destruct Al as (L & F)).
  - split; [apply (lively_step _ _ _ L H0 eq_refl)|]. destruct (step_schedule _ _ _ H0) as (_ & _ & ->). exact F.
  - split; [apply (lively_step _ _ _ L H0 eq_refl)|]. destruct (wait_clients _ _ H0 H1) as (c & E). rewrite E in *. apply Forall_app. split; [exact F|].
    rewrite app_nth2, Nat.sub_diag in H2 by lia. cbn [nth] in H2. constructor; [|constructor]. destruct H2 as [<-|[<-|[]]]; reflexivity.
  - split; assumption.
  - assert (O : ours l = true) by (destruct o; [destruct H as [->| ->]|rewrite H]; reflexivity).
    split; [apply (lively_step _ _ _ L H0 O)|apply (waits0_step _ _ _ O H0 H1 F)].
  - destruct (job_ok _ _ _ _ _ _); [|exact I]. split; [apply (lively_step _ _ _ L H eq_refl)|]. destruct (step_start _ _ _ H) as (_ & _ & E). cbn [s_pool]. rewrite E. exact F.
  - split; assumption.
  - split; [apply (lively_step _ _ _ L H eq_refl)|]. destruct (step_done _ _ _ H) as (_ & _ & E). cbn [s_pool]. rewrite E. exact F.
Qed.
Lemma made_lively n m st : (0 <= n)%Z -> (n <= m)%Z -> pool_made n m st -> (1 <= plimit st)%Z -> lively st.
Proof.
  intros Hn Hm (a & I & R) L1. destruct (pool_init_wiv _ _ _ Hn I) as (W & E). pose proof (runs_resize _ _ _ R) as (_ & El).
  assert (C : (plimit a <= pcount a /\ pcount a <= n)%Z).
  { destruct I as [s X]. cbn. inversion X; subst; cbn in *; try discriminate; try lia; destruct (Z.ltb_spec n k); lia. }
  assert (Sr : tstep (LResize m) a st) by (apply ts_resize; [lia|exact R]).
  assert (Pa : path good (pool_new Fifo) a).
  { destruct I as [s X]. assert (K : pkind s = Fifo) by (inversion X; subst; reflexivity). assert (Q : pq s = []) by (inversion X; subst; reflexivity).
    eapply pa_step; [eapply pa_step; [constructor|apply (ts_resize _ _ _ Hn X)|]| |].
    - split; [split|]; [cbn; lia| |intros X'; discriminate X']. rewrite (proj2 (runs_resize _ _ _ X)). lia.
    - rewrite <- K. apply (ts_active s n Hn).
    - split; [split|]; [exact Logic.I|intros _; exact Q|intros X'; discriminate X']. }
  assert (G : good (LResize m) a st).
  { split; [split|]; [cbn; lia|rewrite El; lia|intros X'; discriminate X']. }
  constructor.
  - eapply pa_step; eassumption.
  - apply (wiv_step _ _ _ W Sr). apply G.
  - exact L1.
  - rewrite El in L1. inversion R; subst; cbn; lia.
Qed.

(** *** Nothing more can happen: main is through. *)
Theorem sort_ends n m s0 y : (0 <= n)%Z -> (n <= m)%Z -> prog_start A e n m init (Fine s0) -> (1 <= plimit (s_pool s0))%Z ->
  sreach (Fine s0) (Fine y) -> (forall z, ~ sstep true (Fine y) z) -> s_main y = MDone.
Proof.
  intros Hn Hm St L R Stuck. assert (Hm0 : (0 <= m)%Z) by lia.
  pose proof (inv_reach A content e init n m _ _ Hn Hm0 St R) as I.
  assert (Al : alive_sys (Fine y)).
  { assert (A0 : alive_sys (Fine s0)).
    { inversion St; subst. cbn [s_pool] in *. split; [apply (made_lively n m); assumption|]. destruct (made_pool n m _ Hn Hm0 H0) as (_ & _ & _ & E). cbn [s_pool]. rewrite E. constructor. }
    clear I Stuck. remember (Fine s0) as a. remember (Fine y) as b. clear Heqb. induction R as [|o b c R IH Sb]; [subst; exact A0|exact (alive_step _ _ _ IH Sb)]. }
  destruct Al as (Lv & F). destruct y as [P d js lv mn]. cbn [s_pool s_main] in *. destruct Lv as [Lp Lw Ll Lc].
  assert (Tasks : forall t, In t (pending P) -> exists j, nth_error js (fst t) = Some j).
  { intros t It. destruct I as (_ & I). cbn [s_main s_pool s_data s_jobs s_live] in I. destruct mn as [step p|step|].
    - destruct I as (s & b & _ & _ & Rd). destruct (r_tasks _ _ _ _ _ _ _ _ _ _ _ Rd t It) as (q & Hq & ->). eexists. apply (r_jobs _ _ _ _ _ _ _ _ _ _ _ Rd q Hq).
    - destruct I as (s & b & _ & _ & Rd & _). destruct (r_tasks _ _ _ _ _ _ _ _ _ _ _ Rd t It) as (q & Hq & ->). eexists. apply (r_jobs _ _ _ _ _ _ _ _ _ _ _ Rd q Hq).
    - destruct I as (_ & _ & E). rewrite E in It. destruct It. }
  assert (Live : forall t, In t (running P) -> exists j l, In (t, j, l) lv).
  { intros t It. assert (Pl : Permutation (map (ltask A) lv) (running P)).
    { destruct I as (_ & I). cbn [s_main s_pool s_data s_jobs s_live] in I. destruct mn as [step p|step|].
      - destruct I as (s & b & _ & _ & Rd). apply (r_live _ _ _ _ _ _ _ _ _ _ _ Rd).
      - destruct I as (s & b & _ & _ & Rd & _). apply (r_live _ _ _ _ _ _ _ _ _ _ _ Rd).
      - destruct I as (_ & -> & E). apply app_eq_nil in E. destruct E as (_ & ->). constructor. }
    apply (Permutation_in _ (Permutation_sym Pl)) in It. apply in_map_iff in It. destruct It as (((t' & j) & l) & <- & It). exists j, l. exact It. }
  assert (Rest : at_rest P).
  { intros l P' Il Sl. destruct l; try discriminate Il.
    - eapply Stuck. eapply ss_pool; [left; reflexivity|exact Sl|apply (worker_len _ _ _ Sl eq_refl)].
    - destruct (Tasks t) as (j & J).
      { destruct (step_start _ _ _ Sl) as (E & _). apply in_or_app. left. apply (Permutation_in _ (Permutation_sym E)). left. reflexivity. }
      eapply Stuck. eapply ss_start; eassumption.
    - destruct (Live t) as (j & l & J).
      { destruct (step_done _ _ _ Sl) as (_ & E & _). apply (Permutation_in _ (Permutation_sym E)). left. reflexivity. }
      apply in_split in J. destruct J as (l1 & l2 & ->). eapply Stuck. eapply ss_done; exact Sl. }
  pose proof (rest_no_sleeper _ _ Lp Ll Lc Rest) as NS.
  destruct I as (_ & I). cbn [s_main s_pool s_data s_jobs s_live] in I. destruct mn as [step p|step|]; [exfalso|exfalso|reflexivity].
  - destruct (Nat.lt_ge_cases p (2 ^ e / 2 ^ step)) as [Hp|Hp].
    + destruct (notify1_ex (pw P)) as (ws & N). eapply Stuck. apply ss_schedule; [exact Hp|]. apply ts_schedule. exact N.
    + eapply Stuck. eapply ss_wait; [exact Hp|apply (ts_wait_call P 0); lia|cbn [pc with_clients]; rewrite app_length; cbn; lia|].
      cbn [pc with_clients]. rewrite app_nth2, Nat.sub_diag by lia. cbn [nth]. destruct (may_return P (CWait 0)); cbn; auto.
  - destruct I as (s & b & -> & Len & _). destruct (nth_error (pc P) s) as [c|] eqn:X; [|apply nth_error_None in X; lia].
    pose proof (nth_error_In _ _ X) as Ic. pose proof (proj1 (Forall_forall _ _) F c Ic) as Wc. destruct c as [g|g|g]; cbn in Wc; subst g.
    + exact (NS Ic).
    + apply nth_error_split in X. destruct X as (c1 & c2 & E & _). eapply Stuck. eapply ss_pool; [right; reflexivity|apply (ts_client P c1 _ c2 E)|].
      cbn [pc with_clients]. rewrite E, !app_length. reflexivity.
    + eapply Stuck. apply ss_next. replace (S s - 1) with s by lia. exact X.
Qed.

(** *** As the program is written. *)
Definition dead (x : state A) : Prop :=
  match x with Fine x => plimit (s_pool x) = 0%Z /\ s_live x = [] /\ s_data x = init /\ running (s_pool x) = [] /\
                 ((exists p, s_main x = MSched 1 p /\ length (pq (s_pool x)) = p) \/ s_main x = MWait 1 /\ pq (s_pool x) <> [])
  | Undefined => False end.
Lemma dead_step o x y : 1 <= e -> inv x -> dead x -> sstep o x y -> dead y.
Proof.
  intros He Iv D St. destruct St; cbn [dead s_pool s_live s_data s_main] in *; destruct D as (L & El & Ed & Er & Mn).
  - destruct (step_schedule _ _ _ H0) as (E1 & E2 & _). rewrite (limit_same _ _ _ H0) by (intros ?; discriminate). rewrite E2. repeat (split; [assumption|]). left.
    destruct Mn as [(p' & E & Lq)|(E & _)]; [|discriminate E]. injection E as -> <-. exists (S p). split; [reflexivity|]. rewrite E1, app_length. cbn. lia.
  - destruct (step_quiet _ _ _ (or_intror (or_introl eq_refl)) H0) as (E1 & E2). rewrite (limit_same _ _ _ H0) by (intros ?; discriminate). rewrite E2.
    repeat (split; [assumption|]). right. destruct Mn as [(p' & E & Lq)|(E & _)]; [|discriminate E]. injection E as -> <-. split; [reflexivity|]. rewrite E1.
    intros E. rewrite E in Lq. cbn in Lq. destruct (blocks_eq A content e init 1 He) as (B & _). unfold blocks in B. pose proof (pow_pos (e - 1)). lia.
  - exfalso. destruct Mn as [(p' & E & _)|(E & Nq)]; [discriminate E|]. injection E as ->. destruct Iv as (_ & s & b & Es & _ & _ & B). cbn [s_pool] in B. injection Es as <-.
    specialize (B H). apply app_eq_nil in B. destruct B as (B & _). contradiction.
  - assert (Lb : l = LWorker \/ l = LClient \/ l = LSpurious) by (destruct o; intuition).
    destruct (step_quiet _ _ _ Lb H0) as (E1 & E2). rewrite (limit_same _ _ _ H0) by (intros ?; destruct Lb as [->|[->| ->]]; discriminate). rewrite E1, E2. auto.
  - exfalso. destruct Iv as (T & _). apply (zero_no_start Fifo P t P' T H L).
  - exfalso. subst lv. destruct H.
  - exfalso. destruct lv1; discriminate El.
Qed.
Theorem sort_hangs m x y : 1 <= e -> (0 <= m)%Z -> prog_start A e 0 m init x -> sreach x y ->
  exists s, y = Fine s /\ (s_main s = MWait 1 \/ exists p, s_main s = MSched 1 p) /\ s_data s = init /\ s_live s = [] /\ gstart (s_pool s) = [].
Proof.
  intros He Hm St R. assert (D : dead y).
  { induction R as [|o b c R IH Sb]; [|exact (dead_step _ _ _ He (inv_reach A content e init 0 m _ _ (Z.le_refl 0) Hm St R) IH Sb)].
    destruct St as [st Hs]. destruct (made_pool 0 m st (Z.le_refl 0) Hm Hs) as (_ & E1 & E2 & _). cbn. repeat split; auto.
    - destruct Hs as (a & Ia & Ra). rewrite (proj2 (runs_resize _ _ _ Ra)). apply (init_zero_limit Fifo), Ia.
    - left. exists 0. unfold round. destruct (Nat.leb_spec 1 e); [|lia]. rewrite E1. auto. }
  assert (G : match y with Fine s => gstart (s_pool s) = [] | Undefined => True end).
  { induction R as [|o b c R IH Sb].
    - destruct St as [st (a & Ia & Ra)]. cbn. destruct (resize_ghost _ _ _ Ra) as (_ & _ & E & _). rewrite E. destruct Ia as [s X]; inversion X; subst; reflexivity.
    - pose proof (inv_reach A content e init 0 m _ _ (Z.le_refl 0) Hm St R) as Ib.
      assert (Db : dead b).
      { clear -R St He Hm. induction R as [|o b c R IH Sb]; [|exact (dead_step _ _ _ He (inv_reach A content e init 0 m _ _ (Z.le_refl 0) Hm St R) IH Sb)].
        destruct St as [st Hs]. destruct (made_pool 0 m st (Z.le_refl 0) Hm Hs) as (_ & E1 & E2 & _). cbn. repeat split; auto.
        - destruct Hs as (a & Ia & Ra). rewrite (proj2 (runs_resize _ _ _ Ra)). apply (init_zero_limit Fifo), Ia.
        - left. exists 0. unfold round. destruct (Nat.leb_spec 1 e); [|lia]. rewrite E1. auto. }
      specialize (IH Db). destruct Sb; cbn [s_pool] in *; try exact IH; try (rewrite (gstart_same _ _ _ H0); [exact IH|intros ?; try discriminate]).
      + destruct o; [destruct H as [->| ->]|rewrite H]; discriminate.
      + exfalso. destruct Db as (L & _). destruct Ib as (T & _). apply (zero_no_start Fifo P t P' T H L).
      + destruct Db as (_ & El & _). cbn [s_live] in El. destruct lv1; discriminate El. }
  destruct y as [s|]; [|destruct D]. exists s. split; [reflexivity|]. destruct D as (_ & El & Ed & _ & Mn). split; [|auto].
  destruct Mn as [(p & E & _)|(E & _)]; [right; exists p; exact E|left; exact E].
Qed.
End Sort.
