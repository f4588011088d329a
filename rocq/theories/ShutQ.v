(** Destroying a thread pool comes to an end. *)
From Coq Require Import Permutation.
From Verif Require Import Prelude TPoolM TPoolS TPoolP TPoolQ ShutM ShutS ShutP.

(** ** Every run ends *)
Lemma wsum_app a b : wsum (a ++ b) = wsum a + wsum b.
Proof. unfold wsum. induction a as [|x a IH]; cbn [app fold_right] in *; lia. Qed.
Lemma pmeas_died t a b : tstep (LDied t) a b -> pmeas b < pmeas a.
Proof.
  intros St. inversion St; subst. unfold pmeas. match goal with E : pw a = _ |- _ => rewrite E, wsum_mid; clear E end. cbn [wmeas].
  assert (M1 : wsum (pw st1) = wsum l1 + wsum l2) by (subst st1; cbn [pw]; rewrite wsum_mid; cbn [wmeas]; lia).
  assert (Q1 : pq st1 = pq a) by reflexivity. destruct (pterm a).
  - subst b. rewrite Q1, M1. lia.
  - rewrite <- Q1. clearbody st1. clear Q1. match goal with H : resize st1 (pcount st1 + 1) b |- _ => inversion H; subst end.
    + lia.
    + unfold grow. cbn [pw pq]. rewrite wsum_app. assert (K : k = 0 \/ k = 1) by lia. assert (W : wsum (repeat WEnter (Z.to_nat k)) <= 2) by (destruct K as [-> | ->]; vm_compute; discriminate). lia.
    + lia.
Qed.
Definition todo (s : sys) : nat := 2 * length (stodo s) + match sin s with Some _ => 1 | None => 0 end.
Definition woken (c : client) : bool := match c with CWoken _ => true | _ => false end.
Definition nwoken (st : pool) : nat := length (filter woken (pc st)).
Lemma nwoken_mid c1 c c2 : length (filter woken (c1 ++ c :: c2)) = (length (filter woken c1) + (if woken c then 1 else 0) + length (filter woken c2))%nat.
Proof. rewrite filter_app, app_length. cbn. destruct (woken c); cbn; lia. Qed.
Lemma pmeas_nonneg st : 0 <= pmeas st.
Proof. unfold pmeas. pose proof (wsum_nonneg (pw st)). pose proof (zlength_nonneg (pq st)). lia. Qed.
Theorem own_ends r s : ends (own r) s.
Proof.
  unfold ends.
  assert (G : forall n m w s, (todo s <= n)%nat -> pmeas (spool s) <= Z.of_nat m -> (nwoken (spool s) <= w)%nat -> Acc (fun c b => own r b c) s).
  2:{ apply (G (todo s) (Z.to_nat (pmeas (spool s))) (nwoken (spool s))); lia. }
  induction n as [n IHn] using (well_founded_induction lt_wf).
  induction m as [m IHm] using (well_founded_induction lt_wf).
  induction w as [w IHw] using (well_founded_induction lt_wf).
  intros x Hn Hm Hw. constructor. intros y O.
  assert (Pool : forall st st' d i, x = Sys st d i -> y = Sys st' d i -> pmeas st' < pmeas st -> Acc (fun c b => own r b c) y).
  { intros st st' d i -> -> L. cbn [spool] in *. pose proof (pmeas_nonneg st'). apply (IHm (Z.to_nat (pmeas st'))) with (w := nwoken st'); cbn [spool]; try lia. exact Hn. }
  destruct O as [l a b I St|t a b St Rp|st c1 g c2 d i E|c a b St|a b St].
  - inversion St; subst. eapply Pool; [reflexivity|reflexivity|]. eapply pmeas_step; eassumption.
  - inversion St; subst. eapply Pool; [reflexivity|reflexivity|]. eapply pmeas_died; eassumption.
  - cbn [spool] in *. unfold nwoken in Hw. rewrite E, nwoken_mid in Hw. cbn [woken] in Hw.
    apply (IHw (length (filter woken c1) + length (filter woken c2))%nat); [lia|exact Hn|exact Hm|].
    cbn [spool]. unfold nwoken. pcbn. rewrite nwoken_mid. destruct (may_return st g); cbn; lia.
  - inversion St; subst. eapply (IHn (todo (Sys (fst (do_call st c)) k (snd (do_call st c))))).
    + unfold todo in *. cbn [stodo sin length] in *. destruct (snd (do_call st c)); lia.
    + reflexivity.
    + rewrite Z2Nat.id by apply pmeas_nonneg. reflexivity.
    + reflexivity.
  - inversion St; subst. eapply (IHn (todo (Sys st k None))).
    + unfold todo in *. cbn [stodo sin length] in *. lia.
    + reflexivity.
    + rewrite Z2Nat.id by apply pmeas_nonneg. reflexivity.
    + reflexivity.
Qed.

(** ** At the end the destructor has returned *)
Lemma own_sleep l a b : civ a -> (internal l = true \/ exists t, l = LDied t) -> tstep l a b ->
  pc b = map cwake (pc a) \/ (pc b = pc a /\ 0 < pactive b /\ pcount b = pcount a).
Proof.
  intros C I St. pose proof (civ_step _ _ _ C St) as [A' _].
  assert (NA : forall q1 w q2, pw b = q1 ++ w :: q2 -> actv w = true -> 0 < pactive b).
  { intros q1 w q2 E W. rewrite A', E, num_mid, W. cbn [b2z]. pose proof (num_nonneg actv q1). pose proof (num_nonneg actv q2). lia. }
  destruct St; try (destruct I as [I|(t' & I)]; discriminate I); try (left; reflexivity);
    try (right; split; [reflexivity|split; [|reflexivity]]; eapply NA; [reflexivity|reflexivity]).
  left. destruct (pterm st); [subst st'; reflexivity|]. apply resize_lists in H0. destruct H0 as (_ & _ & _ & _ & ->). reflexivity.
Qed.
Lemma own_reach k r a b : own r a b -> treach (pool_new k) (spool a) -> treach (pool_new k) (spool b).
Proof.
  intros O R. destruct O as [l a b I St|t a b St Rp|st c1 g c2 d i E|c a b St|a b St]; try (eapply sstep_reach; eassumption).
  cbn [spool] in *. eapply tr_step; [exact R|]. apply ts_client. exact E.
Qed.
Lemma steps_reach k r a b : steps (own r) a b -> treach (pool_new k) (spool a) -> treach (pool_new k) (spool b).
Proof. intros H R. induction H as [|b c H IH O]; [exact R|eapply own_reach; eassumption]. Qed.
Lemma stuck_rest r s : stuck (own r) s -> at_rest (spool s).
Proof. intros H l st' I St. destruct s as [st d i]. apply (H (Sys st' d i)). eapply own_pool; [exact I|]. constructor. exact St. Qed.
Lemma rest_active k st : treach (pool_new k) st -> at_rest st -> pactive st = 0.
Proof.
  intros R A. destruct (civ_reach _ _ R) as [C _]. rewrite C. apply quiet_num; [apply at_rest_quiet, A|intros []; cbn; congruence].
Qed.
Lemma rest_doomed k st : treach (pool_new k) st -> at_rest st -> doomed st -> pcount st <= 0.
Proof. intros R A [_ T]. rewrite <- T. apply (at_most k); [exact R|lia|apply at_rest_quiet, A]. Qed.

(** What the sleeping destructor waits for. *)
Definition nap (st : pool) (i : nat) : Prop := exists c, nth_error (pc st) i = Some c /\
  (c = CAsleep (CWait 0) -> pactive st <> 0 \/ pq st <> []) /\ (c = CAsleep CTerm -> 0 < pcount st) /\
  (goal_of c = CWait 0 \/ goal_of c = CTerm).
Lemma nth_wake cs i c : nth_error (map cwake cs) i = Some c -> forall g, c <> CAsleep g.
Proof. rewrite nth_error_map. destruct (nth_error cs i) as [[]|]; cbn; congruence. Qed.
Lemma nap_pool l a b i : civ a -> (internal l = true \/ exists t, l = LDied t) -> tstep l a b -> nap a i -> nap b i.
Proof.
  intros C I St (c & E & N1 & N2 & N3). destruct (client_step _ _ _ _ _ St E) as (c' & E' & G & _). exists c'. split; [exact E'|].
  rewrite G. destruct (own_sleep _ _ _ C I St) as [W|(W & W1 & W2)].
  - rewrite W in E'. pose proof (nth_wake _ _ _ E') as NW. split; [intros ->; destruct (NW _ eq_refl)|]. split; [intros ->; destruct (NW _ eq_refl)|exact N3].
  - rewrite W, E in E'. injection E' as <-. split; [intros _; left; lia|]. split; [intros X; rewrite W2; apply N2, X|exact N3].
Qed.
Lemma nap_enter st g : g = CWait 0 \/ g = CTerm -> nap (entered st g) (length (pc st)).
Proof.
  intros Hg. eexists. split; [unfold entered; pcbn; apply nth_last|]. destruct (may_return st g) eqn:M.
  - split; [discriminate|]. split; [discriminate|exact Hg].
  - split; [|split; [|exact Hg]].
    + intros E. injection E as ->. cbn in M. unfold entered. pcbn. apply andb_false_iff in M.
      destruct M as [M|M]; [left; apply Z.eqb_neq, M|right; destruct (pq st); [discriminate M|discriminate]].
    + intros E. injection E as ->. cbn in M. unfold entered. pcbn. apply negb_false_iff, Z.ltb_lt in M. exact M.
Qed.
Lemma nap_woken st c1 g c2 i : pc st = c1 ++ CWoken g :: c2 -> nap st i ->
  nap (with_clients st (c1 ++ (if may_return st g then CBack g else CAsleep g) :: c2)) i.
Proof.
  intros E (c & Ec & N1 & N2 & N3). rewrite E in Ec.
  destruct (nth_keep _ _ _ (if may_return st g then CBack g else CAsleep g) _ _ Ec) as [E'|(_ & -> & E')].
  - exists c. split; [exact E'|]. split; [exact N1|]. split; [exact N2|exact N3].
  - eexists. split; [exact E'|]. cbn [goal_of] in N3. destruct (may_return st g) eqn:M.
    + split; [discriminate|]. split; [discriminate|exact N3].
    + split; [|split; [|exact N3]].
      * intros X. injection X as ->. cbn in M. pcbn. apply andb_false_iff in M.
        destruct M as [M|M]; [left; apply Z.eqb_neq, M|right; destruct (pq st); [discriminate M|discriminate]].
      * intros X. injection X as ->. cbn in M. pcbn. apply negb_false_iff, Z.ltb_lt in M. exact M.
Qed.

(** Where the destructor is, and what holds there. *)
Section Live.
Variables (k : skind) (p : policy) (r : bool).
Definition fine (st : pool) : Prop :=
  match p with
  | WaitAll => path calm (pool_new k) st /\ 1 <= plimit st /\ 1 <= pcount st
  | WaitActive => pq st = []
  | Immediately => True
  end.
Hypothesis Hr : p = WaitAll -> r = true.
Inductive live : sys -> Prop :=
| lv_start st : (p = WaitAll -> fine st) -> live (shutdown p st)
| lv_wait st : p <> Immediately -> fine st -> live (Sys st [KWait; KTerm true] None)
| lv_waiting st i : p <> Immediately -> fine st -> nap st i -> (exists c, nth_error (pc st) i = Some c /\ goal_of c = CWait 0) -> live (Sys st [KTerm true] (Some i))
| lv_term st b : live (Sys st [KTerm b] None)
| lv_joining st i : doomed st -> nap st i -> (exists c, nth_error (pc st) i = Some c /\ goal_of c = CTerm) -> live (Sys st [] (Some i))
| lv_over st : doomed st -> live (Sys st [] None).

Lemma wiv_path st : path calm (pool_new k) st -> wiv st.
Proof. intros H. induction H as [|l b c Pa IH St N]; [apply wiv_new|]. eapply wiv_step; [exact IH|exact St|exact (proj1 N)]. Qed.
Lemma fine_pool l a b : fine a -> (internal l = true \/ exists t, l = LDied t /\ (p = WaitAll -> pcount b = pcount a)) -> tstep l a b -> fine b.
Proof.
  unfold fine. intros F I St. destruct p eqn:Ep; [|clear Hr|exact Logic.I].
  - destruct F as (Pa & L & C). destruct (wiv_path _ Pa) as [Ci Ta X Te].
    assert (Pl : plimit b = plimit a).
    { destruct I as [I|(t & -> & _)]; [destruct St; try discriminate I; reflexivity|]. inversion St; subst.
      match goal with H : if _ then _ else _ |- _ => rewrite Te in H; apply (runs_resize _ _ _ H) end. }
    assert (Pc : pcount b = pcount a).
    { destruct I as [I|(t & -> & E)]; [|apply E; reflexivity]. destruct St; try discriminate I; try reflexivity.
      rewrite H, num_mid in X. cbn [exiting b2z] in X. pose proof (num_nonneg exiting l1). pose proof (num_nonneg exiting l2). lia. }
    split; [|rewrite Pl, Pc; auto]. eapply pa_step; [exact Pa|exact St|]. split; [|lia].
    destruct I as [I|(t & -> & E)]; [destruct l; try discriminate I; exact Logic.I|exact Pc].
  - apply (empty_step _ _ _ F St). destruct I as [I|(t & -> & _)]; [destruct l; try discriminate I; exact Logic.I|exact Logic.I].
Qed.
Lemma live_step s s' : treach (pool_new k) (spool s) -> live s -> own r s s' -> live s'.
Proof.
  intros R L O. pose proof (civ_reach _ _ R) as Ci.
  assert (Pool : forall l st st' d i, s = Sys st d i -> s' = Sys st' d i -> tstep l st st' ->
    (internal l = true \/ exists t, l = LDied t /\ (p = WaitAll -> pcount st' = pcount st)) -> live s').
  { intros l st st' d i -> -> St I. cbn [spool] in *.
    assert (I' : internal l = true \/ exists t, l = LDied t) by (destruct I as [I|(t & I & _)]; eauto).
    inversion L as [st0 F E|st0 Np F E|st0 i0 Np F N G E|st0 bb E|st0 i0 D N G E|st0 D E]; subst.
    - apply lv_start. intros Ep. eapply fine_pool; [apply F, Ep|exact I|exact St].
    - apply lv_wait; [exact Np|eapply fine_pool; eassumption].
    - apply lv_waiting; [exact Np|eapply fine_pool; eassumption|eapply nap_pool; eassumption|].
      destruct G as (c & Ec & Gc). destruct (client_step _ _ _ _ _ St Ec) as (c' & E' & G' & _). exists c'. split; [exact E'|congruence].
    - apply lv_term.
    - apply lv_joining; [eapply doomed_step; eassumption|eapply nap_pool; eassumption|].
      destruct G as (c & Ec & Gc). destruct (client_step _ _ _ _ _ St Ec) as (c' & E' & G' & _). exists c'. split; [exact E'|congruence].
    - apply lv_over. eapply doomed_step; eassumption. }
  destruct O as [l a b I St|t a b St Rp|st c1 g c2 d i E|c a b St|a b St].
  - inversion St; subst. eapply Pool; [reflexivity|reflexivity|eassumption|left; exact I].
  - inversion St; subst. eapply Pool; [reflexivity|reflexivity|eassumption|right]. exists t. split; [reflexivity|]. intros Ep. apply Rp. apply Hr, Ep.
  - clear Pool. cbn [spool] in *. set (st' := with_clients _ _).
    assert (St : tstep LClient st st') by (apply ts_client; exact E).
    assert (Fi : fine st -> fine st').
    { unfold fine. destruct p; [|intros F; exact F|intros F; exact F]. intros (Pa & L1 & C1). split; [|split; assumption]. eapply pa_step; [exact Pa|exact St|]. split; [exact Logic.I|].
      subst st'. pcbn. lia. }
    inversion L as [st0 F E0|st0 Np F E0|st0 i0 Np F N G E0|st0 bb E0|st0 i0 D N G E0|st0 D E0]; subst.
    + apply lv_start. intros Ep. apply Fi, F, Ep.
    + apply lv_wait; [exact Np|apply Fi, F].
    + apply lv_waiting; [exact Np|apply Fi, F|apply nap_woken; assumption|].
      destruct G as (c & Ec & Gc). destruct (client_step _ _ _ _ _ St Ec) as (c' & E' & G' & _). exists c'. split; [exact E'|congruence].
    + apply lv_term.
    + apply lv_joining; [eapply doomed_step; eassumption|apply nap_woken; assumption|].
      destruct G as (c & Ec & Gc). destruct (client_step _ _ _ _ _ St Ec) as (c' & E' & G' & _). exists c'. split; [exact E'|congruence].
    + apply lv_over. eapply doomed_step; eassumption.
  - clear Pool.
    assert (Wait : forall st, p <> Immediately -> fine st -> live (Sys (entered st (CWait 0)) [KTerm true] (Some (length (pc st))))).
    { intros st Np F. apply lv_waiting; [exact Np| |apply nap_enter; left; reflexivity|].
      - unfold fine in *. destruct p; [|exact F|exact F]. destruct F as (Pa & L1 & C1). split; [|split; assumption].
        eapply pa_step; [exact Pa|apply (ts_wait_call st 0); lia|]. split; [exact Logic.I|]. unfold entered. pcbn. lia.
      - eexists. split; [unfold entered; pcbn; apply nth_last|]. destruct (may_return st (CWait 0)); reflexivity. }
    assert (Term : forall st b, live (Sys (fst (do_call st (KTerm b))) [] (snd (do_call st (KTerm b))))).
    { intros st [|]; cbn [do_call fst snd].
      - apply lv_joining; [split; reflexivity| |].
        + match goal with |- nap (entered ?x _) _ => change (length (pc st)) with (length (pc x)) end. apply nap_enter. right. reflexivity.
        + eexists. split; [unfold entered; pcbn; apply nth_last|]. match goal with |- context [if ?c then _ else _] => destruct c end; reflexivity.
      - apply lv_over. split; reflexivity. }
    inversion St; subst.
    inversion L as [st0 F E0|st0 Np F E0|st0 i0 Np F N G E0|st0 bb E0|st0 i0 D N G E0|st0 D E0]; subst.
    + destruct p eqn:Ep; cbn in *; match goal with H : _ :: _ = _ :: _ |- _ => injection H as <- <- end; cbn [do_call fst snd].
      * apply Wait; [congruence|apply F; reflexivity].
      * apply lv_wait; [congruence|]. unfold fine. rewrite Ep. reflexivity.
      * apply lv_term.
    + apply Wait; assumption.
    + apply Term.
  - clear Pool. inversion St; subst.
    inversion L as [st0 F E0|st0 Np F E0|st0 i0 Np F N G E0|st0 bb E0|st0 i0 D N G E0|st0 D E0]; subst.
    + apply lv_term.
    + apply lv_over. exact D.
Qed.
Lemma live_steps a s : treach (pool_new k) a -> (p = WaitAll -> fine a) -> steps (own r) (shutdown p a) s -> live s.
Proof.
  intros R F H. induction H as [|b c H IH O]; [apply lv_start, F|]. eapply live_step; [|exact IH|exact O].
  exact (steps_reach k r _ _ H R).
Qed.
Lemma stuck_client s i c : stuck (own r) s -> sin s = Some i -> nth_error (pc (spool s)) i = Some c -> exists g, c = CAsleep g.
Proof.
  intros St Si E. destruct s as [st d i0]. cbn in *. subst i0. destruct c as [g|g|g]; [eauto| |]; exfalso.
  - apply nth_error_split in E. destruct E as (c1 & c2 & E & _). eapply St. eapply own_woken. exact E.
  - eapply St. eapply own_return. econstructor. exact E.
Qed.
Theorem live_stuck s : treach (pool_new k) (spool s) -> live s -> stuck (own r) s -> over s /\ no_workers (spool s).
Proof.
  intros R L St. pose proof (stuck_rest _ _ St) as A. pose proof (rest_active k _ R A) as PA.
  assert (Call : forall c st d, s = Sys st (c :: d) None -> False).
  { intros c st d ->. eapply St. eapply own_call. constructor. }
  destruct L as [st F|st Np F|st i Np F N G|st b|st i D N G|st D]; cbn [spool] in *.
  - exfalso. unfold shutdown in *. destruct p; cbn in Call; eapply Call; reflexivity.
  - exfalso. eapply Call. reflexivity.
  - exfalso. destruct N as (c & Ec & N1 & _ & _). destruct G as (c' & Ec' & Gc). rewrite Ec in Ec'. injection Ec' as <-.
    destruct (stuck_client _ i c St eq_refl Ec) as (g & ->). cbn in Gc. subst g. destruct (N1 eq_refl) as [X|X]; [destruct (X PA)|].
    unfold fine in F. destruct p; [|destruct (X F)|destruct Np; reflexivity].
    destruct F as (Pa & L1 & C1). destruct (rest_means_done k st Pa L1 C1 A) as [Q _]. destruct (X Q).
  - exfalso. eapply Call. reflexivity.
  - exfalso. destruct N as (c & Ec & _ & N2 & _). destruct G as (c' & Ec' & Gc). rewrite Ec in Ec'. injection Ec' as <-.
    destruct (stuck_client _ i c St eq_refl Ec) as (g & ->). cbn in Gc. subst g. pose proof (N2 eq_refl). pose proof (rest_doomed k _ R A D). lia.
  - split; [split; reflexivity|]. apply (count_gone k); [exact R|]. apply (rest_doomed k); assumption.
Qed.
End Live.

Theorem shutdown_returns k p a s : treach (pool_new k) a ->
  (p = WaitAll -> path calm (pool_new k) a /\ 1 <= plimit a /\ 1 <= pcount a) ->
  let R := own (match p with WaitAll => true | _ => false end) in
  ends R (shutdown p a) /\ (steps R (shutdown p a) s -> stuck R s -> over s /\ no_workers (spool s)).
Proof.
  intros Ra F R. split; [apply own_ends|]. intros H St.
  apply (live_stuck k p (match p with WaitAll => true | _ => false end)); [intros ->; reflexivity|exact (steps_reach k _ _ _ H Ra)| |exact St].
  refine (live_steps k p _ _ a s Ra _ H); [intros ->; reflexivity|]. intros Ep. unfold fine. rewrite Ep in *. apply F. reflexivity.
Qed.
