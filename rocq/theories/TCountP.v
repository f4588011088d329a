(** Thread counts: proofs for C56. *)
From Verif Require Import Prelude TPoolM TPoolS TPoolP TPoolQ TCountM TCountS.

Lemma made_run N a tr b : made N a tr b -> mrun N a tr b.
Proof. induction 1; econstructor; eassumption. Qed.

Lemma resize_kept st n st' : resize st n st' -> plimit st' = plimit st /\ gstart st' = gstart st /\ (pterm st = false -> pterm st' = false /\ ptarget st' = n).
Proof. intros []; cbn; repeat split; congruence. Qed.
Lemma limit_same l a b : tstep l a b -> sized l = false -> plimit b = plimit a.
Proof.
  intros S Z. destruct S; try discriminate Z; try reflexivity; try (destruct wait; reflexivity).
  destruct (pterm st); [subst; reflexivity|]. apply resize_kept in H0. destruct H0 as (-> & _). reflexivity.
Qed.
Definition disturbs (l : label) : bool := match l with LTerminate | LDied _ => true | _ => false end.
Lemma target_same l a b : tstep l a b -> sized l = false -> disturbs l = false -> ptarget b = ptarget a /\ pterm b = pterm a.
Proof. intros S Z D. destruct S; try discriminate Z; try discriminate D; split; reflexivity. Qed.
Lemma full_same l a b : tstep l a b -> sized l = false -> disturbs l = false -> pcount a = ptarget a -> num exiting (pw a) = 0 ->
  pcount b = ptarget b /\ num exiting (pw b) = 0.
Proof.
  intros S Z D C E. destruct S; try discriminate Z; try discriminate D; pcbn; try lia;
  try (match goal with H : pw _ = _ |- _ => rewrite H, num_mid in E end; split; [exact C|]; rewrite num_mid in *; cbn [exiting b2z] in *; pose proof (num_nonneg exiting l1); pose proof (num_nonneg exiting l2); lia).
  - rewrite H, num_mid in E. cbn [exiting b2z] in E. pose proof (num_nonneg exiting l1). pose proof (num_nonneg exiting l2). lia.
  - split; [exact C|]. rewrite (notify1_num _ _ _ H) by reflexivity. exact E.
Qed.

(** init_ is set only when the entry is there. *)
Definition known (m : mgr) : Prop := (minit m = true \/ (0 < mins m)%nat) -> exists v, mrec m = Some v.
Definition atleast1 (m : mgr) : Prop := forall v, mrec m = Some v -> 1 <= v.
Lemma floor1 n : (if n <? 1 then 1 else n) = Z.max 1 n.
Proof. destruct (n <? 1) eqn:E; lia. Qed.

Lemma known_step N l a b : mstep N l a b -> known a -> known b.
Proof.
  intros S K. unfold known in *. destruct S; cbn in *; auto.
  - intros [H'|H']; [discriminate|]. auto.
  - intros _. destruct (mrec m) as [v|]; eauto.
  - intros _. apply K. right. lia.
  - inversion H0; subst; cbn; auto. eauto.
  - inversion H0; subst; cbn; auto.
Qed.
Lemma atleast1_step N l a b : mstep N l a b -> atleast1 a -> atleast1 b.
Proof.
  intros S K. unfold atleast1 in *. destruct S; cbn in *; auto.
  - intros v E. destruct (mrec m) as [w|] eqn:Er; injection E as <-; [apply K, eq_refl|rewrite floor1; lia].
  - inversion H0; subst; cbn; auto. intros w [= <-]. rewrite floor1. lia.
  - inversion H0; subst; cbn; auto.
Qed.
Lemma mrun_ind2 (P : mgr -> Prop) N a tr b : mrun N a tr b -> P a -> (forall l x y, mstep N l x y -> P x -> P y) -> P b.
Proof. induction 1; intros Pa St; eauto. Qed.
Lemma start_known k N s : mstart k N s -> known s /\ atleast1 s.
Proof. intros []. unfold known, atleast1. cbn. split; [intros [H'|H']; [discriminate|lia]|discriminate]. Qed.
Lemma run_known k N s tr a : mstart k N s -> mrun N s tr a -> known a /\ atleast1 a.
Proof.
  intros S R. destruct (start_known k N s S). split; [eapply (mrun_ind2 known)|eapply (mrun_ind2 atleast1)]; eauto using known_step, atleast1_step.
Qed.
Lemma step_reach N l a b k : mstep N l a b -> treach (pool_new k) (mpool a) -> treach (pool_new k) (mpool b).
Proof.
  intros S T. destruct S; cbn; auto; [econstructor; eassumption| |]; inversion H0; subst; cbn; auto; econstructor; eassumption.
Qed.
Lemma run_reach k N s tr a : 0 <= N -> mstart k N s -> mrun N s tr a -> treach (pool_new k) (mpool a).
Proof.
  intros HN S R. eapply (mrun_ind2 (fun m => treach (pool_new k) (mpool m))); eauto using step_reach.
  destruct S. cbn. eapply pool_init_reach; eassumption.
Qed.

Ltac entry K v E := match goal with H : minit _ = true |- _ => destruct (K (or_introl H)) as (v & E) end.
Lemma hard_result k N s tr a n r b : mstart k N s -> mrun N s tr a -> mstep N (MSetHard n r) a b -> r = Z.max 1 n.
Proof.
  intros S R St. destruct (run_known k N s tr a S R) as (K & A). inversion St; subst.
  entry K v E. inversion H4; subst.
  - congruence.
  - specialize (A _ H). lia.
  - apply floor1.
Qed.
Definition living (w : wkr) : bool := match w with WGone => false | _ => true end.
Lemma hard_counts k N s tr a r b : 0 <= N -> mstart k N s -> mrun N s tr a -> mstep N (MGetHard r) a b ->
  r = num living (pw (mpool a)) /\ mpool b = mpool a.
Proof.
  intros HN S R St. destruct (run_known k N s tr a S R) as (K & _). pose proof (civ_reach k _ (run_reach k N s tr a HN S R)) as C.
  inversion St; subst. entry K v E. unfold rm_count. rewrite E. split; [apply C|reflexivity].
Qed.

Lemma limit_step N l a b : mstep N l a b -> (forall n r, l <> MSetSoft n r) -> plimit (mpool b) = plimit (mpool a).
Proof.
  intros S H. destruct S; cbn; auto.
  - eapply limit_same; eassumption.
  - inversion H1; subst; cbn; auto. inversion H4; subst. eapply resize_kept; eassumption.
  - exfalso. eapply H. reflexivity.
Qed.
Lemma limit_run N a tr b : mrun N a tr b -> soft_untouched tr -> plimit (mpool b) = plimit (mpool a).
Proof.
  induction 1; intros U; [reflexivity|]. rewrite (limit_step N l b c H0).
  - apply IHmrun. intros n r I. apply (U n r), in_or_app. auto.
  - intros n r ->. apply (U n r), in_or_app. right. left. reflexivity.
Qed.
Lemma soft_ok k N s tr a n r b tr' c r' c' : mstart k N s -> mrun N s tr a -> mstep N (MSetSoft n r) a b ->
  mrun N b tr' c -> soft_untouched tr' -> mstep N (MGetSoft r') c c' ->
  r = n /\ r' = Z.min (Z.max 1 n) (pcount (mpool a)).
Proof.
  intros S R St R' U G. destruct (run_known k N s tr a S R) as (K & _).
  assert (Rc : mrun N s (tr ++ [MSetSoft n r]) b) by (econstructor; eassumption).
  destruct (run_known k N s _ b S Rc) as (Kb & _).
  assert (Kc : known c) by (eapply (mrun_ind2 known); eauto using known_step).
  inversion St; subst. entry K v E. inversion H4; subst; [congruence|]. split; [reflexivity|].
  inversion G; subst. entry Kc w Ew. unfold rm_active. rewrite Ew.
  rewrite (limit_run N _ _ _ R' U). cbn. inversion H0; subst. cbn. match goal with |- (if ?c then _ else _) = _ => destruct c eqn:L end; lia.
Qed.

(** The entry of the map and the target of the pool. *)
Definition agrees (N v : Z) (m : mgr) : Prop :=
  ptarget (mpool m) = v /\ pterm (mpool m) = false /\ (mrec m = Some v \/ (mrec m = None /\ v = N)).
Lemma asked_snoc N tr l : asked N (tr ++ [l]) = match l with MSetHard n _ => Z.max 1 n | _ => asked N tr end.
Proof. unfold asked. rewrite fold_left_app. reflexivity. Qed.
Lemma undist_snoc tr l : undisturbed (tr ++ [l]) -> undisturbed tr /\ match l with MPool p => disturbs p = false | _ => True end.
Proof.
  intros (A & B). split; [split|].
  - intros I. apply A, in_or_app. auto.
  - intros t I. apply (B t), in_or_app. auto.
  - destruct l; auto. destruct l; auto; exfalso; [eapply B|apply A]; apply in_or_app; right; left; reflexivity.
Qed.
Lemma agrees_step N v l a b : 1 <= N -> known a -> atleast1 a -> mstep N l a b -> agrees N v a ->
  match l with MPool p => disturbs p = false | _ => True end ->
  agrees N (match l with MSetHard n _ => Z.max 1 n | _ => v end) b.
Proof.
  intros HN K A S (T & P & E) D. unfold agrees. destruct S; cbn in *; auto.
  - split; [exact T|]. split; [exact P|]. destruct E as [-> | (-> & ->)]; auto. left. rewrite floor1. f_equal. lia.
  - destruct (target_same _ _ _ H0 H D) as (-> & ->). auto.
  - entry K w Ew. inversion H0; subst; cbn; auto.
    + congruence.
    + specialize (A _ H1). destruct E as [E|(E & _)]; rewrite E in H1; [|discriminate]. injection H1 as H1.
      match goal with |- context[Z.max 1 ?x] => replace (Z.max 1 x) with (ptarget (mpool m')) by lia end. split; [reflexivity|]. split; [exact P|left]. rewrite E. f_equal; lia.
    + rewrite floor1 in *. inversion H3; subst. destruct (resize_kept _ _ _ H6) as (_ & _ & X). destruct (X P) as (X1 & X2).
      split; [exact X2|]. split; [exact X1|]. left. reflexivity.
  - inversion H0; subst; cbn; auto. inversion H2; subst; cbn. auto.
Qed.
Lemma start_agrees k N s : 1 <= N -> mstart k N s -> agrees N N s.
Proof.
  intros HN []. unfold agrees. cbn. inversion H; subst. cbn. inversion H0; subst; cbn; auto; discriminate.
Qed.
Lemma run_agrees k N s tr a : 1 <= N -> mstart k N s -> mrun N s tr a -> undisturbed tr -> agrees N (asked N tr) a.
Proof.
  intros HN S R. induction R; intros U; [apply (start_agrees k); assumption|].
  apply undist_snoc in U. destruct U as (U & D). rewrite asked_snoc.
  destruct (run_known k N s tr b S R) as (K & A).
  pose proof (agrees_step N (asked N tr) l b c HN K A H (IHR U) D) as X. exact X.
Qed.

Lemma hard_at_most k N s tr a r b : 1 <= N -> mstart k N s -> mrun N s tr a -> undisturbed tr ->
  (forall w, In w (pw (mpool a)) -> quiet w = true) -> mstep N (MGetHard r) a b -> r <= asked N tr.
Proof.
  intros HN S R U Q G. destruct (run_agrees k N s tr a HN S R U) as (T & _ & E).
  assert (HN' : 0 <= N) by lia.
  pose proof (run_reach k N s tr a HN' S R) as Re. destruct (run_known k N s tr a S R) as (K & A).
  inversion G; subst b. entry K v Ev. unfold rm_count. rewrite Ev.
  assert (1 <= ptarget (mpool a)).
  { rewrite T. destruct E as [E|(E & _)]; [apply A; exact E|congruence]. }
  rewrite <- T. eapply at_most; eauto. lia.
Qed.

Lemma only_more_snoc N tr l : only_more N (tr ++ [l]) -> only_more N tr /\ match l with MSetHard n _ => asked N tr <= Z.max 1 n | _ => True end.
Proof.
  intros H. split.
  - intros tr1 n r tr2 ->. apply (H tr1 n r (tr2 ++ [l])). rewrite <- app_assoc. reflexivity.
  - destruct l; auto. apply (H tr n r []). reflexivity.
Qed.
Lemma full_run k N s tr a : 1 <= N -> mstart k N s -> pcount (mpool s) = N -> made N s tr a -> undisturbed tr -> only_more N tr ->
  pcount (mpool a) = ptarget (mpool a) /\ num exiting (pw (mpool a)) = 0.
Proof.
  intros HN S C0 M. induction M; intros U O.
  - destruct S. cbn in *. inversion H; subst. cbn in *. inversion H0; subst; cbn in *; try discriminate; [|lia].
    rewrite num_repeat. cbn. split; [|reflexivity]. match goal with H : _ = p |- _ => apply (f_equal pcount) in H; cbn in H; exact H end.
  - apply undist_snoc in U. destruct U as (U & D). apply only_more_snoc in O. destruct O as (O & Om).
    specialize (IHM U O). destruct (run_agrees k N s tr b HN S (made_run _ _ _ _ M) U) as (T & P & E).
    destruct IHM as (I1 & I2). destruct H; cbn in *; auto.
    + eapply full_same; eauto.
    + inversion H1; subst; cbn in *; auto. rewrite floor1 in *. inversion H4; subst.
      specialize (H0 _ _ eq_refl). destruct H0 as [H0|H0].
      * rewrite H0. split; [exact I1|exact I2].
      * inversion H7; subst; cbn in *; try congruence.
        -- split; [lia|]. rewrite num_app, num_repeat, I2. cbn. lia.
        -- lia.
    + inversion H1; subst; cbn in *; auto. inversion H3; subst; cbn. auto.
Qed.
Lemma hard_exact k N s tr a r b : 1 <= N -> mstart k N s -> pcount (mpool s) = N -> made N s tr a -> undisturbed tr -> only_more N tr ->
  mstep N (MGetHard r) a b -> r = asked N tr.
Proof.
  intros HN S C0 M U O G. destruct (full_run k N s tr a HN S C0 M U O) as (F & _).
  pose proof (made_run _ _ _ _ M) as R. destruct (run_agrees k N s tr a HN S R U) as (T & _).
  destruct (run_known k N s tr a S R) as (K & _). inversion G; subst. entry K v Ev.
  unfold rm_count. rewrite Ev, F. exact T.
Qed.
