(** Proofs about the thread pool: terminate_all_workers comes to an end. *)
From Verif Require Import Prelude TPoolM TPoolS TPoolP TPoolQ.

Lemma term_target k st : treach (pool_new k) st -> pterm st = true -> ptarget st = 0.
Proof.
  intros R. induction R as [|l a b R IH St]; [discriminate|]. destruct St; pcbn; auto.
  - destruct (pterm st) eqn:T; [subst st' st1; pcbn; auto|]. inversion H0; subst; subst st1; pcbn; congruence.
  - inversion H0; subst; pcbn; intros; auto; congruence.
  - destruct wait; reflexivity.
Qed.
Lemma term_sleepers k st : treach (pool_new k) st -> In (CAsleep CTerm) (pc st) -> 0 < pcount st.
Proof.
  intros R. induction R as [|l a b R G St]; [intros []|].
  destruct St; pcbn; try (intros J; destruct (cwake_no_sleep _ _ J)); try assumption.
  - destruct (pterm st); [subst st' st1; pcbn; intros J; destruct (cwake_no_sleep _ _ J)|].
    inversion H0; subst; subst st1; pcbn; intros J; destruct (cwake_no_sleep _ _ J).
  - intros J. apply in_app_or in J. destruct J as [J|[J|[]]]; [apply G, J|]. destruct (may_return st (CWait k0)); discriminate J.
  - rewrite H in *. intros J. apply in_app_or in J. destruct J as [J|[J|J]]; [apply G, in_or_app; auto| |apply G, in_or_app; right; right; exact J].
    destruct (may_return st g) eqn:Y; [discriminate J|]. injection J as ->. cbn in Y. apply negb_false_iff, Z.ltb_lt in Y. exact Y.
  - inversion H0; subst; pcbn; intros J; specialize (G J); lia.
  - destruct wait; pcbn; [|exact G]. intros J. apply in_app_or in J. destruct J as [J|[J|[]]]; [apply G, J|]. cbn [may_return pcount] in J.
    destruct (Z.ltb_spec 0 (pcount st)); [assumption|discriminate J].
  - rewrite H in *. intros J. apply G. apply in_app_or in J. destruct J as [J|[J|J]]; [apply in_or_app; auto|discriminate J|apply in_or_app; right; right; exact J].
Qed.

Lemma num_zero p l : num p l = 0 -> forall w, In w l -> p w = false.
Proof.
  induction l as [|x l IH]; [intros _ w []|]. rewrite num_cons. pose proof (num_nonneg p l). intros E w [<-|I].
  - destruct (p x); [|reflexivity]. change (b2z true) with 1 in E. lia.
  - apply IH; [|exact I]. destruct (p x); [change (b2z true) with 1 in E|change (b2z false) with 0 in E]; lia.
Qed.
Theorem terminates k st : treach (pool_new k) st -> pterm st = true ->
  (exists bound : nat, forall n b, isteps n st b -> (n <= bound)%nat) /\
  (at_rest st -> (forall w, In w (pw st) -> w = WGone) /\ ~ In (CAsleep CTerm) (pc st)).
Proof.
  intros R T. split; [apply comes_to_rest|]. intros A. pose proof (term_target _ _ R T) as E. pose proof (at_rest_quiet _ A) as Q.
  pose proof (at_most _ _ R ltac:(lia) Q) as C. rewrite E in C. split.
  - destruct (civ_reach _ _ R) as [_ N]. pose proof (num_nonneg alive (pw st)). intros w I.
    assert (Z0 : num alive (pw st) = 0) by lia. pose proof (num_zero _ _ Z0 _ I) as X. specialize (Q _ I). destruct w; try discriminate Q; try discriminate X. reflexivity.
  - intros J. pose proof (term_sleepers _ _ R J). lia.
Qed.
