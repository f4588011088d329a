From Verif Require Import Prelude WindowM WindowS WindowP GhostM FieldM FieldS FieldP MaskM MaskS MaskP NeboM NeboS NeboP NeboQ NeboA NeboB NeboC NeboD ParM ParS ParP ParQ GpuM GpuS GpuP.

#[local] Arguments has_extra : simpl never.

(** ** Positions of the threads *)
Lemma nodup_append {A} (a b : list A) : NoDup a -> NoDup b -> (forall x, In x a -> In x b -> False) -> NoDup (a ++ b).
Proof.
  induction a as [|x a IH]; intros Na Nb D; cbn [app]; [exact Nb|].
  inversion Na as [|? ? Nx Na']; subst. constructor.
  - intros I. apply in_app_iff in I as [I|I]; [exact (Nx I)|exact (D x (or_introl eq_refl) I)].
  - apply IH; [exact Na'|exact Nb|]. intros y I J. exact (D y (or_intror I) J).
Qed.
Lemma nodup_flat_map {A B} (F : A -> list B) l : NoDup l -> (forall a, In a l -> NoDup (F a)) ->
  (forall a b x, In a l -> In b l -> In x (F a) -> In x (F b) -> a = b) -> NoDup (flat_map F l).
Proof.
  induction l as [|a l IH]; intros N H D; cbn [flat_map]; [constructor|].
  inversion N as [|? ? Na Nl]; subst. apply nodup_append.
  - apply H. left. reflexivity.
  - apply IH; [exact Nl|intros; apply H; right; assumption|]. intros c d x I J. apply D; right; assumption.
  - intros x I J. apply in_flat_map in J as (b & Ib & Jb). assert (a = b) by (eapply D; [left; reflexivity|right; exact Ib|exact I|exact Jb]).
    subst b. exact (Na Ib).
Qed.
Lemma in_ids gx gy x y : In (x, y) (thread_ids gx gy) <-> 0 <= x < 16 * gx /\ 0 <= y < 16 * gy.
Proof.
  unfold thread_ids, block_dim. split.
  - intros I. apply in_flat_map in I as (b & Hb & I). apply in_flat_map in I as (a & Ha & I). apply in_flat_map in I as (t & Ht & I).
    apply in_map_iff in I as (u & E & Hu). rewrite in_zrange in Hb, Ha, Ht, Hu. injection E as <- <-. lia.
  - intros (Hx & Hy). apply in_flat_map. exists (y / 16). split; [apply in_zrange; lia|].
    apply in_flat_map. exists (x / 16). split; [apply in_zrange; lia|].
    apply in_flat_map. exists (y mod 16). split; [apply in_zrange; lia|].
    apply in_map_iff. exists (x mod 16). split; [f_equal; lia|apply in_zrange; lia].
Qed.
Lemma ids_nodup gx gy : NoDup (thread_ids gx gy).
Proof.
  unfold thread_ids, block_dim. apply nodup_flat_map; [apply zrange_NoDup| |].
  - intros b _. apply nodup_flat_map; [apply zrange_NoDup| |].
    + intros a _. apply nodup_flat_map; [apply zrange_NoDup| |].
      * intros t _. apply FinFun.Injective_map_NoDup; [|apply zrange_NoDup]. intros u v E. injection E. lia.
      * intros t u p _ _ I J. apply in_map_iff in I as (? & <- & _). apply in_map_iff in J as (? & E & _). injection E. lia.
    + intros a a' p _ _ I J. apply in_flat_map in I as (? & _ & I). apply in_flat_map in J as (? & _ & J).
      apply in_map_iff in I as (? & <- & I). apply in_map_iff in J as (? & E & J). rewrite in_zrange in I, J. injection E. lia.
  - intros b b' p _ _ I J.
    apply in_flat_map in I as (? & _ & I). apply in_flat_map in I as (? & T & I). apply in_map_iff in I as (? & <- & _).
    apply in_flat_map in J as (? & _ & J). apply in_flat_map in J as (? & T' & J). apply in_map_iff in J as (? & E & _).
    rewrite in_zrange in T, T'. injection E. lia.
Qed.
Lemma launched_grid x : 0 <= x -> 16 * grid_dim x = launched x.
Proof.
  intros H. unfold grid_dim, block_dim, launched. rewrite Z.quot_div_nonneg, Z.rem_mod_nonneg by lia.
  destruct (0 <? x mod 16) eqn:E; lia.
Qed.
Lemma launched_ge x : x <= launched x.
Proof. unfold launched. lia. Qed.

(** ** A kernel as a parallel run *)
Section Sim.
Variable V : Type.
Notation heap := (heap V).
Notation job := (prog V unit).
Lemma psteps_trans m k (a b c : par V) : psteps m a b -> psteps k b c -> psteps (k + m) a c.
Proof. intros H G. revert a m H. induction G as [|k b c d G IH S]; intros a m H; [exact H|]. cbn. eapply psteps_S; [apply IH; exact H|exact S]. Qed.
Lemma schedule_all h (t : list job) : forall l s w,
  psteps (length t) (Par h t l s w) (Par h [] (l ++ map Some t) s w).
Proof.
  induction t as [|j t IH]; intros l s w; cbn [length map].
  - rewrite app_nil_r. apply psteps_0.
  - eapply psteps_front; [apply ps_schedule|]. specialize (IH (l ++ [Some j]) s w). rewrite <- app_assoc in IH. exact IH.
Qed.
Lemma set_map (h : heap) l i (p : job) s w :
  set_live (Par h [] (map Some l) s w) i (Some p) = map Some (set_thread (Kern h l) i p).
Proof. unfold set_live, set_thread; cbn [plive kthreads]. rewrite map_app. cbn [map]. rewrite firstn_map, skipn_map. reflexivity. Qed.
Lemma kstep_sim (a b : kernel V) w : kstep a b ->
  pstep (Par (kheap a) [] (map Some (kthreads a)) 0 w) (Par (kheap b) [] (map Some (kthreads b)) 0 w).
Proof.
  intros S. destruct S as [[h l] i b c k E C|[h l] i b c v k E C]; cbn [kheap kthreads] in *; rewrite <- (set_map _ _ _ _ 0 w).
  - apply (ps_load V (Par h [] (map Some l) 0 w)); [cbn; rewrite nth_error_map, E; reflexivity|exact C].
  - apply (ps_store V (Par h [] (map Some l) 0 w)); [cbn; rewrite nth_error_map, E; reflexivity|exact C].
Qed.
Lemma ksim k h jobs (st : kernel V) : ksteps k (Kern h jobs) st ->
  psteps (k + length jobs) (par_start h jobs) (Par (kheap st) [] (map Some (kthreads st)) 0 (length jobs)).
Proof.
  intros S. remember (Kern h jobs) as a eqn:E. induction S as [a|k a b c S IH T]; subst.
  - cbn [Nat.add kheap kthreads]. apply (schedule_all h jobs []).
  - cbn. eapply psteps_S; [apply IH; reflexivity|]. apply kstep_sim. exact T.
Qed.
Lemma kthreads_length (a b : kernel V) : kreach a b -> length (kthreads b) = length (kthreads a).
Proof.
  intros (k & S). induction S as [|k a b c S IH T]; [reflexivity|]. rewrite <- IH.
  destruct T as [st i ? ? ? E _|st i ? ? ? ? E _]; cbn [kthreads]; unfold set_thread;
  destruct (repl_split (kthreads st) i _ (match E with eq_refl => Ret tt end) E) as (l1 & l2 & X & Y & _);
  rewrite app_length; cbn [length]; rewrite firstn_length, skipn_length, X, app_length; cbn [length]; lia.
Qed.
Lemma post_all (h : heap) l : (forall p, In p l -> p = Ret tt) -> forall pre s w, exists m,
  psteps m (Par h [] (pre ++ map Some l) s w) (Par h [] (pre ++ repeat None (length l)) (s + Z.of_nat (length l)) w).
Proof.
  induction l as [|p l IH]; intros D pre s w.
  - exists 0%nat. cbn [map length repeat]. rewrite Z.add_0_r. apply psteps_0.
  - rewrite (D p (or_introl eq_refl)). destruct (IH (fun q I => D q (or_intror I)) (pre ++ [None]) (s + 1) w) as (m & Sm).
    exists (S m). eapply psteps_front.
    + apply (ps_post V (Par h [] (pre ++ map Some (Ret tt :: l)) s w) (length pre)). cbn [plive map]. apply nth_split_eq.
    + cbn [pheap ptodo psem pwaits]. unfold set_live; cbn [plive map].
      rewrite firstn_app, firstn_all, Nat.sub_diag. cbn [firstn]. rewrite app_nil_r.
      rewrite skipn_app, skipn_all2 by lia. replace (S (length pre) - length pre)%nat with 1%nat by lia. cbn [skipn app].
      rewrite <- !app_assoc in Sm. cbn [app] in Sm. cbn [length repeat]. replace (s + Z.of_nat (S (length l))) with (s + 1 + Z.of_nat (length l)) by lia.
      exact Sm.
Qed.
Lemma wait_all (h : heap) l w : forall s, Z.of_nat w <= s -> exists m, psteps m (Par h [] l s w) (Par h [] l (s - Z.of_nat w) 0).
Proof.
  induction w as [|w IH]; intros s H.
  - exists 0%nat. rewrite Z.sub_0_r. apply psteps_0.
  - destruct (IH (s - 1)) as (m & Sm); [lia|]. exists (S m). eapply psteps_front; [apply ps_wait; lia|].
    replace (s - Z.of_nat (S w)) with (s - 1 - Z.of_nat w) by lia. exact Sm.
Qed.

(** Every fact about parallel runs is one about kernels. *)
Lemma kernel_of_par h jobs (P : heap -> Prop) :
  bounded (par_start h jobs) ->
  (forall st : par V, reachable (par_start h jobs) st ->
    no_failure st /\ race_free st /\ (returned st -> P (pheap st))) ->
  (exists bound, forall k st, ksteps k (Kern h jobs) st -> (k <= bound)%nat) /\
  forall st : kernel V, kreach (Kern h jobs) st ->
    kno_failure st /\ krace_free st /\ (kdone st \/ exists st', kstep st st') /\ (kdone st -> P (kheap st)).
Proof.
  intros (bound & B) R. split.
  - exists bound. intros k st S. apply ksim, B in S. lia.
  - intros st Rs. destruct Rs as (k & S). pose proof (ksim _ _ _ _ S) as Q.
    destruct (R _ (ex_intro _ _ Q)) as (NF & RF & _).
    assert (KN : kno_failure st).
    { intros i p E. apply (NF i p). cbn. rewrite nth_error_map, E. reflexivity. }
    split; [exact KN|]. split; [|split].
    + intros i j a b x y N Ea Eb. apply (RF i j a b x y N); cbn; rewrite nth_error_map; [rewrite Ea|rewrite Eb]; reflexivity.
    + destruct st as [hh l]. cbn [kthreads kheap] in *.
      assert (G : (forall p, In p l -> p = Ret tt) \/ exists i p, nth_error l i = Some p /\ p <> Ret tt).
      { clear. induction l as [|p l IH]; [left; intros p []|].
        destruct p as [[]| | | |b c q|b c v q]; try (right; exists 0%nat; eexists; split; [reflexivity|discriminate]).
        destruct IH as [IH|(i & p & E & N)]; [left; intros p [<-|I]; auto|right; exists (S i), p; auto]. }
      destruct G as [G|(i & p & E & N)].
      * left. intros i p E. apply G. eapply nth_error_In. exact E.
      * right. pose proof (KN i p E) as K. cbn in K. destruct p as [[]| | | |b c q|b c v q]; cbn in K; try tauto; try congruence.
        -- eexists. apply (ks_load V (Kern hh l) i b c q E). cbn. destruct (bcells (hh b) c); [reflexivity|congruence].
        -- eexists. apply (ks_store V (Kern hh l) i b c v q E). cbn. destruct (bcells (hh b) c); [reflexivity|congruence].
    + intros D. pose proof (kthreads_length _ _ (ex_intro _ k S)) as L. cbn [kthreads] in L.
      destruct (post_all (kheap st) (kthreads st)) with (pre := @nil (option job)) (s := 0) (w := length jobs) as (m1 & S1).
      { intros p I. apply In_nth_error in I as (i & E). exact (D i p E). }
      cbn [app] in S1.
      destruct (wait_all (kheap st) (repeat None (length (kthreads st))) (length jobs) (0 + Z.of_nat (length (kthreads st)))) as (m2 & S2); [lia|].
      pose proof (psteps_trans _ _ _ _ _ Q (psteps_trans _ _ _ _ _ S1 S2)) as T.
      destruct (R _ (ex_intro _ _ T)) as (_ & _ & F). apply F. split; reflexivity.
Qed.
End Sim.
