(** Proofs: fields on several devices. *)
From Verif Require Import Prelude WindowM WindowS WindowP ConsumerM ConsumerS ConsumerP DevFldM DevFldS.

(** ** Which blocks a call touches *)
Section Frame.
Variable V : Type.
Variable cuda : bool.
Definition opt {A} (x : option A) : list A := match x with Some a => [a] | None => [] end.
Definition addrs (o : fobj) : list nat := opt (o_ram o) ++ opt (o_ext o) ++ map snd (o_cons o) ++ map snd (o_mine o).

Lemma in_ram o a : o_ram o = Some a -> In a (addrs o).
Proof. intros E. unfold addrs. rewrite E. left. reflexivity. Qed.
Lemma in_ext o a : o_ext o = Some a -> In a (addrs o).
Proof. intros E. unfold addrs. rewrite E. apply in_or_app. right. left. reflexivity. Qed.
Lemma in_cons o e : In e (o_cons o) -> In (snd e) (addrs o).
Proof. intros E. unfold addrs. apply in_or_app. right. apply in_or_app. right. apply in_or_app. left. apply in_map, E. Qed.
Lemma in_mine o e : In e (o_mine o) -> In (snd e) (addrs o).
Proof. intros E. unfold addrs. apply in_or_app. right. apply in_or_app. right. apply in_or_app. right. apply in_map, E. Qed.

(** the memory grows, other blocks stay, the object gets new blocks at most *)
Definition frame (m : cmem V) (o : fobj) (m' : cmem V) (o' : fobj) : Prop :=
  (nextb m <= nextb m')%nat /\
  (forall a, (a < nextb m)%nat -> ~ In a (addrs o) -> blocks m' a = blocks m a) /\
  (forall a, In a (addrs o') -> In a (addrs o) \/ (nextb m <= a < nextb m')%nat).

Lemma frame_refl m o : frame m o m o.
Proof. repeat split; auto. Qed.
Lemma addrs_locked o : addrs (locked o) = addrs o. Proof. reflexivity. Qed.
Lemma memcpy_frame (m : cmem V) d s m' o : memcpy m d s = Some m' -> In d (addrs o) -> frame m o m' o.
Proof.
  unfold memcpy. destruct (blocks m d), (blocks m s); try discriminate. intros [= <-] H. split; [cbn; lia|]. split; [|auto].
  intros a _ N. cbn. destruct (Nat.eqb_spec a d) as [->|]; [contradiction|reflexivity].
Qed.
Lemma transfer_frame (m : cmem V) o d s m' o' r : transfer m o d s = Go (m', o') r -> (forall a, d = Some a -> In a (addrs o)) ->
  frame m o m' o'.
Proof.
  unfold transfer. destruct d as [d|], s as [s|]; try discriminate. destruct (memcpy m d s) eqn:E; [|discriminate].
  intros [= <- <- <-] H. apply (memcpy_frame _ _ _ _ _ E). apply H. reflexivity.
Qed.
Lemma frame_trans m o m1 o1 m2 o2 : frame m o m1 o1 -> frame m1 o1 m2 o2 -> frame m o m2 o2.
Proof.
  intros (A1 & B1 & C1) (A2 & B2 & C2). split; [lia|]. split.
  - intros a L N. rewrite B2; [apply B1; assumption|lia|]. intros X. destruct (C1 _ X) as [Y|Y]; [contradiction|lia].
  - intros a X. destruct (C2 _ X) as [Y|Y]; [|right; lia]. destruct (C1 _ Y) as [Z|Z]; [left; exact Z|right; lia].
Qed.
Lemma fresh_frame (m : cmem V) o b o' : (forall a, In a (addrs o') -> In a (addrs o) \/ a = nextb m) -> frame m o (fst (fresh m b)) o'.
Proof.
  intros H. split; [cbn; lia|]. split.
  - intros a L _. cbn. destruct (Nat.eqb_spec a (nextb m)); [lia|reflexivity].
  - intros a X. destruct (H a X) as [Y|Y]; [left; exact Y|right; cbn; lia].
Qed.
Lemma put_all_frame l : forall (m : cmem V) m', put_all m l = Some m' -> nextb m' = nextb m /\ (forall a, ~ In a (map snd l) -> blocks m' a = blocks m a).
Proof.
  induction l as [|e l IH]; intros m m'; cbn [put_all].
  - intros [= <-]. auto.
  - unfold pool_put. destruct (blocks m (snd e)) as [b|]; [|discriminate]. destruct (cb_from b); try discriminate.
    destruct (mtype_eqb _ _); [|discriminate]. intros H. apply IH in H. destruct H as [H1 H2]. split; [exact H1|].
    intros a N. cbn [map In] in N. rewrite H2 by tauto. cbn. destruct (Nat.eqb_spec a (snd e)); [subst; tauto|reflexivity].
Qed.
Lemma mset_sub l k a e : In e (mset l k a) -> e = (k, a) \/ In e l.
Proof. intros [<-|H]; [auto|]. apply filter_In in H. tauto. Qed.

Lemma call_frame (m : cmem V) o c m' o' r : do_call cuda m o c = Go (m', o') r -> frame m o m' o'.
Proof.
  destruct c as [p| |p| |p|p v]; cbn [do_call].
  - unfold add_consumer. destruct (place_eqb p (o_home o)); [intros [= <- <- <-]; apply frame_refl|].
    destruct (fst p).
    + destruct cuda; [|intros [= <- <- <-]; apply (frame_refl m o)].
      destruct (fst (o_home (locked o))); try (intros [= <- <- <-]; apply (frame_refl m o)).
      destruct (o_ram (locked o)) as [a|] eqn:Er; unfold pool_get.
      * intros H. apply (transfer_frame _ (locked o)) in H; [exact H|]. intros b Eb. apply in_ram. exact Eb.
      * destruct (fresh m _) as [m1 a] eqn:Ef. intros H.
        apply (frame_trans m o m1 (with_ram (locked o) a)).
        -- replace m1 with (fst (fresh m (CBlock (LOCAL_RAM, 0%nat) (FromPool LOCAL_RAM) None))) by (rewrite Ef; reflexivity).
           apply fresh_frame. intros x X. cbn in Ef. injection Ef as _ <-. unfold addrs in *. cbn in X.
           destruct X as [<-|X]; [right; reflexivity|]. left. cbn in Er. rewrite Er. exact X.
        -- apply (transfer_frame _ (with_ram (locked o) a)) in H; [exact H|]. intros b Eb. apply in_ram. exact Eb.
    + destruct cuda; [|intros [= <- <- <-]; apply (frame_refl m o)].
      destruct (mfind (o_cons (locked o)) (snd p)) as [a|] eqn:Em; unfold pool_get.
      * destruct (fst (o_home (locked o))); try (intros [= <- <- <-]; apply (frame_refl m o)); intros H;
          (apply (transfer_frame _ (locked o)) in H; [exact H|]; intros b Eb; apply mfind_in in Eb; apply (in_cons (locked o)) in Eb; exact Eb).
      * destruct (fresh m _) as [m1 a] eqn:Ef. intros H.
        assert (F1 : frame m o m1 (with_cons (locked o) (snd p) a)).
        { replace m1 with (fst (fresh m (CBlock (EXTERNAL_CUDA_GPU, 0%nat) (FromPool EXTERNAL_CUDA_GPU) None))) by (rewrite Ef; reflexivity).
          apply fresh_frame. intros x X. cbn in Ef. injection Ef as _ <-.
          unfold addrs in X. change (In x (opt (o_ram o) ++ opt (o_ext o) ++ map snd (mset (o_cons o) (snd p) (nextb m)) ++ map snd (mset (o_mine o) (snd p) (nextb m)))) in X.
          rewrite !in_app_iff in X. destruct X as [X|[X|[X|X]]].
          - left. unfold addrs. rewrite !in_app_iff. auto.
          - left. unfold addrs. rewrite !in_app_iff. auto.
          - apply in_map_iff in X. destruct X as (e & <- & X). apply mset_sub in X. destruct X as [->|X]; [right; reflexivity|left; apply in_cons, X].
          - apply in_map_iff in X. destruct X as (e & <- & X). apply mset_sub in X. destruct X as [->|X]; [right; reflexivity|left; apply in_mine, X]. }
        apply (frame_trans _ _ _ _ _ _ F1).
        destruct (fst (o_home (with_cons (locked o) (snd p) a))); try (injection H as <- <- <-; apply frame_refl);
          (apply (transfer_frame _ (with_cons (locked o) (snd p) a)) in H; [exact H|]; intros b Eb; apply mfind_in in Eb; apply (in_cons (with_cons (locked o) (snd p) a)) in Eb; exact Eb).
    + intros [= <- <- <-]. apply (frame_refl m o).
  - unfold remove_consumers. destruct (cuda && o_ro o); [|intros [= <- <- <-]; apply frame_refl].
    destruct (put_all m (o_mine o)) as [m1|] eqn:E; [|discriminate]. apply put_all_frame in E. destruct E as [E1 E2].
    assert (Nm : forall a, ~ In a (addrs o) -> ~ In a (map snd (o_mine o))).
    { intros a N X. apply in_map_iff in X. destruct X as (e & <- & X). apply N, in_mine, X. }
    destruct (mtype_eqb _ _ && o_builtcpu o).
    + unfold put_ram. destruct (o_ram o) as [x|] eqn:Er; [|discriminate]. unfold pool_put.
      destruct (blocks m1 x) as [b|]; [|discriminate]. destruct (cb_from b); try discriminate. destruct (mtype_eqb _ _); [|discriminate].
      intros [= <- <- <-]. split; [cbn; lia|]. split.
      * intros a L N. cbn. destruct (Nat.eqb_spec a x) as [->|]; [exfalso; apply N, in_ram, Er|]. apply E2, Nm, N.
      * intros a X. left. unfold addrs in *. cbn in X. rewrite !in_app_iff in *. cbn in X. tauto.
    + intros [= <- <- <-]. split; [lia|]. split.
      * intros a L N. apply E2, Nm, N.
      * intros a X. left. unfold addrs in *. cbn in X. rewrite !in_app_iff in *. cbn in X. tauto.
  - intros [= <- <- <-]. apply frame_refl.
  - intros [= <- <- <-]. apply frame_refl.
  - unfold read_at. destruct (pointer cuda o p) as [a|]; [|intros [= <- <- <-]; apply frame_refl].
    destruct (blocks m a) as [b|]; [|discriminate]. destruct (cb_val b); [|discriminate]. intros [= <- <- <-]. apply frame_refl.
  - unfold write_at. destruct (o_ro o); [intros [= <- <- <-]; apply frame_refl|].
    destruct (pointer cuda o p) as [a|] eqn:Ep; [|intros [= <- <- <-]; apply frame_refl].
    destruct (blocks m a) as [b|]; [|discriminate]. intros [= <- <- <-]. split; [cbn; lia|]. split; [|auto].
    intros x L N. cbn. destruct (Nat.eqb_spec x a) as [->|]; [|reflexivity]. exfalso. apply N.
    unfold pointer in Ep. destruct (fst p); [apply in_ram, Ep| |discriminate]. destruct cuda; [|discriminate].
    destruct (place_eqb p (o_home o)); [apply in_ext, Ep|]. apply mfind_in in Ep. apply (in_cons o) in Ep. exact Ep.
Qed.

(** another object's calls leave an object alone *)
Lemma R_frame m o s h (m' : cmem V) : R V cuda m o s h -> (nextb m <= nextb m')%nat ->
  (forall a, In a (addrs o) -> blocks m' a = blocks m a) -> R V cuda m' o s h.
Proof.
  intros [H1 H2 H3 H4 H5 H6 H7 H8 H9 H10 H11 H12 H13 H14 H15 H16] L B.
  assert (Hh : In h (addrs o)).
  { destruct (fst (o_home o)); [apply in_ram; tauto|apply in_ext; tauto|contradiction]. }
  assert (HH : forall a f v, In a (addrs o) -> holds V m a f v -> holds V m' a f v).
  { intros a f v I (p & g & E & F). exists p, g. split; [|exact F]. rewrite B by exact I. exact E. }
  constructor; auto.
  - intros a I. specialize (H5 a I). lia.
  - intros e I. apply HH; [apply in_cons, I|apply H7, I].
  - intros a I. apply HH; [|apply H8, I]. unfold ram_copy in I. destruct (fst (o_home o)), (o_ram o) eqn:E; try contradiction.
    destruct I as [<-|[]]. apply in_ram, E.
Qed.
End Frame.
