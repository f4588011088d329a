(** Proofs about the memory of masks: what follows for a user. *)
From Coq Require Import Permutation.
From Verif Require Import Prelude WindowM WindowS WindowP MaskM MaskS MaskP ConsumerM PoolP MaskLifeM MaskLifeS MaskLifeP MaskLifeQ MaskLifeR.
From Verif Require PoolM.

(** ** All replies *)
Lemma replies cuda junk l : legal_history cuda [] l ->
  exists w, mrun cuda junk no_masks l = Go (w, observed cuda [] l) Done.
Proof.
  intros Lg. destruct (run_ok cuda junk l _ _ _ _ (inv_new cuda) Lg) as (lk & s & os & E & _). exists (s, os). exact E.
Qed.

(** ** The points of a mask *)
Lemma legal_app cuda l m : forall zs, legal_history cuda zs (l ++ m) <-> legal_history cuda zs l /\ legal_history cuda (after cuda zs l) m.
Proof. induction l as [|a l IH]; intros zs; cbn; [tauto|]. rewrite IH. tauto. Qed.
Lemma observed_app cuda l m : forall zs, observed cuda zs (l ++ m) = observed cuda zs l ++ observed cuda (after cuda zs l) m.
Proof. induction l as [|a l IH]; intros zs; cbn; [reflexivity|]. rewrite IH. reflexivity. Qed.

Definition origin_ok (og : list (option (window * list ivec))) (zs : masks) : Prop :=
  length og = length zs /\ forall i z, alive zs i = Some z -> nth i og None = Some (z_win z, z_pts z).
Lemma replace_length A (l : list (option A)) i x : (i < length l)%nat -> length (replace l i x) = length l.
Proof. intros H. unfold replace. rewrite app_length, firstn_length. cbn [length]. rewrite skipn_length. lia. Qed.
Lemma origin_app og zs x y : origin_ok og zs -> (forall z, y = Some z -> x = Some (z_win z, z_pts z)) -> origin_ok (og ++ [x]) (zs ++ [y]).
Proof.
  intros (L & O) H. split; [rewrite !app_length, L; reflexivity|]. intros i z A. rewrite alive_app in A.
  destruct (Nat.eqb_spec i (length zs)) as [->|N].
  - rewrite <- L, app_nth2, Nat.sub_diag by lia. cbn. apply H. exact A.
  - pose proof (alive_lt _ _ _ _ A). rewrite app_nth1 by lia. apply O. exact A.
Qed.
Lemma origin_set og zs i z y : origin_ok og zs -> alive zs i = Some z -> (forall z', y = Some z' -> z_win z' = z_win z /\ z_pts z' = z_pts z) ->
  origin_ok og (replace zs i y).
Proof.
  intros (L & O) A H. pose proof (alive_lt _ _ _ _ A) as Lt. split; [rewrite replace_length; [exact L|exact Lt]|].
  intros j z' A'. rewrite alive_replace in A' by exact Lt. destruct (Nat.eqb_spec j i) as [->|N]; [|apply O; exact A'].
  destruct (H _ A') as (-> & ->). apply O. exact A.
Qed.
Lemma origins_after cuda l : forall og zs, origin_ok og zs -> legal_history cuda zs l -> origin_ok (origins og l) (after cuda zs l).
Proof.
  induction l as [|a l IH]; intros og zs O Lg; [exact O|]. cbn [legal_history after] in *. destruct Lg as (La & Lg). revert Lg.
  destruct a as [w ps [t k]|i|i|i p|i|i p|i|i q|i p q]; cbn [legal observe fst origins] in *; intros Lg.
  - apply IH; [|exact Lg]. destruct t; [|destruct cuda, ps|]; cbn [fst]; (apply origin_app; [exact O|]); intros z E; try discriminate; injection E as <-; reflexivity.
  - destruct La as (z & Z). unfold on_mask in *. rewrite Z in *. cbn [fst] in *. apply IH; [|exact Lg]. apply origin_app; [exact O|].
    intros z' E. injection E as <-. cbn. apply O. exact Z.
  - destruct La as ((z & Z & _) & _). apply IH; [|exact Lg]. eapply origin_set; [exact O|exact Z|]. discriminate.
  - destruct La as (z & Z). apply IH; [|exact Lg]. unfold on_mask. rewrite Z. destruct (place_eqb p (z_home z)); [exact O|].
    destruct (fst p), cuda; try exact O; [destruct (mtype_eqb (fst (z_home z)) LOCAL_RAM); [exact O|]|]; cbn [fst];
      (eapply origin_set; [exact O|exact Z|]); intros z' E; injection E as <-; split; reflexivity.
  - destruct La as ((z & Z) & _). apply IH; [|exact Lg]. unfold on_mask. rewrite Z. destruct cuda; [|exact O]. cbn [fst].
    eapply origin_set; [exact O|exact Z|]. intros z' E. injection E as <-. split; reflexivity.
  - apply IH; [|exact Lg]. unfold on_mask. destruct (alive zs i); exact O.
  - apply IH; [|exact Lg]. unfold on_mask. destruct (alive zs i); exact O.
  - apply IH; [|exact Lg]. unfold on_mask. destruct (alive zs i); exact O.
  - apply IH; [|exact Lg]. unfold on_mask. destruct (alive zs i); exact O.
Qed.

Lemma bits cuda junk l i p q w ps : legal_history cuda [] (l ++ [ReadAt i p q]) -> nth i (origins [] l) None = Some (w, ps) ->
  exists s r, mrun cuda junk no_masks (l ++ [ReadAt i p q]) = Go (s, observed cuda [] l ++ [r]) Done /\
    (r = Threw \/ (r = Yes /\ In q ps) \/ (r = No /\ ~ In q ps)) /\
    (r = Threw <-> forall z, alive (after cuda [] l) i = Some z -> readable cuda z p = false).
Proof.
  intros Lg O. destruct (replies cuda junk _ Lg) as (s & E). rewrite observed_app in E. cbn [observed] in E. exists s. eexists. split; [exact E|].
  apply legal_app in Lg as (Lg & (z & Z & B) & _). destruct (origins_after cuda l [] [] ltac:(split; [reflexivity|intros j z' A; rewrite alive_nil in A; discriminate]) Lg) as (_ & Og).
  rewrite (Og _ _ Z) in O. injection O as _ <-. cbn [observe]. unfold on_mask. rewrite Z. cbn [snd].
  destruct (readable cuda z p) eqn:R.
  - destruct (is_member q (z_pts z)) eqn:M; cbn [yes].
    + split; [right; left; split; [reflexivity|apply is_member_in; exact M]|]. split; [discriminate|]. intros H. rewrite (H _ eq_refl) in R. discriminate.
    + split; [right; right; split; [reflexivity|intros I; apply is_member_in in I; congruence]|]. split; [discriminate|]. intros H. rewrite (H _ eq_refl) in R. discriminate.
  - split; [auto|]. split; [|reflexivity]. intros _ z' E'. injection E' as <-. exact R.
Qed.
Lemma bits_at cuda junk l i q w ps k : legal_history cuda [] (l ++ [At i q]) -> nth i (origins [] l) None = Some (w, ps) ->
  (forall z, alive (after cuda [] l) i = Some z -> z_home z = (LOCAL_RAM, k)) ->
  exists s r, mrun cuda junk no_masks (l ++ [At i q]) = Go (s, observed cuda [] l ++ [r]) Done /\
    ((r = Yes /\ In q ps) \/ (r = No /\ ~ In q ps)).
Proof.
  intros Lg O H. destruct (replies cuda junk _ Lg) as (s & E). rewrite observed_app in E. cbn [observed] in E. exists s. eexists. split; [exact E|].
  apply legal_app in Lg as (Lg & (z & Z & B) & _). destruct (origins_after cuda l [] [] ltac:(split; [reflexivity|intros j z' A; rewrite alive_nil in A; discriminate]) Lg) as (_ & Og).
  rewrite (Og _ _ Z) in O. injection O as _ <-. cbn [observe]. unfold on_mask. rewrite Z. cbn [snd]. unfold readable. rewrite (H _ Z). cbn.
  destruct (is_member q (z_pts z)) eqn:M; [left; split; [reflexivity|apply is_member_in; exact M]|].
  right. split; [reflexivity|]. intros I. apply is_member_in in I. congruence.
Qed.

(** ** Nothing is lost *)
Definition booked (s : mstate) : Prop := forall a b, s_heap s a = Some b -> In a (map fst (mp_fsm (s_pool s))).
Lemma get_fsm P a n x c : PoolM.pool_get P a n = (x, c) -> forall b, In b (map fst (PoolM.pfsm P)) -> In b (map fst (PoolM.pfsm c)).
Proof.
  unfold PoolM.pool_get. destruct (PoolM.lower_bound _ _) as [[k [|t q]]|]; intros E b I; injection E as _ <-; cbn; auto.
Qed.
Lemma get_new P a n x k c : PoolM.pool_get P a n = (x, Some k, c) -> x = a /\ In a (map fst (PoolM.pfsm c)).
Proof.
  unfold PoolM.pool_get. destruct (PoolM.lower_bound _ _) as [[k' [|t q]]|]; intros E; try discriminate; injection E as <- _ <-; cbn; auto.
Qed.
Lemma put_fsm P a c : PoolM.pool_put P a = Ok c -> forall b, In b (map fst (PoolM.pfsm P)) -> In b (map fst (PoolM.pfsm c)).
Proof.
  unfold PoolM.pool_put. destruct (PoolM.lower_bound _ _) as [[k q]|]; [|discriminate]. intros E b I. injection E as <-. cbn.
  destruct (existsb _ _); cbn; auto.
Qed.
Lemma booked_get cuda junk s t n x s' : booked s -> mget cuda junk s t n = (x, s') -> booked s'.
Proof.
  intros B. unfold mget.
  assert (G : forall (side : PoolM.pool) (wi : mempool -> PoolM.pool -> mempool) u,
    PoolM.pfsm side = mp_fsm (s_pool s) -> (forall c, mp_fsm (wi (s_pool s) c) = PoolM.pfsm c) ->
    (let '(a, alloc, c) := PoolM.pool_get side (s_next s) n in
     match alloc with
     | Some k => (Some a, MState (wi (s_pool s) c) (S (s_next s)) (heap_set s a (new_block junk u a k)))
     | None => (Some a, MState (wi (s_pool s) c) (s_next s) (s_heap s))
     end) = (x, s') -> booked s').
  { intros side wi u Es Ew. destruct (PoolM.pool_get side (s_next s) n) as [[a [k|]] c] eqn:G; intros E; injection E as _ <-; intros d b; cbn [s_heap s_pool]; rewrite Ew.
    - destruct (get_new _ _ _ _ _ _ G) as (-> & I). unfold heap_set. destruct (Nat.eqb_spec d (s_next s)) as [->|]; [intros _; exact I|].
      intros H. eapply get_fsm; [exact G|]. rewrite Es. eapply B. exact H.
    - intros H. eapply get_fsm; [exact G|]. rewrite Es. eapply B. exact H. }
  destruct t, cuda; try (apply (G (cpu_side (s_pool s)) with_cpu LOCAL_RAM); reflexivity); try (apply (G (gpu_side (s_pool s)) with_gpu EXTERNAL_CUDA_GPU); reflexivity);
    intros E; injection E as _ <-; intros d b; cbn; apply B.
Qed.
Lemma booked_put s t a s' : booked s -> mput s t a = Some s' -> booked s'.
Proof.
  intros B. unfold mput. destruct t; [| |discriminate].
  - destruct (PoolM.pool_put (cpu_side (s_pool s)) a) eqn:P; try discriminate. intros E. injection E as <-. intros d b H. cbn. eapply put_fsm; [exact P|]. cbn. eapply B. exact H.
  - destruct (PoolM.pool_put (gpu_side (s_pool s)) a) eqn:P; try discriminate. intros E. injection E as <-. intros d b H. cbn. eapply put_fsm; [exact P|]. cbn. eapply B. exact H.
Qed.
Lemma booked_put_all l : forall s s', booked s -> mput_all s l = Some s' -> booked s'.
Proof.
  induction l as [|e l IH]; intros s s' B E; cbn [mput_all] in E; [injection E as <-; exact B|].
  destruct (mput s EXTERNAL_CUDA_GPU (snd e)) eqn:P; [|discriminate]. eapply IH; [|exact E]. eapply booked_put; eauto.
Qed.
Lemma booked_put_ptr s t p s' : booked s -> mput_ptr s t p = Some s' -> booked s'.
Proof. destruct p; cbn; [|discriminate]. apply booked_put. Qed.
Lemma booked_store s t a l s' : booked s -> store s t a l = Some s' -> booked s'.
Proof.
  intros B. unfold store. destruct (s_heap s a) as [b|] eqn:H; [|discriminate]. destruct (_ && _); [|discriminate]. intros E. injection E as <-.
  intros d b'. cbn. unfold heap_set. destruct (Nat.eqb_spec d a) as [->|]; [intros _; eapply B; exact H|apply B].
Qed.
Lemma booked_copy s td d ts a n s' : booked s -> mcopy s td d ts a n = Some s' -> booked s'.
Proof.
  intros B. unfold mcopy. destruct d, a; try discriminate. destruct (load _ _ _ _); [|discriminate]. apply booked_store. exact B.
Qed.
Lemma booked_new cuda junk s w ps h s' o r : booked s -> mask_new cuda junk s w ps h = Go (s', o) r -> booked s'.
Proof.
  intros B. unfold mask_new. destruct (fst h).
  - destruct (mget _ _ _ _ _) as [[a|] s1] eqn:G; pose proof (booked_get _ _ _ _ _ _ _ B G) as B1; [|intros E; injection E as <- _ _; exact B1].
    destruct (store s1 _ _ _) as [s2|] eqn:S2; [|discriminate]. pose proof (booked_store _ _ _ _ _ B1 S2) as B2.
    destruct (load _ _ _ _); [|discriminate]. destruct (add_points _ _ _); try discriminate.
    destruct (store s2 _ _ _) as [s3|] eqn:S3; [|discriminate]. intros E. injection E as <- _ _. eapply booked_store; eauto.
  - destruct (mget _ _ _ _ _) as [[a|] s1] eqn:G; pose proof (booked_get _ _ _ _ _ _ _ B G) as B1; [|intros E; injection E as <- _ _; exact B1].
    destruct (store s1 _ _ _) as [s2|] eqn:S2; [|discriminate]. pose proof (booked_store _ _ _ _ _ B1 S2) as B2.
    destruct ps; intros E; injection E as <- _ _; exact B2.
  - intros E; injection E as <- _ _; exact B.
Qed.
Lemma booked_destroy cuda s o s' r : booked s -> mask_destroy cuda s o = Go s' r -> booked s'.
Proof.
  intros B. unfold mask_destroy.
  set (first := if cuda then _ else _). assert (F : forall s1, first = Some s1 -> booked s1).
  { intros s1. unfold first. destruct cuda; [|intros E; injection E as <-; exact B].
    destruct (mput_all s (f_mine o)) as [s2|] eqn:P; [|discriminate]. pose proof (booked_put_all _ _ _ B P) as B2.
    destruct (f_bcpu o); [intros E; eapply booked_put_ptr; eauto|intros E; injection E as <-; exact B2]. }
  destruct first as [s1|]; [|discriminate]. specialize (F _ eq_refl).
  destruct (f_built o); [|intros E; injection E as <- _; exact F].
  destruct (fst (f_home o)), cuda; try (intros E; injection E as <- _; exact F);
    match goal with |- context [mput_ptr ?a ?b ?c] => destruct (mput_ptr a b c) eqn:P end; try discriminate; intros E; injection E as <- _; eapply booked_put_ptr; eauto.
Qed.
Lemma booked_copied o x s' o' r : (forall s, x = Some s -> booked s) -> copied o x = Go (s', o') r -> booked s'.
Proof. intros H. unfold copied. destruct x; [|discriminate]. intros E. injection E as <- _ _. auto. Qed.
Lemma booked_add cuda junk s o p s' o' r : booked s -> mask_add cuda junk s o p = Go (s', o') r -> booked s'.
Proof.
  intros B. unfold mask_add. destruct (place_eqb p (f_home o)); [intros E; injection E as <- _ _; exact B|].
  destruct (fst p).
  - destruct cuda; [|intros E; injection E as <- _ _; exact B]. destruct (fst (f_home o)); try (intros E; injection E as <- _ _; exact B).
    destruct (f_ram o).
    + apply booked_copied. intros s1. apply booked_copy. exact B.
    + destruct (mget _ _ _ _ _) as [[a|] s1] eqn:G; pose proof (booked_get _ _ _ _ _ _ _ B G) as B1; apply booked_copied; intros s2; apply booked_copy; exact B1.
  - destruct cuda; [|intros E; injection E as <- _ _; exact B]. destruct (fst (f_home o)); try (intros E; injection E as <- _ _; exact B);
    (destruct (mfind (f_cons o) (snd p));
    [apply booked_copied; intros s1; apply booked_copy; exact B
    |destruct (mget _ _ _ _ _) as [[a|] s1] eqn:G; pose proof (booked_get _ _ _ _ _ _ _ B G) as B1; apply booked_copied; intros s2; apply booked_copy; exact B1]).
  - intros E; injection E as <- _ _; exact B.
Qed.
Lemma booked_remove cuda s o s' o' r : booked s -> mask_remove cuda s o = Go (s', o') r -> booked s'.
Proof.
  intros B. unfold mask_remove. destruct cuda; [|intros E; injection E as <- _ _; exact B].
  destruct (mput_all s (f_mine o)) as [s2|] eqn:P; [|discriminate]. pose proof (booked_put_all _ _ _ B P) as B2.
  destruct (_ && _); [|intros E; injection E as <- _ _; exact B2].
  destruct (mput_ptr _ _ _) eqn:P2; [|discriminate]. intros E; injection E as <- _ _. eapply booked_put_ptr; eauto.
Qed.
Lemma booked_act cuda junk s os a w r : booked s -> mact cuda junk (s, os) a = Go w r -> booked (fst w).
Proof.
  intros B. destruct a; cbn [mact fst snd]; unfold with_obj; cbn [fst snd];
    try (destruct (alive os i); [|discriminate]).
  - destruct (mask_new _ _ _ _ _ _) as [[s1 o] r1|] eqn:E; [|discriminate]. intros X. injection X as <- _. cbn. eapply booked_new; eauto.
  - intros X. injection X as <- _. exact B.
  - destruct (mask_destroy _ _ _) as [s1 r1|] eqn:E; [|discriminate]. intros X. injection X as <- _. cbn. eapply booked_destroy; eauto.
  - unfold update. destruct (mask_add _ _ _ _ _) as [[s1 o] r1|] eqn:E; [|discriminate]. intros X. injection X as <- _. cbn. eapply booked_add; eauto.
  - unfold update. destruct (mask_remove _ _ _) as [[s1 o] r1|] eqn:E; [|discriminate]. intros X. injection X as <- _. cbn. eapply booked_remove; eauto.
  - intros X. injection X as <- _. exact B.
  - intros X. injection X as <- _. exact B.
  - unfold answer. destruct (mask_at _ _ _); [|discriminate]. intros X. injection X as <- _. exact B.
  - unfold answer. destruct (mask_read _ _ _ _ _); [|discriminate]. intros X. injection X as <- _. exact B.
Qed.
Lemma booked_run cuda junk l : forall s os w rs d, booked s -> mrun cuda junk (s, os) l = Go (w, rs) d -> booked (fst w).
Proof.
  induction l as [|a l IH]; intros s os w rs d B; cbn [mrun]; [intros E; injection E as <- _ _; exact B|].
  destruct (mact cuda junk (s, os) a) as [[s1 os1] r|] eqn:A; [|discriminate]. pose proof (booked_act _ _ _ _ _ _ _ B A) as B1.
  destruct (mrun cuda junk (s1, os1) l) as [[w2 rs2] d2|] eqn:R; [|discriminate]. intros E. injection E as <- _ _. eapply IH; eauto.
Qed.

Lemma nobody_owned os : (forall i, alive os i = None) -> all_owned os = [].
Proof.
  induction os as [|x os IH]; intros H; [reflexivity|]. pose proof (H 0%nat) as H0. destruct x; [discriminate|]. cbn. apply IH. intros i. apply (H (S i)).
Qed.
Lemma returned cuda junk l w rs : legal_history cuda [] l -> (forall w q ps k, ~ In (New w (q :: ps) (EXTERNAL_CUDA_GPU, k)) l) ->
  nobody (after cuda [] l) -> mrun cuda junk no_masks l = Go (w, rs) Done -> all_returned (fst w).
Proof.
  intros Lg Nt Nb R. destruct (run_ok cuda junk l _ _ _ _ (inv_new cuda) Lg) as (lk & s & os & E & V & K). rewrite (K Nt) in V.
  unfold no_masks in R. rewrite E in R. injection R as <- _. cbn [fst].
  assert (B0 : booked no_memory) by (intros a b H; discriminate H).
  pose proof (booked_run cuda junk l _ _ _ _ _ B0 E) as B. cbn [fst] in B.
  assert (O : all_owned os = []).
  { apply nobody_owned. intros i. pose proof (v_obj _ _ _ _ _ V i) as Oi. rewrite (Nb i) in Oi. destruct (alive os i); [destruct Oi|reflexivity]. }
  pose proof (v_mem _ _ _ _ _ V) as M. rewrite O in M. cbn [app] in M. pose proof (mo_perm _ _ M) as P. cbn [map app] in P.
  split.
  - eapply Permutation_NoDup; [symmetry; exact P|exact (mo_nodup _ _ M)].
  - intros a b H. specialize (B a b H). eapply Permutation_in in B; [|symmetry; exact P]. apply in_app_iff in B.
    assert (Q : forall m t, queue_ok m (mp_fsm (s_pool s)) (s_heap s) t -> In a (queued m) -> b_at b = t).
    { intros m t (_ & Q & _) I. unfold queued in I. apply in_flat_map in I as ([k q] & I & J). destruct (Q _ _ _ I J) as (_ & b' & H' & T). rewrite H in H'. injection H' as <-. exact T. }
    destruct B as [B|B].
    + pose proof (Q _ _ (mo_cpu _ _ M) B) as T. rewrite T. split; [auto|discriminate].
    + pose proof (Q _ _ (mo_gpu _ _ M) B) as T. rewrite T. split; [discriminate|auto].
Qed.
