(** Proofs about the memory of masks: every legal action behaves as specified. *)
From Coq Require Import Permutation.
From Verif Require Import Prelude WindowM WindowS WindowP MaskM MaskS MaskP ConsumerM MaskLifeM MaskLifeS MaskLifeP MaskLifeQ.

Lemma is_member_in q ps : is_member q ps = true <-> In q ps.
Proof.
  unfold is_member. rewrite existsb_exists. split.
  - intros (x & I & E). apply iv_eqb_eq in E. subst. exact I.
  - intros I. exists q. split; [exact I|apply iv_eqb_eq; reflexivity].
Qed.
Lemma place_eqb_eq p q : place_eqb p q = true <-> p = q.
Proof.
  destruct p as [a i], q as [b j]. unfold place_eqb; cbn. rewrite andb_true_iff, mtype_eqb_eq, Nat.eqb_eq. split; [intros (-> & ->); reflexivity|intros E; injection E; auto].
Qed.
Lemma mfind_in l k a : mfind l k = Some a -> In (k, a) l.
Proof.
  unfold mfind. destruct (find _ l) as [[k' a']|] eqn:F; [|discriminate]. intros E. injection E as <-. apply find_some in F as (I & E).
  cbn in E. apply Nat.eqb_eq in E. subst. exact I.
Qed.
Lemma mfind_none l k : mfind l k = None -> forall e, In e l -> fst e <> k.
Proof.
  unfold mfind. destruct (find _ l) eqn:F; [discriminate|]. intros _ e I E. pose proof (find_none _ _ F e I) as X. cbn in X.
  rewrite E, Nat.eqb_refl in X. discriminate.
Qed.
Lemma mset_fresh l k a : (forall e, In e l -> fst e <> k) -> mset l k a = (k, a) :: l.
Proof.
  intros H. unfold mset. f_equal. induction l as [|e l IH]; [reflexivity|]. cbn.
  destruct (Nat.eqb_spec (fst e) k) as [E|_]; [destruct (H e (or_introl eq_refl) E)|]. cbn. f_equal. apply IH. intros x I. apply H. right. exact I.
Qed.
Lemma mfind_cons l k a j : mfind ((k, a) :: l) j = if Nat.eqb k j then Some a else mfind l j.
Proof. unfold mfind. cbn. destruct (Nat.eqb k j); reflexivity. Qed.
Lemma has_true A (x : option A) : has x = true -> exists a, x = Some a.
Proof. destruct x; [eauto|discriminate]. Qed.

Lemma make_words w ps : pos_dims (wglob w) -> Forall (in_block w) ps ->
  exists l, bitfield_make w ps = Ok l /\ length l = words_of w /\
    forall q, in_block w q -> bitfield_query w l q = Ok (is_member q ps).
Proof.
  intros D P. destruct (bitfield_make_bits w ps D P) as (l & E & L & _). destruct (bitfield_query_make w ps D P) as (l' & E' & _ & Q).
  rewrite E in E'. injection E' as <-. exists l. split; [exact E|]. split; [unfold words_of; lia|].
  intros q B. destruct (Q q B) as (Q1 & Q2). destruct (is_member q ps) eqn:M; [apply Q1, is_member_in, M|].
  apply Q2. intros I. apply is_member_in in I. congruence.
Qed.

Section Steps.
Variable cuda : bool.
Variable junk : nat -> nat -> Z.
Notation inv := (inv cuda).
Notation rel := (rel cuda).

Lemma words_len o z : rel o z -> length (z_words z) = f_size o.
Proof.
  intros R. destruct (make_words _ _ (r_dims _ _ _ R) (r_pts _ _ _ R)) as (l & E & L & _).
  unfold z_words, f_size. rewrite E, (r_win _ _ _ R). exact L.
Qed.

Lemma mget_unsupported s o t n s' : mem_ok s o -> 0 <= n -> mget cuda junk s t n = (None, s') -> mem_ok s' o /\ s_heap s' = s_heap s.
Proof.
  intros M Hn E. assert (Pd : 0 <= (if mp_pad (s_pool s) =? 0 then Z.quot n 10 else mp_pad (s_pool s))).
  { pose proof (mo_pad _ _ M). destruct (mp_pad (s_pool s) =? 0); [apply Z.quot_pos; lia|assumption]. }
  unfold mget in E. destruct t, cuda;
    try (destruct (PoolM.pool_get _ _ _) as [[a [k|]] c]; discriminate);
    injection E as <-; (split; [|reflexivity]); destruct M; constructor; assumption.
Qed.

Lemma mcopy_ok s o td d ts a l : mem_ok s o -> In (ts, a) o -> In (td, d) o -> content s a l ->
  (exists b, s_heap s d = Some b /\ (length l <= length (b_words b))%nat) ->
  exists s', mcopy s td (Some d) ts (Some a) (length l) = Some s' /\ mem_ok s' o /\ content s' d l /\
    (forall p, p <> d -> s_heap s' p = s_heap s p) /\ (content s d l -> forall p, s_heap s' p = s_heap s p).
Proof.
  intros M Ia Id C B. unfold mcopy. rewrite (load_content _ _ _ _ _ M Ia C).
  destruct (store_ok _ _ _ _ l M Id B) as (s' & E & M' & C' & H1 & _ & H2). exists s'. auto.
Qed.
Lemma content_long s a l : content s a l -> exists b, s_heap s a = Some b /\ (length l <= length (b_words b))%nat.
Proof. intros (b & H & F). exists b. split; [exact H|]. apply firstn_le_length in F. exact F. Qed.

(** the home pointer of an object *)
Lemma home_pointer o z : rel o z -> exists a,
  (match fst (f_home o) with LOCAL_RAM => f_ram o | _ => f_ext o end) = Some a /\ home_ptr o = [(fst (f_home o), a)].
Proof.
  intros R. unfold home_ptr. destruct (r_type _ _ _ R) as [T|(T & _)]; rewrite (r_home _ _ _ R), T.
  - pose proof (r_ram _ _ _ R) as E. rewrite T in E. cbn in E. apply has_true in E as (a & E). exists a. rewrite E. auto.
  - pose proof (r_ext _ _ _ R) as E. rewrite T in E. cbn in E. apply has_true in E as (a & E). exists a. rewrite E. auto.
Qed.

Lemma new_ram leaked s os zs w ps k : inv leaked s os zs -> pos_dims (wglob w) -> Forall (in_block w) ps ->
  exists s' o, mask_new cuda junk s w ps (LOCAL_RAM, k) = Go (s', Some o) Done /\
    inv leaked s' (os ++ [Some o]) (zs ++ [Some (SeenMask w ps (LOCAL_RAM, k) false false [] None)]).
Proof.
  intros V D P. set (n := words_of w). pose proof (v_mem _ _ _ _ _ V) as M.
  destruct (mget_ok cuda junk s _ LOCAL_RAM (Z.of_nat n) M (or_introl eq_refl) ltac:(lia)) as (a & s1 & G & M1 & Na & (b & Hb & Lb) & H1).
  rewrite Nat2Z.id in Lb. unfold mask_new. cbn [fst]. fold n. rewrite G.
  destruct (store_ok s1 _ LOCAL_RAM a (repeat 0 n) M1 (or_introl eq_refl)) as (s2 & E2 & M2 & C2 & H2 & B2 & _).
  { exists b. rewrite repeat_length. auto. }
  rewrite E2. pose proof (load_content s2 _ _ _ _ M2 (or_introl eq_refl) C2) as E3. rewrite repeat_length in E3. rewrite E3.
  destruct (make_words w ps D P) as (l & El & Ll & _). change (add_points w (repeat 0 n) ps) with (bitfield_make w ps). rewrite El.
  destruct (store_ok s2 _ LOCAL_RAM a l M2 (or_introl eq_refl)) as (s3 & E4 & M4 & C4 & H4 & _ & _).
  { destruct B2 as (b2 & Hb2 & Lb2). rewrite repeat_length in Lb2. exists b2. split; [exact Hb2|]. fold n in Ll. lia. }
  rewrite E4. eexists. eexists. split; [reflexivity|].
  eapply inv_append; [exact V| | |].
  - rewrite all_owned_app. cbn [owned1]. eapply mem_ok_perm; [|exact M4].
    cbn. rewrite <- app_assoc. cbn. apply Permutation_middle.
  - intros p I. assert (I2 : In p (map snd (all_owned os ++ leaked))) by (rewrite map_app; apply in_app_iff; auto).
    assert (Np : p <> a) by (intros ->; contradiction). rewrite H4, H2 by exact Np. apply H1. exact I2.
  - cbn [obj_ok]. split; [|split].
    + constructor; cbn; auto; try discriminate; try reflexivity. left. reflexivity.
    + constructor; cbn; auto; discriminate.
    + intros t p. unfold pointers; cbn. intros [E|[]]. injection E as <- <-. unfold z_words; cbn [z_win z_pts]. rewrite El. exact C4.
Qed.

Lemma new_gpu leaked s os zs w k : inv leaked s os zs -> pos_dims (wglob w) -> cuda = true ->
  forall ps, Forall (in_block w) ps ->
  match ps with
  | [] => exists s' o, mask_new cuda junk s w ps (EXTERNAL_CUDA_GPU, k) = Go (s', Some o) Done /\
            inv leaked s' (os ++ [Some o]) (zs ++ [Some (SeenMask w [] (EXTERNAL_CUDA_GPU, k) false false [] None)])
  | _ => exists s' a, mask_new cuda junk s w ps (EXTERNAL_CUDA_GPU, k) = Go (s', None) Threw /\
            inv ((EXTERNAL_CUDA_GPU, a) :: leaked) s' (os ++ [None]) (zs ++ [None])
  end.
Proof.
  intros V D Cu ps P. set (n := words_of w). pose proof (v_mem _ _ _ _ _ V) as M.
  destruct (mget_ok cuda junk s _ EXTERNAL_CUDA_GPU (Z.of_nat n) M (or_intror (conj eq_refl Cu)) ltac:(lia)) as (a & s1 & G & M1 & Na & (b & Hb & Lb) & H1).
  rewrite Nat2Z.id in Lb.
  destruct (store_ok s1 _ EXTERNAL_CUDA_GPU a (repeat 0 n) M1 (or_introl eq_refl)) as (s2 & E2 & M2 & C2 & H2 & B2 & _).
  { exists b. rewrite repeat_length. auto. }
  assert (Hp : forall p, In p (map snd (all_owned os)) -> s_heap s2 p = s_heap s p).
  { intros p I. assert (I2 : In p (map snd (all_owned os ++ leaked))) by (rewrite map_app; apply in_app_iff; auto).
    assert (Np : p <> a) by (intros ->; contradiction). rewrite H2 by exact Np. apply H1. exact I2. }
  unfold mask_new. cbn [fst]. fold n. rewrite G, E2. destruct ps as [|q ps].
  - eexists. eexists. split; [reflexivity|]. eapply inv_append; [exact V| |exact Hp|].
    + rewrite all_owned_app. cbn [owned1]. eapply mem_ok_perm; [|exact M2]. cbn. rewrite <- app_assoc. cbn. apply Permutation_middle.
    + cbn [obj_ok]. split; [|split].
      * constructor; cbn; auto; try discriminate; try reflexivity. right. auto.
      * constructor; cbn; auto; discriminate.
      * intros t p. unfold pointers; cbn. intros [E|[]]. injection E as <- <-. exact C2.
  - exists s2, a. split; [reflexivity|]. eapply inv_append; [exact V| |exact Hp|exact I].
    rewrite all_owned_app. cbn [owned1]. rewrite app_nil_r. eapply mem_ok_perm; [|exact M2]. apply Permutation_middle.
Qed.

Lemma owned_replace_same os i o o' leaked s : alive os i = Some o -> Permutation (owned o') (owned o) ->
  mem_ok s (all_owned os ++ leaked) -> mem_ok s (all_owned (replace os i (Some o')) ++ leaked).
Proof.
  intros A E M. destruct (all_owned_replace os i o (Some o') A) as (rest & P1 & P2). eapply mem_ok_perm; [|exact M].
  apply Permutation_app_tail. rewrite P1, P2. cbn. apply Permutation_app_tail. symmetry. exact E.
Qed.
Lemma owned_replace_more os i o o' x leaked s : alive os i = Some o -> Permutation (owned o') (x :: owned o) ->
  mem_ok s (x :: all_owned os ++ leaked) -> mem_ok s (all_owned (replace os i (Some o')) ++ leaked).
Proof.
  intros A E M. destruct (all_owned_replace os i o (Some o') A) as (rest & P1 & P2). eapply mem_ok_perm; [|exact M].
  change (x :: all_owned os ++ leaked) with ((x :: all_owned os) ++ leaked). apply Permutation_app_tail. rewrite P1, P2. cbn.
  rewrite E. reflexivity.
Qed.

(** the words of an object at one of its pointers *)
Lemma at_pointer leaked s os zs i o z t a : inv leaked s os zs -> alive os i = Some o -> alive zs i = Some z -> In (t, a) (pointers o) ->
  rel o z /\ In (t, a) (all_owned os ++ leaked) /\ content s a (z_words z).
Proof.
  intros V A Z H. pose proof (v_obj _ _ _ _ _ V i) as O. rewrite A, Z in O. destruct O as (R & _ & B).
  split; [exact R|]. split; [eapply pointer_mem; eauto|eapply B; eauto].
Qed.
Lemma sent_cons k j l : sent j (k :: l) = Nat.eqb j k || sent j l.
Proof. reflexivity. Qed.

Lemma add_gpu leaked s os zs i o z k : inv leaked s os zs -> alive os i = Some o -> alive zs i = Some z -> cuda = true ->
  place_eqb (EXTERNAL_CUDA_GPU, k) (f_home o) = false ->
  exists s' o', mask_add cuda junk s o (EXTERNAL_CUDA_GPU, k) = Go (s', o') Done /\
    inv leaked s' (replace os i (Some o')) (replace zs i (Some (set_gpu z k))).
Proof.
  intros V A Z Cu Np. pose proof (v_obj _ _ _ _ _ V i) as Oi. rewrite A, Z in Oi. destruct Oi as (R & Hd & B).
  destruct (home_pointer o z R) as (ah & Eh & Hh).
  assert (Ih : In (fst (f_home o), ah) (pointers o)) by (apply home_ptr_in; rewrite Hh; cbn; auto).
  destruct (at_pointer _ _ _ _ _ _ _ _ _ V A Z Ih) as (_ & Ih' & Ch).
  pose proof (words_len o z R) as WL. pose proof (v_mem _ _ _ _ _ V) as M.
  assert (T : fst (f_home o) <> OTHER_MEMORY).
  { rewrite (r_home _ _ _ R). destruct (r_type _ _ _ R) as [T|(T & _)]; rewrite T; discriminate. }
  destruct (mfind (f_cons o) k) as [d|] eqn:F.
  - assert (Id : In (EXTERNAL_CUDA_GPU, d) (pointers o)).
    { unfold pointers. rewrite !in_app_iff. right; right. apply in_gpu. exists (k, d). split; [apply mfind_in; exact F|reflexivity]. }
    destruct (at_pointer _ _ _ _ _ _ _ _ _ V A Z Id) as (_ & Id' & Cd).
    destruct (mcopy_ok s _ EXTERNAL_CUDA_GPU d (fst (f_home o)) ah (z_words z) M Ih' Id' Ch (content_long _ _ _ Cd)) as (s' & E & M' & _ & _ & Hall).
    specialize (Hall Cd).
    exists s', o. split.
    { unfold mask_add. rewrite Np, Cu. cbn [fst snd]. destruct (fst (f_home o)) eqn:Tt; [| |congruence]; rewrite F, F, Eh, <- WL, E; reflexivity. }
    eapply inv_update; eauto.
    + eapply owned_replace_same; eauto.
    + destruct R. constructor; auto. cbn [set_gpu z_gpus]. intros j. rewrite sent_cons, r_cons. destruct (Nat.eqb_spec j k) as [->|]; [|reflexivity].
      specialize (r_cons k). rewrite F in r_cons. cbn in r_cons. rewrite <- r_cons. reflexivity.
    + eapply holds_bits_heap; [|exact B]. intros a _. apply Hall.
  - pose proof (mfind_none _ _ F) as Nk.
    assert (Nm : forall e, In e (f_mine o) -> fst e <> k) by (intros e I; apply Nk, (r_mine _ _ _ R), I).
    destruct (mget_ok cuda junk s _ EXTERNAL_CUDA_GPU (Z.of_nat (f_size o)) M (or_intror (conj eq_refl Cu)) ltac:(lia)) as (a & s1 & G & M1 & Na & (b & Hb & Lb) & H1).
    rewrite Nat2Z.id in Lb.
    assert (Hn : forall p, In p (map snd (all_owned os)) -> p <> a /\ s_heap s1 p = s_heap s p).
    { intros p I. assert (I2 : In p (map snd (all_owned os ++ leaked))) by (rewrite map_app; apply in_app_iff; auto).
      split; [intros ->; contradiction|auto]. }
    assert (Ca : content s1 ah (z_words z)).
    { eapply content_heap; [|exact Ch]. apply H1. apply (in_map snd) in Ih'. exact Ih'. }
    destruct (mcopy_ok s1 _ EXTERNAL_CUDA_GPU a (fst (f_home o)) ah (z_words z) M1 (or_intror Ih') (or_introl eq_refl) Ca) as (s' & E & M' & Cn & Hp & _).
    { exists b. split; [exact Hb|]. rewrite WL. exact Lb. }
    exists s', (f_with_cons o k a). split.
    { unfold mask_add. rewrite Np. rewrite Cu in G |- *. cbn [fst snd]. destruct (fst (f_home o)) eqn:Tt; [| |congruence]; rewrite F, G; cbn [f_with_cons f_cons f_ram f_ext f_size f_win];
        rewrite (mset_fresh _ _ _ Nk), mfind_cons, Nat.eqb_refl, Eh; change (f_size (f_with_cons o k a)) with (f_size o); rewrite <- WL, E; reflexivity. }
    eapply inv_update with (o := o) (z := z) (s := s); eauto; unfold f_with_cons; cbn [f_win f_home f_ram f_ext f_built f_cons f_mine f_bcpu];
      rewrite ?(mset_fresh _ _ _ Nk), ?(mset_fresh _ _ _ Nm).
    + eapply owned_replace_more; [exact A| |exact M']. unfold owned. cbn [f_win f_home f_ram f_ext f_built f_cons f_mine f_bcpu]. reflexivity.
    + intros p I. destruct (Hn p I) as (N1 & N2). rewrite Hp by exact N1. exact N2.
    + destruct R. constructor; auto; cbn [f_win f_home f_ram f_ext f_built f_cons f_mine f_bcpu z_win z_home z_cpu z_own_cpu z_gpus z_of z_pts set_gpu].
      * intros j. rewrite mfind_cons, sent_cons, (Nat.eqb_sym j k). destruct (Nat.eqb k j); [reflexivity|]. apply r_cons.
      * intros e [<-|I]; [left; reflexivity|right; auto].
      * intros; congruence.
    + intros e I. right. exact I.
    + intros e [<-|I]; [left; left; reflexivity|auto].
    + intros e I. right. exact I.
    + intros t p. unfold pointers. cbn [f_ram f_ext f_cons on_gpu map snd]. intros I.
      assert (J : (t, p) = (EXTERNAL_CUDA_GPU, a) \/ In (t, p) (pointers o)).
      { unfold pointers. rewrite !in_app_iff in *. cbn [In] in I. destruct I as [I|[I|[I|I]]]; auto. }
      destruct J as [E0|J]; [injection E0 as -> ->; exact Cn|].
      destruct (Hn p) as (N1 & N2).
      { pose proof (pointer_out _ _ _ _ _ V _ _ _ A J) as X. apply (in_map snd) in X. exact X. }
      eapply content_heap; [|eapply B; exact J]. rewrite Hp by exact N1. exact N2.
Qed.

Lemma add_cpu leaked s os zs i o z k : inv leaked s os zs -> alive os i = Some o -> alive zs i = Some z -> cuda = true ->
  place_eqb (LOCAL_RAM, k) (f_home o) = false -> fst (z_home z) = EXTERNAL_CUDA_GPU ->
  exists s' o', mask_add cuda junk s o (LOCAL_RAM, k) = Go (s', o') Done /\
    inv leaked s' (replace os i (Some o')) (replace zs i (Some (set_cpu z))).
Proof.
  intros V A Z Cu Np T. pose proof (v_obj _ _ _ _ _ V i) as Oi. rewrite A, Z in Oi. destruct Oi as (R & Hd & B).
  destruct (home_pointer o z R) as (ah & Eh & Hh). pose proof (r_home _ _ _ R) as Rh. rewrite Rh, T in Eh. rewrite Rh, T in Hh.
  assert (Ih : In (EXTERNAL_CUDA_GPU, ah) (pointers o)) by (apply home_ptr_in; rewrite Hh; cbn; auto).
  destruct (at_pointer _ _ _ _ _ _ _ _ _ V A Z Ih) as (_ & Ih' & Ch).
  pose proof (words_len o z R) as WL. pose proof (v_mem _ _ _ _ _ V) as M. pose proof (r_ram _ _ _ R) as Er. rewrite T in Er. cbn in Er.
  destruct (f_ram o) as [d|] eqn:F.
  - cbn in Er. symmetry in Er. assert (Id : In (LOCAL_RAM, d) (pointers o)) by (unfold pointers; rewrite F; cbn; auto).
    destruct (at_pointer _ _ _ _ _ _ _ _ _ V A Z Id) as (_ & Id' & Cd).
    destruct (mcopy_ok s _ LOCAL_RAM d EXTERNAL_CUDA_GPU ah (z_words z) M Ih' Id' Ch (content_long _ _ _ Cd)) as (s' & E & M' & _ & _ & Hall).
    specialize (Hall Cd). exists s', o. split; [unfold mask_add; rewrite Np; cbn [fst snd]; rewrite Rh, T, Cu, F, F, Eh, <- WL, E; reflexivity|].
    eapply inv_update with (o := o) (z := z) (s := s); eauto.
    + eapply owned_replace_same; eauto.
    + destruct R. constructor; auto; cbn.
      * rewrite F, T. reflexivity.
      * rewrite r_bcpu, Er. destruct (z_own_cpu z); reflexivity.
    + eapply holds_bits_heap; [|exact B]. intros a _. apply Hall.
  - cbn in Er. symmetry in Er.
    assert (Eo : z_own_cpu z = false) by (destruct (z_own_cpu z) eqn:X; [pose proof (r_own _ _ _ R X); congruence|reflexivity]).
    assert (Eb : f_bcpu o = false) by (rewrite (r_bcpu _ _ _ R); exact Eo).
    destruct (mget_ok cuda junk s _ LOCAL_RAM (Z.of_nat (f_size o)) M (or_introl eq_refl) ltac:(lia)) as (a & s1 & G & M1 & Na & (b & Hb & Lb) & H1).
    rewrite Nat2Z.id in Lb.
    assert (Hn : forall p, In p (map snd (all_owned os)) -> p <> a /\ s_heap s1 p = s_heap s p).
    { intros p I. assert (I2 : In p (map snd (all_owned os ++ leaked))) by (rewrite map_app; apply in_app_iff; auto).
      split; [intros ->; contradiction|auto]. }
    assert (Ca : content s1 ah (z_words z)).
    { eapply content_heap; [|exact Ch]. apply H1. apply (in_map snd) in Ih'. exact Ih'. }
    destruct (mcopy_ok s1 _ LOCAL_RAM a EXTERNAL_CUDA_GPU ah (z_words z) M1 (or_intror Ih') (or_introl eq_refl) Ca) as (s' & E & M' & Cn & Hp & _).
    { exists b. split; [exact Hb|]. rewrite WL. exact Lb. }
    exists s', (f_with_ram o a). split.
    { unfold mask_add. rewrite Np. rewrite Cu in G |- *. cbn [fst snd]. rewrite Rh, T, F, G. cbn [f_with_ram f_ram f_ext]. change (f_size (f_with_ram o a)) with (f_size o).
      rewrite Eh, <- WL, E. reflexivity. }
    eapply inv_update with (o := o) (z := z) (s := s); eauto; unfold f_with_ram; cbn [f_win f_home f_ram f_ext f_built f_cons f_mine f_bcpu].
    + eapply owned_replace_more; [exact A| |exact M']. unfold owned, home_ptr. cbn [f_win f_home f_ram f_ext f_built f_cons f_mine f_bcpu]. rewrite Eb, Rh, T.
      cbn [ptr app]. symmetry. apply Permutation_middle.
    + intros p I. destruct (Hn p I) as (N1 & N2). rewrite Hp by exact N1. exact N2.
    + destruct R. constructor; auto; cbn.
      * rewrite T. reflexivity.
      * rewrite Er. destruct (z_own_cpu z); reflexivity.
      * intros; congruence.
    + unfold home_ptr. cbn [f_home f_ext]. rewrite Rh, T. reflexivity.
    + intros x X. congruence.
    + intros t p. unfold pointers. cbn [f_ram f_ext f_cons ptr]. intros I.
      assert (J : (t, p) = (LOCAL_RAM, a) \/ In (t, p) (pointers o)).
      { unfold pointers. rewrite F. cbn [app ptr In] in *. destruct I as [I|I]; auto. }
      destruct J as [E0|J]; [injection E0 as -> ->; exact Cn|].
      destruct (Hn p) as (N1 & N2).
      { pose proof (pointer_out _ _ _ _ _ V _ _ _ A J) as X. apply (in_map snd) in X. exact X. }
      eapply content_heap; [|eapply B; exact J]. rewrite Hp by exact N1. exact N2.
Qed.

(** giving back the consumers of an object *)
Lemma put_consumers leaked s os zs i o z : inv leaked s os zs -> alive os i = Some o -> alive zs i = Some z -> cuda = true ->
  exists rest s1, Permutation (all_owned os ++ leaked) (owned o ++ rest) /\
    (forall x, Permutation (all_owned (replace os i x) ++ leaked) (owned1 x ++ rest)) /\
    mput_all s (f_mine o) = Some s1 /\ s_heap s1 = s_heap s /\
    mem_ok s1 ((if f_bcpu o then ptr LOCAL_RAM (f_ram o) else []) ++ (if f_built o then home_ptr o else []) ++ rest) /\
    (f_bcpu o = true -> exists s2, mput_ptr s1 LOCAL_RAM (f_ram o) = Some s2 /\ s_heap s2 = s_heap s /\
       mem_ok s2 ((if f_built o then home_ptr o else []) ++ rest)).
Proof.
  intros V A Z Cu. pose proof (v_obj _ _ _ _ _ V i) as Oi. rewrite A, Z in Oi. destruct Oi as (R & _ & _).
  assert (Rest : exists rest, Permutation (all_owned os) (owned o ++ rest) /\ forall x, Permutation (all_owned (replace os i x)) (owned1 x ++ rest)).
  { destruct (all_owned_replace os i o None A) as (rest & P1 & P2). exists rest. split; [exact P1|]. intros x.
    destruct (all_owned_replace os i o x A) as (rest' & P1' & P2'). rewrite P2'. apply Permutation_app_head.
    eapply Permutation_app_inv_l. rewrite <- P1', <- P1. reflexivity. }
  destruct Rest as (rest & P1 & P2). exists (rest ++ leaked).
  pose proof (v_mem _ _ _ _ _ V) as M. eapply mem_ok_perm in M; [|rewrite P1; unfold owned; rewrite <- !app_assoc; reflexivity].
  destruct (mput_all_ok _ _ _ M) as (s1 & E1 & M1 & H1). exists s1.
  split; [rewrite P1, <- app_assoc; reflexivity|]. split; [intros x; rewrite P2, <- app_assoc; reflexivity|].
  split; [exact E1|]. split; [exact H1|]. split; [exact M1|].
  intros Eb. rewrite Eb in M1. pose proof (r_ram _ _ _ R) as Er. rewrite (r_own _ _ _ R) in Er by (rewrite <- (r_bcpu _ _ _ R); exact Eb).
  rewrite orb_true_r in Er. apply has_true in Er as (d & Er). rewrite Er in *. cbn [ptr app] in M1. cbn [mput_ptr].
  destruct (mput_ok _ _ _ _ M1) as (s2 & E2 & M2 & H2); [discriminate|]. exists s2. rewrite H2. auto.
Qed.

Lemma remove_ok leaked s os zs i o z : inv leaked s os zs -> alive os i = Some o -> alive zs i = Some z -> cuda = true -> ~ copied_from zs i ->
  exists s' o', mask_remove cuda s o = Go (s', o') Done /\ inv leaked s' (replace os i (Some o')) (replace zs i (Some (unsent z))).
Proof.
  intros V A Z Cu NC. destruct (put_consumers _ _ _ _ _ _ _ V A Z Cu) as (rest & s1 & P1 & P2 & E1 & H1 & M1 & K).
  pose proof (v_obj _ _ _ _ _ V i) as Oi. rewrite A, Z in Oi. destruct Oi as (R & Hd & B).
  destruct (f_bcpu o) eqn:Eb.
  - pose proof Eb as Eo. rewrite (r_bcpu _ _ _ R) in Eo. pose proof (r_own _ _ _ R Eo) as Ec. pose proof (r_cpu _ _ _ R Ec) as T.
    pose proof (r_home _ _ _ R) as Rh. destruct (K eq_refl) as (s2 & E2 & H2 & M2).
    exists s2, (BitF (f_win o) (f_home o) None (f_ext o) (f_built o) [] [] false). split.
    { unfold mask_remove. rewrite Cu, E1, Eb, E2. replace (mtype_eqb (fst (f_home o)) EXTERNAL_CUDA_GPU) with true by (rewrite Rh, T; reflexivity). reflexivity. }
    eapply inv_leave with (o := o) (z := z) (s := s); eauto.
    + eapply mem_ok_perm; [symmetry; apply P2|]. cbn [owned1 owned f_mine f_bcpu f_built on_gpu map app].
      unfold home_ptr in *. cbn [f_home f_ext]. rewrite Rh, T in *. exact M2.
    + split; [|split; [|split; [reflexivity|split; [reflexivity|split; [|split; [reflexivity|split; [reflexivity|]]]]]]].
      * destruct R. constructor; auto; cbn; try discriminate; try reflexivity.
        rewrite T, Ec, Eo. reflexivity.
      * intros t a. unfold pointers. cbn [f_ram f_ext f_cons on_gpu map ptr app]. rewrite app_nil_r. intros I.
        eapply content_heap; [rewrite H2; reflexivity|]. apply (B t). unfold pointers. rewrite !in_app_iff. auto.
      * unfold home_ptr. cbn [f_home f_ext]. rewrite Rh, T. reflexivity.
      * cbn. discriminate.
  - exists s1, (BitF (f_win o) (f_home o) (f_ram o) (f_ext o) (f_built o) [] [] false).
    split; [unfold mask_remove; rewrite Cu, E1, Eb, andb_false_r; reflexivity|].
    eapply inv_leave with (o := o) (z := z) (s := s); eauto.
    + eapply mem_ok_perm; [symmetry; apply P2|]. cbn [owned1 owned f_mine f_bcpu f_built on_gpu map app].
      unfold owned, home_ptr in *. cbn [f_home f_ext f_ram f_mine f_bcpu f_built on_gpu map app] in *. exact M1.
    + pose proof Eb as Eo. rewrite (r_bcpu _ _ _ R) in Eo.
      split; [|split; [|split; [reflexivity|split; [reflexivity|split; [reflexivity|split; [reflexivity|split; [reflexivity|]]]]]]].
      * destruct R. constructor; auto; cbn; try discriminate; try reflexivity.
        -- rewrite r_ram, Eo, andb_true_r. reflexivity.
        -- rewrite Eo, andb_true_r. exact r_cpu.
      * intros t a. unfold pointers. cbn [f_ram f_ext f_cons on_gpu map]. rewrite app_nil_r. intros I.
        eapply content_heap; [rewrite H1; reflexivity|]. apply (B t). unfold pointers. rewrite !in_app_iff in *. tauto.
      * cbn. auto.
Qed.

Lemma destroy_ok leaked s os zs i o z : inv leaked s os zs -> alive os i = Some o -> alive zs i = Some z ->
  ~ copied_from zs i -> ~ (fst (z_home z) = EXTERNAL_CUDA_GPU /\ z_of z = None) ->
  exists s', mask_destroy cuda s o = Go s' Done /\ inv leaked s' (replace os i None) (replace zs i None).
Proof.
  intros V A Z NC NG. pose proof (v_obj _ _ _ _ _ V i) as Oi. rewrite A, Z in Oi. destruct Oi as (R & Hd & B).
  assert (K : exists s1 rest, (forall x, Permutation (all_owned (replace os i x) ++ leaked) (owned1 x ++ rest)) /\ s_heap s1 = s_heap s /\
     mem_ok s1 ((if f_built o then home_ptr o else []) ++ rest) /\
     (if cuda then match mput_all s (f_mine o) with
         | Some s => if f_bcpu o then mput_ptr s LOCAL_RAM (f_ram o) else Some s
         | None => None end else Some s) = Some s1).
  { assert (Cc : cuda = true \/ cuda = false) by (destruct cuda; auto). destruct Cc as [Cu|Cu]; rewrite Cu.
    - destruct (put_consumers _ _ _ _ _ _ _ V A Z Cu) as (rest & s1 & P1 & P2 & E1 & H1 & M1 & K). rewrite E1.
      destruct (f_bcpu o) eqn:Eb.
      + destruct (K eq_refl) as (s2 & E2 & H2 & M2). exists s2, rest. auto.
      + exists s1, rest. auto.
    - destruct (all_owned_replace os i o None A) as (rest & P1 & P2). exists s, (rest ++ leaked). split.
      { intros x. destruct (all_owned_replace os i o x A) as (rest' & P1' & P2'). rewrite P2', <- app_assoc. apply Permutation_app_head, Permutation_app_tail.
        eapply Permutation_app_inv_l. rewrite <- P1', <- P1. reflexivity. }
      split; [reflexivity|]. split; [|reflexivity]. pose proof (v_mem _ _ _ _ _ V) as M. eapply mem_ok_perm; [|exact M].
      destruct (r_nocuda _ _ _ R Cu) as (E1 & E2). rewrite P1. unfold owned. rewrite E1, E2. cbn. rewrite <- app_assoc. reflexivity. }
  destruct K as (s1 & rest & P2 & H1 & M1 & E). unfold mask_destroy. rewrite E.
  destruct (f_built o) eqn:Eb.
  - pose proof Eb as Ez. rewrite (r_built _ _ _ R) in Ez.
    assert (T : fst (z_home z) = LOCAL_RAM).
    { destruct (r_type _ _ _ R) as [T|(T & _)]; [exact T|]. destruct NG. split; [exact T|]. destruct (z_of z); [discriminate|reflexivity]. }
    destruct (home_pointer o z R) as (ah & Eh & Hh). rewrite (r_home _ _ _ R), T in Eh. rewrite (r_home _ _ _ R), T in Hh.
    rewrite (r_home _ _ _ R), T, Eh. cbn [mput_ptr]. rewrite Hh in M1. cbn [app] in M1.
    destruct (mput_ok _ _ _ _ M1) as (s2 & E2 & M2 & H2); [discriminate|]. rewrite E2. exists s2. split; [reflexivity|].
    eapply inv_leave with (o := o) (z := z) (s := s); eauto; [|congruence].
    eapply mem_ok_perm; [symmetry; apply P2|]. exact M2.
  - exists s1. split; [reflexivity|]. eapply inv_leave with (o := o) (z := z) (s := s); eauto.
    eapply mem_ok_perm; [symmetry; apply P2|]. exact M1.
Qed.

(** ** Reading *)
Lemma bit_ok leaked s os zs i o z t a q : inv leaked s os zs -> alive os i = Some o -> alive zs i = Some z -> In (t, a) (pointers o) ->
  in_block (z_win z) q -> bit_reply (f_win o) (load s t a (f_size o)) q = Some (yes (is_member q (z_pts z))).
Proof.
  intros V A Z H Q. destruct (at_pointer _ _ _ _ _ _ _ _ _ V A Z H) as (R & I & C).
  rewrite <- (words_len o z R), (load_content _ _ _ _ _ (v_mem _ _ _ _ _ V) I C). cbn [bit_reply].
  destruct (make_words _ _ (r_dims _ _ _ R) (r_pts _ _ _ R)) as (l & El & _ & Ql). unfold z_words. rewrite El, (r_win _ _ _ R), (Ql q Q). reflexivity.
Qed.

Lemma replace_same A (l : list (option A)) i x : alive l i = Some x -> replace l i (Some x) = l.
Proof.
  unfold replace, alive. revert i. induction l as [|y l IH]; intros i E; [destruct i; discriminate|].
  destruct i; cbn in E; [destruct y; [injection E as ->; reflexivity|discriminate]|]. cbn. f_equal. apply IH. exact E.
Qed.

(** ** One action *)
Lemma step_ok leaked s os zs a : inv leaked s os zs -> legal zs a ->
  exists leaked' s' os', mact cuda junk (s, os) a = Go (s', os') (snd (observe cuda zs a)) /\
    inv leaked' s' os' (fst (observe cuda zs a)) /\
    (leaked' = leaked \/ exists w q ps k, a = New w (q :: ps) (EXTERNAL_CUDA_GPU, k)).
Proof.
  intros V Lg.
  assert (Obj : forall i z, alive zs i = Some z -> exists o, alive os i = Some o /\ rel o z).
  { intros i z Z. pose proof (v_obj _ _ _ _ _ V i) as Oi. rewrite Z in Oi. destruct (alive os i) as [o|]; [|destruct Oi]. destruct Oi as (R & _). eauto. }
  assert (Cc : cuda = true \/ cuda = false) by (destruct cuda; auto).
  destruct a as [w ps [t k]|i|i|i p|i|i p|i|i q|i p q]; cbn [legal] in Lg; cbn [mact observe fst snd].
  - destruct Lg as (D & P). destruct t.
    + destruct (new_ram _ _ _ _ w ps k V D P) as (s' & o & E & V'). rewrite E. exists leaked, s', (os ++ [Some o]). auto.
    + destruct Cc as [Cu|Cu].
      * pose proof (new_gpu _ _ _ _ w k V D Cu ps P) as X. destruct ps as [|q ps].
        -- destruct X as (s' & o & E & V'). rewrite E. exists leaked, s', (os ++ [Some o]). rewrite Cu in V' |- *. auto.
        -- destruct X as (s' & x & E & V'). rewrite E. exists ((EXTERNAL_CUDA_GPU, x) :: leaked), s', (os ++ [None]). rewrite Cu in V' |- *. split; [reflexivity|]. split; [exact V'|].
           right. exists w, q, ps, k. reflexivity.
      * destruct (mget cuda junk s EXTERNAL_CUDA_GPU (Z.of_nat (words_of w))) as [[x|] s'] eqn:G; [rewrite Cu in G; cbn in G; discriminate|].
        pose proof (v_mem _ _ _ _ _ V) as M. destruct (mget_unsupported _ _ _ _ _ M (Nat2Z.is_nonneg _) G) as (M' & H').
        assert (V' : inv leaked s' (os ++ [None]) (zs ++ [None])).
        { eapply inv_append; [exact V| |intros; rewrite H'; reflexivity|exact I]. rewrite all_owned_app. cbn [owned1]. rewrite app_nil_r. exact M'. }
        exists leaked, s', (os ++ [None]). unfold mask_new. cbn [fst]. rewrite G. rewrite Cu in V' |- *. auto.
    + assert (V' : inv leaked s (os ++ [None]) (zs ++ [None])).
      { eapply inv_append; [exact V| |reflexivity|exact I]. rewrite all_owned_app. cbn [owned1]. rewrite app_nil_r. exact (v_mem _ _ _ _ _ V). }
      exists leaked, s, (os ++ [None]). auto.
  - destruct Lg as (z & Z). destruct (Obj i z Z) as (o & A & R). unfold with_obj, on_mask. cbn [fst snd]. rewrite A, Z.
    exists leaked, s, (os ++ [Some (mask_copy o)]). split; [reflexivity|]. split; [|auto]. cbn [fst].
    eapply inv_append; [exact V| |reflexivity|].
    + rewrite all_owned_app. cbn. rewrite app_nil_r. exact (v_mem _ _ _ _ _ V).
    + pose proof (v_obj _ _ _ _ _ V i) as Oi. rewrite A, Z in Oi. destruct Oi as (_ & _ & B).
      assert (Pa : parent (os ++ [Some (mask_copy o)]) (length os) (SeenMask (z_win z) (z_pts z) (z_home z) (z_cpu z) false (z_gpus z) (Some i)) o).
      { exists i. pose proof (alive_lt _ _ _ _ A) as Lt. split; [reflexivity|]. split; [exact Lt|]. rewrite alive_app. destruct (Nat.eqb_spec i (length os)); [lia|exact A]. }
      cbn [obj_ok]. split; [|split].
      * destruct R. constructor; auto; cbn; try discriminate; auto. intros e [].
      * constructor; cbn; eauto.
      * exact B.
  - destruct Lg as ((z & Z & NG) & NC). destruct (Obj i z Z) as (o & A & R). unfold with_obj. cbn [fst snd]. rewrite A.
    destruct (destroy_ok _ _ _ _ _ _ _ V A Z NC NG) as (s' & E & V'). rewrite E. exists leaked, s', (replace os i None). auto.
  - destruct Lg as (z & Z). destruct (Obj i z Z) as (o & A & R). unfold with_obj, on_mask, update. cbn [fst snd]. rewrite A, Z.
    pose proof (r_home _ _ _ R) as Rh.
    assert (Same : forall r zr, mask_add cuda junk s o p = Go (s, o) r -> zr = (zs, r) ->
      exists leaked' s' os', (match mask_add cuda junk s o p with Go (s, o) r => Go (s, replace os i (Some o)) r | Fail y => Fail y end) = Go (s', os') (snd zr) /\
      inv leaked' s' os' (fst zr) /\
      (leaked' = leaked \/ exists w q ps k, Add i p = New w (q :: ps) (EXTERNAL_CUDA_GPU, k))).
    { intros r zr Em Ez. exists leaked, s, os. rewrite Em, Ez, (replace_same _ _ _ _ A). auto. }
    assert (Diff : forall s' o' z' zr, mask_add cuda junk s o p = Go (s', o') Done -> inv leaked s' (replace os i (Some o')) (replace zs i (Some z')) -> zr = (replace zs i (Some z'), Done) ->
      exists leaked' s' os', (match mask_add cuda junk s o p with Go (s, o) r => Go (s, replace os i (Some o)) r | Fail y => Fail y end) = Go (s', os') (snd zr) /\
      inv leaked' s' os' (fst zr) /\
      (leaked' = leaked \/ exists w q ps k, Add i p = New w (q :: ps) (EXTERNAL_CUDA_GPU, k))).
    { intros s' o' z' zr Em V' Ez. exists leaked, s', (replace os i (Some o')). rewrite Em, Ez. auto. }
    destruct (place_eqb p (z_home z)) eqn:Ep.
    + apply (Same Done); [|reflexivity]. unfold mask_add. rewrite Rh, Ep. reflexivity.
    + assert (Ep' : place_eqb p (f_home o) = false) by (rewrite Rh; exact Ep).
      destruct p as [[] k].
      * destruct Cc as [Cu|Cu].
        -- destruct (r_type _ _ _ R) as [T|(T & _)].
           ++ apply (Same Done); [unfold mask_add; rewrite Ep'; cbn [fst]; rewrite Rh, T, Cu; reflexivity|]. cbn [fst]. rewrite T, Cu. reflexivity.
           ++ destruct (add_cpu _ _ _ _ _ _ _ k V A Z Cu Ep' T) as (s' & o' & E & V'). apply (Diff s' o' (set_cpu z)); [exact E|exact V'|]. cbn [fst]. rewrite T, Cu. reflexivity.
        -- apply (Same Threw); [unfold mask_add; rewrite Ep'; cbn [fst]; rewrite Cu; reflexivity|]. cbn [fst]. rewrite Cu. reflexivity.
      * destruct Cc as [Cu|Cu].
        -- destruct (add_gpu _ _ _ _ _ _ _ k V A Z Cu Ep') as (s' & o' & E & V'). apply (Diff s' o' (set_gpu z k)); [exact E|exact V'|]. cbn [fst snd]. rewrite Cu. reflexivity.
        -- apply (Same Threw); [unfold mask_add; rewrite Ep'; cbn [fst]; rewrite Cu; reflexivity|]. cbn [fst]. rewrite Cu. reflexivity.
      * apply (Same Threw); [unfold mask_add; rewrite Ep'; reflexivity|reflexivity].
  - destruct Lg as ((z & Z) & NC). destruct (Obj i z Z) as (o & A & R). unfold with_obj, on_mask, update. cbn [fst snd]. rewrite A, Z.
    destruct Cc as [Cu|Cu].
    + destruct (remove_ok _ _ _ _ _ _ _ V A Z Cu NC) as (s' & o' & E & V'). rewrite E.
      exists leaked, s', (replace os i (Some o')). rewrite Cu in V' |- *. auto.
    + exists leaked, s, os. unfold mask_remove. rewrite Cu in V |- *. rewrite (replace_same _ _ _ _ A). auto.
  - destruct Lg as (z & Z). destruct (Obj i z Z) as (o & A & R). unfold with_obj, on_mask. cbn [fst snd]. rewrite A, Z.
    exists leaked, s, os. split; [|auto]. cbn [snd]. f_equal. unfold mask_find. rewrite (r_home _ _ _ R).
    destruct (place_eqb p (z_home z)); [reflexivity|]. destruct p as [[] k]; cbn [fst snd]; [|rewrite (r_cons _ _ _ R); destruct Cc as [Cu|Cu]; rewrite Cu; reflexivity|reflexivity].
    pose proof (r_ram _ _ _ R) as Er. destruct (r_type _ _ _ R) as [T|(T & Cu)]; rewrite T in *; [destruct Cc as [Cu|Cu]; rewrite Cu; reflexivity|]. rewrite Cu, Er. reflexivity.
  - destruct Lg as (z & Z). destruct (Obj i z Z) as (o & A & R). unfold with_obj, on_mask. cbn [fst snd]. rewrite A, Z.
    exists leaked, s, os. split; [|auto]. cbn [snd]. f_equal. unfold mask_has. rewrite (r_home _ _ _ R).
    pose proof (r_ram _ _ _ R) as Er. destruct (r_type _ _ _ R) as [T|(T & Cu)]; rewrite T in *; cbn; [rewrite (r_cons _ _ _ R); reflexivity|rewrite Er; reflexivity].
  - destruct Lg as (z & Z & Q). destruct (Obj i z Z) as (o & A & R). unfold with_obj, on_mask. cbn [fst snd]. rewrite A, Z.
    exists leaked, s, os. split; [|auto]. cbn [snd]. unfold mask_at, readable. cbn [fst]. pose proof (r_ram _ _ _ R) as Er.
    destruct (f_ram o) as [a|] eqn:F; cbn [has] in Er; rewrite <- Er; [|reflexivity].
    rewrite (bit_ok _ _ _ _ _ _ _ LOCAL_RAM a q V A Z); [reflexivity| |exact Q]. unfold pointers. rewrite F. cbn. auto.
  - destruct Lg as (z & Z & Q). destruct (Obj i z Z) as (o & A & R). unfold with_obj, on_mask. cbn [fst snd]. rewrite A, Z.
    exists leaked, s, os. split; [|auto]. cbn [snd]. unfold mask_read.
    assert (K : match mask_values cuda o p with Some a => readable cuda z p = true /\ In (fst p, a) (pointers o) | None => readable cuda z p = false end).
    { unfold mask_values, readable. destruct p as [[] k]; cbn [fst snd].
      - pose proof (r_ram _ _ _ R) as Er. destruct (f_ram o) as [a|] eqn:F; cbn [has] in Er; rewrite <- Er; [|reflexivity]. split; [reflexivity|]. unfold pointers. rewrite F. cbn. auto.
      - destruct Cc as [Cu|Cu]; rewrite Cu; [|reflexivity]. cbn [andb]. rewrite (r_home _ _ _ R). destruct (place_eqb (EXTERNAL_CUDA_GPU, k) (z_home z)) eqn:Ep; cbn [orb].
        + apply place_eqb_eq in Ep. pose proof (r_ext _ _ _ R) as Ex. rewrite <- Ep in Ex. cbn in Ex. apply has_true in Ex as (a & Ex). rewrite Ex. split; [reflexivity|].
          unfold pointers. rewrite Ex, !in_app_iff. cbn. auto.
        + pose proof (r_cons _ _ _ R k) as Ec. destruct (mfind (f_cons o) k) as [a|] eqn:F; cbn [has] in Ec; rewrite <- Ec; [|reflexivity]. split; [reflexivity|].
          unfold pointers. rewrite !in_app_iff. right; right. apply in_gpu. exists (k, a). split; [apply mfind_in; exact F|reflexivity].
      - reflexivity. }
    destruct (mask_values cuda o p) as [a|]; [destruct K as (K1 & K2)|]; [rewrite K1|rewrite K; reflexivity].
    rewrite (bit_ok _ _ _ _ _ _ _ (fst p) a q V A Z K2 Q). reflexivity.
Qed.

(** ** Histories *)
Lemma run_ok l : forall leaked s os zs, inv leaked s os zs -> legal_history cuda zs l ->
  exists leaked' s' os', mrun cuda junk (s, os) l = Go ((s', os'), observed cuda zs l) Done /\
    inv leaked' s' os' (after cuda zs l) /\
    ((forall w q ps k, ~ In (New w (q :: ps) (EXTERNAL_CUDA_GPU, k)) l) -> leaked' = leaked).
Proof.
  induction l as [|a l IH]; intros leaked s os zs V Lg; cbn [mrun observed after legal_history] in *.
  - exists leaked, s, os. auto.
  - destruct Lg as (La & Lg). destruct (step_ok _ _ _ _ _ V La) as (lk1 & s1 & os1 & E & V1 & K1). rewrite E.
    destruct (IH _ _ _ _ V1 Lg) as (lk2 & s2 & os2 & E2 & V2 & K2). rewrite E2. exists lk2, s2, os2.
    split; [reflexivity|]. split; [exact V2|]. intros H. rewrite K2 by (intros w q ps k I; apply (H w q ps k); right; exact I).
    destruct K1 as [K1|(w & q & ps & k & K1)]; [exact K1|]. destruct (H w q ps k). left. exact K1.
Qed.
End Steps.
