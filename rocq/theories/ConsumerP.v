(** Proofs about consumer copies. *)
From Coq Require Import Permutation.
From Verif Require Import Prelude ConsumerM ConsumerS.

Lemma mtype_eqb_spec a b : mtype_eqb a b = true <-> a = b.
Proof. destruct a, b; cbn; split; congruence. Qed.
Lemma place_eqb_spec p q : place_eqb p q = true <-> p = q.
Proof.
  destruct p as [t n], q as [u k]. unfold place_eqb. cbn [fst snd].
  rewrite Bool.andb_true_iff, mtype_eqb_spec, Nat.eqb_eq. split; [intros [-> ->]; reflexivity|intros [= -> ->]; split; reflexivity].
Qed.
Lemma place_eqb_refl p : place_eqb p p = true.
Proof. apply place_eqb_spec. reflexivity. Qed.

Lemma mfind_in l k a : mfind l k = Some a -> In (k, a) l.
Proof.
  unfold mfind. destruct (find _ l) as [e|] eqn:E; [|discriminate].
  intros [= <-]. apply find_some in E. destruct E as [E1 E2]. apply Nat.eqb_eq in E2. subst k.
  destruct e; exact E1.
Qed.
Lemma mfind_filter l k k' : k' <> k -> mfind (filter (fun e => negb (Nat.eqb (fst e) k)) l) k' = mfind l k'.
Proof.
  intros H. unfold mfind. induction l as [|[x y] l IH]; [reflexivity|]. cbn [filter fst].
  destruct (Nat.eqb x k) eqn:E; cbn [negb].
  - apply Nat.eqb_eq in E. subst x. cbn [find fst]. rewrite (proj2 (Nat.eqb_neq k k')) by congruence. exact IH.
  - cbn [find fst]. destruct (Nat.eqb x k'); [reflexivity|exact IH].
Qed.
Lemma mfind_mset l k a k' : mfind (mset l k a) k' = if Nat.eqb k k' then Some a else mfind l k'.
Proof.
  unfold mset. change (mfind ((k, a) :: ?x) k') with
    (match (if Nat.eqb k k' then Some (k, a) else find (fun e => Nat.eqb (fst e) k') x) with
     | Some e => Some (snd e) | None => None end).
  destruct (Nat.eqb k k') eqn:E; [reflexivity|]. apply Nat.eqb_neq in E.
  apply (mfind_filter l k k'). congruence.
Qed.
Lemma filter_none (l : list (nat * nat)) k : mfind l k = None -> filter (fun e => negb (Nat.eqb (fst e) k)) l = l.
Proof.
  unfold mfind. induction l as [|[x y] l IH]; [reflexivity|]. cbn [filter find fst].
  destruct (Nat.eqb x k) eqn:E; [discriminate|]. intros H. cbn [negb]. f_equal. apply IH, H.
Qed.
Lemma mset_fresh l k a : mfind l k = None -> mset l k a = (k, a) :: l.
Proof. intros H. unfold mset. rewrite filter_none by exact H. reflexivity. Qed.

Lemma nodup_app_r {A} (l l' : list A) : NoDup (l ++ l') -> NoDup l'.
Proof. induction l as [|a l IH]; [auto|]. cbn. intros H. inversion H. auto. Qed.

Section S.
Variable V : Type.
Variable cuda : bool.

Definition holds (m : cmem V) (a : nat) (f : origin -> Prop) (v : V) : Prop :=
  exists p o, blocks m a = Some (CBlock p o (Some v)) /\ f o.

Lemma holds_bset_other m a b c f v : a <> b -> holds m a f v -> holds (bset m b c) a f v.
Proof.
  intros H (p & o & E & F). exists p, o. split; [|exact F]. unfold bset. cbn [blocks].
  rewrite (proj2 (Nat.eqb_neq a b)) by exact H. exact E.
Qed.
Lemma holds_fresh m b a f v : (a < nextb m)%nat -> holds m a f v -> holds (fst (fresh m b)) a f v.
Proof.
  intros H (p & o & E & F). exists p, o. split; [|exact F]. cbn [fresh fst blocks].
  rewrite (proj2 (Nat.eqb_neq a (nextb m))) by lia. exact E.
Qed.

Definition gpu_block o := o = FromPool EXTERNAL_CUDA_GPU.
Definition ram_block o := o = FromPool LOCAL_RAM.

Lemma put_all_ok l : forall m v, NoDup (map snd l) -> (forall e, In e l -> holds m (snd e) gpu_block v) ->
  exists m', put_all m l = Some m' /\ nextb m' = nextb m /\
    forall x, blocks m' x = if existsb (fun e => Nat.eqb (snd e) x) l then None else blocks m x.
Proof.
  induction l as [|[k a] l IH]; intros m v HN HL.
  - exists m. repeat split.
  - inversion HN as [|? ? H1 H2]; subst. cbn [put_all snd].
    destruct (HL (k, a) (or_introl eq_refl)) as (p & o & E & ->). cbn [snd] in E.
    unfold pool_put. rewrite E. cbn [cb_from mtype_eqb].
    destruct (IH (bset m a None) v H2) as (m' & P & N & B).
    { intros e He. apply holds_bset_other; [|apply HL; right; exact He].
      intros <-. apply H1, in_map, He. }
    exists m'. split; [exact P|]. split; [exact N|]. intros x. rewrite B. cbn [existsb snd bset blocks].
    destruct (existsb _ l); [rewrite Bool.orb_true_r; reflexivity|]. rewrite Bool.orb_false_r.
    rewrite (Nat.eqb_sym x a). destruct (Nat.eqb a x); reflexivity.
Qed.

(** ** One object against the specification *)
Definition ram_copy (o : fobj) : list nat :=
  match fst (o_home o), o_ram o with EXTERNAL_CUDA_GPU, Some a => [a] | _, _ => [] end.
Definition copies (o : fobj) : list nat := ram_copy o ++ map snd (o_cons o).

Record R (m : cmem V) (o : fobj) (s : seen V) (h : nat) : Prop := MkR {
  r_home : o_home o = s_home s;
  r_type : match fst (o_home o) with
           | LOCAL_RAM => o_ram o = Some h /\ o_builtcpu o = false
           | EXTERNAL_CUDA_GPU => o_ext o = Some h /\ cuda = true /\ o_builtcpu o = has (o_ram o)
           | OTHER_MEMORY => False
           end;
  r_mine : o_mine o = o_cons o;
  r_nodup : NoDup (h :: copies o);
  r_low : forall a, In a (h :: copies o) -> (a < nextb m)%nat;
  r_h : holds m h (fun _ => True) (s_values s);
  r_cons : forall e, In e (o_cons o) -> holds m (snd e) gpu_block (s_values s);
  r_ram : forall a, In a (ram_copy o) -> holds m a ram_block (s_values s);
  r_lock : o_ro o = s_locked s;
  r_open : s_locked s = false -> copies o = [];
  r_gpu : forall k, existsb (same_memory (EXTERNAL_CUDA_GPU, k)) (s_also s) = has (mfind (o_cons o) k);
  r_cpu : fst (o_home o) = EXTERNAL_CUDA_GPU -> forall k, existsb (same_memory (LOCAL_RAM, k)) (s_also s) = has (o_ram o);
  r_cpu0 : fst (o_home o) = LOCAL_RAM -> forall k, existsb (same_memory (LOCAL_RAM, k)) (s_also s) = false;
  r_self : forall k, o_home o = (EXTERNAL_CUDA_GPU, k) -> mfind (o_cons o) k = None;
  r_kind : forall p, In p (s_also s) -> fst p <> OTHER_MEMORY;
  r_nocuda : cuda = false -> s_also s = [] }.

Lemma also_nil m o s h : R m o s h -> s_also s = [] <-> copies o = [].
Proof.
  intros HR. split.
  - intros E. unfold copies. assert (H1 : o_cons o = []).
    { destruct (o_cons o) as [|[k a] l] eqn:Ec; [reflexivity|].
      pose proof (r_gpu _ _ _ _ HR k) as G. rewrite E, Ec in G. unfold mfind in G. cbn in G.
      rewrite Nat.eqb_refl in G. discriminate. }
    rewrite H1, app_nil_r. unfold ram_copy. destruct (fst (o_home o)) eqn:Et; try reflexivity.
    pose proof (r_cpu _ _ _ _ HR Et 0%nat) as G. rewrite E in G. destruct (o_ram o); [discriminate|reflexivity].
  - intros E. apply app_eq_nil in E. destruct E as [E1 E2]. apply map_eq_nil in E2.
    destruct (s_also s) as [|p l] eqn:Ea; [reflexivity|exfalso].
    pose proof (r_kind _ _ _ _ HR p) as K. rewrite Ea in K. specialize (K (or_introl eq_refl)).
    destruct p as [[| |] k]; [| |exfalso; apply K; reflexivity].
    + pose proof (r_type _ _ _ _ HR) as T. unfold ram_copy in E1. destruct (fst (o_home o)) eqn:Et; [| |contradiction].
      * pose proof (r_cpu0 _ _ _ _ HR Et k) as G. rewrite Ea in G. cbn in G. discriminate.
      * pose proof (r_cpu _ _ _ _ HR Et k) as G. rewrite Ea in G. cbn in G.
        destruct (o_ram o); discriminate.
    + pose proof (r_gpu _ _ _ _ HR k) as G. rewrite Ea, E2 in G. cbn in G. rewrite Nat.eqb_refl in G. discriminate.
Qed.

(** the pointer for a place exists exactly if the field is available there,
    and the block holds the values *)
Lemma pointer_ok m o s h p : R m o s h ->
  match pointer cuda o p with
  | Some a => available s p = true /\ In a (h :: copies o)
  | None => available s p = false
  end.
Proof.
  intros HR. unfold pointer, available. rewrite <- (r_home _ _ _ _ HR).
  pose proof (r_type _ _ _ _ HR) as T.
  destruct p as [[| |] k]; cbn [fst snd].
  - destruct (o_home o) as [[| |] n] eqn:Eh; cbn [fst] in T; [| |contradiction].
    + destruct T as [-> _]. split; [reflexivity|left; reflexivity].
    + assert (Et : fst (o_home o) = EXTERNAL_CUDA_GPU) by (rewrite Eh; reflexivity).
      pose proof (r_cpu _ _ _ _ HR Et k) as G. cbn [same_memory orb]. rewrite G.
      destruct (o_ram o) as [a|] eqn:Er; [|reflexivity].
      split; [reflexivity|]. right. unfold copies, ram_copy. rewrite Et, Er. left. reflexivity.
  - pose proof (r_gpu _ _ _ _ HR k) as G. rewrite G.
    assert (HC : match mfind (o_cons o) k with
                 | Some a => has (mfind (o_cons o) k) = true /\ In a (h :: copies o)
                 | None => has (mfind (o_cons o) k) = false end).
    { destruct (mfind (o_cons o) k) as [a|] eqn:Em; [|reflexivity]. split; [reflexivity|].
      right. unfold copies. apply in_or_app. right. apply mfind_in in Em. apply (in_map snd) in Em. exact Em. }
    destruct (o_home o) as [[| |] n] eqn:Eh; cbn [fst] in T; [| |contradiction].
    + cbn [same_memory orb]. destruct cuda eqn:Ec; [unfold place_eqb; cbn; exact HC|].
      pose proof (r_nocuda _ _ _ _ HR Ec) as N. rewrite N in G. cbn in G. rewrite <- G. reflexivity.
    + destruct T as (T1 & -> & T2). cbn [same_memory].
      destruct (place_eqb (EXTERNAL_CUDA_GPU, k) (EXTERNAL_CUDA_GPU, n)) eqn:E.
      * apply place_eqb_spec in E. injection E as ->. rewrite T1, Nat.eqb_refl. split; [reflexivity|left; reflexivity].
      * unfold place_eqb in E. cbn in E. rewrite E. cbn [orb]. exact HC.
  - pose proof (r_kind _ _ _ _ HR) as K.
    assert (existsb (same_memory (OTHER_MEMORY, k)) (s_also s) = false) as ->.
    { apply Bool.not_true_is_false. intros H. apply existsb_exists in H. destruct H as ([[| |] j] & H1 & H2); discriminate. }
    destruct (o_home o) as [[| |] n]; reflexivity.
Qed.

Lemma addr_holds m o s h a : R m o s h -> In a (h :: copies o) -> holds m a (fun _ => True) (s_values s).
Proof.
  intros HR [<-|H]; [exact (r_h _ _ _ _ HR)|]. unfold copies in H. apply in_app_or in H. destruct H as [H|H].
  - destruct (r_ram _ _ _ _ HR a H) as (p & o' & E & _). exists p, o'. split; [exact E|exact I].
  - apply in_map_iff in H. destruct H as (e & <- & H). destruct (r_cons _ _ _ _ HR e H) as (p & o' & E & _).
    exists p, o'. split; [exact E|exact I].
Qed.

(** locking changes nothing else *)
Lemma R_lock m o s h : R m o s h -> R m (locked o) (Seen (s_home s) (s_values s) (s_also s) true) h.
Proof.
  intros [H1 H2 H3 H4 H5 H6 H7 H8 H9 H10 H11 H12 H13 H14 H15 H16].
  constructor; try assumption; cbn; congruence.
Qed.

(** a copy is refreshed: nothing changes *)
Lemma refresh m o s h d : R m o s h -> In d (copies o) ->
  exists m', memcpy m d h = Some m' /\ R m' o s h.
Proof.
  intros HR Hd. destruct (addr_holds _ _ _ _ d HR (or_intror Hd)) as (pd & od & Ed & _).
  destruct (r_h _ _ _ _ HR) as (ph & oh & Eh & _). unfold memcpy. rewrite Ed, Eh. cbn [cb_at cb_from cb_val].
  eexists. split; [reflexivity|].
  assert (HH : forall a f, holds m a f (s_values s) -> holds (bset m d (Some (CBlock pd od (Some (s_values s))))) a f (s_values s)).
  { intros a f H. destruct (Nat.eq_dec a d) as [->|Hn]; [|apply holds_bset_other; assumption].
    destruct H as (p & o' & E & F). rewrite Ed in E. injection E as -> ->. exists p, o'. split; [|exact F].
    cbn [bset blocks]. rewrite Nat.eqb_refl. reflexivity. }
  destruct HR as [H1 H2 H3 H4 H5 H6 H7 H8 H9 H10 H11 H12 H13 H14 H15 H16].
  constructor; try assumption; auto.
Qed.

(** a new copy: allocated and filled *)
Lemma memcpy_new m o s h t : R m o s h ->
  exists m', memcpy (fst (pool_get m t)) (nextb m) h = Some m' /\ nextb m' = S (nextb m) /\
    holds m' (nextb m) (eq (FromPool t)) (s_values s) /\
    forall a f, (a < nextb m)%nat -> holds m a f (s_values s) -> holds m' a f (s_values s).
Proof.
  intros HR. pose proof (r_low _ _ _ _ HR h (or_introl eq_refl)) as Hl.
  destruct (r_h _ _ _ _ HR) as (ph & oh & Eh & _). unfold memcpy, pool_get. cbn [fresh fst blocks].
  rewrite Nat.eqb_refl, (proj2 (Nat.eqb_neq h (nextb m))) by lia. rewrite Eh. cbn [cb_at cb_from cb_val].
  eexists. split; [reflexivity|]. split; [reflexivity|]. split.
  - eexists _, _. split; [|reflexivity]. cbn [bset blocks]. rewrite Nat.eqb_refl. reflexivity.
  - intros a f Ha H. apply holds_bset_other; [lia|]. apply (holds_fresh m (CBlock (t, 0%nat) (FromPool t) None) a f _ Ha H).
Qed.

Lemma call_ok m o s h c : R m o s h ->
  exists m' o' r, do_call cuda m o c = Go (m', o') r /\ r = snd (expect cuda s c) /\ R m' o' (fst (expect cuda s c)) h.
Proof.
  intros HR. pose proof (r_home _ _ _ _ HR) as Hhome. pose proof (r_type _ _ _ _ HR) as T.
  destruct c as [p| |p| |p|p v]; cbn [do_call].
  - (* Add *)
    unfold add_consumer. cbn [expect]. rewrite <- Hhome.
    destruct (place_eqb p (o_home o)) eqn:Ep; [exists m, o, Nothing; split; [reflexivity|]; split; [reflexivity|exact HR]|].
    pose proof (R_lock _ _ _ _ HR) as HL. rewrite <- Hhome in HL.
    pose proof (pointer_ok _ _ _ _ p HR) as P.
    assert (E1 : fst (o_home (locked o)) = fst (o_home o)) by reflexivity.
    destruct p as [t k]. cbn [fst snd]. destruct t; cbn [fst].
    + unfold supported. cbn [fst].
      destruct cuda eqn:Ec; cbn [andb negb]; [|eexists _, _, _; split; [reflexivity|]; split; [reflexivity|exact HL]].
      rewrite E1. destruct (fst (o_home o)) eqn:Et; [| |contradiction].
      * assert (available s (LOCAL_RAM, k) = true) as ->.
        { unfold available. rewrite <- Hhome. destruct (o_home o) as [u n]. cbn in Et. subst u. reflexivity. }
        eexists _, _, _. split; [reflexivity|]. split; [reflexivity|exact HL].
      * destruct T as (T1 & _ & T2).
        assert (Ea : available s (LOCAL_RAM, k) = has (o_ram o)).
        { unfold available. rewrite <- Hhome, (r_cpu _ _ _ _ HR Et k). destruct (o_home o) as [u n]. cbn in Et. subst u. reflexivity. }
        rewrite Ea. cbn [locked o_ram o_ext]. destruct (o_ram o) as [a|] eqn:Er; cbn [has].
        -- change (o_ext (locked o)) with (o_ext o). change (o_ram (locked o)) with (o_ram o). rewrite T1, Er. unfold transfer.
           destruct (refresh _ _ _ _ a HL) as (m' & E & HR').
           { unfold copies, ram_copy. rewrite E1. cbn [locked o_ram]. rewrite Er. left. reflexivity. }
           rewrite E. exists m', (locked o), Nothing. split; [reflexivity|]. split; [reflexivity|exact HR'].
        -- pose proof (memcpy_new _ _ _ _ LOCAL_RAM HL) as (m' & E & N & HN & HO).
           unfold pool_get in E. unfold pool_get, fresh. cbn [fresh fst] in E.
           cbn [with_ram locked o_ram o_ext]. rewrite T1. cbn [transfer]. rewrite E.
           eexists _, _, _. split; [reflexivity|]. split; [reflexivity|].
           destruct HR as [H1 H2 H3 H4 H5 H6 H7 H8 H9 H10 H11 H12 H13 H14 H15 H16].
           assert (EC : copies (with_ram (locked o) (nextb m)) = nextb m :: map snd (o_cons o)).
           { unfold copies, ram_copy. cbn. rewrite Et. reflexivity. }
           assert (EO : copies o = map snd (o_cons o)).
           { unfold copies, ram_copy. rewrite Et, Er. reflexivity. }
           constructor; cbn [fst s_home s_values s_also s_locked]; try assumption.
           ++ reflexivity.
           ++ cbn. rewrite Et. auto.
           ++ rewrite EC. rewrite EO in H4. inversion H4 as [|? ? N1 N2]; subst.
              assert (~ In (nextb m) (h :: map snd (o_cons o))).
              { intros X. rewrite EO in H5. specialize (H5 _ X). lia. }
              constructor; [intros [X|X]; [apply H; left; congruence|exact (N1 X)]|].
              constructor; [intros X; apply H; right; exact X|exact N2].
           ++ rewrite EC, N. rewrite EO in H5. intros a [<-|[<-|X]]; [|lia|].
              ** specialize (H5 h (or_introl eq_refl)). lia.
              ** specialize (H5 a (or_intror X)). lia.
           ++ apply HO; [apply H5; left; reflexivity|exact H6].
           ++ intros e He. apply HO; [apply H5; right; rewrite EO; apply in_map, He|apply H7, He].
           ++ intros a. unfold ram_copy. cbn. rewrite Et. intros [<-|[]].
              destruct HN as (p' & o' & E' & <-). exists p', (FromPool LOCAL_RAM). split; [exact E'|reflexivity].
           ++ reflexivity.
           ++ discriminate.
           ++ cbn. intros _ j. reflexivity.
           ++ cbn. rewrite Et. discriminate.
           ++ cbn. intros q [<-|X]; [discriminate|apply H15, X].
           ++ congruence.
    + unfold supported. cbn [fst].
      destruct cuda eqn:Ec; cbn [andb negb]; [|eexists _, _, _; split; [reflexivity|]; split; [reflexivity|exact HL]].
      assert (Ea : available s (EXTERNAL_CUDA_GPU, k) = has (mfind (o_cons o) k)).
      { unfold available. rewrite <- Hhome, (r_gpu _ _ _ _ HR k). destruct (o_home o) as [[| |] n]; [reflexivity| |contradiction].
        unfold place_eqb in Ep. cbn in Ep. cbn [same_memory]. rewrite Ep. reflexivity. }
      rewrite Ea. cbn [locked o_cons].
      assert (HS : o_ram o = Some h /\ fst (o_home o) = LOCAL_RAM \/ o_ext o = Some h /\ fst (o_home o) = EXTERNAL_CUDA_GPU).
      { destruct (fst (o_home o)); [left; tauto|right; tauto|contradiction]. }
      destruct (mfind (o_cons o) k) as [a|] eqn:Em; cbn [has].
      * destruct (refresh _ _ _ _ a HL) as (m' & E & HR').
        { unfold copies. apply in_or_app. right. apply mfind_in in Em. apply (in_map snd) in Em. exact Em. }
        exists m', (locked o), Nothing. split; [|split; [reflexivity|exact HR']].
        cbn [locked o_cons o_ram o_ext o_home].
        destruct HS as [[S1 S2]|[S1 S2]]; rewrite S1, S2, Em; cbn [transfer]; rewrite E; reflexivity.
      * pose proof (memcpy_new _ _ _ _ EXTERNAL_CUDA_GPU HL) as (m' & E & N & HN & HO).
        unfold pool_get in E. unfold pool_get, fresh. cbn [fresh fst] in E.
        set (o' := with_cons (locked o) k (nextb m)).
        exists m', o', Nothing. split; [|split; [reflexivity|]].
        { unfold o'. cbn [with_cons locked o_cons o_ram o_ext o_home]. rewrite mfind_mset, Nat.eqb_refl.
          destruct HS as [[S1 S2]|[S1 S2]]; rewrite S1, S2; cbn [transfer]; rewrite E; reflexivity. }
        clear HS.
        destruct HR as [H1 H2 H3 H4 H5 H6 H7 H8 H9 H10 H11 H12 H13 H14 H15 H16].
        assert (E3 : o_cons o' = (k, nextb m) :: o_cons o) by (unfold o'; cbn; apply mset_fresh, Em).
        assert (E4 : o_mine o' = o_cons o').
        { rewrite E3. unfold o'. cbn. rewrite H3. apply mset_fresh, Em. }
        assert (ERC : ram_copy o' = ram_copy o) by reflexivity.
        assert (EC : Permutation (copies o') (nextb m :: copies o)).
        { unfold copies. rewrite ERC, E3. cbn [map snd]. symmetry. apply Permutation_middle. }
        constructor; cbn [fst s_home s_values s_also s_locked]; try assumption.
        -- reflexivity.
        -- apply (Permutation_NoDup (l := h :: nextb m :: copies o)).
           { constructor. symmetry. exact EC. }
           inversion H4 as [|? ? N1 N2]; subst.
           assert (~ In (nextb m) (h :: copies o)) by (intros X; specialize (H5 _ X); lia).
           constructor; [intros [X|X]; [apply H; left; congruence|exact (N1 X)]|].
           constructor; [intros X; apply H; right; exact X|exact N2].
        -- intros a Ha. rewrite N.
           assert (X : In a (h :: nextb m :: copies o)).
           { destruct Ha as [<-|Ha]; [left; reflexivity|right]. apply (Permutation_in _ EC Ha). }
           destruct X as [<-|[<-|X]]; [|lia|].
           ++ specialize (H5 h (or_introl eq_refl)). lia.
           ++ specialize (H5 a (or_intror X)). lia.
        -- apply HO; [apply H5; left; reflexivity|exact H6].
        -- rewrite E3. intros e [<-|He].
           ++ destruct HN as (p' & o1 & E' & <-). exists p', (FromPool EXTERNAL_CUDA_GPU). split; [exact E'|reflexivity].
           ++ apply HO; [apply H5; right; unfold copies; apply in_or_app; right; apply in_map, He|apply H7, He].
        -- rewrite ERC. intros a Ha. apply HO; [apply H5; right; unfold copies; apply in_or_app; left; exact Ha|apply H8, Ha].
        -- reflexivity.
        -- discriminate.
        -- intros j. rewrite E3. cbn [existsb same_memory orb]. rewrite H11. unfold mfind. cbn [find fst].
           rewrite (Nat.eqb_sym j k). destruct (Nat.eqb k j); reflexivity.
        -- intros j X. rewrite E3. unfold mfind. cbn [find fst].
           assert (X' : o_home o = (EXTERNAL_CUDA_GPU, j)) by exact X.
           destruct (Nat.eqb k j) eqn:Ej.
           ++ apply Nat.eqb_eq in Ej. subst j. rewrite X', place_eqb_refl in Ep. discriminate.
           ++ apply (H14 j X').
        -- cbn. intros q [<-|X]; [discriminate|apply H15, X].
        -- congruence.
    + unfold supported. cbn [fst]. rewrite Bool.andb_false_r. cbn [negb].
      eexists _, _, _. split; [reflexivity|]. split; [reflexivity|exact HL].
  - (* Remove *)
    cbn [expect]. pose proof (also_nil _ _ _ _ HR) as HA.
    assert (HE : copies o = [] -> s_also s = []) by tauto.
    assert (HE' : forall p l, s_also s = p :: l -> copies o <> []) by (intros p l E X; rewrite (HE X) in E; discriminate).
    unfold remove_consumers.
    destruct (cuda && o_ro o) eqn:Ec.
    2:{ assert (s_also s = []).
        { apply HE. destruct (o_ro o) eqn:Er; [|apply (r_open _ _ _ _ HR); rewrite <- (r_lock _ _ _ _ HR); exact Er].
          rewrite Bool.andb_true_r in Ec. apply HA, (r_nocuda _ _ _ _ HR), Ec. }
        rewrite H. exists m, o, Nothing. split; [reflexivity|]. split; [reflexivity|exact HR]. }
    apply Bool.andb_true_iff in Ec. destruct Ec as [Ec Er].
    rewrite (r_mine _ _ _ _ HR).
    pose proof (r_nodup _ _ _ _ HR) as ND. inversion ND as [|? ? N1 N2]; subst.
    assert (N3 : NoDup (map snd (o_cons o))).
    { unfold copies in N2. apply nodup_app_r in N2. exact N2. }
    destruct (put_all_ok (o_cons o) m (s_values s) N3 (r_cons _ _ _ _ HR)) as (m1 & E1 & NB & B1).
    rewrite E1.
    assert (Hh : forall a, In a (h :: ram_copy o) -> existsb (fun e => Nat.eqb (snd e) a) (o_cons o) = false).
    { intros a Ha. apply Bool.not_true_is_false. intros X. apply existsb_exists in X. destruct X as (e & X1 & X2).
      apply Nat.eqb_eq in X2. apply (in_map snd) in X1. rewrite X2 in X1.
      destruct Ha as [<-|Ha].
      - apply N1. unfold copies. apply in_or_app. right. exact X1.
      - clear - Ha X1 N2. unfold copies in N2. induction (ram_copy o) as [|b l IH]; [contradiction|].
        cbn in N2. inversion N2 as [|? ? Y1 Y2]; subst. destruct Ha as [<-|Ha]; [apply Y1, in_or_app; right; exact X1|auto]. }
    destruct (mtype_eqb (fst (o_home o)) EXTERNAL_CUDA_GPU && o_builtcpu o) eqn:Eb.
    + apply Bool.andb_true_iff in Eb. destruct Eb as [Eb Ebc]. apply mtype_eqb_spec in Eb. rewrite Eb in T.
      destruct T as (T1 & T2 & T3). rewrite Ebc in T3. destruct (o_ram o) as [r|] eqn:Eram; [|discriminate].
      assert (Hr : In r (ram_copy o)) by (unfold ram_copy; rewrite Eb, Eram; left; reflexivity).
      unfold put_ram. rewrite Eram. unfold pool_put. rewrite B1, (Hh r) by (right; exact Hr).
      destruct (r_ram _ _ _ _ HR r Hr) as (pr & or & Er' & ->). rewrite Er'. cbn [cb_from mtype_eqb].
      eexists _, _, _. split; [reflexivity|].
      assert (HNE : copies o <> []) by (unfold copies; intros X; apply app_eq_nil in X; destruct X as [X _]; rewrite X in Hr; exact Hr).
      destruct (s_also s) as [|q l] eqn:Eal; [exfalso; apply HNE; tauto|].
      split; [reflexivity|]. cbn [fst].
      assert (EC : copies (FObj (o_home o) None (o_ext o) (o_built o) false [] [] false) = []).
      { unfold copies, ram_copy. cbn. rewrite Eb. reflexivity. }
      constructor; cbn [s_home s_values s_also s_locked].
      * exact Hhome.
      * cbn. rewrite Eb. auto.
      * reflexivity.
      * rewrite EC. constructor; [intros []|constructor].
      * rewrite EC. cbn [bset nextb]. rewrite NB. intros a [<-|[]]. apply (r_low _ _ _ _ HR). left. reflexivity.
      * destruct (r_h _ _ _ _ HR) as (ph & oh & Eh & _). exists ph, oh. split; [|exact I]. cbn [bset blocks].
        rewrite (proj2 (Nat.eqb_neq h r)), B1, (Hh h) by (try (left; reflexivity); intros ->; apply N1; unfold copies; apply in_or_app; left; exact Hr).
        exact Eh.
      * intros e [].
      * unfold ram_copy. cbn. rewrite Eb. intros a [].
      * reflexivity.
      * intros _. exact EC.
      * intros k. reflexivity.
      * intros _ k. reflexivity.
      * intros _ k. reflexivity.
      * reflexivity.
      * intros q' [].
      * reflexivity.
    + set (o' := FObj (o_home o) (o_ram o) (o_ext o) (o_built o) (match o_cons o with [] => o_ro o | _ => false end) [] [] (o_builtcpu o)).
      exists m1, o', Nothing. split; [reflexivity|].
      assert (ERC : ram_copy o = []).
      { unfold ram_copy. destruct (fst (o_home o)) eqn:Et; try reflexivity. cbn in Eb. destruct T as (_ & _ & T3).
        rewrite Eb in T3. destruct (o_ram o); [discriminate|reflexivity]. }
      assert (EC : copies o' = []) by (unfold copies; cbn; rewrite app_nil_r; exact ERC).
      destruct (s_also s) as [|q l] eqn:Eal.
      * assert (Ecs : o_cons o = []).
        { destruct HA as [HA _]. specialize (HA eq_refl). unfold copies in HA. apply app_eq_nil in HA. destruct HA as [_ HA].
          apply map_eq_nil in HA. exact HA. }
        split; [reflexivity|]. cbn [fst].
        assert (m1 = m) as -> by (rewrite Ecs in E1; cbn in E1; congruence).
        assert (o' = o) as ->.
        { unfold o'. rewrite Ecs. pose proof (r_mine _ _ _ _ HR) as M. rewrite Ecs in M. destruct o; cbn in *. subst. reflexivity. }
        exact HR.
      * split; [reflexivity|]. cbn [fst].
        assert (HNE : o_cons o <> []).
        { intros X. apply (HE' q l eq_refl). unfold copies. rewrite ERC, X. reflexivity. }
        assert (ERAM : fst (o_home o) = EXTERNAL_CUDA_GPU -> o_ram o = None).
        { intros Et. unfold ram_copy in ERC. rewrite Et in ERC. destruct (o_ram o); [discriminate|reflexivity]. }
        constructor; cbn [s_home s_values s_also s_locked].
        -- exact Hhome.
        -- exact T.
        -- reflexivity.
        -- rewrite EC. constructor; [intros []|constructor].
        -- rewrite EC, NB. intros a [<-|[]]. apply (r_low _ _ _ _ HR). left. reflexivity.
        -- destruct (r_h _ _ _ _ HR) as (ph & oh & Eh & _). exists ph, oh. split; [|exact I].
           rewrite B1, (Hh h) by (left; reflexivity). exact Eh.
        -- intros e [].
        -- change (ram_copy o') with (ram_copy o). rewrite ERC. intros a [].
        -- cbn. destruct (o_cons o); [congruence|reflexivity].
        -- intros _. exact EC.
        -- intros k. reflexivity.
        -- intros Et k. cbn in *. rewrite (ERAM Et). reflexivity.
        -- intros Et k. reflexivity.
        -- reflexivity.
        -- intros q' [].
        -- reflexivity.
  - (* Find *)
    exists m, o, (find_consumer cuda o p). split; [reflexivity|]. split; [|exact HR]. cbn [expect snd].
    unfold find_consumer, supported. rewrite <- Hhome. destruct (place_eqb p (o_home o)) eqn:Ep; [reflexivity|].
    destruct p as [[| |] k]; cbn [fst snd].
    + destruct cuda; cbn [andb negb orb]; [|reflexivity].
      unfold available. rewrite <- Hhome.
      destruct (o_home o) as [[| |] n] eqn:Eh; cbn [fst] in *; [| |contradiction]; cbn [same_memory]; [reflexivity|].
      rewrite (r_cpu _ _ _ _ HR) by (rewrite Eh; reflexivity). cbn [orb]. unfold yes. reflexivity.
    + destruct cuda; cbn [andb negb orb]; [|reflexivity].
      unfold available. rewrite <- Hhome, (r_gpu _ _ _ _ HR).
      destruct (o_home o) as [[| |] n] eqn:Eh; cbn [fst] in *; [| |contradiction]; cbn [same_memory orb]; [reflexivity|].
      unfold place_eqb in Ep. cbn in Ep. rewrite Ep. reflexivity.
    + rewrite Bool.andb_false_r. reflexivity.
  - (* Has *)
    exists m, o, (has_consumers o). split; [reflexivity|]. split; [|exact HR]. cbn [expect snd].
    unfold has_consumers. rewrite <- Hhome. destruct (fst (o_home o)) eqn:Et; [| |contradiction]; unfold yes.
    + rewrite <- (r_gpu _ _ _ _ HR 0%nat).
      replace (existsb (same_memory (EXTERNAL_CUDA_GPU, 0%nat)) (s_also s))
        with (existsb (fun p => match p with (EXTERNAL_CUDA_GPU, O) => true | _ => false end) (s_also s)).
      2:{ induction (s_also s) as [|[[| |] [|j]] l IH]; [reflexivity|..]; cbn; rewrite ?IH; reflexivity. }
      reflexivity.
    + rewrite <- (r_cpu _ _ _ _ HR Et 0%nat).
      replace (existsb (same_memory (LOCAL_RAM, 0%nat)) (s_also s))
        with (existsb (fun p => match p with (LOCAL_RAM, _) => true | _ => false end) (s_also s)).
      2:{ induction (s_also s) as [|[[| |] j] l IH]; [reflexivity|..]; cbn; rewrite ?IH; reflexivity. }
      reflexivity.
  - (* Read *)
    cbn [expect]. unfold read_at. pose proof (pointer_ok _ _ _ _ p HR) as P.
    destruct (pointer cuda o p) as [a|].
    + destruct P as [-> P]. destruct (addr_holds _ _ _ _ a HR P) as (pb & ob & E & _). rewrite E. cbn [cb_val].
      eexists _, _, _. split; [reflexivity|]. split; [reflexivity|exact HR].
    + rewrite P. eexists _, _, _. split; [reflexivity|]. split; [reflexivity|exact HR].
  - (* Write *)
    cbn [expect]. unfold write_at. rewrite (r_lock _ _ _ _ HR).
    destruct (s_locked s) eqn:El; [eexists _, _, _; split; [reflexivity|]; split; [reflexivity|exact HR]|].
    pose proof (pointer_ok _ _ _ _ p HR) as P.
    destruct (pointer cuda o p) as [a|].
    2:{ rewrite P. eexists _, _, _. split; [reflexivity|]. split; [reflexivity|exact HR]. }
    destruct P as [-> P]. pose proof (r_open _ _ _ _ HR El) as EC. rewrite EC in P. destruct P as [<-|[]].
    destruct (r_h _ _ _ _ HR) as (pb & ob & E & _). rewrite E.
    eexists _, _, _. split; [reflexivity|]. split; [reflexivity|]. cbn [fst].
    pose proof EC as EC'. unfold copies in EC'. apply app_eq_nil in EC'. destruct EC' as [EC1 EC2]. apply map_eq_nil in EC2.
    destruct HR as [H1 H2 H3 H4 H5 H6 H7 H8 H9 H10 H11 H12 H13 H14 H15 H16].
    constructor; cbn [s_home s_values s_also s_locked]; try assumption.
    + exists pb, ob. split; [|exact I]. cbn [bset blocks]. rewrite Nat.eqb_refl. reflexivity.
    + rewrite EC2. intros e [].
    + rewrite EC1. intros a [].
    + congruence.
    + intros _. exact EC.
Qed.

Lemma replies_expected cs : forall m o s h, R m o s h -> replies cuda m o cs = Some (expected cuda s cs).
Proof.
  induction cs as [|c cs IH]; intros m o s h HR; [reflexivity|].
  destruct (call_ok m o s h c HR) as (m' & o' & r & E & -> & HR'). cbn [replies expected]. rewrite E.
  rewrite (IH _ _ _ _ HR'). destruct (expect cuda s c). reflexivity.
Qed.

Lemma construct_R m internal p v m' o : construct cuda m internal p v = Some (m', o) ->
  R m' o (Seen p v [] false) (nextb m).
Proof.
  unfold construct. destruct p as [[| |] k]; cbn [fst snd]; [| |discriminate].
  - intros [= <- <-]. constructor; cbn; try reflexivity; try discriminate; try (intros; contradiction); try auto.
    + constructor; [intros []|constructor].
    + intros a [<-|[]]. lia.
    + eexists _, _. cbn. rewrite Nat.eqb_refl. split; [reflexivity|exact I].
  - destruct cuda eqn:Ec; [|discriminate]. intros H.
    assert (HH : m' = fst (if internal then device_get m k v else fresh m (CBlock (EXTERNAL_CUDA_GPU, k) FromUser (Some v))) /\
                 o = FObj (EXTERNAL_CUDA_GPU, k) None (Some (nextb m)) internal false [] [] false).
    { destruct internal; cbn in H |- *; injection H as <- <-; split; reflexivity. }
    destruct HH as [-> ->]. constructor; cbn; try reflexivity; try discriminate; try (intros; contradiction); try auto.
    + constructor; [intros []|constructor].
    + intros a [<-|[]]. destruct internal; cbn; lia.
    + destruct internal; (eexists _, _; cbn; rewrite Nat.eqb_refl; split; [reflexivity|exact I]).
Qed.
End S.
