(** Consumer copies: traces of one object, and who frees what. *)
From Coq Require Import Permutation.
From Verif Require Import Prelude ConsumerM ConsumerS ConsumerP.

Section S.
Variable V : Type.
Variable cuda : bool.

(** ** Traces of the specification *)
Lemma expected_length cs : forall s : seen V, length (expected cuda s cs) = length cs.
Proof.
  induction cs as [|c cs IH]; intros s; [reflexivity|]. cbn. destruct (expect cuda s c). cbn. f_equal. apply IH.
Qed.

Fixpoint states (s : seen V) (cs : list (call V)) : seen V :=
  match cs with [] => s | c :: cs => states (fst (expect cuda s c)) cs end.
Lemma expected_app cs1 : forall s cs2, expected cuda s (cs1 ++ cs2) = expected cuda s cs1 ++ expected cuda (states s cs1) cs2.
Proof.
  induction cs1 as [|c cs IH]; intros s cs2; [reflexivity|]. cbn [app expected states].
  destruct (expect cuda s c) as [s' r]. cbn [fst]. rewrite IH. reflexivity.
Qed.
Lemma nth_expected cs : forall s k c, nth_error cs k = Some c ->
  nth_error (expected cuda s cs) k = Some (snd (expect cuda (states s (firstn k cs)) c)).
Proof.
  induction cs as [|d cs IH]; intros s [|k] c E; try discriminate.
  - injection E as ->. cbn. destruct (expect cuda s c). reflexivity.
  - cbn [nth_error] in E. cbn [expected firstn states]. destruct (expect cuda s d) as [s' r] eqn:Es.
    cbn [nth_error]. rewrite (IH s' k c E). reflexivity.
Qed.

Lemma last_written_cons (v : V) c r tr :
  last_written v ((c, r) :: tr) = last_written (match c, r with Write _ v', Nothing => v' | _, _ => v end) tr.
Proof. unfold last_written. cbn. destruct c; try reflexivity; destruct r; reflexivity. Qed.

Lemma states_values cs : forall s k,
  s_values (states s (firstn k cs)) = last_written (s_values s) (firstn k (combine cs (expected cuda s cs))).
Proof.
  induction cs as [|c cs IH]; intros s [|k]; try reflexivity.
  cbn [firstn states expected]. destruct (expect cuda s c) as [s' r] eqn:E. cbn [fst combine firstn].
  rewrite last_written_cons, IH. f_equal.
  destruct c as [p| |p| |p|p v]; cbn in E.
  - destruct (place_eqb p (s_home s)); [injection E as <- <-; reflexivity|].
    destruct (negb (supported cuda p)); [injection E as <- <-; reflexivity|].
    destruct (available s p); injection E as <- <-; reflexivity.
  - destruct (s_also s); injection E as <- <-; reflexivity.
  - injection E as <- <-. reflexivity.
  - injection E as <- <-. reflexivity.
  - injection E as <- <-. reflexivity.
  - destruct (s_locked s); [injection E as <- <-; reflexivity|].
    destruct (available s p); injection E as <- <-; reflexivity.
Qed.

Lemma read_latest (s : seen V) cs k p (x : V) : nth_error cs k = Some (Read p) -> nth_error (expected cuda s cs) k = Some (Value x) ->
  x = last_written (s_values s) (firstn k (combine cs (expected cuda s cs))).
Proof.
  intros E1 E2. rewrite (nth_expected _ _ _ _ E1) in E2. cbn [expect snd] in E2.
  destruct (available _ p); [|discriminate]. injection E2 as <-. apply states_values.
Qed.

Lemma same_refl p : fst p <> OTHER_MEMORY -> same_memory p p = true.
Proof. destruct p as [[| |] k]; cbn; [reflexivity|rewrite Nat.eqb_refl; reflexivity|congruence]. Qed.

Lemma home_same cs : forall s, s_home (states s cs) = s_home s.
Proof.
  induction cs as [|c cs IH]; intros s; [reflexivity|]. cbn [states]. rewrite IH.
  destruct c as [p| |p| |p|p v]; cbn.
  - destruct (place_eqb p (s_home s)); [reflexivity|].
    destruct (negb (supported cuda p)); [reflexivity|]. destruct (available s p); reflexivity.
  - destruct (s_also s); reflexivity.
  - reflexivity.
  - reflexivity.
  - reflexivity.
  - destruct (s_locked s); [reflexivity|]. destruct (available s p); reflexivity.
Qed.

Lemma added_spec cs p : forall s b k, fst (s_home s) <> OTHER_MEMORY -> (b = true -> available s p = true) ->
  fold_left (fun b cr => match cr with
                         | (Add q, Nothing) => b || place_eqb q p
                         | (Remove, _) => false
                         | _ => b
                         end) (firstn k (combine cs (expected cuda s cs))) b = true ->
  available (states s (firstn k cs)) p = true.
Proof.
  induction cs as [|c cs IH]; intros s b [|k] HH Hb; [exact Hb..|].
  cbn [firstn states expected]. destruct (expect cuda s c) as [s' r] eqn:E. cbn [fst combine firstn fold_left].
  apply IH.
  - pose proof (home_same [c] s) as H. cbn in H. rewrite E in H. cbn in H. rewrite H. exact HH.
  - destruct c as [q| |q| |q|q v]; cbn in E.
    + destruct (place_eqb q (s_home s)) eqn:Eq.
      { injection E as <- <-. intros H. apply Bool.orb_true_iff in H. destruct H as [H|H]; [auto|].
        apply place_eqb_spec in H, Eq. subst. unfold available. rewrite same_refl by exact HH. reflexivity. }
      destruct (negb (supported cuda q)) eqn:Es; [injection E as <- <-; exact Hb|].
      assert (Hq : fst q <> OTHER_MEMORY).
      { intros X. unfold supported in Es. rewrite X, Bool.andb_false_r in Es. discriminate. }
      destruct (available s q) eqn:Ea; injection E as <- <-; intros H; apply Bool.orb_true_iff in H; destruct H as [H|H].
      * apply Hb, H.
      * apply place_eqb_spec in H. subst q. exact Ea.
      * specialize (Hb H). unfold available in Hb |- *. cbn. apply Bool.orb_true_iff in Hb.
        destruct Hb as [->| ->]; [reflexivity|]. rewrite !Bool.orb_true_r. reflexivity.
      * apply place_eqb_spec in H. subst q. unfold available. cbn. rewrite same_refl by exact Hq.
        rewrite Bool.orb_true_r. reflexivity.
    + discriminate.
    + injection E as <- <-. exact Hb.
    + injection E as <- <-. exact Hb.
    + injection E as <- <-. exact Hb.
    + destruct (s_locked s); [injection E as <- <-; exact Hb|].
      destruct (available s q); injection E as <- <-; exact Hb.
Qed.

Lemma added_read (s : seen V) cs k p : fst (s_home s) <> OTHER_MEMORY -> nth_error cs k = Some (Read p) ->
  added p (firstn k (combine cs (expected cuda s cs))) = true ->
  exists x, nth_error (expected cuda s cs) k = Some (Value x).
Proof.
  intros HH E1 E2. rewrite (nth_expected _ _ _ _ E1). cbn [expect snd].
  rewrite (added_spec cs p s false k HH) by (try discriminate; exact E2). eexists. reflexivity.
Qed.

Lemma home_read (s : seen V) cs k : fst (s_home s) <> OTHER_MEMORY -> nth_error cs k = Some (Read (s_home s)) ->
  exists x, nth_error (expected cuda s cs) k = Some (Value x).
Proof.
  intros HH E1. rewrite (nth_expected _ _ _ _ E1). cbn [expect snd].
  unfold available. rewrite home_same, same_refl by exact HH. eexists. reflexivity.
Qed.

(** locked while consumers are there *)
Lemma stays_locked cs : forall s, ~ In Remove cs -> s_locked s = true -> s_locked (states s cs) = true.
Proof.
  induction cs as [|c cs IH]; intros s HN HL; [exact HL|]. cbn [states]. apply IH; [intros X; apply HN; right; exact X|].
  destruct c as [p| |p| |p|p v]; cbn; try assumption.
  - destruct (place_eqb p (s_home s)); [exact HL|].
    destruct (negb (supported cuda p)); [reflexivity|]. destruct (available s p); reflexivity.
  - exfalso. apply HN. left. reflexivity.
  - rewrite HL. exact HL.
Qed.
Lemma add_locks (s : seen V) p : place_eqb p (s_home s) = false -> s_locked (fst (expect cuda s (Add p))) = true.
Proof.
  intros E. cbn. rewrite E. destruct (negb (supported cuda p)); [reflexivity|]. destruct (available s p); reflexivity.
Qed.
Lemma states_app cs1 : forall s cs2, states s (cs1 ++ cs2) = states (states s cs1) cs2.
Proof. induction cs1 as [|c cs IH]; intros s cs2; [reflexivity|]. apply IH. Qed.

Lemma write_refused (s : seen V) cs1 p cs2 q v : p <> s_home s -> ~ In Remove cs2 ->
  nth_error (expected cuda s (cs1 ++ Add p :: cs2 ++ [Write q v])) (length cs1 + 1 + length cs2) = Some Threw.
Proof.
  intros Hp HN. rewrite (nth_expected _ _ _ (Write q v)).
  - assert (firstn (length cs1 + 1 + length cs2) (cs1 ++ Add p :: cs2 ++ [Write q v]) = cs1 ++ Add p :: cs2) as ->.
    { replace (cs1 ++ Add p :: cs2 ++ [Write q v]) with ((cs1 ++ Add p :: cs2) ++ [Write q v]) by (rewrite <- app_assoc; reflexivity).
      rewrite firstn_app. replace (length cs1 + 1 + length cs2 - length (cs1 ++ Add p :: cs2))%nat with 0%nat
        by (rewrite app_length; cbn; lia).
      rewrite firstn_all2 by (rewrite app_length; cbn; lia). cbn. rewrite app_nil_r. reflexivity. }
    rewrite states_app. cbn [states]. cbn [expect snd].
    rewrite stays_locked; [reflexivity|exact HN|]. apply add_locks. rewrite home_same.
    apply Bool.not_true_is_false. intros X. apply place_eqb_spec in X. contradiction.
  - rewrite nth_error_app2 by lia. replace (length cs1 + 1 + length cs2 - length cs1)%nat with (S (length cs2)) by lia.
    cbn. rewrite nth_error_app2 by lia. rewrite Nat.sub_diag. reflexivity.
Qed.

(** without CUDA nothing unlocks *)
Lemma nocuda_also cs : cuda = false -> forall s, s_also s = [] -> s_also (states s cs) = [].
Proof.
  intros Hc. induction cs as [|c cs IH]; intros s H; [exact H|]. cbn [states]. apply IH.
  destruct c as [p| |p| |p|p v]; cbn; try assumption.
  - destruct (place_eqb p (s_home s)); [exact H|]. unfold supported. rewrite Hc. exact H.
  - rewrite H. exact H.
  - destruct (s_locked s); [exact H|]. destruct (available s p); exact H.
Qed.
Lemma nocuda_locked cs : cuda = false -> forall s, s_also s = [] -> s_locked s = true -> s_locked (states s cs) = true.
Proof.
  intros Hc. induction cs as [|c cs IH]; intros s HA HL; [exact HL|]. cbn [states].
  pose proof (nocuda_also [c] Hc s HA) as HA'. apply IH; [exact HA'|].
  destruct c as [p| |p| |p|p v]; cbn; try assumption.
  - destruct (place_eqb p (s_home s)); [exact HL|].
    destruct (negb (supported cuda p)); [reflexivity|]. destruct (available s p); reflexivity.
  - rewrite HA. exact HL.
  - rewrite HL. exact HL.
Qed.
Lemma write_refused_forever (s : seen V) cs1 p cs2 q v : cuda = false -> s_also s = [] -> p <> s_home s ->
  nth_error (expected cuda s (cs1 ++ Add p :: cs2 ++ [Write q v])) (length cs1) = Some Threw /\
  nth_error (expected cuda s (cs1 ++ Add p :: cs2 ++ [Write q v])) (length cs1 + 1 + length cs2) = Some Threw.
Proof.
  intros Hc HA Hp.
  assert (Hb : place_eqb p (s_home s) = false).
  { apply Bool.not_true_is_false. intros X. apply place_eqb_spec in X. contradiction. }
  split.
  { rewrite (nth_expected _ _ _ (Add p)) by (rewrite nth_error_app2 by lia; rewrite Nat.sub_diag; reflexivity).
    rewrite firstn_app, Nat.sub_diag, firstn_all. cbn [firstn]. rewrite app_nil_r. cbn [expect].
    rewrite home_same, Hb. unfold supported. rewrite Hc. reflexivity. }
  rewrite (nth_expected _ _ _ (Write q v)).
  - assert (firstn (length cs1 + 1 + length cs2) (cs1 ++ Add p :: cs2 ++ [Write q v]) = cs1 ++ Add p :: cs2) as ->.
    { replace (cs1 ++ Add p :: cs2 ++ [Write q v]) with ((cs1 ++ Add p :: cs2) ++ [Write q v]) by (rewrite <- app_assoc; reflexivity).
      rewrite firstn_app. replace (length cs1 + 1 + length cs2 - length (cs1 ++ Add p :: cs2))%nat with 0%nat
        by (rewrite app_length; cbn; lia).
      rewrite firstn_all2 by (rewrite app_length; cbn; lia). cbn. rewrite app_nil_r. reflexivity. }
    rewrite states_app. cbn [states]. cbn [expect snd].
    rewrite nocuda_locked; [reflexivity|exact Hc| |].
    + apply (nocuda_also [Add p] Hc). apply nocuda_also; assumption.
    + apply add_locks. rewrite home_same. exact Hb.
  - rewrite nth_error_app2 by lia. replace (length cs1 + 1 + length cs2 - length cs1)%nat with (S (length cs2)) by lia.
    cbn. rewrite nth_error_app2 by lia. rewrite Nat.sub_diag. reflexivity.
Qed.

(** with CUDA, removing a copy that was made unlocks *)
Lemma available_also (s : seen V) p : available s p = true -> same_memory p (s_home s) = false -> s_also s <> [].
Proof. unfold available. intros H1 H2 E. rewrite H2, E in H1. discriminate. Qed.
Lemma unlocked (s : seen V) cs p v : fst (s_home s) <> OTHER_MEMORY -> supported cuda p = true -> same_memory p (s_home s) = false ->
  exists rs, expected cuda s (cs ++ [Add p; Remove; Write (s_home s) v; Read (s_home s)]) = rs ++ [Nothing; Nothing; Nothing; Value v].
Proof.
  intros HH Hs Hn. exists (expected cuda s cs). rewrite expected_app. f_equal.
  set (t := states s cs). assert (Ht : s_home t = s_home s) by apply home_same.
  cbn [expected]. cbn [expect]. rewrite Ht.
  assert (Hb : place_eqb p (s_home s) = false).
  { apply Bool.not_true_is_false. intros X. apply place_eqb_spec in X. subst p. rewrite same_refl in Hn by exact HH. discriminate. }
  rewrite Hb, Hs. cbn [negb].
  assert (HHs : same_memory (s_home s) (s_home s) = true) by (apply same_refl, HH).
  destruct (available t p) eqn:Ea.
  - cbn [s_also]. destruct (s_also t) as [|q l] eqn:El.
    + exfalso. apply (available_also t p Ea); [rewrite Ht; exact Hn|exact El].
    + cbn. unfold available. cbn. rewrite HHs. cbn. unfold available. cbn. rewrite ?HHs. reflexivity.
  - cbn. unfold available. cbn. rewrite HHs. cbn. unfold available. cbn. rewrite ?HHs. reflexivity.
Qed.

(** ** Who frees what *)
Definition own (o : fobj) : list (nat * origin) :=
  map (fun e => (snd e, FromPool EXTERNAL_CUDA_GPU)) (o_mine o) ++
  (if o_builtcpu o then match o_ram o with Some a => [(a, FromPool LOCAL_RAM)] | None => [] end else []) ++
  (if o_built o then
     match fst (o_home o), o_ram o, o_ext o with
     | LOCAL_RAM, Some a, _ => [(a, FromPool LOCAL_RAM)]
     | EXTERNAL_CUDA_GPU, _, Some a => [(a, FromDevice (snd (o_home o)))]
     | _, _, _ => []
     end else []).
Definition own_opt (x : option fobj) := match x with Some o => own o | None => [] end.
Definition all_own (os : list (option fobj)) := flat_map own_opt os.

(** the blocks that must be given back are exactly those listed, once each *)
Record I (m : cmem V) (L : list (nat * origin)) : Prop := MkI {
  i_nodup : NoDup (map fst L);
  i_live : forall a og, In (a, og) L -> exists b, blocks m a = Some b /\ cb_from b = og;
  i_all : forall a b, blocks m a = Some b -> cb_from b <> FromUser -> In a (map fst L);
  i_low : forall a b, blocks m a = Some b -> (a < nextb m)%nat }.

Lemma I_perm m L L' : Permutation L L' -> I m L -> I m L'.
Proof.
  intros HP [H1 H2 H3 H4]. constructor.
  - apply (Permutation_NoDup (Permutation_map fst HP) H1).
  - intros a og H. apply H2. apply (Permutation_in _ (Permutation_sym HP) H).
  - intros a b E F. apply (Permutation_in _ (Permutation_map fst HP)), (H3 a b E F).
  - exact H4.
Qed.

Definition same_origins (m m' : cmem V) : Prop :=
  nextb m' = nextb m /\
  forall a, match blocks m a, blocks m' a with
            | Some b, Some b' => cb_from b' = cb_from b
            | None, None => True
            | _, _ => False
            end.
Lemma I_same m m' L : same_origins m m' -> I m L -> I m' L.
Proof.
  intros [HN HS] [H1 H2 H3 H4]. constructor.
  - exact H1.
  - intros a og H. destruct (H2 a og H) as (b & E & F). specialize (HS a). rewrite E in HS.
    destruct (blocks m' a) as [b'|]; [|contradiction]. exists b'. split; [reflexivity|congruence].
  - intros a b E F. specialize (HS a). rewrite E in HS. destruct (blocks m a) as [b'|] eqn:E'; [|contradiction].
    apply (H3 a b' E'). congruence.
  - intros a b E. rewrite HN. specialize (HS a). rewrite E in HS. destruct (blocks m a) as [b'|] eqn:E'; [|contradiction].
    apply (H4 a b' E').
Qed.

Lemma remove_I m a og L : I m ((a, og) :: L) -> I (bset m a None) L.
Proof.
  intros [H1 H2 H3 H4]. inversion H1 as [|? ? N1 N2]; subst. constructor.
  - exact N2.
  - intros x g Hx. destruct (H2 x g (or_intror Hx)) as (b & E & F). exists b. split; [|exact F]. cbn [bset blocks].
    rewrite (proj2 (Nat.eqb_neq x a)); [exact E|]. intros ->. apply N1, (in_map fst _ _ Hx).
  - intros x b E F. cbn [bset blocks] in E. destruct (Nat.eqb x a) eqn:Ex; [discriminate|]. apply Nat.eqb_neq in Ex.
    destruct (H3 x b E F) as [X|X]; [cbn in X; congruence|exact X].
  - intros x b E. cbn [bset blocks nextb] in *. destruct (Nat.eqb x a); [discriminate|]. apply (H4 x b E).
Qed.
Lemma I_put m t a L : I m ((a, FromPool t) :: L) -> exists m', pool_put m t a = Some m' /\ I m' L.
Proof.
  intros HI. destruct (i_live _ _ HI a (FromPool t) (or_introl eq_refl)) as (b & E & F).
  unfold pool_put. rewrite E, F. rewrite (proj2 (mtype_eqb_spec t t) eq_refl).
  eexists. split; [reflexivity|]. apply (remove_I _ _ _ _ HI).
Qed.
Lemma I_release m n a L : I m ((a, FromDevice n) :: L) -> exists m', device_release m a n = Some m' /\ I m' L.
Proof.
  intros HI. destruct (i_live _ _ HI a (FromDevice n) (or_introl eq_refl)) as (b & E & F).
  unfold device_release. rewrite E, F, Nat.eqb_refl.
  eexists. split; [reflexivity|]. apply (remove_I _ _ _ _ HI).
Qed.
Lemma I_put_all l : forall m L, I m (map (fun e => (snd e, FromPool EXTERNAL_CUDA_GPU)) l ++ L) ->
  exists m', put_all m l = Some m' /\ I m' L.
Proof.
  induction l as [|[k a] l IH]; intros m L HI; [exists m; split; [reflexivity|exact HI]|].
  cbn [map app snd] in HI. destruct (I_put _ _ _ _ HI) as (m' & E & HI'). cbn [put_all snd]. rewrite E. apply IH, HI'.
Qed.
Lemma I_fresh m b L : I m L -> I (fst (fresh m b)) (match cb_from b with FromUser => L | og => (nextb m, og) :: L end).
Proof.
  intros [H1 H2 H3 H4].
  assert (HF : ~ In (nextb m) (map fst L)).
  { intros X. apply in_map_iff in X. destruct X as ([a og] & X & Y). cbn in X. subst a.
    destruct (H2 _ _ Y) as (b' & E & _). specialize (H4 _ _ E). lia. }
  assert (HL : forall a og, In (a, og) L -> exists b', blocks (fst (fresh m b)) a = Some b' /\ cb_from b' = og).
  { intros a og H. destruct (H2 a og H) as (b' & E & F). exists b'. split; [|exact F]. cbn [fresh fst blocks].
    rewrite (proj2 (Nat.eqb_neq a (nextb m))); [exact E|]. specialize (H4 _ _ E). lia. }
  assert (HN : blocks (fst (fresh m b)) (nextb m) = Some b) by (cbn; rewrite Nat.eqb_refl; reflexivity).
  assert (HO : forall a b', blocks (fst (fresh m b)) a = Some b' -> a = nextb m /\ b' = b \/ blocks m a = Some b').
  { intros a b' E. cbn in E. destruct (Nat.eqb a (nextb m)) eqn:Ea; [|right; exact E]. apply Nat.eqb_eq in Ea.
    left. split; congruence. }
  assert (HLow : forall a b', blocks (fst (fresh m b)) a = Some b' -> (a < nextb (fst (fresh m b)))%nat).
  { intros a b' E. cbn [fresh fst nextb]. destruct (HO a b' E) as [[-> _]|E']; [lia|]. specialize (H4 _ _ E'). lia. }
  destruct (cb_from b) as [t|n|] eqn:Eb.
  - constructor; [constructor; assumption| | |exact HLow].
    + intros a og [X|X]; [injection X as <- <-; exists b; auto|apply HL, X].
    + intros a b' E F. destruct (HO a b' E) as [[-> _]|E']; [left; reflexivity|right; apply (H3 a b' E' F)].
  - constructor; [constructor; assumption| | |exact HLow].
    + intros a og [X|X]; [injection X as <- <-; exists b; auto|apply HL, X].
    + intros a b' E F. destruct (HO a b' E) as [[-> _]|E']; [left; reflexivity|right; apply (H3 a b' E' F)].
  - constructor; [assumption|exact HL| |exact HLow].
    intros a b' E F. destruct (HO a b' E) as [[-> ->]|E']; [congruence|apply (H3 a b' E' F)].
Qed.

(** sane objects *)
Record WO (o : fobj) : Prop := MkWO {
  w_keys : forall k, mfind (o_cons o) k = None -> mfind (o_mine o) k = None;
  w_cpu : o_builtcpu o = true -> fst (o_home o) = EXTERNAL_CUDA_GPU /\ cuda = true /\ o_ram o <> None;
  w_mine : o_mine o <> [] -> cuda = true;
  w_built : o_built o = true -> match fst (o_home o) with
                                | LOCAL_RAM => o_ram o <> None
                                | EXTERNAL_CUDA_GPU => o_ext o <> None
                                | OTHER_MEMORY => False
                                end }.

Lemma memcpy_same m d s m' : memcpy m d s = Some m' -> same_origins m m'.
Proof.
  unfold memcpy. destruct (blocks m d) as [bd|] eqn:Ed; [|discriminate]. destruct (blocks m s) as [bs|]; [|discriminate].
  intros [= <-]. split; [reflexivity|]. intros a. cbn [bset blocks]. destruct (Nat.eqb a d) eqn:E.
  - apply Nat.eqb_eq in E. subst a. rewrite Ed. reflexivity.
  - destruct (blocks m a); [reflexivity|exact Logic.I].
Qed.
Lemma transfer_same m o d s m' o' r : transfer m o d s = Go (m', o') r -> same_origins m m' /\ o' = o.
Proof.
  unfold transfer. destruct d as [d|]; [|discriminate]. destruct s as [s|]; [|discriminate].
  destruct (memcpy m d s) as [m1|] eqn:E; [|discriminate]. intros [= <- <- <-]. split; [apply (memcpy_same _ _ _ _ E)|reflexivity].
Qed.
Lemma transfer_fail m o d s f : transfer (V := V) m o d s = Fail f -> f = BadAccess.
Proof.
  unfold transfer. destruct d as [d|]; [|congruence]. destruct s as [s|]; [|congruence].
  destruct (memcpy m d s); congruence.
Qed.
Lemma same_refl_mem m : same_origins m m.
Proof. split; [reflexivity|]. intros a. destruct (blocks m a); [reflexivity|exact Logic.I]. Qed.

Lemma own_locked o : own (locked o) = own o.
Proof. reflexivity. Qed.
Lemma WO_locked o : WO o -> WO (locked o).
Proof. intros [H1 H2 H3 H4]. constructor; assumption. Qed.

Definition good (L : list (nat * origin)) (e : effect V (cmem V * fobj)) : Prop :=
  match e with
  | Go (m, o) _ => I m (own o ++ L) /\ WO o
  | Fail f => f = BadAccess
  end.
Lemma transfer_good m o d s L : I m (own o ++ L) -> WO o -> good L (transfer m o d s).
Proof.
  intros HI HW. destruct (transfer m o d s) as [[m' o'] r|f] eqn:E.
  - destruct (transfer_same _ _ _ _ _ _ _ E) as [HS ->]. split; [apply (I_same _ _ _ HS HI)|exact HW].
  - apply (transfer_fail _ _ _ _ _ E).
Qed.

Lemma add_good m o p L : I m (own o ++ L) -> WO o -> good L (add_consumer cuda m o p).
Proof.
  intros HI HW. unfold add_consumer. destruct (place_eqb p (o_home o)); [split; assumption|].
  pose proof (WO_locked _ HW) as HWL.
  assert (HIL : I m (own (locked o) ++ L)) by exact HI.
  destruct (fst p); [| |split; assumption].
  - destruct cuda eqn:Ec; [|split; assumption].
    destruct (fst (o_home (locked o))) eqn:Et; [split; assumption| |split; assumption].
    destruct (o_ram (locked o)) as [a|] eqn:Er; [apply transfer_good; assumption|].
    cbn [pool_get fresh].
    change (match ?b with (m0, o0) => transfer m0 o0 (o_ram o0) (o_ext o0) end) with
      (transfer (fst b) (snd b) (o_ram (snd b)) (o_ext (snd b))).
    cbn [fst snd]. apply transfer_good.
    + pose proof (I_fresh m (CBlock (LOCAL_RAM, 0%nat) (FromPool LOCAL_RAM) None) _ HIL) as HF. cbn [cb_from fresh fst] in HF.
      refine (I_perm _ _ _ _ HF).
      assert (EO : own (with_ram (locked o) (nextb m)) = map (fun e => (snd e, FromPool EXTERNAL_CUDA_GPU)) (o_mine o) ++
                 (nextb m, FromPool LOCAL_RAM) :: (if o_built o then
                    match fst (o_home o), Some (nextb m), o_ext o with
                    | LOCAL_RAM, Some a, _ => [(a, FromPool LOCAL_RAM)]
                    | EXTERNAL_CUDA_GPU, _, Some a => [(a, FromDevice (snd (o_home o)))]
                    | _, _, _ => [] end else [])) by reflexivity.
      rewrite EO. clear EO. unfold own. rewrite own_locked || idtac.
      cbn [locked o_mine o_builtcpu o_ram o_built o_home o_ext] in *. cbn in Er, Et. rewrite Er, Et.
      assert ((if o_builtcpu o then [] else []) = @nil (nat * origin)) as -> by (destruct (o_builtcpu o); reflexivity).
      cbn [app]. rewrite <- !app_assoc. cbn [app].
      destruct (o_ext o); apply Permutation_cons_app; reflexivity.
    + destruct HWL as [W1 W2 W3 W4]. constructor; cbn in *; try assumption.
      * intros _. split; [exact Et|]. split; [exact Ec|discriminate].
      * intros Hb. specialize (W4 Hb). rewrite Et in *. exact W4.
  - destruct cuda eqn:Ec; [|split; assumption].
    destruct (mfind (o_cons (locked o)) (snd p)) as [a|] eqn:Em.
    + cbn [fst]. destruct (fst (o_home (locked o))); [apply transfer_good; assumption..|split; assumption].
    + set (m1 := fst (pool_get m EXTERNAL_CUDA_GPU)). set (o1 := with_cons (locked o) (snd p) (nextb m)).
      assert (HI1 : I m1 (own o1 ++ L)).
      { pose proof (I_fresh m (CBlock (EXTERNAL_CUDA_GPU, 0%nat) (FromPool EXTERNAL_CUDA_GPU) None) _ HIL) as HF. cbn [cb_from] in HF.
        refine (I_perm _ _ _ _ HF). unfold own. cbn [o1 with_cons locked o_mine o_builtcpu o_ram o_built o_home o_ext].
        rewrite mset_fresh by (apply (w_keys _ HW); exact Em). cbn [map app snd]. reflexivity. }
      assert (HW1 : WO o1).
      { destruct HWL as [W1 W2 W3 W4]. constructor; try assumption.
        - intros j. cbn [o1 with_cons locked o_cons o_mine]. rewrite !mfind_mset. destruct (Nat.eqb (snd p) j); [discriminate|apply W1].
        - intros _. exact Ec. }
      change (let '(m', o') := let '(m0, a) := pool_get m EXTERNAL_CUDA_GPU in (m0, with_cons (locked o) (snd p) a) in
              match fst (o_home o') with
              | LOCAL_RAM => transfer m' o' (mfind (o_cons o') (snd p)) (o_ram o')
              | EXTERNAL_CUDA_GPU => transfer m' o' (mfind (o_cons o') (snd p)) (o_ext o')
              | OTHER_MEMORY => Go (m', o') Threw
              end) with
        (match fst (o_home o1) with
         | LOCAL_RAM => transfer m1 o1 (mfind (o_cons o1) (snd p)) (o_ram o1)
         | EXTERNAL_CUDA_GPU => transfer m1 o1 (mfind (o_cons o1) (snd p)) (o_ext o1)
         | OTHER_MEMORY => Go (m1, o1) Threw
         end).
      destruct (fst (o_home o1)); [apply transfer_good; assumption..|split; assumption].
Qed.

Lemma remove_good m o L : I m (own o ++ L) -> WO o -> good L (remove_consumers cuda m o).
Proof.
  intros HI HW. unfold remove_consumers. destruct (cuda && o_ro o) eqn:Ec; [|split; assumption].
  unfold own in HI. rewrite <- !app_assoc in HI. destruct (I_put_all _ _ _ HI) as (m1 & E1 & HI1). rewrite E1.
  destruct (mtype_eqb (fst (o_home o)) EXTERNAL_CUDA_GPU && o_builtcpu o) eqn:Eb.
  - apply Bool.andb_true_iff in Eb. destruct Eb as [Eb Ebc]. apply mtype_eqb_spec in Eb.
    destruct (w_cpu _ HW Ebc) as (_ & _ & Hr). destruct (o_ram o) as [r|] eqn:Er; [|congruence].
    rewrite Ebc in HI1. cbn [app] in HI1. destruct (I_put _ _ _ _ HI1) as (m2 & E2 & HI2).
    unfold put_ram. rewrite Er, E2. split.
    + unfold own. cbn. rewrite Eb in *. exact HI2.
    + destruct HW as [W1 W2 W3 W4]. constructor; cbn; try reflexivity; try discriminate; try congruence.
      intros Hb. specialize (W4 Hb). rewrite Eb in *. exact W4.
  - split.
    + assert (Ebc : o_builtcpu o = false).
      { destruct (o_builtcpu o) eqn:E; [|reflexivity]. destruct (w_cpu _ HW E) as (X & _). rewrite X in Eb. discriminate. }
      unfold own. cbn [o_mine o_builtcpu o_ram o_built o_home o_ext map app]. rewrite <- app_assoc. exact HI1.
    + destruct HW as [W1 W2 W3 W4]. constructor; cbn; try assumption; try reflexivity; try congruence.
Qed.

Lemma destroy_good m o L : I m (own o ++ L) -> WO o -> exists m', destroy cuda m o = Some m' /\ I m' L.
Proof.
  intros HI HW. unfold destroy. unfold own in HI. rewrite <- !app_assoc in HI.
  assert (HH : exists m1, (if cuda then
           match put_all m (o_mine o) with
           | Some m => if o_builtcpu o then put_ram m o else Some m
           | None => None
           end
         else Some m) = Some m1 /\
         I m1 ((if o_built o then
     match fst (o_home o), o_ram o, o_ext o with
     | LOCAL_RAM, Some a, _ => [(a, FromPool LOCAL_RAM)]
     | EXTERNAL_CUDA_GPU, _, Some a => [(a, FromDevice (snd (o_home o)))]
     | _, _, _ => []
     end else []) ++ L)).
  { destruct (I_put_all _ _ _ HI) as (m1 & E1 & HI1). destruct cuda eqn:Ec.
    - rewrite E1. destruct (o_builtcpu o) eqn:Eb; [|exists m1; split; [reflexivity|exact HI1]].
      destruct (w_cpu _ HW Eb) as (_ & _ & Hr). unfold put_ram. destruct (o_ram o) as [r|]; [|congruence].
      cbn [app] in HI1. apply (I_put _ _ _ _ HI1).
    - assert (o_mine o = []) as E. { destruct (o_mine o) eqn:E; [reflexivity|]. exfalso. pose proof (w_mine _ HW) as X. rewrite E in X. specialize (X ltac:(discriminate)). congruence. }
      rewrite E in E1. cbn in E1. injection E1 as <-.
      assert (o_builtcpu o = false) as E'.
      { destruct (o_builtcpu o) eqn:E'; [|reflexivity]. destruct (w_cpu _ HW E') as (_ & X & _). congruence. }
      rewrite E' in HI1. exists m. split; [reflexivity|exact HI1]. }
  destruct HH as (m1 & -> & HI1). destruct (o_built o) eqn:Eb; [|exists m1; split; [reflexivity|exact HI1]].
  pose proof (w_built _ HW Eb) as W. destruct (fst (o_home o)); [| |contradiction].
  - destruct (o_ram o) as [a|]; [|congruence]. apply (I_put _ _ _ _ HI1).
  - destruct (o_ext o) as [a|]; [|congruence]. destruct (o_ram o); apply (I_release _ _ _ _ HI1).
Qed.

Lemma call_good m o c L : I m (own o ++ L) -> WO o -> good L (do_call cuda m o c).
Proof.
  intros HI HW. destruct c as [p| |p| |p|p v]; cbn [do_call].
  - apply add_good; assumption.
  - apply remove_good; assumption.
  - split; assumption.
  - split; assumption.
  - unfold read_at. destruct (pointer cuda o p) as [a|]; [|split; assumption].
    destruct (blocks m a) as [b|]; [|reflexivity]. destruct (cb_val b); [split; assumption|reflexivity].
  - unfold write_at. destruct (o_ro o); [split; assumption|]. destruct (pointer cuda o p) as [a|]; [|split; assumption].
    destruct (blocks m a) as [b|] eqn:E; [|reflexivity]. split; [|exact HW].
    refine (I_same _ _ _ _ HI). split; [reflexivity|]. intros x. cbn [bset blocks]. destruct (Nat.eqb x a) eqn:Ex.
    + apply Nat.eqb_eq in Ex. subst x. rewrite E. reflexivity.
    + destruct (blocks m x); [reflexivity|exact Logic.I].
Qed.

Lemma obj_split os i o : obj os i = Some o ->
  Permutation (all_own os) (own o ++ all_own (firstn i os ++ skipn (S i) os)) /\
  (forall x, Permutation (all_own (set_obj os i x)) (own_opt x ++ all_own (firstn i os ++ skipn (S i) os))) /\
  os = firstn i os ++ Some o :: skipn (S i) os.
Proof.
  unfold obj. destruct (nth_error os i) as [[o'|]|] eqn:E; try discriminate. intros [= ->].
  assert (HS : os = firstn i os ++ Some o :: skipn (S i) os).
  { revert i E. induction os as [|x os IH]; intros [|i] E; try discriminate.
    - injection E as ->. reflexivity.
    - cbn [firstn skipn app]. f_equal. apply IH, E. }
  assert (HP : forall x, Permutation (all_own (firstn i os ++ x :: skipn (S i) os)) (own_opt x ++ all_own (firstn i os ++ skipn (S i) os))).
  { intros x. unfold all_own. rewrite !flat_map_app. cbn [flat_map].
    rewrite !app_assoc. apply Permutation_app_tail. apply Permutation_app_comm. }
  split; [rewrite HS at 1; apply (HP (Some o))|]. split; [exact HP|exact HS].
Qed.

Definition W (w : world V) : Prop := I (fst w) (all_own (snd w)) /\ forall o, In (Some o) (snd w) -> WO o.
Lemma obj_in os i o : obj os i = Some o -> In (Some o) os.
Proof.
  unfold obj. destruct (nth_error os i) as [[o'|]|] eqn:E; try discriminate. intros [= ->]. apply (nth_error_In _ _ E).
Qed.
Lemma in_set_obj os i x o : In (Some o) (set_obj os i x) -> x = Some o \/ In (Some o) os.
Proof.
  unfold set_obj. intros H. apply in_app_or in H. destruct H as [H|[H|H]].
  - right. rewrite <- (firstn_skipn i os). apply in_or_app. left. exact H.
  - left. exact H.
  - right. rewrite <- (firstn_skipn (S i) os). apply in_or_app. right. exact H.
Qed.

Lemma act_W w a : W w -> match act cuda w a with Go w' _ => W w' | Fail f => f <> BadFree end.
Proof.
  destruct w as [m os]. intros [HI HW]. cbn [fst snd] in *. destruct a as [internal p v|i|i c|i]; cbn [act].
  - destruct (construct cuda m internal p v) as [[m' o]|] eqn:E; [|split; assumption].
    assert (HH : Permutation (own o) (match (if internal then match fst p with LOCAL_RAM => FromPool LOCAL_RAM | _ => FromDevice (snd p) end else FromUser) with
                                      | FromUser => [] | og => [(nextb m, og)] end) /\ WO o /\
            exists b, m' = fst (fresh m b) /\ cb_from b = (if internal then match fst p with LOCAL_RAM => FromPool LOCAL_RAM | _ => FromDevice (snd p) end else FromUser)).
    { unfold construct in E. destruct p as [t k]. cbn [fst snd] in *. destruct t; [| |discriminate].
      - injection E as <- <-. split; [destruct internal; reflexivity|]. split.
        + constructor; cbn; try reflexivity; try discriminate; try congruence.
        + eexists. split; [reflexivity|]. cbn. destruct internal; reflexivity.
      - destruct cuda eqn:Ec; [|discriminate].
        destruct internal; cbn in E; injection E as <- <-.
        + split; [reflexivity|]. split; [constructor; cbn; try reflexivity; try discriminate; try congruence|].
          exists (CBlock (EXTERNAL_CUDA_GPU, k) (FromDevice k) (Some v)). split; reflexivity.
        + split; [reflexivity|]. split; [constructor; cbn; try reflexivity; try discriminate; try congruence|].
          exists (CBlock (EXTERNAL_CUDA_GPU, k) FromUser (Some v)). split; reflexivity. }
    destruct HH as (HP & HWo & b & -> & Hb). split; cbn [fst snd].
    + unfold all_own. rewrite flat_map_app. cbn [flat_map own_opt]. rewrite app_nil_r.
      refine (I_perm _ _ _ _ (I_fresh m b _ HI)). rewrite Hb.
      apply (Permutation_trans (l' := own o ++ all_own os)); [|apply Permutation_app_comm].
      destruct (if internal then _ else FromUser).
      * apply (Permutation_trans (l' := [(nextb m, FromPool t)] ++ all_own os)); [reflexivity|]. apply Permutation_app_tail. symmetry. exact HP.
      * apply (Permutation_trans (l' := [(nextb m, FromDevice n)] ++ all_own os)); [reflexivity|]. apply Permutation_app_tail. symmetry. exact HP.
      * apply Permutation_sym, Permutation_nil in HP. rewrite HP. reflexivity.
    + intros x Hx. apply in_app_or in Hx. destruct Hx as [Hx|[Hx|[]]]; [apply HW, Hx|]. injection Hx as <-. exact HWo.
  - destruct (obj os i) as [o|] eqn:E; [|discriminate]. split; cbn [fst snd].
    + unfold all_own. rewrite flat_map_app. cbn [flat_map own_opt]. rewrite !app_nil_r.
      exact HI.
    + intros x Hx. apply in_app_or in Hx. destruct Hx as [Hx|[Hx|[]]]; [apply HW, Hx|]. injection Hx as <-.
      constructor; cbn; try reflexivity; try discriminate; try congruence.
  - destruct (obj os i) as [o|] eqn:E; [|discriminate].
    destruct (obj_split os i o E) as (P1 & P2 & _).
    pose proof (call_good m o c _ (I_perm _ _ _ P1 HI) (HW _ (obj_in _ _ _ E))) as G.
    destruct (do_call cuda m o c) as [[m' o'] r|f]; cbn [good] in G; [|subst f; discriminate].
    destruct G as [G1 G2]. split; cbn [fst snd].
    + refine (I_perm _ _ _ _ G1). symmetry. apply (P2 (Some o')).
    + intros x Hx. apply in_set_obj in Hx. destruct Hx as [[= <-]|Hx]; [exact G2|apply HW, Hx].
  - destruct (obj os i) as [o|] eqn:E; [|discriminate].
    destruct (obj_split os i o E) as (P1 & P2 & _).
    destruct (destroy_good m o _ (I_perm _ _ _ P1 HI) (HW _ (obj_in _ _ _ E))) as (m' & -> & HI'). split; cbn [fst snd].
    + refine (I_perm _ _ _ _ HI'). symmetry. apply (P2 None).
    + intros x Hx. apply in_set_obj in Hx. destruct Hx as [Hx|Hx]; [discriminate|apply HW, Hx].
Qed.

Lemma acts_W l : forall w, W w -> match acts cuda w l with Go w' _ => W w' | Fail f => f <> BadFree end.
Proof.
  induction l as [|a l IH]; intros w HW; [exact HW|]. cbn [acts]. pose proof (act_W w a HW) as H.
  destruct (act cuda w a) as [w' r|f]; [apply IH, H|exact H].
Qed.
Lemma W_start : W no_objects.
Proof.
  split; [|intros o []]. constructor; cbn; try discriminate; try constructor. intros a og [].
Qed.

Lemma never_bad_free l : acts (V := V) cuda no_objects l <> Fail BadFree.
Proof. intros E. pose proof (acts_W l no_objects W_start) as H. rewrite E in H. congruence. Qed.
Lemma all_returned l (m : cmem V) os r : acts cuda no_objects l = Go (m, os) r -> (forall i, obj os i = None) ->
  forall a b, blocks m a = Some b -> cb_from b = FromUser.
Proof.
  intros E HN a b Hb. pose proof (acts_W l no_objects W_start) as H. rewrite E in H. destruct H as [HI _]. cbn [fst snd] in HI.
  assert (all_own os = []) as EO.
  { clear - HN. induction os as [|x os IH]; [reflexivity|]. pose proof (HN 0%nat) as H0. cbn in H0. destruct x; [discriminate|].
    cbn. apply IH. intros i. apply (HN (S i)). }
  rewrite EO in HI. destruct (cb_from b) as [t|n|] eqn:Ef; [| |reflexivity];
    exfalso; apply (i_all _ _ HI a b Hb); congruence.
Qed.
End S.
