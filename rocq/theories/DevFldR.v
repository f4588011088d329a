(** Proofs: any number of fields on any devices; new fields. *)
From Verif Require Import Prelude WindowM WindowS WindowP AccessP ConsumerM ConsumerS ConsumerP DevFldM DevFldS DevFldP DevFldQ.

Lemma nth_set_nth {A} (l : list A) i x j : (i < length l)%nat ->
  nth_error (set_nth l i x) j = if Nat.eqb i j then Some x else nth_error l j.
Proof.
  unfold set_nth. revert i j. induction l as [|a l IH]; intros i j L; [cbn in L; lia|].
  destruct i as [|i]; [destruct j; reflexivity|]. destruct j as [|j]; [reflexivity|]. cbn. cbn in L. apply IH. lia.
Qed.
Lemma length_set_nth {A} (l : list A) i x : (i < length l)%nat -> length (set_nth l i x) = length l.
Proof. intros L. unfold set_nth. rewrite app_length, firstn_length. cbn [length]. rewrite skipn_length. lia. Qed.
Lemma nth_lt {A} (l : list A) i x : nth_error l i = Some x -> (i < length l)%nat.
Proof. intros E. apply nth_error_Some. congruence. Qed.
Lemma set_nth_same {A} (l : list A) i x : nth_error l i = Some x -> set_nth l i x = l.
Proof.
  unfold set_nth. revert i. induction l as [|a l IH]; intros [|i]; try discriminate.
  - intros [= ->]. reflexivity.
  - cbn. intros E. f_equal. apply IH, E.
Qed.

Section S.
Variable T : Type.
Variable cuda : bool.
Notation arr := (Z -> T).

Record WF (m : cmem arr) (fs : list dfield) (ss : list (sfield T)) : Prop := MkWF {
  w_len : length fs = length ss;
  w_rf : forall i f s, nth_error fs i = Some f -> nth_error ss i = Some s -> exists h, RF T cuda m f s h;
  w_low : forall i f a, nth_error fs i = Some f -> In a (addrs (d_obj f)) -> (a < nextb m)%nat;
  w_apart : forall i j f g a, i <> j -> nth_error fs i = Some f -> nth_error fs j = Some g -> In a (addrs (d_obj f)) -> In a (addrs (d_obj g)) -> False }.

(** one field changes *)
Lemma WF_step m fs ss i f s m' f' s' h : WF m fs ss -> nth_error fs i = Some f -> nth_error ss i = Some s ->
  RF T cuda m' f' s' h -> frame arr m (d_obj f) m' (d_obj f') -> WF m' (set_nth fs i f') (set_nth ss i s').
Proof.
  intros [W1 W2 W3 W4] Ef Es H (F1 & F2 & F3). pose proof (nth_lt _ _ _ Ef) as Lf. pose proof (nth_lt _ _ _ Es) as Ls.
  assert (Lo : forall a, In a (addrs (d_obj f')) -> (a < nextb m')%nat).
  { intros a X. destruct (F3 a X) as [Y|Y]; [|lia]. specialize (W3 _ _ _ Ef Y). lia. }
  constructor.
  - rewrite !length_set_nth by assumption. exact W1.
  - intros j g t. rewrite !nth_set_nth by assumption. destruct (Nat.eqb_spec i j) as [->|N].
    + intros [= <-] [= <-]. exists h. exact H.
    + intros Eg Et. destruct (W2 _ _ _ Eg Et) as (k & K). exists k. destruct K as [HR K1 K2 K3 K4 K5]. constructor; try assumption.
      apply (R_frame arr cuda m); [exact HR|exact F1|]. intros a X. apply F2; [apply (W3 _ _ _ Eg X)|]. intros Y. exact (W4 _ _ _ _ _ N Ef Eg Y X).
  - intros j g a. rewrite nth_set_nth by assumption. destruct (Nat.eqb_spec i j) as [->|N].
    + intros [= <-]. apply Lo.
    + intros Eg X. specialize (W3 _ _ _ Eg X). lia.
  - assert (Ap : forall j g a, i <> j -> nth_error fs j = Some g -> In a (addrs (d_obj f')) -> In a (addrs (d_obj g)) -> False).
    { intros j g a N Eg X Y. destruct (F3 a X) as [Z|Z]; [exact (W4 _ _ _ _ _ N Ef Eg Z Y)|]. specialize (W3 _ _ _ Eg Y). lia. }
    intros j k g g' a N. rewrite !nth_set_nth by assumption. destruct (Nat.eqb_spec i j) as [->|N1], (Nat.eqb_spec j k) as [->|N2]; try congruence.
    + intros [= <-] Eg. apply (Ap k g' a N2 Eg).
    + destruct (Nat.eqb_spec i k) as [->|N3].
      * intros Eg [= <-] X Y. apply (Ap j g a N1 Eg Y X).
      * intros Eg Eg'. apply (W4 j k); assumption.
Qed.

Lemma new_ok m fs ss internal p w wi noint v m' o : WF m fs ss -> construct cuda m internal p v = Some (m', o) ->
  window_ok w -> (noint = false -> window_ok wi /\ wglob wi = wglob w) ->
  WF m' (fs ++ [DF o w wi noint]) (ss ++ [SF (Seen p v [] false) w wi noint]).
Proof.
  intros [W1 W2 W3 W4] C Wo Io. pose proof (construct_R arr cuda m internal p v m' o C) as HR.
  assert (B : exists b, m' = fst (fresh m b) /\ forall a, In a (addrs o) -> a = nextb m).
  { unfold construct in C. destruct (fst p); [|destruct cuda; [|discriminate]|discriminate].
    - injection C as <- <-. eexists. split; [reflexivity|]. intros a [<-|[]]. reflexivity.
    - destruct internal; injection C as <- <-; (eexists; split; [reflexivity|]; intros a [<-|[]]; reflexivity). }
  destruct B as (b & -> & B).
  assert (Nx : nextb (fst (fresh m b)) = S (nextb m)) by reflexivity.
  assert (Old : forall i f a, nth_error fs i = Some f -> In a (addrs (d_obj f)) -> blocks (fst (fresh m b)) a = blocks m a).
  { intros i f a E X. specialize (W3 _ _ _ E X). cbn. destruct (Nat.eqb_spec a (nextb m)); [lia|reflexivity]. }
  assert (Sp : forall i f, nth_error (fs ++ [DF o w wi noint]) i = Some f -> nth_error fs i = Some f \/ i = length fs /\ f = DF o w wi noint).
  { intros i f E. destruct (Nat.lt_ge_cases i (length fs)) as [L|L]; [rewrite nth_error_app1 in E by exact L; auto|].
    rewrite nth_error_app2 in E by exact L. right. destruct (i - length fs)%nat as [|k] eqn:D; [|destruct k; discriminate].
    injection E as <-. split; [lia|reflexivity]. }
  constructor.
  - rewrite !app_length. cbn. lia.
  - intros i f s Ef Es. destruct (Sp i f Ef) as [E|[-> ->]].
    + pose proof (nth_lt _ _ _ E) as L. rewrite nth_error_app1 in Es by lia. destruct (W2 _ _ _ E Es) as (h & K). exists h.
      destruct K as [K0 K1 K2 K3 K4 K5]. constructor; try assumption. apply (R_frame arr cuda m); [exact K0|lia|]. intros a X. apply (Old i f); assumption.
    + rewrite nth_error_app2 in Es by lia. rewrite W1, Nat.sub_diag in Es. injection Es as <-. exists (nextb m). constructor; try reflexivity; assumption.
  - intros i f a Ef X. destruct (Sp i f Ef) as [E|[-> ->]]; [specialize (W3 _ _ _ E X); lia|]. cbn in X. apply B in X. lia.
  - intros i j f g a N Ef Eg X Y. destruct (Sp i f Ef) as [E|[-> ->]], (Sp j g Eg) as [E'|[-> ->]].
    + exact (W4 _ _ _ _ _ N E E' X Y).
    + apply B in Y. specialize (W3 _ _ _ E X). lia.
    + apply B in X. specialize (W3 _ _ _ E' Y). lia.
    + congruence.
Qed.

(** operator= *)
Lemma home_addr m o s h : R arr cuda m o s h -> In h (addrs o).
Proof. intros HR. pose proof (r_type _ _ _ _ _ _ HR) as Ty. destruct (fst (o_home o)); [apply in_ram; tauto|apply in_ext; tauto|contradiction]. Qed.
Lemma copy_ok m d sd hd hs v : RF T cuda m d sd hd -> s_locked (sf_seen sd) = false -> holds arr m hs (fun _ => True) v ->
  exists m', copy_block m (Some hd) (Some hs) = Ok m' /\ RF T cuda m' d (set_values sd v) hd /\ frame arr m (d_obj d) m' (d_obj d).
Proof.
  intros [HR H1 H2 H3 H4 H5] L (p & g & E & _). destruct (write_home T cuda _ _ _ _ v HR L) as (p' & g' & B & HR' & F).
  unfold copy_block, memcpy. rewrite B, E. cbn [cb_at cb_from cb_val]. eexists. split; [reflexivity|]. split; [|exact F].
  constructor; try assumption. cbn. rewrite L. exact HR'.
Qed.
Lemma set_values_self (s : sfield T) : set_values s (s_values (sf_seen s)) = s.
Proof. destruct s as [[] ? ? ?]. reflexivity. Qed.

Lemma assign_ok m fs ss i j d s sd sv : WF m fs ss -> nth_error fs i = Some d -> nth_error fs j = Some s ->
  nth_error ss i = Some sd -> nth_error ss j = Some sv -> s_locked (sf_seen sd) = false -> sf_win sd = sf_win sv ->
  exists m', assign cuda m d s = Ok m' /\ WF m' fs (set_nth ss i (set_values sd (s_values (sf_seen sv)))).
Proof.
  intros W Ed Es Esd Esv L Ew. destruct (w_rf _ _ _ W _ _ _ Ed Esd) as (hd & Hd). destruct (w_rf _ _ _ W _ _ _ Es Esv) as (hs & Hs).
  pose proof Hd as [Rd D1 _ _ _ _]. pose proof Hs as [Rs S1 _ _ _ _].
  assert (Same : i = j -> WF m fs (set_nth ss i (set_values sd (s_values (sf_seen sv))))).
  { intros ->. assert (sv = sd) as -> by congruence. rewrite set_values_self, set_nth_same by exact Esd. exact W. }
  assert (Diff : hd <> hs -> exists m', copy_block m (Some hd) (Some hs) = Ok m' /\ WF m' fs (set_nth ss i (set_values sd (s_values (sf_seen sv))))).
  { intros N. destruct (copy_ok m d sd hd hs _ Hd L (r_h _ _ _ _ _ _ Rs)) as (m' & E & H' & F). exists m'. split; [exact E|].
    rewrite <- (set_nth_same fs i d Ed). apply (WF_step m fs ss i d sd m' d _ hd W Ed Esd H' F). }
  assert (Ij : hd = hs -> i = j).
  { intros ->. destruct (Nat.eq_dec i j) as [E|N]; [exact E|exfalso]. apply (w_apart _ _ _ W _ _ _ _ hs N Ed Es); [apply (home_addr _ _ _ _ Rd)|apply (home_addr _ _ _ _ Rs)]. }
  unfold assign. rewrite (lock_of T cuda _ _ _ _ Hd), L. rewrite D1, S1, (proj2 (win_eqb_spec _ _) Ew). cbn [negb].
  pose proof (r_type _ _ _ _ _ _ Rd) as Td. pose proof (r_type _ _ _ _ _ _ Rs) as Ts.
  destruct (fst (o_home (d_obj d))) eqn:Pd; [| |contradiction]; destruct (fst (o_home (d_obj s))) eqn:Ps; try contradiction.
  - unfold values_ptr. rewrite (proj1 Td), (proj1 Ts). cbn [ptr_eqb]. destruct (Nat.eqb_spec hd hs) as [E|N]; [|apply Diff, N].
    exists m. split; [reflexivity|]. apply Same, Ij, E.
  - destruct Ts as (Ts & Ec & _). rewrite Ec. unfold values_ptr. rewrite (proj1 Td), Ts. apply Diff. intros E.
    pose proof (Ij E). subst j. assert (s = d) as -> by congruence. congruence.
  - destruct Td as (Td & Ec & _). rewrite Ec. unfold values_ptr. rewrite (proj1 Ts), Td. apply Diff. intros E.
    pose proof (Ij E). subst j. assert (s = d) as -> by congruence. congruence.
  - destruct Td as (Td & Ec & _). rewrite Ec, Td, (proj1 Ts). cbn [ptr_eqb]. destruct (Nat.eqb_spec hd hs) as [E|N].
    + pose proof (Ij E). subst j. assert (s = d) as -> by congruence. rewrite Nat.eqb_refl. cbn [andb]. exists m. split; [reflexivity|]. apply Same. reflexivity.
    + rewrite andb_false_r. apply Diff, N.
Qed.

Lemma action_ok m fs ss a ss' r : WF m fs ss -> windows_ok a -> expect_a cuda ss a = Some (ss', r) ->
  exists m' fs', do_faction cuda (m, fs) a = Some ((m', fs'), r) /\ WF m' fs' ss'.
Proof.
  intros W Wo. destruct a as [internal p w wi noint v|i c|i j]; cbn [expect_a do_faction].
  - assert (C : place_ok cuda p = has (construct cuda m internal p v)).
    { unfold place_ok, construct. destruct (fst p); [reflexivity| |reflexivity]. destruct cuda; [|reflexivity]. destruct internal; reflexivity. }
    rewrite C. destruct (construct cuda m internal p v) as [[m' o]|] eqn:E; cbn [has]; intros [= <- <-].
    + eexists _, _. split; [reflexivity|]. destruct Wo as [W1 W2]. apply (new_ok m fs ss internal p w wi noint v m' o W E W1 W2).
    + eexists _, _. split; [reflexivity|exact W].
  - destruct (nth_error ss i) as [s|] eqn:Es; [|discriminate].
    destruct (nth_error fs i) as [f|] eqn:Ef.
    2:{ apply nth_error_None in Ef. pose proof (nth_lt _ _ _ Es). rewrite (w_len _ _ _ W) in Ef. lia. }
    destruct (expect_f cuda s c) as [[s1 r1]|] eqn:Ex; [|discriminate]. intros [= <- <-].
    destruct (w_rf _ _ _ W _ _ _ Ef Es) as (h & H). destruct (fcall_ok T cuda m f s h c s1 r1 H Ex) as (m' & f' & -> & H' & F).
    eexists _, _. split; [reflexivity|]. apply (WF_step m fs ss i f s m' f' s1 h W Ef Es H' F).
  - destruct (nth_error ss i) as [sd|] eqn:Esd; [|discriminate]. destruct (nth_error ss j) as [sv|] eqn:Esv; [|discriminate].
    destruct (nth_error fs i) as [d|] eqn:Ed.
    2:{ apply nth_error_None in Ed. pose proof (nth_lt _ _ _ Esd). rewrite (w_len _ _ _ W) in Ed. lia. }
    destruct (nth_error fs j) as [s|] eqn:Es.
    2:{ apply nth_error_None in Es. pose proof (nth_lt _ _ _ Esv). rewrite (w_len _ _ _ W) in Es. lia. }
    destruct (w_rf _ _ _ W _ _ _ Ed Esd) as (hd & Hd). destruct (w_rf _ _ _ W _ _ _ Es Esv) as (hs & Hs).
    destruct (s_locked (sf_seen sd)) eqn:L.
    + intros [= <- <-]. unfold assign. rewrite (lock_of T cuda _ _ _ _ Hd), L. exists m, fs. auto.
    + destruct (win_eqb (sf_win sd) (sf_win sv)) eqn:E; cbn [negb]; intros [= <- <-].
      * apply win_eqb_spec in E. destruct (assign_ok m fs ss i j d s sd sv W Ed Es Esd Esv L E) as (m' & -> & W'). exists m', fs. auto.
      * unfold assign. rewrite (lock_of T cuda _ _ _ _ Hd), L. destruct Hd as [_ -> _ _ _ _], Hs as [_ -> _ _ _ _]. rewrite E. exists m, fs. auto.
Qed.

Lemma actions_ok l : forall m fs ss rs, WF m fs ss -> Forall windows_ok l -> expect_as cuda ss l = Some rs -> do_factions cuda (m, fs) l = Some rs.
Proof.
  induction l as [|a l IH]; intros m fs ss rs W Wo; [exact (fun H => H)|]. cbn [expect_as do_factions].
  inversion Wo as [|? ? W1 W2]; subst. destruct (expect_a cuda ss a) as [[ss' r]|] eqn:E; [|discriminate].
  destruct (action_ok m fs ss a ss' r W W1 E) as (m' & fs' & -> & W').
  destruct (expect_as cuda ss' l) as [rs'|] eqn:E'; [|discriminate]. intros [= <-]. rewrite (IH m' fs' ss' rs' W' W2 E'). reflexivity.
Qed.
Lemma WF_start : WF empty_mem [] [].
Proof. constructor; [reflexivity| | |]; intros [|i]; intros; discriminate. Qed.
Lemma devices_replies (l : list (faction T)) rs : Forall windows_ok l -> expect_as cuda [] l = Some rs -> do_factions cuda no_fields l = Some rs.
Proof. intros. apply (actions_ok l empty_mem [] []); [apply WF_start|assumption|assumption]. Qed.

(** the state after some actions *)
Lemma after_WF l : forall m fs ss ss', WF m fs ss -> Forall windows_ok l -> after cuda ss l = Some ss' -> exists m' fs', WF m' fs' ss'.
Proof.
  induction l as [|a l IH]; intros m fs ss ss' W Wo; [intros [= <-]; exists m, fs; exact W|]. cbn [after].
  inversion Wo as [|? ? W1 W2]; subst. destruct (expect_a cuda ss a) as [[s1 r]|] eqn:E; [|discriminate]. intros H.
  destruct (action_ok m fs ss a s1 r W W1 E) as (m' & fs' & _ & W'). apply (IH m' fs' s1 ss' W' W2 H).
Qed.
Lemma expect_as_app l : forall ss l' rs ss', expect_as cuda ss l = Some rs -> after cuda ss l = Some ss' ->
  expect_as cuda ss (l ++ l') = option_map (app rs) (expect_as (T := T) cuda ss' l').
Proof.
  induction l as [|a l IH]; intros ss l' rs ss'; cbn [expect_as after app].
  - intros [= <-] [= <-]. destruct (expect_as cuda ss l'); reflexivity.
  - destruct (expect_a cuda ss a) as [[s1 r]|]; [|discriminate]. destruct (expect_as cuda s1 l) as [rs1|] eqn:E; [|discriminate].
    intros [= <-] A. rewrite (IH s1 l' rs1 ss' E A). destruct (expect_as cuda ss' l'); reflexivity.
Qed.
Lemma after_expected l : forall ss rs, expect_as cuda ss l = Some rs -> exists ss' : list (sfield T), after cuda ss l = Some ss'.
Proof.
  induction l as [|a l IH]; intros ss rs; [exists ss; reflexivity|]. cbn [expect_as after]. destruct (expect_a cuda ss a) as [[s1 r]|]; [|discriminate].
  destruct (expect_as cuda s1 l) as [rs1|] eqn:E; [|discriminate]. intros _. apply (IH s1 rs1 E).
Qed.
Lemma home_available m fs ss i (s : sfield T) : WF m fs ss -> nth_error ss i = Some s -> forall v : arr, available (Seen (s_home (sf_seen s)) v (s_also (sf_seen s)) (s_locked (sf_seen s))) (s_home (sf_seen s)) = true.
Proof.
  intros W Es v. destruct (nth_error fs i) as [f|] eqn:Ef.
  2:{ apply nth_error_None in Ef. pose proof (nth_lt _ _ _ Es). rewrite (w_len _ _ _ W) in Ef. lia. }
  destruct (w_rf _ _ _ W _ _ _ Ef Es) as (h & [HR _ _ _ _ _]). pose proof (r_type _ _ _ _ _ _ HR) as Ty. rewrite (r_home _ _ _ _ _ _ HR) in Ty.
  unfold available. cbn [s_home]. destruct (s_home (sf_seen s)) as [[| |] k]; cbn [same_memory fst] in *; [reflexivity|rewrite Nat.eqb_refl; reflexivity|contradiction].
Qed.
Lemma seen_eta (s : seen arr) : Seen (s_home s) (s_values s) (s_also s) (s_locked s) = s.
Proof. destruct s. reflexivity. Qed.
(** an assignment, whatever the devices *)
Lemma assign_any l rs ss i j (d s : sfield T) : Forall windows_ok l -> expect_as cuda [] l = Some rs -> after cuda [] l = Some ss ->
  nth_error ss i = Some d -> nth_error ss j = Some s -> s_locked (sf_seen d) = false -> sf_win d = sf_win s ->
  do_factions cuda no_fields (l ++ [Assign i j; On i (Basic (Read (s_home (sf_seen d)))); On j (Basic (Read (s_home (sf_seen s))))])
  = Some (rs ++ [FNothing; FArray (s_values (sf_seen s)); FArray (s_values (sf_seen s))]).
Proof.
  intros Wo Ex Af Ed Es L Ew. apply devices_replies.
  { apply Forall_app. split; [exact Wo|]. repeat (constructor; [exact I|]). constructor. }
  rewrite (expect_as_app l [] _ rs ss Ex Af). destruct (after_WF l _ _ _ _ WF_start Wo Af) as (m & fs & W).
  pose proof (home_available _ _ _ _ _ W Ed) as Ad. pose proof (home_available _ _ _ _ _ W Es) as As.
  pose proof (nth_lt _ _ _ Ed) as Ld. cbn [expect_as expect_a]. rewrite Ed, Es, L, (proj2 (win_eqb_spec _ _) Ew). cbn [negb].
  rewrite nth_set_nth, Nat.eqb_refl by exact Ld. cbn [expect_f expect sf_seen set_values s_values].
  rewrite Ad. cbn [of_reply]. rewrite nth_set_nth by (rewrite length_set_nth; exact Ld).
  destruct (Nat.eqb_spec i j) as [->|N].
  - assert (s = d) as -> by congruence. cbn [sf_seen set_values s_values]. rewrite Ad. reflexivity.
  - rewrite nth_set_nth by exact Ld. rewrite (proj2 (Nat.eqb_neq i j) N), Es. cbn [expect_f expect].
    specialize (As (s_values (sf_seen s))). rewrite seen_eta in As. rewrite As. reflexivity.
Qed.

(** what [put] does *)
Lemma fold_put_other w (g : ivec -> T) ps : forall v i, (forall p, In p ps -> addr w p <> i) ->
  fold_left (fun v p => put1 v (addr w p) (g p)) ps v i = v i.
Proof.
  induction ps as [|q ps IH]; intros v i N; [reflexivity|]. cbn [fold_left]. rewrite IH by (intros; apply N; right; assumption).
  unfold put1. destruct (Z.eqb_spec i (addr w q)) as [->|]; [exfalso; apply (N q); [left; reflexivity|reflexivity]|reflexivity].
Qed.
Lemma put_inside w (g : ivec -> T) v p : fits w -> in_box (wext w) p -> put w g v (addr w p) = g p.
Proof.
  intros F B. unfold put. assert (H : forall ps v, NoDup ps -> (forall q, In q ps -> in_box (wext w) q) -> In p ps ->
    fold_left (fun v p => put1 v (addr w p) (g p)) ps v (addr w p) = g p).
  { induction ps as [|q ps IH]; intros u N A I; [destruct I|]. cbn [fold_left]. inversion N as [|? ? N1 N2]; subst. destruct I as [->|I].
    - rewrite fold_put_other; [unfold put1; rewrite Z.eqb_refl; reflexivity|]. intros q Q E.
      apply (addr_inj w q p F) in E; [subst; contradiction|apply A; right; exact Q|exact B].
    - apply IH; [exact N2|intros; apply A; right; assumption|exact I]. }
  apply H; [apply box_points_NoDup|intros q; apply in_box_points|apply in_box_points, B].
Qed.
Lemma put_outside w (g : ivec -> T) v i : (forall p, in_box (wext w) p -> addr w p <> i) -> put w g v i = v i.
Proof. intros N. apply fold_put_other. intros p P. apply N, in_box_points, P. Qed.
End S.
