(** A thread ends with the handles that its program says. *)
From Coq Require Import Sorting.Permutation.
From Verif Require Import Prelude PoolM PoolS PoolP PtrM PtrP ConcM ConcS ConcP ConcQ ConcR ConcT.

(** The operation a thread is in the middle of. *)
Definition pending (p : pc) : list cop :=
  match p with
  | PIdle => []
  | PLock j | PIn j _ => match j with CGet n => [SGet n] | CRestore k => [HDrop k] | CNew n => [FNew n] | CDel k => [FDel k] end
  | PLoad up k | PStore up k _ => [if up then HCopy k else HDrop k]
  | PTest k | PDelete k => [HDrop k]
  end.
Definition matches (H : list hdl) (l : list (nat * Z)) : Prop :=
  map hpts H = map snd l /\
  forall j k A B x y, nth_error H j = Some A -> nth_error H k = Some B -> nth_error l j = Some x -> nth_error l k = Some y ->
    (hcnt A = hcnt B <-> fst x = fst y).
Definition follows (prog : list cop) (t : thr) : Prop :=
  exists next l, matches (thdl t) l /\ (forall x, In x l -> (fst x < next)%nat) /\ leaves 0 [] prog = leaves next l (pending (tpc t) ++ tops t).

Lemma matches_length H l : matches H l -> length H = length l.
Proof. intros [E _]. apply (f_equal (@length Z)) in E. rewrite !map_length in E. exact E. Qed.
Lemma nth_end {A} (l : list A) x j y : nth_error (l ++ [x]) j = Some y -> (j < length l)%nat /\ nth_error l j = Some y \/ j = length l /\ y = x.
Proof.
  intros E. destruct (Nat.lt_ge_cases j (length l)) as [L|L].
  - rewrite nth_error_app1 in E by exact L. auto.
  - rewrite nth_error_app2 in E by exact L. destruct (j - length l)%nat as [|m] eqn:D; cbn in E; [injection E as <-; right; split; [lia|reflexivity]|].
    destruct m; discriminate.
Qed.
Lemma matches_get H l b a n next : matches H l -> (forall x, In x l -> (fst x < next)%nat) -> (forall A, In A H -> hcnt A <> a) ->
  matches (H ++ [Hdl b a n]) (l ++ [(next, n)]).
Proof.
  intros M F N. pose proof (matches_length _ _ M) as L. destruct M as [E S]. split; [rewrite !map_app, E; reflexivity|].
  intros j k A B x y EA EB Ex Ey. apply nth_end in EA, EB, Ex, Ey.
  destruct EA as [[LA EA]|[-> ->]], EB as [[LB EB]|[-> ->]], Ex as [[Lx Ex]|[? ->]], Ey as [[Ly Ey]|[? ->]]; try lia; cbn [hcnt fst].
  - exact (S j k A B x y EA EB Ex Ey).
  - apply nth_error_In in EA, Ex. specialize (N A EA). specialize (F x Ex). split; [contradiction|lia].
  - apply nth_error_In in EB, Ey. specialize (N B EB). specialize (F y Ey). split; [intros Q; symmetry in Q; contradiction|lia].
Qed.
Lemma matches_copy H l k C z : matches H l -> nth_error H k = Some C -> nth_error l k = Some z -> matches (H ++ [C]) (l ++ [z]).
Proof.
  intros M EC Ez. pose proof (matches_length _ _ M) as L. destruct M as [E S]. split.
  - rewrite !map_app, E. cbn. f_equal. f_equal. assert (Q : nth_error (map hpts H) k = nth_error (map snd l) k) by congruence.
    rewrite (map_nth_error hpts _ _ EC), (map_nth_error snd _ _ Ez) in Q. congruence.
  - intros i j A B x y EA EB Ex Ey. apply nth_end in EA, EB, Ex, Ey.
    destruct EA as [[LA EA]|[-> ->]], EB as [[LB EB]|[-> ->]], Ex as [[Lx Ex]|[? ->]], Ey as [[Ly Ey]|[? ->]]; try lia.
    + exact (S i j A B x y EA EB Ex Ey).
    + exact (S i k A C x z EA EC Ex Ez).
    + exact (S k j C B z y EC EB Ez Ey).
Qed.
Lemma nth_remove {A} (l : list A) k j : nth_error (remove_nth l k) j = if (j <? k)%nat then nth_error l j else nth_error l (S j).
Proof.
  unfold remove_nth. revert l j. induction k as [|k IH]; intros l j.
  - destruct l; [destruct j; reflexivity|reflexivity].
  - destruct l as [|x l]; [destruct j as [|j]; [reflexivity|]; destruct (S j <? S k)%nat; reflexivity|]. destruct j as [|j]; [reflexivity|].
    change ((S j <? S k)%nat) with ((j <? k)%nat). cbn [firstn skipn app nth_error]. rewrite IH. destruct l; cbn [skipn]; reflexivity.
Qed.
Lemma map_remove {A B} (f : A -> B) l k : map f (remove_nth l k) = remove_nth (map f l) k.
Proof. unfold remove_nth. rewrite map_app, firstn_map, skipn_map. reflexivity. Qed.
Lemma matches_drop H l k : matches H l -> matches (remove_nth H k) (remove_nth l k).
Proof.
  intros [E S]. split; [rewrite !map_remove, E; reflexivity|].
  intros i j A B x y. rewrite !nth_remove. destruct (i <? k)%nat, (j <? k)%nat; apply S.
Qed.
Lemma in_remove {A} (l : list A) k x : In x (remove_nth l k) -> In x l.
Proof. apply remove_nth_incl. Qed.

Lemma move_follows prog s w a t s' t' : thread_ok s w t -> (in_pool t -> busy w s t) -> fresh s a -> follows prog t -> move a s t = Some (Ok (s', t')) -> follows prog t'.
Proof.
  intros [K1 K2 K3 K4 K5 K6] Bz [_ Fr] (next & l & M & F & E). destruct t as [h f o p]. cbn [tfld tops thdl tpc] in *. subst f.
  pose proof (matches_length _ _ M) as Lh. unfold move. cbn [tpc thdl tfld tops].
  assert (Keep : forall p' o', pending p' ++ o' = pending p ++ o -> follows prog (Thr h [] o' p')).
  { intros p' o' Eq. exists next, l. cbn [tpc tops thdl]. rewrite Eq. auto. }
  assert (Drop : forall k o', pending p ++ o = HDrop k :: o' -> follows prog (Thr (remove_nth h k) [] o' PIdle)).
  { intros k o' Eq. exists next, (remove_nth l k). cbn [tpc tops thdl pending app]. split; [apply matches_drop; exact M|]. split; [intros x I; apply F; eapply in_remove; exact I|].
    rewrite E, Eq. reflexivity. }
  destruct p as [|j|j q|up k|up k z|k|k].
  - destruct o as [|op r]; [discriminate|]. intros [= _ <-]. inversion K2 as [|? ? Ho Hr]; subst.
    destruct op as [n|k|k|n|k]; cbn in Ho; try contradiction; cbn [go thdl tfld tops].
    + apply Keep. reflexivity.
    + destruct (nth_error h k) as [C|] eqn:Ek; [apply Keep; reflexivity|]. exists next, l. cbn [tpc tops thdl pending app] in *. split; [exact M|]. split; [exact F|].
      rewrite E. cbn [leaves]. apply nth_error_None in Ek. rewrite (proj2 (nth_error_None l k)) by lia. reflexivity.
    + destruct (nth_error h k) as [C|] eqn:Ek; [apply Keep; reflexivity|]. exists next, l. cbn [tpc tops thdl pending app] in *. split; [exact M|]. split; [exact F|].
      rewrite E. cbn [leaves]. apply nth_error_None in Ek. unfold remove_nth. rewrite firstn_all2, skipn_all2, app_nil_r by lia. reflexivity.
  - destruct (smut s); [discriminate|]. destruct j; try discriminate.
    + intros [= _ <-]. apply Keep. reflexivity.
    + destruct (nth_error h k); [|discriminate]. intros [= _ <-]. apply Keep. reflexivity.
  - destruct q as [m|m|m|m|m|k|k|k|k b|k|k b|b|b|b m|b k|]; cbn [pool_move obind].
    1-11, 13-15: try (destruct (queue _ _); try discriminate); try (destruct (lower_bound _ _) as [[? ?]|]; try discriminate);
         try (destruct (ppad _ =? 0)); intros [= _ <-]; apply Keep; reflexivity.
    + destruct j as [n|k|n|k]; cbn [pc_ok tpc] in K6; try contradiction.
      * intros [= _ <-]. exists (S next), (l ++ [(next, n)]). cbn [tpc tops thdl pending app]. split; [|split].
        -- apply matches_get; [exact M|exact F|]. intros A I Ea. rewrite <- Ea, (K5 A I) in Fr. discriminate.
        -- intros x I. apply in_app_iff in I. destruct I as [I|[<-|[]]]; [specialize (F x I); lia|cbn; lia].
        -- rewrite E. reflexivity.
      * destruct Bz as (H & _ & B); [exists (CRestore k), (QGot b); reflexivity|]. unfold at_put in B. destruct B as [_ B]. contradiction.
    + destruct j as [n|k|n|k]; try discriminate.
      * intros [= _ <-]. apply Keep. reflexivity.
      * cbn in K6. contradiction.
  - destruct (nth_error h k) as [C|]; [|discriminate]. destruct (aget (scnt s) (hcnt C)); [|discriminate]. intros [= _ <-]. apply Keep. reflexivity.
  - destruct (nth_error h k) as [C|] eqn:Ek; [|discriminate]. destruct (aget (scnt s) (hcnt C)); [|discriminate]. destruct up; intros [= _ <-].
    + destruct (nth_error l k) as [x|] eqn:El; [|apply nth_error_None in El; assert (k < length h)%nat by (apply nth_error_Some; congruence); lia].
      exists next, (l ++ [x]). cbn [tpc tops thdl pending app] in *. split; [eapply matches_copy; eassumption|]. split.
      * intros y I. apply in_app_iff in I. destruct I as [I|[<-|[]]]; [exact (F y I)|]. apply F. eapply nth_error_In. exact El.
      * rewrite E. cbn [leaves]. rewrite El. reflexivity.
    + apply Keep. reflexivity.
  - destruct (nth_error h k) as [C|]; [|discriminate]. destruct (aget (scnt s) (hcnt C)) as [z|]; [|discriminate]. destruct (z =? 0); intros [= _ <-]; [apply Keep; reflexivity|].
    apply Drop. reflexivity.
  - destruct (nth_error h k) as [C|]; [|discriminate]. destruct (aget (scnt s) (hcnt C)) as [z|]; [|discriminate]. intros [= _ <-]. apply Drop. reflexivity.
Qed.

Lemma cset_other {A} (l : list A) i x j : i <> j -> nth_error (cset l i x) j = nth_error l j \/ nth_error l i = None.
Proof.
  intros N. destruct (nth_error l i) as [t0|] eqn:E; [|auto]. left. rewrite (cset_nth l i x t0 j E).
  destruct (i =? j)%nat eqn:Q; [apply Nat.eqb_eq in Q; congruence|reflexivity].
Qed.
Lemma reach_follows w progs st : history w -> Forall (Forall store_op) progs -> creach (conc_start w progs) st ->
  forall i t p, nth_error (cthr st) i = Some t -> nth_error progs i = Some p -> follows p t.
Proof.
  intros Hw Fo R. induction R as [|x y R IH St].
  - intros i t p Ht Hp. cbn in Ht. rewrite (map_nth_error _ _ _ Hp) in Ht. injection Ht as <-.
    exists 0%nat, []. cbn [tpc tops thdl pending app]. split; [|split; [intros ? []|reflexivity]].
    split; [reflexivity|]. intros j k A B u v EA. destruct j; discriminate.
  - destruct (reach_inv _ _ _ Hw Fo R) as (w1 & C).
    inversion St as [s ts i0 t0 a s' t' Hi Fr E|]; subst. cbn [csh cthr] in *.
    intros i t p Ht Hp. destruct (Nat.eq_dec i0 i) as [->|N].
    + pose proof (cset_nth ts i t' t0 i Hi) as Q. rewrite Nat.eqb_refl in Q. rewrite Q in Ht. injection Ht as <-.
      eapply move_follows; [exact (c_thr _ _ _ _ C i t0 Hi)| |exact Fr|exact (IH i t0 p Hi Hp)|exact E].
      intros Ip. exact (proj1 (proj2 (lock_held _ _ _ _ _ (c_lock _ _ _ _ C) Hi Ip))).
    + destruct (cset_other ts i0 t' i N) as [Q|Q]; [|congruence]. rewrite Q in Ht. exact (IH i t p Ht Hp).
Qed.
Lemma conc_handles w progs st : history w -> Forall (Forall store_op) progs -> creach (conc_start w progs) st ->
  forall i t p, nth_error (cthr st) i = Some t -> nth_error progs i = Some p -> ended t ->
  map hpts (thdl t) = map snd (leaves 0 [] p) /\ forall j k H H' x y, nth_error (thdl t) j = Some H -> nth_error (thdl t) k = Some H' ->
    nth_error (leaves 0 [] p) j = Some x -> nth_error (leaves 0 [] p) k = Some y -> (hblk H = hblk H' <-> fst x = fst y).
Proof.
  intros Hw Fo R i t p Ht Hp [Ei Eo]. destruct (reach_follows _ _ _ Hw Fo R i t p Ht Hp) as (next & l & [M1 M2] & _ & E).
  rewrite Ei, Eo in E. cbn in E. rewrite E. split; [exact M1|]. intros j k H H' x y EH EH' Ex Ey.
  rewrite <- (M2 j k H H' x y EH EH' Ex Ey). destruct (reach_inv _ _ _ Hw Fo R) as (w1 & C). symmetry.
  apply (k_same _ _ _ (c_thr _ _ _ _ C i t Ht)); eapply nth_error_In; eassumption.
Qed.
Lemma reach_length w progs st : creach (conc_start w progs) st -> length (cthr st) = length progs.
Proof.
  intros R. induction R as [|x y R IH St]; [apply map_length|]. inversion St as [s ts i t a s' t' Hi Fr E|]; subst. cbn in *.
  destruct (cset_split ts i t Hi) as (l1 & l2 & E1 & _ & Ec). rewrite Ec. rewrite E1 in IH. rewrite app_length in *. cbn in *. exact IH.
Qed.
(** Programs that drop all their handles: at the end of any run all is given back. *)
Lemma conc_balanced w progs st : history w -> Forall (Forall store_op) progs -> Forall (fun p => leaves 0 [] p = []) progs ->
  creach (conc_start w progs) st -> (forall t, In t (cthr st) -> ended t) ->
  scnt (csh st) = [] /\ pool_active (spl (csh st)) = pool_active (wpool w) /\ exists w', history w' /\ wpool w' = spl (csh st) /\ Permutation (wout w') (wout w).
Proof.
  intros Hw Fo Fb R E. apply (conc_returned w progs st Hw Fo R). intros t I. split; [exact (proj1 (E t I))|].
  apply In_nth_error in I. destruct I as (i & Ht). destruct (nth_error progs i) as [p|] eqn:Hp.
  - destruct (conc_handles _ _ _ Hw Fo R i t p Ht Hp (E t (nth_error_In _ _ Ht))) as [M _]. rewrite Forall_forall in Fb.
    rewrite (Fb p (nth_error_In _ _ Hp)) in M. destruct (thdl t); [reflexivity|discriminate M].
  - apply nth_error_None in Hp. rewrite <- (reach_length _ _ _ R) in Hp. assert (i < length (cthr st))%nat by (apply nth_error_Some; congruence). lia.
Qed.
