(** Proofs: fields on several devices against the specification. *)
From Verif Require Import Prelude WindowM WindowS WindowP ConsumerM ConsumerS ConsumerP DevFldM DevFldS DevFldP.

Section S.
Variable T : Type.
Variable cuda : bool.
Notation arr := (Z -> T).
Notation R := (R arr cuda).

Record RF (m : cmem arr) (f : dfield) (s : sfield T) (h : nat) : Prop := MkRF {
  rf_r : R m (d_obj f) (sf_seen s) h;
  rf_win : d_win f = sf_win s;
  rf_int : d_int f = sf_int s;
  rf_noint : d_noint f = sf_noint s;
  rf_ok : window_ok (sf_win s);
  rf_iok : sf_noint s = false -> window_ok (sf_int s) /\ wglob (sf_int s) = wglob (sf_win s) }.

Lemma home_ptr m o s h : R m o s h -> pointer cuda o (o_home o) = Some h.
Proof.
  intros HR. pose proof (r_type _ _ _ _ _ _ HR) as Ty. unfold pointer.
  destruct (fst (o_home o)) eqn:E; [tauto| |contradiction]. destruct Ty as (E1 & -> & _). rewrite place_eqb_refl. exact E1.
Qed.
Lemma write_home m o s h v : R m o s h -> s_locked s = false ->
  exists p g, blocks m h = Some (CBlock p g (Some (s_values s))) /\
    R (bset m h (Some (CBlock p g (Some v)))) o (Seen (s_home s) v (s_also s) false) h /\
    frame arr m o (bset m h (Some (CBlock p g (Some v)))) o.
Proof.
  intros HR L. pose proof (home_ptr _ _ _ _ HR) as P. destruct (r_h _ _ _ _ _ _ HR) as (p & g & E & _). exists p, g. split; [exact E|].
  destruct (call_ok arr cuda m o s h (Write (o_home o) v) HR) as (m' & o' & r & C & _ & HR').
  pose proof (call_frame _ _ _ _ _ _ _ _ C) as F. cbn [do_call] in C. unfold write_at in C.
  rewrite (r_lock _ _ _ _ _ _ HR), L, P, E in C. cbn [cb_at cb_from] in C. injection C as <- <- _.
  cbn [expect] in HR'. rewrite L in HR'. pose proof (pointer_ok arr cuda m o s h (o_home o) HR) as A. rewrite P in A. rewrite (proj1 A) in HR'.
  split; [exact HR'|exact F].
Qed.

(** the pointer on the CPU *)
Lemma cpu_ptr m f s h : RF m f s h ->
  match values_ptr f with
  | Some a => on_cpu s = true /\ exists p g, blocks m a = Some (CBlock p g (Some (s_values (sf_seen s))))
  | None => on_cpu s = false
  end.
Proof.
  intros [HR _ _ _ _ _]. pose proof (pointer_ok arr cuda _ _ _ _ (LOCAL_RAM, 0%nat) HR) as P. unfold pointer in P. cbn [fst] in P.
  unfold values_ptr, on_cpu. destruct (o_ram (d_obj f)) as [a|]; [|exact P]. destruct P as [P1 P2]. split; [exact P1|].
  destruct (addr_holds arr cuda _ _ _ _ a HR P2) as (p & g & E & _). exists p, g. exact E.
Qed.
Lemma on_ram_ptr m f s h : RF m f s h -> on_ram f = true -> values_ptr f = Some h /\ fst (s_home (sf_seen s)) = LOCAL_RAM.
Proof.
  intros [HR _ _ _ _ _] E. unfold on_ram in E. rewrite <- (r_home _ _ _ _ _ _ HR). pose proof (r_type _ _ _ _ _ _ HR) as Ty.
  destruct (fst (o_home (d_obj f))); try discriminate. split; [apply Ty|reflexivity].
Qed.
Lemma on_ram_home m f s h : RF m f s h -> on_ram f = match fst (s_home (sf_seen s)) with LOCAL_RAM => true | _ => false end.
Proof. intros [HR _ _ _ _ _]. unfold on_ram. rewrite <- (r_home _ _ _ _ _ _ HR). destruct (fst (o_home (d_obj f))); reflexivity. Qed.
Lemma readable m f s h : RF m f s h -> on_ram f || has (values_ptr f) = on_cpu s.
Proof.
  intros H. pose proof (cpu_ptr _ _ _ _ H) as P. pose proof (on_ram_ptr _ _ _ _ H) as Q.
  destruct (values_ptr f) as [a|]; cbn [has].
  - destruct P as [-> _]. apply orb_true_r.
  - rewrite P, orb_false_r. destruct (on_ram f); [|reflexivity]. destruct (Q eq_refl); discriminate.
Qed.
Lemma lock_of m f s h : RF m f s h -> o_ro (d_obj f) = s_locked (sf_seen s).
Proof. intros [HR _ _ _ _ _]. apply (r_lock _ _ _ _ _ _ HR). Qed.
(** not read-only and not on the CPU: no CPU copy *)
Lemma unlocked_far m f s h : RF m f s h -> on_ram f = false -> s_locked (sf_seen s) = false -> on_cpu s = false.
Proof.
  intros H E L. pose proof (cpu_ptr _ _ _ _ H) as P. destruct H as [HR _ _ _ _ _]. pose proof (r_open _ _ _ _ _ _ HR L) as O.
  unfold copies, ram_copy in O. unfold on_ram in E. pose proof (r_type _ _ _ _ _ _ HR) as Ty. unfold values_ptr in P.
  destruct (fst (o_home (d_obj f))); [discriminate| |contradiction]. destruct (o_ram (d_obj f)); [discriminate|exact P].
Qed.
Lemma writable_ok m f s h : RF m f s h -> writable_here s = on_ram f && negb (o_ro (d_obj f)).
Proof.
  intros H. unfold writable_here. rewrite (on_ram_home _ _ _ _ H), (lock_of _ _ _ _ H). destruct (fst (s_home (sf_seen s))); reflexivity.
Qed.

(** ** Reading *)
Lemma load_at m (f : dfield) a i v p g : blocks m a = Some (CBlock p g (Some v)) -> 0 <= i < glob_npts (d_win f) -> load (T := T) m f (Some a) i = Ok (v i).
Proof. intros E I. unfold load. rewrite E. cbn [cb_val]. unfold inside. replace ((0 <=? i) && (i <? glob_npts (d_win f))) with true by lia. reflexivity. Qed.
Lemma glob_same w w' : wglob w = wglob w' -> glob_npts w = glob_npts w'.
Proof. unfold glob_npts. intros ->. reflexivity. Qed.
Lemma load_points m f a v p g w : blocks m a = Some (CBlock p g (Some v)) -> fits w -> wglob w = wglob (d_win f) ->
  forall ps, (forall q, In q ps -> in_box (wext w) q) ->
  load_all (T := T) m f (Some a) (map (iter_pt 0 w) ps) = Ok (map (fun q => v (addr w q)) ps).
Proof.
  intros E F G. induction ps as [|q ps IH]; intros H; [reflexivity|]. cbn [map load_all].
  pose proof (addr_range w q F (H q (or_introl eq_refl))) as B. rewrite (glob_same _ _ G) in B.
  change (icur (iter_pt 0 w q)) with (0 + addr w q). rewrite Z.add_0_l.
  rewrite (load_at m f a _ v p g E B). cbn [obind]. rewrite IH by (intros; apply H; right; assumption). reflexivity.
Qed.
Lemma loop_points w : window_ok w -> exists e, it_end 0 w = Ok e /\
  it_loop (Z.to_nat (local_npts w)) (it_begin 0 w) e = Some (map (iter_pt 0 w) (box_points (wext w))).
Proof.
  intros [F (A & B & C)]. destruct (it_loop_visits 0 w F) as (e & E & L); [repeat split; assumption|]. exists e. split; [exact E|].
  pose proof (box_points_length (wext w) ltac:(lia) ltac:(lia) ltac:(lia)) as N. unfold local_npts.
  replace (Z.to_nat _) with (length (box_points (wext w))) by lia. exact L.
Qed.
Lemma read_loop_ok m f a v p g w : blocks m a = Some (CBlock p g (Some v)) -> window_ok w -> wglob w = wglob (d_win f) ->
  read_loop (T := T) m f w (Ok (Some a, it_begin 0 w)) (iter_end (Some a) w) = Ok (elements w v).
Proof.
  intros E W G. destruct (loop_points w W) as (e & Ee & L). unfold read_loop, iter_end. rewrite Ee. cbn [obind fst snd positions]. unfold positions. cbn [snd].
  rewrite L. cbn [obind]. apply (load_points m f a v p g w E (proj1 W) G). intros q. apply in_box_points.
Qed.

(** ** Writing *)
Lemma store_ok m f s h i x : RF m f s h -> on_ram f = true -> s_locked (sf_seen s) = false -> 0 <= i < glob_npts (d_win f) ->
  exists m', store m f (values_ptr f) i x = Ok m' /\ RF m' f (set_values s (put1 (s_values (sf_seen s)) i x)) h /\ frame arr m (d_obj f) m' (d_obj f).
Proof.
  intros H E L I. destruct (on_ram_ptr _ _ _ _ H E) as [P _]. destruct H as [HR H1 H2 H3 H4 H5].
  destruct (write_home _ _ _ _ (put1 (s_values (sf_seen s)) i x) HR L) as (p & g & B & HR' & F). rewrite P. unfold store. rewrite B. cbn [cb_val cb_at cb_from].
  unfold inside. replace ((0 <=? i) && (i <? glob_npts (d_win f))) with true by lia. eexists. split; [reflexivity|]. split; [|exact F].
  constructor; try assumption. cbn. rewrite L. exact HR'.
Qed.
Lemma store_points f g w : fits w -> wglob w = wglob (d_win f) -> forall ps, (forall q, In q ps -> in_box (wext w) q) ->
  forall m s h, RF m f s h -> on_ram f = true -> s_locked (sf_seen s) = false ->
  exists m', store_all m f (values_ptr f) g (map (iter_pt 0 w) ps) = Ok m' /\
    RF m' f (set_values s (fold_left (fun v p => put1 v (addr w p) (g p)) ps (s_values (sf_seen s)))) h /\ frame arr m (d_obj f) m' (d_obj f).
Proof.
  intros F G. induction ps as [|q ps IH]; intros B m s h H E L.
  - exists m. split; [reflexivity|]. split; [|apply frame_refl]. destruct H as [HR H1 H2 H3 H4 H5]. constructor; try assumption. cbn. destruct (sf_seen s). exact HR.
  - cbn [map store_all]. pose proof (addr_range w q F (B q (or_introl eq_refl))) as A. rewrite (glob_same _ _ G) in A.
    change (icur (iter_pt 0 w q)) with (0 + addr w q). rewrite Z.add_0_l.
    replace (it_location (iter_pt 0 w q)) with q by (destruct q; reflexivity).
    destruct (store_ok m f s h _ (g q) H E L A) as (m1 & -> & H1 & F1). cbn [obind].
    destruct (IH (fun r I => B r (or_intror I)) m1 _ h H1 E L) as (m2 & S2 & H2 & F2).
    exists m2. split; [exact S2|]. split; [exact H2|]. apply (frame_trans _ _ _ _ _ _ _ F1 F2).
Qed.
Lemma write_loop_ok m f s h w g : RF m f s h -> on_ram f = true -> s_locked (sf_seen s) = false -> window_ok w -> wglob w = wglob (d_win f) ->
  exists m', write_loop m f w (Ok (values_ptr f, it_begin 0 w)) (iter_end (values_ptr f) w) g = Ok m' /\
    RF m' f (set_values s (put w g (s_values (sf_seen s)))) h /\ frame arr m (d_obj f) m' (d_obj f).
Proof.
  intros H E L W G. destruct (loop_points w W) as (e & Ee & Lo). unfold write_loop, iter_end. rewrite Ee. cbn [obind fst snd]. unfold positions. cbn [snd].
  rewrite Lo. cbn [obind]. apply (store_points f g w (proj1 W) G); try assumption. intros q. apply in_box_points.
Qed.

Lemma in_boxb_ok e p : in_boxb e p = true -> in_box e p.
Proof. unfold in_boxb, in_box. lia. Qed.

Definition good (m : cmem arr) (f : dfield) (s' : sfield T) (h : nat) (r : freply T) (x : option (cmem arr * dfield * freply T)) : Prop :=
  exists m' f', x = Some (m', f', r) /\ RF m' f' s' h /\ frame arr m (d_obj f) m' (d_obj f').
Lemma good_same m f s h r : RF m f s h -> good m f s h r (Some (m, f, r)).
Proof. intros H. exists m, f. split; [reflexivity|]. split; [exact H|apply frame_refl]. Qed.

Lemma fcall_ok m f s h c s' r : RF m f s h -> expect_f cuda s c = Some (s', r) -> good m f s' h r (do_fcall cuda m f c).
Proof.
  intros H. pose proof (readable _ _ _ _ H) as Rd. pose proof (cpu_ptr _ _ _ _ H) as Cp. pose proof (writable_ok _ _ _ _ H) as Wr.
  pose proof (lock_of _ _ _ _ H) as Lk. pose proof (unlocked_far _ _ _ _ H) as Far. pose proof H as [HR Ew Ei En Wo Io].
  destruct c as [c| | | |p|i|g|g|p x|i x]; cbn [expect_f do_fcall].
  - destruct (expect cuda (sf_seen s) c) as [s1 r1] eqn:E. intros [= <- <-].
    destruct (call_ok arr cuda _ _ _ _ c HR) as (m' & o' & r' & D & -> & HR'). rewrite E in HR', D. cbn [fst snd] in *.
    pose proof (call_frame _ _ _ _ _ _ _ _ D) as F. rewrite D. exists m', (with_obj f o'). split; [reflexivity|]. split; [|exact F].
    constructor; assumption.
  - unfold cbegin, cend. rewrite Rd. destruct (on_cpu s) eqn:Oc.
    + intros [= <- <-]. destruct (values_ptr f) as [a|]; [|discriminate]. destruct Cp as [_ (p & g & B)].
      cbn [has negb]. rewrite andb_false_r. cbn [andb]. rewrite (read_loop_ok m f a _ p g (d_win f) B); [|rewrite Ew; exact Wo|reflexivity].
      rewrite Ew. apply good_same, H.
    + intros [= <- <-]. match goal with |- context [if ?b then Throw else _] => destruct b end; apply good_same, H.
  - unfold cibegin, ciend. rewrite En. destruct (sf_noint s) eqn:Ni; [intros [= <- <-]; apply good_same, H|].
    rewrite Rd. destruct (on_cpu s) eqn:Oc.
    + intros [= <- <-]. destruct (values_ptr f) as [a|]; [|discriminate]. destruct Cp as [_ (p & g & B)].
      cbn [has negb]. rewrite andb_false_r. destruct (Io eq_refl) as [I1 I2].
      rewrite (read_loop_ok m f a _ p g (d_int f) B); [|rewrite Ei; exact I1|rewrite Ei, Ew; exact I2].
      rewrite Ei. apply good_same, H.
    + intros [= <- <-]. match goal with |- context [if ?b then Throw else _] => destruct b end; apply good_same, H.
  - unfold cbegin. destruct (on_cpu s) eqn:Oc; cbn [negb andb].
    + intros [= <- <-]. destruct (values_ptr f) as [a|]; [|discriminate]. destruct Cp as [_ (p & g & B)].
      cbn [has negb]. rewrite andb_false_r. cbn [andb obind fst snd].
      assert (Q : in_box (wext (sf_win s)) (IV 0 0 0)) by (destruct Wo as [_ (? & ? & ?)]; unfold in_box; cbn; lia).
      pose proof (addr_range _ _ (proj1 Wo) Q) as A.
      replace (icur (it_begin 0 (d_win f))) with (addr (sf_win s) (IV 0 0 0)) by (rewrite Ew; unfold addr, it_begin, it_make; cbn [icur ix iy iz]; ring).
      rewrite (load_at m f a _ _ p g B) by (rewrite Ew; exact A). apply good_same, H.
    + destruct (s_locked (sf_seen s)) eqn:Ls; [discriminate|]. intros [= <- <-].
      assert (Or : on_ram f = false) by (apply orb_false_iff in Rd; apply Rd).
      assert (Hp : has (values_ptr f) = false) by (apply orb_false_iff in Rd; apply Rd).
      rewrite Or, Hp, Lk. apply good_same, H.
  - unfold at_const. rewrite Rd. destruct (on_cpu s) eqn:Oc; [|intros [= <- <-]; apply good_same, H].
    destruct (in_boxb _ p) eqn:Ib; [|discriminate]. intros [= <- <-]. apply in_boxb_ok in Ib.
    destruct (values_ptr f) as [a|]; [|discriminate]. destruct Cp as [_ (q & g & B)].
    rewrite Ew, flat_index_addr by (apply Wo || exact Ib). pose proof (addr_range _ _ (proj1 Wo) Ib) as A.
    rewrite (load_at m f a _ _ q g B) by (rewrite Ew; exact A). apply good_same, H.
  - unfold nth_const. destruct (on_cpu s) eqn:Oc.
    + destruct (in_blockb _ i) eqn:Ib; [|discriminate]. intros [= <- <-].
      destruct (values_ptr f) as [a|]; [|discriminate]. destruct Cp as [_ (q & g & B)].
      cbn [has negb]. rewrite orb_false_r, Lk.
      assert (negb (on_ram f) && negb (s_locked (sf_seen s)) = false) as ->.
      { destruct (on_ram f); [reflexivity|]. destruct (s_locked (sf_seen s)); [reflexivity|]. specialize (Far eq_refl eq_refl). discriminate. }
      rewrite (load_at m f a _ _ q g B) by (rewrite Ew; unfold in_blockb in Ib; unfold glob_npts; lia). apply good_same, H.
    + intros [= <- <-]. apply orb_false_iff in Rd. destruct Rd as [_ ->]. cbn [negb]. rewrite orb_true_r. apply good_same, H.
  - rewrite Wr. unfold nbegin, nend. rewrite Lk. destruct (on_ram f) eqn:Or; cbn [negb andb].
    + destruct (s_locked (sf_seen s)) eqn:Ls; cbn [negb]; [intros [= <- <-]; apply good_same, H|]. intros [= <- <-].
      destruct (write_loop_ok m f s h (d_win f) g H Or Ls) as (m' & E & H' & F); [rewrite Ew; exact Wo|reflexivity|].
      rewrite E. exists m', f. split; [reflexivity|]. split; [|exact F]. rewrite Ew in H'. exact H'.
    + intros [= <- <-]. destruct (s_locked (sf_seen s)); apply good_same, H.
  - unfold nibegin, niend. rewrite En. destruct (sf_noint s) eqn:Ni; [intros [= <- <-]; apply good_same, H|].
    rewrite Wr, Lk. destruct (on_ram f) eqn:Or; cbn [negb andb].
    + destruct (s_locked (sf_seen s)) eqn:Ls; cbn [negb]; [intros [= <- <-]; apply good_same, H|]. intros [= <- <-].
      destruct (Io eq_refl) as [I1 I2].
      destruct (write_loop_ok m f s h (d_int f) g H Or Ls) as (m' & E & H' & F); [rewrite Ei; exact I1|rewrite Ei, Ew; exact I2|].
      rewrite E. exists m', f. split; [reflexivity|]. split; [|exact F]. rewrite Ei in H'. exact H'.
    + intros [= <- <-]. destruct (s_locked (sf_seen s)); apply good_same, H.
  - rewrite Wr. unfold at_write. rewrite Lk. destruct (s_locked (sf_seen s)) eqn:Ls; cbn [negb]; [rewrite andb_false_r; intros [= <- <-]; apply good_same, H|].
    rewrite andb_true_r. destruct (on_ram f) eqn:Or; [|intros [= <- <-]; apply good_same, H].
    destruct (in_boxb _ p) eqn:Ib; [|discriminate]. intros [= <- <-]. apply in_boxb_ok in Ib.
    rewrite Ew, flat_index_addr by (apply Wo || exact Ib). pose proof (addr_range _ _ (proj1 Wo) Ib) as A. rewrite <- (glob_same _ _ (f_equal wglob Ew)) in A.
    destruct (store_ok m f s h _ x H Or Ls A) as (m' & -> & H' & F). exists m', f. auto.
  - rewrite Wr. unfold nth_write. rewrite Lk. destruct (s_locked (sf_seen s)) eqn:Ls; cbn [negb]; [rewrite andb_false_r; intros [= <- <-]; apply good_same, H|].
    rewrite andb_true_r. destruct (on_ram f) eqn:Or; [|intros [= <- <-]; apply good_same, H].
    destruct (in_blockb _ i) eqn:Ib; [|discriminate]. intros [= <- <-].
    assert (A : 0 <= i < glob_npts (d_win f)) by (rewrite Ew; unfold in_blockb in Ib; unfold glob_npts; lia).
    destruct (store_ok m f s h _ x H Or Ls A) as (m' & -> & H' & F). exists m', f. auto.
Qed.
End S.
