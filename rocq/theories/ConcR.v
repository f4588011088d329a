From Coq Require Import Sorting.Permutation.
From Verif Require Import Prelude PoolM PoolS PoolP PtrM PtrP ConcM ConcS ConcP ConcQ.

Lemma quiet w0 s ts w s' i t t' : cinv w0 s ts w -> nth_error ts i = Some t ->
  thdl t' = thdl t -> tfld t' = tfld t -> Forall store_op (tops t') -> scnt s' = scnt s -> counted t' = counted t -> held t' = held t ->
  pc_ok s' t' -> lock_inv s' (cset ts i t') w -> cinv w0 s' (cset ts i t') w.
Proof.
  intros C Hi E1 E2 Fo E3 E4 E5 P L. destruct (c_thr _ _ _ _ C i t Hi) as [K1 K2 K3 K4 K5 K6].
  eapply upd; try eassumption.
  - constructor; rewrite ?E1, ?E2, ?E3, ?E4; assumption.
  - intros c _ _. rewrite E3. reflexivity.
  - intros H'. rewrite E1. intros I. left. exists H'. auto.
  - intros c. rewrite E3, E1. intros Nn.
    destruct (c_dom _ _ _ _ C c Nn) as (j & u & H & Hj & I & E).
    destruct (Nat.eq_dec j i) as [->|N].
    + rewrite Hi in Hj. injection Hj as <-. left. exists H. auto.
    + right. split; [exact Nn|]. intros H0 I0 E0. apply (c_sep _ _ _ _ C j i u t H H0 N Hj Hi I I0). congruence.
  - apply incl_refl.
  - exact (c_hist _ _ _ _ C).
  - rewrite E5. reflexivity.
Qed.

(** The counter of a handle is overwritten; the handles of the thread change. *)
Lemma dom_other w0 s ts w i t c : cinv w0 s ts w -> nth_error ts i = Some t -> aget (scnt s) c <> None ->
  (exists H, In H (thdl t) /\ hcnt H = c) \/ (aget (scnt s) c <> None /\ forall H, In H (thdl t) -> hcnt H <> c).
Proof.
  intros C Hi Nn. destruct (c_dom _ _ _ _ C c Nn) as (j & u & H & Hj & I & E).
  destruct (Nat.eq_dec j i) as [->|N].
  - rewrite Hi in Hj. injection Hj as <-. left. exists H. auto.
  - right. split; [exact Nn|]. intros H0 I0 E0. apply (c_sep _ _ _ _ C j i u t H H0 N Hj Hi I I0). congruence.
Qed.

Lemma not_in_idle h f o : ~ in_pool (Thr h f o PIdle).
Proof. intros (j & q & E). discriminate E. Qed.

Section Step.
Variables (w0 w : world) (s : shared) (ts : list thr) (i : nat) (h : list hdl) (o : list cop) (a : nat).
Hypothesis Fr : fresh s a.

Lemma step_idle : cinv w0 s ts w -> nth_error ts i = Some (Thr h [] o PIdle) ->
  match move a s (Thr h [] o PIdle) with
  | None => o = []
  | Some (Ok (s', t')) => cinv w0 s' (cset ts i t') w
  | _ => False
  end.
Proof.
  intros C Hi. cbn. destruct o as [|op r]; [reflexivity|]. cbn.
  destruct (c_thr _ _ _ _ C i _ Hi) as [K1 K2 K3 K4 K5 K6]. cbn in *. inversion K2 as [|x l Ho Hr]; subst x l.
  assert (L : forall p, ~ in_pool (Thr h [] r p) -> lock_inv s (cset ts i (Thr h [] r p)) w).
  { intros p Np. eapply lock_frame; [exact (c_lock _ _ _ _ C)|exact Hi| |exact Np|reflexivity..]. apply not_in_idle. }
  assert (Q : forall p, match p with PIdle | PLock (CGet _) | PLoad _ _ => True | _ => False end -> pc_ok s (Thr h [] r p) ->
              cinv w0 s (cset ts i (Thr h [] r p)) w).
  { intros p Cp Po. eapply quiet; try eassumption; try reflexivity; try (destruct p as [|[]| | | | |]; try contradiction; reflexivity).
    apply L. intros (j & q & E). cbn in E. subst p. contradiction. }
  destruct op as [n|k|k|n|k]; cbn in Ho; try contradiction; cbn [go thdl tfld tops].
  - apply Q; [exact I|exact Ho].
  - destruct (nth_error h k) as [H|] eqn:E; [|apply Q; exact I]. apply Q; [exact I|]. exists H. exact E.
  - destruct (nth_error h k) as [H|] eqn:E; [|apply Q; exact I]. apply Q; [exact I|]. exists H. exact E.
Qed.

Lemma step_lock j : cinv w0 s ts w -> nth_error ts i = Some (Thr h [] o (PLock j)) ->
  match move a s (Thr h [] o (PLock j)) with
  | None => smut s = true
  | Some (Ok (s', t')) => cinv w0 s' (cset ts i t') w
  | _ => False
  end.
Proof.
  intros C Hi. unfold move. cbn [tpc]. destruct (smut s) eqn:Em; [reflexivity|].
  destruct (c_thr _ _ _ _ C i _ Hi) as [K1 K2 K3 K4 K5 K6].
  assert (Lk := c_lock _ _ _ _ C). assert (Lk' := Lk). unfold lock_inv in Lk'. rewrite Em in Lk'. destruct Lk' as (_ & Ep & Ex).
  destruct j as [n|k|n|k]; cbn in K6; try contradiction.
  - eapply quiet; try eassumption; try reflexivity. eapply lock_take; [exact Lk|exact Hi|exact Em|reflexivity|]. cbn. auto.
  - destruct K6 as (H & E1 & E2). cbn [thdl] in *. rewrite E1. eapply quiet; try eassumption; try reflexivity.
    + exists H. auto.
    + eapply lock_take; [exact Lk|exact Hi|exact Em|reflexivity|]. cbn. exists H. split; [exact E1|]. split; [exact Ex|]. auto.
Qed.

Lemma step_load up k : cinv w0 s ts w -> nth_error ts i = Some (Thr h [] o (PLoad up k)) ->
  match move a s (Thr h [] o (PLoad up k)) with
  | Some (Ok (s', t')) => cinv w0 s' (cset ts i t') w
  | _ => False
  end.
Proof.
  intros C Hi. unfold move. cbn [tpc thdl]. destruct (c_thr _ _ _ _ C i _ Hi) as [K1 K2 K3 K4 K5 K6].
  destruct K6 as (H & E1). cbn [thdl] in E1. rewrite E1. pose proof (K5 H (nth_error_In _ _ E1)) as E2. rewrite E2.
  eapply quiet; try eassumption; try reflexivity.
  - exists H. split; [exact E1|exact E2].
  - eapply lock_frame; [exact (c_lock _ _ _ _ C)|exact Hi| | |reflexivity..]; intros (j & q & E); discriminate E.
Qed.

Lemma step_up k z : cinv w0 s ts w -> nth_error ts i = Some (Thr h [] o (PStore true k z)) ->
  match move a s (Thr h [] o (PStore true k z)) with
  | Some (Ok (s', t')) => cinv w0 s' (cset ts i t') w
  | _ => False
  end.
Proof.
  intros C Hi. unfold move. cbn [tpc thdl]. destruct (c_thr _ _ _ _ C i _ Hi) as [K1 K2 K3 K4 K5 K6]. cbn [thdl tfld tops counted tpc] in *.
  destruct K6 as (H & E1 & E2). cbn [thdl] in E1. rewrite E1, E2. pose proof (nth_error_In _ _ E1) as IH.
  pose proof (K5 H IH) as E3. change (counted (Thr h [] o (PStore true k z))) with h in *. rewrite E2 in E3. injection E3 as Ez.
  assert (Sub : forall H', In H' (h ++ [H]) -> In H' h).
  { intros H'. rewrite in_app_iff. cbn. intros [I|[<-|[]]]; assumption. }
  eapply upd; try eassumption.
  - constructor; cbn [thdl tfld tops]; try assumption.
    + intros H' I. exact (K3 H' (Sub _ I)).
    + intros H' H'' I I'. exact (K4 H' H'' (Sub _ I) (Sub _ I')).
    + intros H' I. cbn [scnt with_cnt]. change (counted (Thr (h ++ [H]) [] o PIdle)) with (h ++ [H]).
      rewrite aget_aset, sharing_app, sharing_cons. change (sharing [] (hcnt H')) with 0.
      destruct (Nat.eqb_spec (hcnt H) (hcnt H')) as [E|N].
      * rewrite <- E, <- Ez. reflexivity.
      * rewrite (K5 H' (Sub _ I)). f_equal. lia.
    + exact Logic.I.
  - intros c Nc Nn. cbn [scnt with_cnt]. rewrite aget_aset. destruct (Nat.eqb_spec (hcnt H) c) as [E|N]; [destruct (Nc H IH E)|reflexivity].
  - intros H' I. left. exists H'. split; [exact (Sub _ I)|reflexivity].
  - intros c. cbn [scnt with_cnt thdl]. rewrite aget_aset. destruct (Nat.eqb_spec (hcnt H) c) as [E|N].
    + intros _. left. exists H. split; [apply in_or_app; left; exact IH|exact E].
    + intros Nn. destruct (dom_other _ _ _ _ _ _ c C Hi Nn) as [(H0 & I0 & E0)|D]; [|right; exact D].
      left. exists H0. split; [apply in_or_app; left; exact I0|exact E0].
  - apply incl_refl.
  - exact (c_hist _ _ _ _ C).
  - apply Permutation_app_tail. unfold held. cbn [tpc thdl]. apply arrays_perm. intros b. rewrite map_app, in_app_iff. cbn.
    split; [intros [I|[<-|[]]]; [exact I|apply in_map; exact IH]|auto].
  - eapply lock_frame; [exact (c_lock _ _ _ _ C)|exact Hi| | |reflexivity..]; intros (j & q & E); discriminate E.
Qed.

Lemma step_down k z : cinv w0 s ts w -> nth_error ts i = Some (Thr h [] o (PStore false k z)) ->
  match move a s (Thr h [] o (PStore false k z)) with
  | Some (Ok (s', t')) => cinv w0 s' (cset ts i t') w
  | _ => False
  end.
Proof.
  intros C Hi. unfold move. cbn [tpc thdl]. destruct (c_thr _ _ _ _ C i _ Hi) as [K1 K2 K3 K4 K5 K6]. cbn [thdl tfld tops tpc] in *.
  destruct K6 as (H & E1 & E2). cbn [thdl] in E1. rewrite E1, E2. pose proof (nth_error_In _ _ E1) as IH.
  pose proof (K5 H IH) as E3. change (counted (Thr h [] o (PStore false k z))) with h in *. rewrite E2 in E3. injection E3 as Ez.
  eapply upd; try eassumption; cbn [go thdl tfld tops].
  - constructor; cbn [thdl tfld tops]; try assumption.
    + intros H' I. cbn [scnt with_cnt]. match goal with |- context [counted ?x] => change (counted x) with (remove_nth h k) end.
      rewrite aget_aset. pose proof (sharing_remove h k H (hcnt H') E1) as R.
      destruct (Nat.eqb_spec (hcnt H) (hcnt H')) as [E|N].
      * rewrite <- E in *. f_equal. lia.
      * rewrite (K5 H' I). f_equal. lia.
    + exists H. exact E1.
  - intros c Nc Nn. cbn [scnt with_cnt]. rewrite aget_aset. destruct (Nat.eqb_spec (hcnt H) c) as [E|N]; [destruct (Nc H IH E)|reflexivity].
  - intros H' I. left. exists H'. auto.
  - intros c. cbn [scnt with_cnt thdl]. rewrite aget_aset. destruct (Nat.eqb_spec (hcnt H) c) as [E|N].
    + intros _. left. exists H. auto.
    + intros Nn. exact (dom_other _ _ _ _ _ _ c C Hi Nn).
  - apply incl_refl.
  - exact (c_hist _ _ _ _ C).
  - reflexivity.
  - eapply lock_frame; [exact (c_lock _ _ _ _ C)|exact Hi| | |reflexivity..]; intros (j & q & E); discriminate E.
Qed.

Lemma step_test k : cinv w0 s ts w -> nth_error ts i = Some (Thr h [] o (PTest k)) ->
  match move a s (Thr h [] o (PTest k)) with
  | Some (Ok (s', t')) => cinv w0 s' (cset ts i t') w
  | _ => False
  end.
Proof.
  intros C Hi. unfold move. cbn [tpc thdl]. destruct (c_thr _ _ _ _ C i _ Hi) as [K1 K2 K3 K4 K5 K6]. cbn [thdl tfld tops tpc] in *.
  destruct K6 as (H & E1). cbn [thdl] in E1. rewrite E1. pose proof (nth_error_In _ _ E1) as IH.
  pose proof (K5 H IH) as E2. change (counted (Thr h [] o (PTest k))) with (remove_nth h k) in *. rewrite E2.
  destruct (Z.eqb_spec (sharing (remove_nth h k) (hcnt H)) 0) as [Z0|Z1].
  - eapply quiet; try eassumption; try reflexivity.
    + exists H. auto.
    + eapply lock_frame; [exact (c_lock _ _ _ _ C)|exact Hi| | |reflexivity..]; intros (j & q & E); discriminate E.
  - assert (Other : exists H', In H' (remove_nth h k) /\ hcnt H' = hcnt H).
    { apply sharing_ex. pose proof (sharing_pos (remove_nth h k) (hcnt H)). lia. }
    destruct Other as (H1 & I1 & EH).
    assert (Sub := remove_nth_incl h k).
    eapply upd; try eassumption; cbn [go thdl tfld tops].
    + constructor; cbn [thdl tfld tops]; try assumption.
      * intros H' I. exact (K3 H' (Sub _ I)).
      * intros H' H'' I I'. exact (K4 H' H'' (Sub _ I) (Sub _ I')).
      * intros H' I. exact (K5 H' (Sub _ I)).
      * exact Logic.I.
    + intros c Nc Nn. reflexivity.
    + intros H' I. left. exists H'. split; [exact (Sub _ I)|reflexivity].
    + intros c Nn. destruct (dom_other _ _ _ _ _ _ c C Hi Nn) as [(H0 & I0 & E0)|D]; [|right; exact D]. cbn [thdl] in I0.
      left. destruct (remove_nth_split h k H E1) as (l1 & l2 & Eh & Er). rewrite Er in I1 |- *. rewrite Eh in I0.
      apply in_app_or in I0. destruct I0 as [I0|[<-|I0]].
      * exists H0. split; [apply in_or_app; left; exact I0|exact E0].
      * exists H1. split; [exact I1|congruence].
      * exists H0. split; [apply in_or_app; right; exact I0|exact E0].
    + apply incl_refl.
    + exact (c_hist _ _ _ _ C).
    + apply Permutation_app_tail. unfold held. cbn [tpc thdl]. apply arrays_perm. intros b. split.
      * intros I. apply in_map_iff in I. destruct I as (H0 & <- & I0). apply in_map. exact (Sub _ I0).
      * intros I. apply in_map_iff in I. destruct I as (H0 & <- & I0).
        destruct (remove_nth_split h k H E1) as (l1 & l2 & Eh & Er). rewrite Er in I1 |- *. rewrite Eh in I0. cbn [thdl] in *.
        apply in_app_or in I0. destruct I0 as [I0|[<-|I0]].
        -- apply in_map. apply in_or_app. auto.
        -- apply in_map_iff. exists H1. split; [|exact I1]. apply (K4 H1 H); [|exact IH|exact EH]. apply Sub. rewrite Er. exact I1.
        -- apply in_map. apply in_or_app. auto.
    + eapply lock_frame; [exact (c_lock _ _ _ _ C)|exact Hi| | |reflexivity..]; intros (j & q & E); discriminate E.
Qed.

Lemma step_delete k : cinv w0 s ts w -> nth_error ts i = Some (Thr h [] o (PDelete k)) ->
  match move a s (Thr h [] o (PDelete k)) with
  | Some (Ok (s', t')) => cinv w0 s' (cset ts i t') w
  | _ => False
  end.
Proof.
  intros C Hi. unfold move. cbn [tpc thdl]. destruct (c_thr _ _ _ _ C i _ Hi) as [K1 K2 K3 K4 K5 K6]. cbn [thdl tfld tops tpc] in *.
  destruct K6 as (H & E1 & Z0). cbn [thdl] in *. rewrite E1. pose proof (nth_error_In _ _ E1) as IH.
  pose proof (K5 H IH) as E2. change (counted (Thr h [] o (PDelete k))) with (remove_nth h k) in *. rewrite E2.
  assert (Sub := remove_nth_incl h k).
  assert (Nh : forall H', In H' (remove_nth h k) -> hcnt H <> hcnt H').
  { intros H' I E. pose proof (sharing_in _ _ I). rewrite <- E in *. lia. }
  eapply upd; try eassumption; cbn [go thdl tfld tops].
  - constructor; cbn [thdl tfld tops]; try assumption.
    + intros H' I. exact (K3 H' (Sub _ I)).
    + intros H' H'' I I'. exact (K4 H' H'' (Sub _ I) (Sub _ I')).
    + intros H' I. cbn [scnt with_cnt]. rewrite aget_adel. destruct (Nat.eqb_spec (hcnt H) (hcnt H')) as [E|_]; [destruct (Nh _ I E)|].
      exact (K5 H' (Sub _ I)).
    + exact Logic.I.
  - intros c Nc Nn. cbn [scnt with_cnt]. rewrite aget_adel. destruct (Nat.eqb_spec (hcnt H) c) as [E|N]; [destruct (Nc H IH E)|reflexivity].
  - intros H' I. left. exists H'. split; [exact (Sub _ I)|reflexivity].
  - intros c. cbn [scnt with_cnt]. rewrite aget_adel. destruct (Nat.eqb_spec (hcnt H) c) as [E|N]; [congruence|].
    intros Nn. destruct (dom_other _ _ _ _ _ _ c C Hi Nn) as [(H0 & I0 & E0)|D]; [|right; exact D]. cbn [thdl] in I0. left. exists H0. split; [|exact E0].
    destruct (remove_nth_split h k H E1) as (l1 & l2 & Eh & Er). rewrite Er. rewrite Eh in I0.
    apply in_app_or in I0. destruct I0 as [I0|[<-|I0]]; [apply in_or_app; auto|congruence|apply in_or_app; auto].
  - apply incl_refl.
  - exact (c_hist _ _ _ _ C).
  - reflexivity.
  - eapply lock_frame; [exact (c_lock _ _ _ _ C)|exact Hi| | |reflexivity..]; intros (j & q & E); discriminate E.
Qed.

Lemma step_in j q : cinv w0 s ts w -> nth_error ts i = Some (Thr h [] o (PIn j q)) ->
  match move a s (Thr h [] o (PIn j q)) with
  | Some (Ok (s', t')) => exists w', cinv w0 s' (cset ts i t') w'
  | _ => False
  end.
Proof.
  intros C Hi. destruct (c_thr _ _ _ _ C i _ Hi) as [K1 K2 K3 K4 K5 K6]. cbn [thdl tfld tops] in *.
  assert (Ip : in_pool (Thr h [] o (PIn j q))) by (exists j, q; reflexivity).
  destruct (lock_held _ _ _ _ _ (c_lock _ _ _ _ C) Hi Ip) as (Em & B & _).
  destruct Fr as [Fm Fc].
  destruct j as [n|k|n|k]; cbn [pc_ok tpc] in K6; try contradiction.
  - (* get *)
    cbn [busy tpc] in B. destruct (match q with QGot _ => true | _ => false end) eqn:Eq.
    + destruct q as [| | | | | | | | | | |b| | | |]; try discriminate Eq. cbn [move tpc thdl tfld tops].
      destruct B as (a0 & Na & Eb & Ew & Ex).
      pose proof (get_exclusive w a0 n (c_hist _ _ _ _ C) Na K6) as G. pose proof (h_get w a0 n (c_hist _ _ _ _ C) Na K6) as Hw.
      destruct (do_get w a0 n) as [p w'] eqn:Eg. cbn [fst snd] in *. subst p. destruct G as (Nb & Eo & _ & (kk & Ik & Lk)).
      assert (Inc : incl (wmem w) (wmem w')).
      { unfold do_get in Eg. destruct (pool_get (wpool w) a0 n) as [[p0 al] pl]. injection Eg as _ <-. cbn. destruct al; [apply incl_tl|]; apply incl_refl. }
      assert (Nbh : ~ In b (map hblk h)).
      { intros I. apply Nb. eapply (held_out _ _ _ _ i); [exact C|exact Hi|]. unfold held. cbn [tpc thdl]. unfold arrays. apply nodup_In. exact I. }
      assert (Nch : forall H, In H h -> hcnt H <> a). { intros H I E. pose proof (K5 H I) as E'. rewrite E, Fc in E'. discriminate. }
      change (counted (Thr h [] o (PIn (CGet n) (QGot b)))) with h in *.
      exists w'. eapply upd; try eassumption; cbn [thdl tfld tops].
      * constructor; cbn [thdl tfld tops scnt with_mut with_cnt]; try assumption.
        -- intros H I. apply in_app_or in I. destruct I as [I|[<-|[]]].
           ++ destruct (K3 H I) as (k0 & I0 & L0). eauto.
           ++ exists kk. auto.
        -- intros H H' I I'. apply in_app_or in I, I'. destruct I as [I|[<-|[]]]; destruct I' as [I'|[<-|[]]]; cbn [hcnt hblk].
           ++ auto.
           ++ split; intros E; [destruct (Nch H I E)|]. destruct Nbh. rewrite <- E. apply in_map. exact I.
           ++ split; intros E; [destruct (Nch H' I' (eq_sym E))|]. destruct Nbh. rewrite E. apply in_map. exact I'.
           ++ tauto.
        -- intros H I. change (counted (Thr (h ++ [Hdl b a n]) [] o PIdle)) with (h ++ [Hdl b a n]).
           rewrite aget_aset, sharing_app, sharing_cons. change (sharing [] (hcnt H)) with 0. cbn [hcnt].
           apply in_app_or in I. destruct (Nat.eqb_spec a (hcnt H)) as [E|N].
           ++ rewrite <- E. assert (Z0 : sharing h a = 0); [|rewrite Z0; reflexivity].
              destruct (Z.eq_dec (sharing h a) 0) as [|Nz]; [assumption|]. exfalso. pose proof (sharing_pos h a).
              destruct (sharing_ex h a) as (H1 & I1 & E1); [lia|]. exact (Nch H1 I1 E1).
           ++ destruct I as [I|[<-|[]]]; [|destruct (N eq_refl)]. rewrite (K5 H I). f_equal. lia.
        -- exact Logic.I.
      * intros c _ Nn. cbn [scnt with_mut with_cnt]. rewrite aget_aset. destruct (Nat.eqb_spec a c) as [E|N]; [subst c; contradiction|reflexivity].
      * intros H I. apply in_app_or in I. destruct I as [I|[<-|[]]]; [left; exists H; auto|right; exact Fc].
      * intros c. cbn [scnt with_mut with_cnt]. rewrite aget_aset. destruct (Nat.eqb_spec a c) as [E|N].
        -- intros _. left. exists (Hdl b a n). split; [apply in_or_app; cbn; auto|exact E].
        -- intros Nn. destruct (dom_other _ _ _ _ _ _ c C Hi Nn) as [(H0 & I0 & E0)|D]; [|right; exact D].
           left. exists H0. split; [apply in_or_app; left; exact I0|exact E0].
      * unfold held. cbn [tpc thdl]. rewrite (arrays_new h (Hdl b a n) Nbh), Eo. cbn [hblk app]. apply Permutation_middle.
      * eapply lock_leave; [exact (c_lock _ _ _ _ C)|exact Hi|exact Ip| |reflexivity|symmetry; exact Ew|symmetry; exact Ex]. intros (j & q & E); discriminate E.
    + assert (Ng : forall b, q <> QGot b) by (intros b ->; discriminate Eq).
      destruct (get_move w n q s a B Fm Ng) as (s' & q' & E & B' & M' & N').
      assert (Em' : move a s (Thr h [] o (PIn (CGet n) q)) = Some (do r <- pool_move a s q; let '(s1, q1) := r in Ok (s1, go (Thr h [] o (PIn (CGet n) q)) (PIn (CGet n) q1)))).
      { destruct q; try reflexivity; [discriminate Eq|destruct B]. }
      rewrite Em', E. cbn. exists w. eapply quiet; try eassumption; try reflexivity.
      eapply lock_keep; [exact (c_lock _ _ _ _ C)|exact Hi|exact Ip|congruence|exact B'].
  - (* put *)
    destruct K6 as (H & E1 & Z0). cbn [busy tpc thdl] in B, E1, Z0. destruct B as (H1 & E1' & B). rewrite E1 in E1'. injection E1' as <-.
    pose proof (nth_error_In _ _ E1) as IH.
    assert (Ib : In (hblk H) (wout w)).
    { eapply (held_out _ _ _ _ i); [exact C|exact Hi|]. unfold held. cbn [tpc thdl]. apply arrays_in. exists H. auto. }
    destruct (match q with QPut => true | _ => false end) eqn:Eq.
    + destruct q; try discriminate Eq. cbn [move tpc thdl tfld tops go]. destruct B as [Ex B].
      set (w' := World (spl s) (remove1 (hblk H) (wout w)) (wmem w) (wpeak w)).
      assert (Ew : do_put w (hblk H) = Ok w') by (unfold do_put; rewrite B; reflexivity).
      exists w'. eapply upd; try eassumption; cbn [thdl tfld tops].
      * constructor; cbn [thdl tfld tops scnt with_mut]; try assumption. exists H. auto.
      * intros c _ _. reflexivity.
      * intros H' I. left. exists H'. auto.
      * intros c Nn. exact (dom_other _ _ _ _ _ _ c C Hi Nn).
      * apply incl_refl.
      * exact (h_put w (hblk H) w' (c_hist _ _ _ _ C) Ib Ew).
      * unfold held. cbn [tpc thdl wout w'].
        assert (Ph : Permutation (arrays h) (hblk H :: arrays (remove_nth h k))).
        { destruct (remove_nth_split h k H E1) as (l1 & l2 & Eh & Er). rewrite Er in *.
          assert (Nb : ~ In (hblk H) (map hblk (l1 ++ l2))).
          { intros I. apply in_map_iff in I. destruct I as (H' & Eb & I'). assert (E : hcnt H' = hcnt H).
            { apply (K4 H' H); [|exact IH|exact Eb]. rewrite Eh. rewrite in_app_iff in I' |- *. cbn. tauto. }
            pose proof (sharing_in _ _ I') as P. rewrite E in P. lia. }
          rewrite <- (arrays_new _ H Nb). apply arrays_perm. intros b. rewrite Eh, !map_app, !in_app_iff. cbn. tauto. }
        rewrite Ph. rewrite (remove1_perm (hblk H) (wout w) Ib) at 1. cbn. symmetry. apply Permutation_middle.
      * eapply lock_leave; [exact (c_lock _ _ _ _ C)|exact Hi|exact Ip| |reflexivity|reflexivity|exact Ex]. intros (j & q & E); discriminate E.
    + assert (Ng : q <> QPut) by (intros ->; discriminate Eq).
      destruct (put_move w (hblk H) q s a (c_hist _ _ _ _ C) Ib B Ng) as (s' & q' & E & B' & M' & N').
      assert (Em' : move a s (Thr h [] o (PIn (CRestore k) q)) = Some (do r <- pool_move a s q; let '(s1, q1) := r in Ok (s1, go (Thr h [] o (PIn (CRestore k) q)) (PIn (CRestore k) q1)))).
      { destruct q; try reflexivity; [destruct B as [_ []]|discriminate Eq]. }
      rewrite Em', E. cbn. exists w. eapply quiet; try eassumption; try reflexivity.
      * exists H. auto.
      * eapply lock_keep; [exact (c_lock _ _ _ _ C)|exact Hi|exact Ip|congruence|]. exists H. auto.
Qed.
End Step.

Lemma step_inv w0 w s ts i t a : cinv w0 s ts w -> fresh s a -> nth_error ts i = Some t ->
  match move a s t with
  | None => ended t \/ smut s = true /\ ~ in_pool t
  | Some (Ok (s', t')) => exists w', cinv w0 s' (cset ts i t') w'
  | _ => False
  end.
Proof.
  intros C Fr Hi. destruct (c_thr _ _ _ _ C i t Hi) as [K1 _ _ _ _ _]. destruct t as [h f o p]. cbn in K1. subst f.
  destruct p as [|j|j q|up k|up k z|k|k].
  - pose proof (step_idle w0 w s ts i h o a C Hi) as St. destruct (move _ _ _) as [[[s' t']| |]|]; try contradiction; [eauto|]. left. split; [reflexivity|exact St].
  - pose proof (step_lock w0 w s ts i h o a j C Hi) as St. destruct (move _ _ _) as [[[s' t']| |]|]; try contradiction; [eauto|].
    right. split; [exact St|]. intros (j' & q & E). discriminate E.
  - pose proof (step_in w0 w s ts i h o a Fr j q C Hi) as St. destruct (move _ _ _) as [[[s' t']| |]|]; try contradiction. exact St.
  - pose proof (step_load w0 w s ts i h o a up k C Hi) as St. destruct (move _ _ _) as [[[s' t']| |]|]; try contradiction. eauto.
  - destruct up.
    + pose proof (step_up w0 w s ts i h o a k z C Hi) as St. destruct (move _ _ _) as [[[s' t']| |]|]; try contradiction. eauto.
    + pose proof (step_down w0 w s ts i h o a k z C Hi) as St. destruct (move _ _ _) as [[[s' t']| |]|]; try contradiction. eauto.
  - pose proof (step_test w0 w s ts i h o a k C Hi) as St. destruct (move _ _ _) as [[[s' t']| |]|]; try contradiction. eauto.
  - pose proof (step_delete w0 w s ts i h o a k C Hi) as St. destruct (move _ _ _) as [[[s' t']| |]|]; try contradiction. eauto.
Qed.
