(** Assignments that read their destination at a shift. *)
From Verif Require Import Prelude WindowM WindowS WindowP GhostM FieldM FieldS FieldP MaskM MaskS MaskP NeboM NeboS NeboP NeboQ NeboA NeboB NeboC NeboD.

Section NeboG.
Variable V : Type.
Variable vadd vmul : V -> V -> V.
Notation expr := (expr V). Notation bexpr := (bexpr V). Notation heap := (heap V).
Notation denote := (denote V vadd vmul).
Notation reads := (reads V). Notation masks := (masks V). Notation singles := (singles V).
Notation in_turn := (in_turn V vadd vmul).

Section Box.
Variable lo ext : ivec.
Hypothesis Ex : 0 < ix ext.
Hypothesis Ey : 0 < iy ext.
Hypothesis Ez : 0 < iz ext.
Variable h0 : heap.
Notation wat h := (wat V vadd vmul lo ext h false).
Notation bwat h := (bwat V vadd vmul lo ext h false).
Notation pt := (pt lo ext). Notation npts := (npts ext).
Notation box_hi := (box_hi lo ext).

(** The walk depends on the heap only through single-value fields. *)
Lemma wat_heap h h' k :
  (forall e s, (forall g, In g (singles e) -> bdata (h (fbuf g)) 0 = bdata (h' (fbuf g)) 0) -> wat h e s k = wat h' e s k) /\
  (forall e s, (forall g, In g (bsingles V e) -> bdata (h (fbuf g)) 0 = bdata (h' (fbuf g)) 0) -> bwat h e s k = bwat h' e s k).
Proof.
  apply expr_bexpr_ind; cbn [NeboP.wat NeboP.bwat NeboS.singles NeboS.bsingles]; intros.
  - reflexivity.
  - reflexivity.
  - f_equal. apply H. left. reflexivity.
  - f_equal. auto.
  - f_equal; [apply H|apply H0]; intros; apply H1; apply in_app_iff; auto.
  - f_equal; [apply H|apply H0|apply H1]; intros; apply H2; rewrite !in_app_iff; auto.
  - rewrite (H (iv_add s p0)) by assumption. generalize (WOp2 V vmul (wat h' a (iv_add s p0) k) (WConst V c0)).
    induction rest as [|x rest IH]; intros w; cbn [fold_left]; [reflexivity|]. rewrite (H (iv_add s (fst x))) by assumption. apply IH.
  - rewrite (H (iv_add s p0)) by assumption. generalize (wat h' a (iv_add s p0) k).
    induction rest as [|x rest IH]; intros w; cbn [fold_left]; [reflexivity|]. rewrite (H (iv_add s x)) by assumption. apply IH.
  - reflexivity.
  - reflexivity.
  - f_equal; [apply H|apply H0]; intros; apply H1; apply in_app_iff; auto.
  - f_equal; [apply H|apply H0]; intros; apply H1; apply in_app_iff; auto.
  - f_equal; [apply H|apply H0]; intros; apply H1; apply in_app_iff; auto.
  - f_equal. auto.
  - auto.
Qed.

Variable f : field.
Notation lhswin := (lhswin lo ext f).
Hypothesis Fl : fits lhswin.
Variable e : expr.
Notation rd_all := (rd_all V lo ext e). Notation wr_all := (wr_all lo ext f).
Hypothesis Rok : forall g s p, In (g, s) (reads e iv_zero) -> in_region lo box_hi p ->
  bcells (h0 (fbuf g)) (cell g (iv_add p s)) = true.
Hypothesis Mok : mk_ok lo ext (masks e iv_zero).
Hypothesis Wok : forall p, in_region lo box_hi p -> bcells (h0 (fbuf f)) (cell f p) = true.
Hypothesis Sok : forall g, In g (singles e) -> fbuf g <> fbuf f.

Lemma zrange_from k n : 0 <= k -> map (fun j => k + j) (zrange (Z.of_nat (S n))) = k :: map (fun j => (k + 1) + j) (zrange (Z.of_nat n)).
Proof.
  intros H. unfold zrange. rewrite !Nat2Z.id. cbn [seq map]. f_equal; [lia|].
  rewrite <- seq_shift, !map_map. apply map_ext. intros a. lia.
Qed.

Lemma inplace_loop (rd wr : nat -> Z -> Prop) n : forall k fuel h,
  (forall b i, rd_all b i -> rd b i) -> (forall b i, wr_all b i -> wr b i) ->
  0 <= k -> k + Z.of_nat n = npts -> (n <= fuel)%nat ->
  (forall b i, bcells (h b) i = bcells (h0 b) i) -> (forall b, b <> fbuf f -> h b = h0 b) ->
  solo rd wr
    (assign_loop V fuel (fbuf f) (iter_at 0 lhswin k) (iter_at 0 lhswin npts) (wat h0 e iv_zero k)) h
    (in_turn f e (map pt (map (fun j => k + j) (zrange (Z.of_nat n)))) h) tt.
Proof.
  induction n as [|n IH]; intros k fuel h Hrd Hwr Hk Hn Hf A1 A2.
  - assert (k = npts) by lia. subst k.
    destruct fuel; cbn [assign_loop]; rewrite iter_at_eqb by (assumption || lia); rewrite Z.eqb_refl; apply solo_ret.
  - destruct fuel as [|fuel]; [lia|]. cbn [assign_loop].
    rewrite iter_at_eqb by (assumption || lia). destruct (k =? npts) eqn:E; [lia|]. clear E.
    assert (Hkk : 0 <= k < npts) by lia.
    assert (Hreg : in_region lo box_hi (pt k)) by (apply pt_region; eauto).
    rewrite zrange_from by lia. cbn [map]. unfold NeboS.in_turn. cbn [fold_left].
    fold (in_turn f e (map pt (map (fun j => k + 1 + j) (zrange (Z.of_nat n)))) (upd h (fbuf f) (cell f (pt k)) (denote h e (pt k)))).
    set (v := denote h e (pt k)).
    assert (Sev : solo rd wr (eval V (wat h0 e iv_zero k)) h h v).
    { unfold v. rewrite <- (iv_add_0_r (pt k)). rewrite (proj1 (wat_heap h0 h k)).
      2:{ intros g I. rewrite A2 by (apply Sok, I). reflexivity. }
      apply eval_wat_all; [assumption..| |exact Mok].
      intros g s I. split; [apply Hrd; exists g, s, (pt k); auto|].
      split; [rewrite A1; apply Rok; assumption|reflexivity]. }
    eapply solo_bind; [exact Sev|].
    rewrite lhs_icur by assumption. apply solo_store; [rewrite A1; apply Wok; exact Hreg|apply Hwr; split; eauto|].
    rewrite iter_at_incr by assumption.
    rewrite (proj1 (next_wat_all V vadd vmul lo ext Ex Ey h0 false)); [|lia|intros m s I; apply (Mok m s I)].
    apply IH; auto; try lia.
    + intros b i. unfold upd. destruct (Nat.eqb b (fbuf f)); apply A1.
    + intros b B. unfold upd. apply Nat.eqb_neq in B. rewrite B. apply A2. apply Nat.eqb_neq, B.
Qed.

Lemma inplace_walk fl fuel : fwin fl = lhswin -> fbuf fl = fbuf f -> freadonly fl = false ->
  (Z.to_nat npts <= fuel)%nat ->
  solo rd_all wr_all (assign_walk V fuel fl (wat h0 e iv_zero 0)) h0 (in_turn f e (map pt (zrange npts)) h0) tt.
Proof.
  intros Ew Eb Er Hf. pose proof (npts_pos ext Ex Ey Ez) as N.
  unfold assign_walk, field_begin, field_end. rewrite Er, Ew, Eb.
  rewrite (it_end_at 0 lhswin Ex Ey) by (cbn; lia). cbn [lift pbind].
  unfold it_begin. rewrite (iter_at_0 0 lhswin Ex Ey).
  pose proof (inplace_loop rd_all wr_all (Z.to_nat npts) 0 fuel h0) as L.
  rewrite Z2Nat.id in L by lia. rewrite (map_ext _ (fun j => j)) in L by (intros; lia). rewrite map_id in L.
  apply L; auto; lia.
Qed.
End Box.

Lemma core_inplace n h f e useGhost rg lg :
  operands_ok V n h e -> destination_ok V n h f -> (forall g, In g (singles e) -> fbuf g <> fbuf f) ->
  assign_ghosts V useGhost f e = Ok (rg, lg) ->
  gminus lg = gminus rg -> gplus lg = iv_sub (gplus rg) (has_extra (fbc f)) ->
  (forall p, box_of n rg p -> any_cell n f p /\ expr_known V n e p) ->
  0 < ix (box_ext n rg) -> 0 < iy (box_ext n rg) -> 0 < iz (box_ext n rg) ->
  forall fuel, (Z.to_nat (npts (box_ext n rg)) <= fuel)%nat ->
  solo (rd_valid V n e) (wr_of f (box_of n rg)) (sequential_assign V vadd vmul fuel useGhost f e) h
    (in_turn f e (map (pt (box_lo rg) (box_ext n rg)) (zrange (npts (box_ext n rg)))) h) tt.
Proof.
  intros (Ro & Mo & So) (Df & Dr & Dc) Al Eg Lm Lp K Ex Ey Ez fuel Hf.
  set (lo := box_lo rg) in *. set (ext := box_ext n rg) in *.
  assert (KV : forall g s p, In (g, s) (reads e iv_zero) -> in_region lo (box_hi lo ext) p -> valid_cell n g (iv_add p s)).
  { intros g s p I P. eapply known_read; [apply K; apply box_of_eq; exact P|exact I]. }
  assert (KM : forall k s p, In (k, s) (masks e iv_zero) -> in_region lo (box_hi lo ext) p -> valid_cell n (mgeo k) (iv_add p s)).
  { intros k s p I P. eapply known_mask; [apply K; apply box_of_eq; exact P|exact I]. }
  assert (KA : forall p, in_region lo (box_hi lo ext) p -> any_cell n f p).
  { intros p P. apply K. apply box_of_eq. exact P. }
  assert (Fl : fits (lhswin lo ext f)).
  { destruct Df as (_ & _ & W & _ & _ & _ & _ & _ & (FG & FO & FE)).
    assert (K0 := KA lo). assert (K1 := KA (iv_sub (box_hi lo ext) (IV 1 1 1))).
    unfold any_cell, reach, in_region, box_hi, fits, grown, iv_le, lhswin, pos_dims in *; cbn [wglob woff wext] in *.
    clearbody lo ext. cbn in *. rewrite W in FG, FO, FE. cbn in *.
    specialize (K0 ltac:(lia)). specialize (K1 ltac:(lia)). lia. }
  assert (MF : forall k s, In (k, s) (masks e iv_zero) -> fits (leafwin lo ext (mgeo k) s)).
  { intros k s I. apply (leaf_fits n); [exact (proj1 (Mo k s I))|assumption..|]. intros p P. exact (KM k s p I P). }
  assert (E1 : lo = iv_neg (gminus rg)) by reflexivity.
  assert (E2 : ext = iv_add (iv_add n (gminus rg)) (gplus rg)) by reflexivity.
  pose proof (inplace_walk lo ext Ex Ey Ez h f Fl e) as S.
  specialize (S ltac:(intros g s p I P; apply (Ro g s I); apply (KV g s p I P))).
  specialize (S ltac:(intros k s I; split; [apply MF; exact I|apply (Mo k s I)])).
  specialize (S ltac:(intros p P; apply Dc, KA, P) Al (reset_valid_ghosts f (mk_ghost (gminus lg) (gplus lg))) fuel).
  assert (W1 : fwin (reset_valid_ghosts f (mk_ghost (gminus lg) (gplus lg))) = lhswin lo ext f).
  { destruct Df as (_ & _ & W & E & _). unfold reset_valid_ghosts, lhswin; cbn [fwin]. rewrite E.
    apply win_ext; cbn [wglob woff wext grown mk_ghost gminus gplus]; [reflexivity| |]; rewrite ?E1, ?E2, ?W, Lm, ?Lp; iv_solve. }
  specialize (S W1 eq_refl Dr Hf).
  unfold NeboM.sequential_assign. eapply solo_bind; [apply solo_lift; exact Eg|]. cbv beta iota.
  eapply solo_bind.
  - apply (proj1 (init_all V vadd vmul lo ext Ex Ey Ez h (rd_valid V n e) (wr_of f (box_of n rg)) (gminus rg) (gplus rg) false)).
    + intros g s I. apply (leaf_window n); [apply (Ro g s I)|exact E1|exact E2].
    + intros k s I. split; [apply (leaf_window n); [apply (Mo k s I)|exact E1|exact E2]|apply MF; exact I].
    + intros g I. split; [apply So; exact I|]. right. eauto.
  - eapply solo_mono; [| |exact S].
    + intros b i (g & s & p & I & P & -> & ->). left. exists g, s, (iv_add p s). repeat split; auto; apply (KV g s p I P).
    + intros b i (-> & p & P & ->). split; [reflexivity|]. exists p. split; [apply box_of_eq; exact P|reflexivity].
Qed.

Lemma assign_in_turn n h f e :
  operands_ok V n h e -> destination_ok V n h f -> (forall g, In g (singles e) -> fbuf g <> fbuf f) ->
  covers_extra V f e -> (exists p, region V n f e p) ->
  exists N l, lists_in_order (region V n f e) l /\ forall fuel, (N <= fuel)%nat ->
    run (fst (nebo_assign V vadd vmul fuel f e)) h = RDone (in_turn f e l h) tt.
Proof.
  intros O D Al Cx (p0 & P0). destruct (assign_ghosts_region V n h f e O (proj1 D) Cx) as (rg & lg & E & L1 & L2 & B).
  destruct (box_nonempty n rg p0 (proj2 (B p0) P0)) as (Ex & Ey & Ez).
  exists (Z.to_nat (npts (box_ext n rg))), (map (pt (box_lo rg) (box_ext n rg)) (zrange (npts (box_ext n rg)))). split.
  - eapply lists_ext; [|apply box_list; assumption]. intros p. rewrite <- box_of_eq. apply B.
  - intros fuel Hf. eapply solo_run.
    exact (core_inplace n h f e true rg lg O D Al E L1 L2 (fun p H => proj1 (B p) H) Ex Ey Ez fuel Hf).
Qed.
End NeboG.
