(** Proofs about single-value fields. *)
From Verif Require Import Prelude WindowM WindowS GhostM FieldM FieldS FieldP MaskM NeboM NeboS NeboP NeboQ NeboA NeboB NeboC NeboD NeboE NeboF NeboH NeboI SingleM SingleS.

Lemma check_spec w g : single_check true w g = false <->
  (1 < ix (wext w) /\ 1 < iy (wext w) /\ 1 < iz (wext w)) \/
  (0 < ix (gminus g) /\ 0 < iy (gminus g) /\ 0 < iz (gminus g) /\ 0 < ix (gplus g) /\ 0 < iy (gplus g) /\ 0 < iz (gplus g)).
Proof.
  unfold single_check. destruct (_ && _ && _) eqn:E.
  - apply andb_prop in E as [E E3]. apply andb_prop in E as [E1 E2]. rewrite Z.ltb_lt in *. split; [intros _; left; auto|reflexivity].
  - assert (N : ~ (1 < ix (wext w) /\ 1 < iy (wext w) /\ 1 < iz (wext w))).
    { intros (A & B & C). rewrite <- Z.ltb_lt in *. rewrite A, B, C in E. discriminate. }
    destruct (_ && _ && _ && _ && _ && _) eqn:F.
    + repeat (apply andb_prop in F as [F ?]). rewrite Z.ltb_lt in *. split; [intros _; right; tauto|reflexivity].
    + split; [discriminate|]. intros [H|(A & B & C & D & G & H)]; [contradiction|].
      rewrite <- Z.ltb_lt in *. rewrite A, B, C, D, G, H in F. discriminate.
Qed.

Lemma proper_shape f : proper f -> exists bx by_ bz nt,
  f = patch_field (IV 1 1 1) bx by_ bz iv_zero (ghost_n 0) (fbuf f) nt.
Proof.
  intros (d & bx & by_ & bz & buf & nt & E). exists bx, by_, bz, nt.
  assert (C : single_check d (win_full (IV 1 1 1)) (ghost_n 0) = true) by (destruct d; reflexivity).
  unfold single_make in E. rewrite C in E. injection E as <-. reflexivity.
Qed.
Lemma proper_user f : proper f -> user_field (IV 1 1 1) f.
Proof.
  intros H. destruct (proper_shape f H) as (bx & by_ & bz & nt & ->). apply uf_make.
  - repeat split; cbn; lia.
  - repeat split; cbn; lia.
  - repeat split; cbn; lia.
  - reflexivity.
  - repeat split; cbn; right; destruct bx, by_, bz; auto.
Qed.
Lemma proper_cell f p : proper f -> any_cell (IV 1 1 1) f p -> p = iv_zero /\ cell f p = 0.
Proof.
  intros H. destruct (proper_shape f H) as (bx & by_ & bz & nt & ->). destruct p as [x y z].
  unfold any_cell, reach, in_region. cbn. intros A.
  assert (x = 0 /\ y = 0 /\ z = 0) as (-> & -> & ->) by (destruct bx, by_, bz; cbn in A; lia). split; reflexivity.
Qed.
Lemma proper_at0 f : proper f -> any_cell (IV 1 1 1) f iv_zero.
Proof.
  intros H. destruct (proper_shape f H) as (bx & by_ & bz & nt & ->).
  destruct bx, by_, bz; unfold any_cell, reach, in_region; cbn; lia.
Qed.

Section P.
Variable V : Type.
Variable vadd vmul : V -> V -> V.

Lemma sv_reads fs (e : sexpr V) s : reads V (sv_expr V fs e) s = [].
Proof.
  induction e; cbn [sv_expr]; try reflexivity.
  - exact IHe.
  - change (reads V (sv_expr V fs e1) s ++ reads V (sv_expr V fs e2) s = []). rewrite IHe1, IHe2. reflexivity.
  - change ((reads V (sv_expr V fs e1) s ++ reads V (sv_expr V fs e2) s) ++ reads V (sv_expr V fs e3) s ++ reads V (sv_expr V fs e4) s = []).
    rewrite IHe1, IHe2, IHe3, IHe4. reflexivity.
Qed.
Lemma sv_masks fs (e : sexpr V) s : masks V (sv_expr V fs e) s = [].
Proof.
  induction e; cbn [sv_expr]; try reflexivity.
  - exact IHe.
  - change (masks V (sv_expr V fs e1) s ++ masks V (sv_expr V fs e2) s = []). rewrite IHe1, IHe2. reflexivity.
  - change ((masks V (sv_expr V fs e1) s ++ masks V (sv_expr V fs e2) s) ++ masks V (sv_expr V fs e3) s ++ masks V (sv_expr V fs e4) s = []).
    rewrite IHe1, IHe2, IHe3, IHe4. reflexivity.
Qed.
Lemma sv_singles fs (e : sexpr V) f : In f (singles V (sv_expr V fs e)) -> exists i, f = fs i.
Proof.
  induction e; cbn [sv_expr].
  - intros [].
  - intros [<-|[]]. eauto.
  - exact IHe.
  - change (In f (singles V (sv_expr V fs e1) ++ singles V (sv_expr V fs e2)) -> exists i, f = fs i). rewrite in_app_iff. tauto.
  - change (In f ((singles V (sv_expr V fs e1) ++ singles V (sv_expr V fs e2)) ++ singles V (sv_expr V fs e3) ++ singles V (sv_expr V fs e4)) -> exists i, f = fs i).
    rewrite !in_app_iff. tauto.
Qed.
Lemma sv_demands fs (e : sexpr V) m u x : In x (demands V (sv_expr V fs e) m u) -> x = (LConst, m, u).
Proof.
  induction e; cbn [sv_expr].
  - intros [<-|[]]. reflexivity.
  - intros [<-|[]]. reflexivity.
  - exact IHe.
  - change (In x (demands V (sv_expr V fs e1) m u ++ demands V (sv_expr V fs e2) m u) -> x = (LConst, m, u)). rewrite in_app_iff. tauto.
  - change (In x ((demands V (sv_expr V fs e1) m u ++ demands V (sv_expr V fs e2) m u) ++ demands V (sv_expr V fs e3) m u ++ demands V (sv_expr V fs e4) m u) -> x = (LConst, m, u)).
    rewrite !in_app_iff. tauto.
Qed.
Lemma sv_denote fs (e : sexpr V) h env p : (forall i, bdata (h (fbuf (fs i))) 0 = env i) ->
  denote V vadd vmul h (sv_expr V fs e) p = seval V env e.
Proof.
  intros H. induction e; cbn [sv_expr seval].
  - reflexivity.
  - apply H.
  - change (op (denote V vadd vmul h (sv_expr V fs e) p) = op (seval V env e)). rewrite IHe. reflexivity.
  - change (op (denote V vadd vmul h (sv_expr V fs e1) p) (denote V vadd vmul h (sv_expr V fs e2) p) = op (seval V env e1) (seval V env e2)).
    rewrite IHe1, IHe2. reflexivity.
  - change ((if c (denote V vadd vmul h (sv_expr V fs e1) p) (denote V vadd vmul h (sv_expr V fs e2) p)
             then denote V vadd vmul h (sv_expr V fs e3) p else denote V vadd vmul h (sv_expr V fs e4) p) =
            (if c (seval V env e1) (seval V env e2) then seval V env e3 else seval V env e4)).
    rewrite IHe1, IHe2, IHe3, IHe4. reflexivity.
Qed.

(** More fuel than enough changes nothing. *)
Lemma loop_fuel n : forall b it e w h h', run (assign_loop V n b it e w) h = RDone h' tt ->
  forall m, (n <= m)%nat -> run (assign_loop V m b it e w) h = RDone h' tt.
Proof.
  induction n as [|n IH]; intros b it e w h h' E m L.
  - destruct m; cbn [assign_loop] in *; destruct (it_eqb it e); [exact E|discriminate|exact E|discriminate].
  - destruct m as [|m]; [lia|]. cbn [assign_loop] in *. destruct (it_eqb it e); [exact E|].
    rewrite run_bind in *. destruct (run _ h) as [h1 v| | |]; try discriminate.
    cbn [run] in *. destruct (bcells _ _); [|discriminate]. apply IH; [exact E|lia].
Qed.
Lemma assign_fuel n m f e h h' : run (fst (nebo_assign V vadd vmul n f e)) h = RDone h' tt -> (n <= m)%nat ->
  run (fst (nebo_assign V vadd vmul m f e)) h = RDone h' tt.
Proof.
  intros E L. unfold nebo_assign, sequential_assign in *. cbn [fst] in *. rewrite run_bind in *.
  destruct (run _ h) as [h1 [rg lg]| | |]; try discriminate. rewrite run_bind in *.
  destruct (run (init _ _ _ _ _ _ _ _) h1) as [h2 w| | |]; try discriminate. unfold assign_walk in *. rewrite run_bind in *.
  destruct (run (lift (field_begin _)) h2) as [h3 it| | |]; try discriminate. rewrite run_bind in *.
  destruct (run (lift (field_end _)) h3) as [h4 it'| | |]; try discriminate. eapply loop_fuel; eauto.
Qed.

Lemma one_step h fs env i e : variables V h fs env ->
  exists N, forall fuel, (N <= fuel)%nat -> exists h',
    run (fst (nebo_assign V vadd vmul fuel (fs i) (sv_expr V fs e))) h = RDone h' tt /\
    variables V h' fs (sset V env i (seval V env e)) /\
    (forall b, (forall j, b <> fbuf (fs j)) -> forall k, bcells (h' b) k = bcells (h b) k /\ bdata (h' b) k = bdata (h b) k).
Proof.
  intros (P & D & M).
  destruct (user_field_cells _ _ (proper_user _ (P i))) as [OP _].
  assert (RO : freadonly (fs i) = false).
  { destruct (proper_shape _ (P i)) as (bx & by_ & bz & nt & ->). reflexivity. }
  assert (KN : expr_known V (IV 1 1 1) (sv_expr V fs e) iv_zero).
  { intros l m u I q A B. apply sv_demands in I. injection I as -> -> ->. unfold known, in_region, layers. cbn.
    destruct A as (? & ? & ?), B as (? & ? & ?). cbn in *. unfold GHOST_MAX. lia. }
  destruct (assign_correct V vadd vmul (IV 1 1 1) h (fs i) (sv_expr V fs e)) as [N HN].
  - split; [|split].
    + intros f s I. rewrite sv_reads in I. destruct I.
    + intros f s I. rewrite sv_masks in I. destruct I.
    + intros f I. apply sv_singles in I as [j ->]. destruct (M j) as [C _]. rewrite C. reflexivity.
  - split; [exact OP|]. split; [exact RO|]. intros p A. apply proper_cell in A as [_ ->]; [|auto].
    destruct (M i) as [C _]. rewrite C. reflexivity.
  - intros g s I. rewrite sv_reads in I. destruct I.
  - intros l m u I. apply sv_demands in I. injection I as -> -> ->.
    destruct (proper_shape _ (P i)) as (bx & by_ & bz & nt & ->). cbn. unfold GHOST_MAX.
    destruct bx, by_, bz; cbn; lia.
  - exists iv_zero. split; [apply proper_at0; auto|exact KN].
  - exists N. intros fuel L. destruct (HN fuel L) as (h' & E & C & A & O). exists h'. split; [exact E|].
    assert (R0 : region V (IV 1 1 1) (fs i) (sv_expr V fs e) iv_zero) by (split; [apply proper_at0; auto|exact KN]).
    split; [|intros b NB k; split; [apply C|apply O; left; apply NB]].
    split; [exact P|]. split; [exact D|]. intros j. split.
    + intros k. rewrite C. apply M.
    + unfold sset. destruct (Nat.eqb_spec j i) as [->|NE].
      * specialize (A _ R0). unfold value in A. destruct (proper_cell _ _ (P i) (proper_at0 _ (P i))) as [_ Z0].
        rewrite Z0 in A. rewrite A. apply sv_denote. intros k. apply M.
      * rewrite O; [apply M|]. left. auto.
Qed.

Lemma program fs p : forall h env, variables V h fs env ->
  exists N, forall fuel, (N <= fuel)%nat -> exists h',
    sv_run V vadd vmul fuel fs p h = RDone h' tt /\ variables V h' fs (srun V env p) /\
    (forall b, (forall j, b <> fbuf (fs j)) -> forall k, bcells (h' b) k = bcells (h b) k /\ bdata (h' b) k = bdata (h b) k).
Proof.
  induction p as [|[i e] r IH]; intros h env H.
  - exists 0%nat. intros fuel _. exists h. cbn. auto.
  - destruct (one_step h fs env i e H) as [N HN].
    destruct (HN N (Nat.le_refl N)) as (h1 & E1 & V1 & O1).
    destruct (IH h1 _ V1) as [N2 HN2]. exists (Nat.max N N2). intros fuel L.
    destruct (HN2 fuel ltac:(lia)) as (h' & E & VV & O). exists h'. cbn [sv_run].
    rewrite (assign_fuel N fuel _ _ _ _ E1) by lia. split; [exact E|]. split; [exact VV|].
    intros b NB k. destruct (O b NB k) as [-> ->]. apply O1, NB.
Qed.
End P.
