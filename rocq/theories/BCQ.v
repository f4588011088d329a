(** Proofs about BoundaryConditionOp and BoundaryCondition. *)
From Verif Require Import Prelude WindowM WindowS WindowP GhostM FieldM FieldS FieldP MaskM MaskS NeboM NeboS NeboP NeboQ NeboA NeboB NeboC NeboD NeboE NeboF NeboG StencilM StencilS StencilP StencilQ BCM BCS BCP.

Ltac mins := repeat match goal with |- context [?a <? ?b] => destruct (Z.ltb_spec a b) end; lia.

(** ** Assigning to one cell *)
Lemma point_to_ghost_nonneg e : iv_le iv_zero e ->
  iv_le e (IV (GHOST_MAX - 1) (GHOST_MAX - 1) (GHOST_MAX - 1)) -> point_to_ghost e = Ghost iv_zero e false.
Proof.
  destruct e as [e1 e2 e3]. unfold iv_le, point_to_ghost, neg_part, pos_part, mk_ghost, ghost_infinite, iv_infinite, GHOST_MAX, iv_zero. cbn [ix iy iz].
  intros (A & B & C) (A' & B' & C').
  replace (e1 <? 0) with false by (symmetry; apply Z.ltb_ge; lia).
  replace (e2 <? 0) with false by (symmetry; apply Z.ltb_ge; lia).
  replace (e3 <? 0) with false by (symmetry; apply Z.ltb_ge; lia).
  cbn. f_equal. f_equal.
  - destruct (Z.ltb_spec 0 e1); lia.
  - destruct (Z.ltb_spec 0 e2); lia.
  - destruct (Z.ltb_spec 0 e3); lia.
Qed.

Lemma one_ghosts f v cb ca a b : finite_ghosts f ->
  exists rg lg, assign_ghosts Qc true (one_cell f a)
    (EOp2 Qc Qcdiv (EOp2 Qc Qcminus (EScalar Qc v) (EOp2 Qc Qcmult (EScalar Qc cb) (EField Qc (one_cell f b)))) (EScalar Qc ca)) = Ok (rg, lg) /\
    gminus rg = gminus (fghosts f) /\ gplus rg = iv_add (gplus (fghosts f)) (has_extra (fbc f)) /\
    gminus lg = gminus (fghosts f) /\ gplus lg = gplus (fghosts f).
Proof.
  unfold finite_ghosts, g_nonneg. cbv zeta. intros (E & (M & P) & ME & PE & I).
  unfold assign_ghosts. cbn [possible_ghosts obind one_cell field_window fghosts fbc fvalid leaf_ghosts].
  unfold leaf_ghosts. cbn [one_cell field_window fghosts fbc fvalid].
  assert (EE : iv_le (has_extra (fbc f)) (IV (GHOST_MAX - 1) (GHOST_MAX - 1) (GHOST_MAX - 1))).
  { revert P PE. unfold iv_le; cbn. lia. }
  rewrite (point_to_ghost_nonneg _ E EE).
  unfold g_add. rewrite I. cbn [ginf gminus gplus].
  set (G := Ghost _ _ _).
  assert (GG : forall x, gminus x = gminus G -> gplus x = gplus G -> g_min (ghost_n GHOST_MAX) x = mk_ghost (gminus G) (gplus G) /\ g_min x (ghost_n GHOST_MAX) = mk_ghost (gminus G) (gplus G)).
  { intros x A B. unfold g_min, ghost_n, mk_ghost. cbn [gminus gplus]. rewrite A, B. 
    assert (X : iv_min (IV GHOST_MAX GHOST_MAX GHOST_MAX) (gminus G) = gminus G /\ iv_min (gminus G) (IV GHOST_MAX GHOST_MAX GHOST_MAX) = gminus G /\
                iv_min (IV GHOST_MAX GHOST_MAX GHOST_MAX) (gplus G) = gplus G /\ iv_min (gplus G) (IV GHOST_MAX GHOST_MAX GHOST_MAX) = gplus G).
    { subst G. cbn [gminus gplus]. revert ME PE. generalize (gplus (fghosts f)) (gminus (fghosts f)) (has_extra (fbc f)).
      intros [p1 p2 p3] [m1 m2 m3] [e1 e2 e3]. unfold iv_le, iv_min, iv_add, iv_zero; cbn [ix iy iz]. intros.
      unfold GHOST_MAX in *; repeat split; f_equal; mins. }
    destruct X as (-> & -> & -> & ->). split; reflexivity. }
  cbn [ghost_n]. fold (ghost_n GHOST_MAX).
  rewrite (proj1 (GG G eq_refl eq_refl)). rewrite (proj1 (GG (mk_ghost (gminus G) (gplus G)) eq_refl eq_refl)).
  rewrite (proj2 (GG (mk_ghost (gminus G) (gplus G)) eq_refl eq_refl)).
  unfold calculate_valid_ghost. cbn [gplus gminus mk_ghost].
  assert (L : forall c (x y : Z), y <= x -> (c && (x <? y)) = false).
  { intros c x y L. destruct c; [|reflexivity]. apply Z.ltb_ge. exact L. }
  assert (GE : iv_le (has_extra (fbc f)) (gplus G)) by (subst G; revert P; unfold iv_le; cbn; lia).
  destruct GE as (G1 & G2 & G3). rewrite !L by assumption. cbn [obind].
  unfold calculate_valid_lhs_ghost. rewrite (point_to_ghost_nonneg _ E EE). unfold g_add. rewrite I. cbn [ginf g_sub obind gminus gplus].
  do 2 eexists. split; [reflexivity|]. cbn [g_min mk_ghost gminus gplus]. subst G. cbn [gminus gplus].
  generalize (gplus (fghosts f)) (gminus (fghosts f)) (has_extra (fbc f)).
  intros [p1 p2 p3] [m1 m2 m3] [e1 e2 e3]. unfold iv_min, iv_add, iv_sub, iv_zero; cbn [ix iy iz].
  repeat split; f_equal; mins.
Qed.

Lemma one_end base g o : it_end base (Win g o (IV 1 1 1)) = Ok (it_incr (it_make base (Win g o (IV 1 1 1)))).
Proof. unfold it_end, it_advance, it_make, it_incr. cbn [woff wext wglob ix iy iz icur icnt ixi ixe ixye iystep izstep iyi izi iye ize].
  change ((0 <? 1 * 1 * 1) && (1 * 1 * 1 <? 1 - 0) || (1 * 1 * 1 <? 0) && (- (1 * 1 * 1) <? 0)) with false. cbn [obind].
  change (cdiv (0 + 1 * 1 * 1) 1) with (Ok 1). change (cdiv 0 1) with (Ok 0). change (cdiv (0 + 1 * 1 * 1) (1 * 1)) with (Ok 1). change (cdiv 0 (1 * 1)) with (Ok 0).
  change (cmod (0 + 1 * 1 * 1) 1) with (Ok 0). change (cmod (0 + 1 * 1 * 1) (1 * 1)) with (Ok 0). cbn [obind].
  change (cdiv 0 1) with (Ok 0). change (0 + 1 =? 1) with true. cbn [obind]. cbv iota. f_equal. f_equal; lia. Qed.

Lemma set_one_run fuel ca cb v a b f h :
  finite_ghosts f -> freadonly f = false -> block_exists h f -> in_block f a -> in_block f b -> (1 <= fuel)%nat ->
  run (set_one fuel ca cb v a b f) h =
  RDone (upd h (fbuf f) (cell f a) ((v - cb * value Qc h f b) / ca)%Qc) tt.
Proof.
  intros FG RO BE Ia Ib Fu. destruct fuel as [|fuel]; [lia|].
  unfold set_one, nebo_assign. cbn [fst].
  unfold sequential_assign.
  destruct (one_ghosts f v cb ca a b FG) as (rg & lg & E & E1 & E2 & E3 & E4). rewrite E. cbn [lift pbind].
  cbn [init pbind]. unfold walk_field. cbn [end_if lift pbind].
  assert (W : fwin (resize_ghost_and_shift_window (one_cell f b) (gminus rg) (iv_sub (gplus rg) (has_extra (fbc (one_cell f b)))) iv_zero)
              = fwin (one_cell f b)).
  { rewrite E1, E2. unfold resize_ghost_and_shift_window, shift_window, resize_ghost, reshape. cbn [field_window fwin one_cell fvalid fbc wglob woff wext].
    generalize (gplus (fghosts f)) (gminus (fghosts f)) (has_extra (fbc f)) (wglob (fint f)) (iv_add (woff (fint f)) b).
    intros [p1 p2 p3] [m1 m2 m3] [e1 e2 e3] gl [o1 o2 o3]. unfold iv_add, iv_sub, iv_zero; cbn [ix iy iz]. f_equal; f_equal; lia. }
  rewrite W. 
  assert (W' : fwin (reset_valid_ghosts (one_cell f a) (mk_ghost (gminus lg) (gplus lg))) = fwin (one_cell f a)).
  { unfold reset_valid_ghosts. cbn [field_window fwin one_cell fvalid fbc wglob woff wext mk_ghost gminus gplus]. rewrite E3, E4.
    generalize (gplus (fghosts f)) (gminus (fghosts f)) (wglob (fint f)) (iv_add (woff (fint f)) a).
    intros [p1 p2 p3] [m1 m2 m3] gl [o1 o2 o3]. unfold iv_add, iv_sub, iv_zero; cbn [ix iy iz]. f_equal; f_equal; lia. }
  unfold assign_walk, field_begin, field_end. rewrite W'.
  change (freadonly (reset_valid_ghosts (one_cell f a) (mk_ghost (gminus lg) (gplus lg)))) with (freadonly f).
  change (fbuf (reset_valid_ghosts (one_cell f a) (mk_ghost (gminus lg) (gplus lg)))) with (fbuf f).
  change (fbuf (resize_ghost_and_shift_window (one_cell f b) (gminus rg) (iv_sub (gplus rg) (has_extra (fbc (one_cell f b)))) iv_zero)) with (fbuf f).
  rewrite RO. cbn [lift pbind one_cell field_window fwin]. rewrite one_end. cbn [lift pbind].
  set (ia := it_make 0 (Win (wglob (fint f)) (iv_add (woff (fint f)) a) (IV 1 1 1))). set (ib := it_begin 0 (Win (wglob (fint f)) (iv_add (woff (fint f)) b) (IV 1 1 1))).
  assert (CA : icur ia = cell f a).
  { unfold ia, it_make, cell, addr. cbn [icur wglob woff]. unfold iv_add; cbn [ix iy iz]. nia. }
  assert (CB : icur ib = cell f b).
  { unfold ib, it_begin, it_make, cell, addr. cbn [icur wglob woff]. unfold iv_add; cbn [ix iy iz]. nia. }
  assert (NE : it_eqb (it_begin 0 (Win (wglob (fint f)) (iv_add (woff (fint f)) a) (IV 1 1 1))) (it_incr ia) = false).
  { unfold it_eqb, it_begin. fold ia. apply Z.eqb_neq. unfold ia, it_make, it_incr. cbn -[Z.mul Z.add].
    revert Ia. unfold in_block, in_box. cbn. nia. }
  assert (EQ : it_eqb (it_incr ia) (it_incr ia) = true) by (apply Z.eqb_refl).
  cbn [assign_loop]. unfold it_begin in NE |- *. fold ia in NE |- *. rewrite NE.
  cbn [eval pbind run]. rewrite CA, CB, (BE b Ib). cbn [run]. rewrite (BE a Ia).
  destruct fuel; cbn [assign_loop]; rewrite EQ; reflexivity.
Qed.

(** ** The single-point operator *)
Lemma two_point_op h phi p0 p1 c0 c1 g :
  denote Qc Qcplus Qcmult h (EStencil Qc p0 c0 [(p1, c1)] (EField Qc phi)) g = two_point h phi p0 p1 c0 c1 g.
Proof. unfold two_point. cbn [denote fold_left fst snd]. ring. Qed.

Lemma upd_same h b i (x : Qc) f p : fbuf f = b -> cell f p = i -> value Qc (upd h b i x) f p = x.
Proof. intros <- <-. unfold value, upd. rewrite Nat.eqb_refl. cbn. rewrite Z.eqb_refl. reflexivity. Qed.
Lemma upd_other h b i (x : Qc) f p : cell f p <> i -> value Qc (upd h b i x) f p = value Qc h f p.
Proof. intros N. unfold value, upd. destruct (Nat.eqb _ _); [|reflexivity]. cbn. apply Z.eqb_neq in N. rewrite N. reflexivity. Qed.
Lemma upd_only h b i (x : Qc) : only_changed h (upd h b i x) (fun c j => c = b /\ j = i).
Proof.
  split; intros c j; unfold upd.
  - destruct (Nat.eqb _ _); reflexivity.
  - intros N. destruct (Nat.eqb_spec c b); [|reflexivity]. cbn. destruct (Z.eqb_spec j i); [|reflexivity]. destruct N; auto.
Qed.

Lemma bc_single_run p0 p1 c0 c1 p s v f h fuel :
  finite_ghosts f -> freadonly f = false -> block_exists h f ->
  in_block f (iv_add p p0) -> in_block f (iv_add p p1) -> p0 <> p1 ->
  (match s with PLUS_SIDE => c1 | _ => c0 end) <> 0%Qc -> (1 <= fuel)%nat ->
  exists o h', bc_single (p0, [p1]) (c0, [c1]) p s v = Some (Ok o) /\
    run (bc_run fuel o f) h = RDone h' tt /\
    two_point h' f p0 p1 c0 c1 p = v /\
    only_changed h h' (fun b i => b = fbuf f /\ i = cell f (iv_add p (match s with PLUS_SIDE => p1 | _ => p0 end))).
Proof.
  intros FG RO BE I0 I1 NE NZ Fu.
  assert (NC : cell f (iv_add p p0) <> cell f (iv_add p p1)).
  { intros E. apply (in_block_inj f _ _ I0 I1) in E. apply NE.
    destruct p as [a1 a2 a3], p0 as [b1 b2 b3], p1 as [d1 d2 d3]. unfold iv_add in E. cbn [ix iy iz] in E. injection E as E1 E2 E3. f_equal; lia. }
  destruct s; do 2 eexists; (split; [reflexivity|]); cbn [bc_run o_where o_ca o_cb o_val minus_like];
    (split; [apply set_one_run; assumption|]); (split; [|apply upd_only]);
    unfold two_point; cbn [fst snd].
  1, 3: rewrite (upd_same _ _ _ _ f (iv_add p p0)), (upd_other _ _ _ _ f (iv_add p p1)) by auto; field; exact NZ.
  rewrite (upd_other _ _ _ _ f (iv_add p p0)), (upd_same _ _ _ _ f (iv_add p p1)) by auto; field; exact NZ.
Qed.

Lemma bc_single_side src dst s p v c : staggered src -> staggered dst -> differ src dst = 1 ->
  exists lo hi, stencil2 src dst = (lo, [hi]) /\ lo <> hi /\
  forall o, bc_single (stencil2 src dst) c p s v = Some (Ok o) ->
  exists a b, o_where o = Single a b /\ a = iv_add p (match s with PLUS_SIDE => hi | _ => lo end) /\
    next_to (minus_like s) dst src p a /\ next_to (negb (minus_like s)) dst src p b.
Proof.
  intros Hs Hd D. destruct (stencil2_places src dst Hs Hd D) as (d & lo & hi & N & O & E & L & U).
  exists lo, hi. split; [exact E|]. split.
  { intros ->. specialize (L p). specialize (U p). rewrite L in U. apply (f_equal (comp d)) in U. destruct d; cbn -[Z.add] in U; lia. }
  intros o. rewrite E. unfold bc_single. cbn [bc_shifts fst snd rev app].
  destruct (get_coef c (if minus_like s then 0%nat else 1%nat)); cbn [obind]; [|discriminate..].
  destruct (get_coef c (if minus_like s then 1%nat else 0%nat)); cbn [obind]; [|discriminate..].
  intros H. injection H as <-. cbn [o_where]. do 2 eexists. split; [reflexivity|].
  split; [destruct s; reflexivity|].
  assert (K : forall minus q, place src q = step d (if minus : bool then -1 else 1) (place dst p) -> next_to minus dst src p q).
  { intros minus q Q e. rewrite Q. destruct (Z.eqb_spec (comp e dst) (comp e src)) as [X|X].
    - assert (e <> d) by (intros ->; congruence). destruct d, e; try congruence; cbn -[Z.add]; lia.
    - assert (e = d) as -> by (destruct e, d; try reflexivity; exfalso; apply X; symmetry; apply O; congruence).
      destruct d, minus; reflexivity. }
  split; apply K; destruct s; cbn [minus_like negb]; first [apply L|apply U].
Qed.

(** ** The operator on a list of points *)
Lemma run_bind_done {A B} (p : prog Qc A) (k : A -> prog Qc B) h h1 x : run p h = RDone h1 x -> run (pbind p k) h = run (k x) h1.
Proof.
  revert h h1 x. induction p; intros h h1 x E; cbn in *; try discriminate.
  - injection E as -> ->. reflexivity.
  - destruct (bcells (h b) i); [|discriminate]. eauto.
  - destruct (bcells (h b) i); [|discriminate]. eauto.
Qed.

(** One operator per point, applied one after the other. *)
Definition singles_in_turn (fuel : nat) (pts : points) (c : coefs Qc) (ps : list ivec) (s : side) (v : Qc) (f : field) : prog Qc unit :=
  fold_right (fun p k => match bc_single pts c p s v with Some (Ok o) => let* _ := bc_run fuel o f in k | _ => PThrow end) (Ret tt) ps.

Lemma local_roundtrip w e p : wglob w = e -> woff w = iv_zero -> in_box e p -> flat_to_ijk e (flat_index w p) = Ok p.
Proof.
  intros G O I. assert (F : flat_index w p = ijk_to_flat e p).
  { unfold flat_index. rewrite G, O. unfold in_box in I. destruct p as [p1 p2 p3]. cbn [ix iy iz iv_zero] in *. f_equal. f_equal.
    - destruct (Z.ltb_spec 1 (ix e)); lia.
    - destruct (Z.ltb_spec 1 (iy e)); lia.
    - destruct (Z.ltb_spec 1 (iz e)); lia. }
  rewrite F. apply ijk_flat_inverse. exact I.
Qed.

Lemma list_run fuel pts c w ps s v f h :
  s <> NO_SIDE -> wglob w = wext (fint f) -> woff w = iv_zero ->
  finite_ghosts f -> freadonly f = false -> block_exists h f -> fits (fint f) -> (1 <= fuel)%nat ->
  (length (snd c) = 1)%nat ->
  (exists p0 p1, pts = (p0, [p1]) /\ forall p, In p ps -> in_box (wext (fint f)) (iv_add p p0) /\ in_box (wext (fint f)) (iv_add p p1)) ->
  exists o h', bc_list pts c w ps s v = Some (Ok o) /\
    run (bc_run fuel o f) h = RDone h' tt /\ run (singles_in_turn fuel pts c ps s v f) h = RDone h' tt.
Proof.
  intros NS G O FG RO BE FI Fu LC (p0 & p1 & -> & IN).
  destruct c as [c0 [|c1 [|c2 cs]]]; try discriminate. clear LC.
  assert (IB : forall q, in_box (wext (fint f)) q -> in_block f q).
  { revert FI. unfold fits, in_block, in_box, iv_add. cbn [ix iy iz]. intros; lia. }
  set (a := match s with PLUS_SIDE => p1 | _ => p0 end). set (b := match s with PLUS_SIDE => p0 | _ => p1 end).
  set (ca := match s with PLUS_SIDE => c1 | _ => c0 end). set (cb := match s with PLUS_SIDE => c0 | _ => c1 end).
  assert (L : bc_list (p0, [p1]) (c0, [c1]) w ps s v =
    Some (Ok (BCOp ca cb (Many (map (fun p => (flat_index w (iv_add p a), flat_index w (iv_add p b))) ps)) v))).
  { destruct s; [reflexivity..|congruence]. }
  assert (Sg : forall p, bc_single (p0, [p1]) (c0, [c1]) p s v = Some (Ok (BCOp ca cb (Single (iv_add p a) (iv_add p b)) v))).
  { intros p. destruct s; [reflexivity..|congruence]. }
  assert (IN' : forall p, In p ps -> in_box (wext (fint f)) (iv_add p a) /\ in_box (wext (fint f)) (iv_add p b)).
  { intros p I. destruct (IN p I). subst a b. destruct s; auto. }
  eexists. assert (exists h', run (set_many fuel ca cb v (map (fun p => (flat_index w (iv_add p a), flat_index w (iv_add p b))) ps) f) h = RDone h' tt
                   /\ run (singles_in_turn fuel (p0, [p1]) (c0, [c1]) ps s v f) h = RDone h' tt) as (h' & R1 & R2).
  { clear IN L. revert h BE. induction ps as [|p ps IH]; intros h BE; [exists h; split; reflexivity|].
    destruct (IN' p (or_introl eq_refl)) as (Ba & Bb).
    set (h1 := upd h (fbuf f) (cell f (iv_add p a)) ((v - cb * value Qc h f (iv_add p b)) / ca)%Qc).
    assert (R : run (set_one fuel ca cb v (iv_add p a) (iv_add p b) f) h = RDone h1 tt) by (apply set_one_run; auto).
    assert (BE1 : block_exists h1 f).
    { intros q I. unfold h1. rewrite (proj1 (upd_only h _ _ _)). apply BE, I. }
    destruct (IH (fun q I => IN' q (or_intror I)) h1 BE1) as (h' & X & Y).
    exists h'. split.
    - cbn [map set_many]. unfold ijk_index_from_local. rewrite !local_roundtrip by assumption. cbn [lift pbind].
      rewrite (run_bind_done _ _ _ _ _ R). exact X.
    - cbn [singles_in_turn fold_right]. rewrite Sg. cbn [bc_run o_where o_ca o_cb o_val].
      rewrite (run_bind_done _ _ _ _ _ R). exact Y. }
  exists h'. split; [exact L|]. split; assumption.
Qed.

(** ** BoundaryCondition *)
Lemma flat_in_block f p : in_block f p -> flat_index (fint f) p = cell f p.
Proof.
  unfold in_block, in_box, flat_index, cell, addr. rewrite ijk_to_flat_eq. destruct p as [p1 p2 p3]. cbn [ix iy iz iv_add].
  intros (A & B & C).
  assert (K : forall g o x, 0 <= o + x < g -> (if 1 <? g then x + o else 0) = o + x) by (intros g o x R; destruct (Z.ltb_spec 1 g); lia).
  rewrite !K by assumption. reflexivity.
Qed.

Lemma bcond_single_run f p v h : freadonly f = false -> block_exists h f -> in_block f p ->
  run (bcond_single p v f) h = RDone (upd h (fbuf f) (cell f p) v) tt.
Proof.
  intros RO BE I. unfold bcond_single, store_at. rewrite RO, (flat_in_block f p I). cbn [run]. rewrite (BE p I). reflexivity.
Qed.

Definition set_all (f : field) (ps : list ivec) (v : Qc) (h : heap Qc) : heap Qc :=
  fold_left (fun h p => upd h (fbuf f) (cell f p) v) ps h.
Lemma set_all_cells f ps v h b i : bcells (set_all f ps v h b) i = bcells (h b) i.
Proof.
  revert h. induction ps as [|p ps IH]; intros h; [reflexivity|]. cbn [set_all fold_left]. fold (set_all f ps v).
  unfold set_all in *. rewrite IH. apply (proj1 (upd_only h _ _ _)).
Qed.
Lemma set_all_data f ps v h b i :
  bdata (set_all f ps v h b) i = v \/ bdata (set_all f ps v h b) i = bdata (h b) i /\ (b = fbuf f -> ~ exists p, In p ps /\ i = cell f p).
Proof.
  revert h. induction ps as [|p ps IH]; intros h; [right; split; [reflexivity|intros _ (p & [] & _)]|].
  unfold set_all in *. cbn [fold_left]. destruct (IH (upd h (fbuf f) (cell f p) v)) as [E|(E & N)]; [left; exact E|].
  rewrite E. unfold upd. destruct (Nat.eqb_spec b (fbuf f)) as [Eb|Nb].
  - cbn [bdata]. destruct (Z.eqb_spec i (cell f p)) as [Ei|Ni]; [left; reflexivity|]. right. split; [reflexivity|].
    intros _ (q & [<-|Iq] & Q); [contradiction|]. apply (N Eb). eauto.
  - right. split; [reflexivity|]. intros X; contradiction.
Qed.
Lemma set_all_keep f ps v h b i : ~ (b = fbuf f /\ exists p, In p ps /\ i = cell f p) -> bdata (set_all f ps v h b) i = bdata (h b) i.
Proof.
  revert h. induction ps as [|p ps IH]; intros h N; [reflexivity|].
  unfold set_all in *. cbn [fold_left]. rewrite IH.
  - apply (proj2 (upd_only h _ _ _)). intros (A & B). apply N. split; [exact A|]. exists p. split; [left; reflexivity|exact B].
  - intros (A & q & I & B). apply N. split; [exact A|]. exists q. split; [right; exact I|exact B].
Qed.

Lemma bcond_list_run f ps v h : freadonly f = false -> block_exists h f -> (forall p, In p ps -> in_block f p) ->
  run (bcond_list (fint f) ps v f) h = RDone (set_all f ps v h) tt.
Proof.
  intros RO BE IN. unfold bcond_list.
  assert (K : forall l acc h1, (forall p, In p l -> in_block f p) -> block_exists h1 f -> run acc h = RDone h1 tt ->
    run (fold_left (fun acc p => let* _ := acc in store_at f (flat_index (fint f) p) v) l acc) h = RDone (set_all f l v h1) tt).
  { clear IN. induction l as [|p l IH]; intros acc h1 IN B1 E; [exact E|]. cbn [fold_left].
    rewrite (IH _ (upd h1 (fbuf f) (cell f p) v)).
    - reflexivity.
    - intros q I. apply IN. right. exact I.
    - intros q I. rewrite (proj1 (upd_only h1 _ _ _)). apply B1, I.
    - rewrite (run_bind_done _ _ _ _ _ E). apply (bcond_single_run f p v h1 RO B1). apply IN. left. reflexivity. }
  apply K; auto.
Qed.

Lemma bcond_list_sets f ps v h : freadonly f = false -> block_exists h f -> (forall p, In p ps -> in_block f p) ->
  exists h', run (bcond_list (fint f) ps v f) h = RDone h' tt /\
    (forall p, In p ps -> value Qc h' f p = v) /\
    only_changed h h' (fun b i => b = fbuf f /\ exists p, In p ps /\ i = cell f p).
Proof.
  intros RO BE IN. exists (set_all f ps v h). split; [apply bcond_list_run; assumption|]. split; [|split].
  - intros p I. unfold value. destruct (set_all_data f ps v h (fbuf f) (cell f p)) as [E|(_ & N)]; [exact E|].
    destruct (N eq_refl). eauto.
  - apply set_all_cells.
  - apply set_all_keep.
Qed.
