(** Proofs for C65, over any element type: the functions of the heat equation
    program and its time loop. *)
From Verif Require Import Prelude WindowM WindowS GhostM FieldM FieldS FieldP MaskM NeboM NeboS NeboF StencilM StencilS StencilP RoundR StoreM StoreS ThinS ThinP ThinQ ThinR HeatM HeatS HeatP.
Open Scope Z_scope.

Section HeatQ.
Variable V : Type.
Variable vadd vmul vsub vdiv : V -> V -> V.
Variable vopp : V -> V.
Variable vzero : V.
Variable vap : builder V -> expr V -> expr V.
Hypothesis vap_two : forall p0 p1 c0 c1 a, vap (StencilOp (p0, [p1]) (c0, [c1])) a = EStencil V p0 c0 [(p1, c1)] a.
Notation assign fuel f e := (fst (nebo_assign V vadd vmul fuel f e)).
Notation completes := (completes V).
Variable n : ivec.
Variable bx by_ bz : bool.
Variable g : ghost.
Hypothesis Pn : iv_le (IV 1 1 1) n.
Hypothesis Pg : ghosts_ok n g.
Notation fat := (field_at V n bx by_ bz g).
Notation same_cells h h' := (forall b i, bcells (h' b) i = bcells (h b) i).

Ltac three := pose proof (drop_bounds n g Pg XDIR); pose proof (drop_bounds n g Pg YDIR); pose proof (drop_bounds n g Pg ZDIR);
  pose proof (pos_n n Pn).
Lemma iv_add_0 p : iv_add p iv_zero = p.
Proof. destruct p. unfold iv_add, iv_zero. cbn. f_equal; lia. Qed.

(** Two-point stencils from cells to faces and from faces to cells. *)
Lemma to_faces h d src dst c0 c1 : wide n d -> fat h SVol src -> fat h (face_of d) dst -> fbuf src <> fbuf dst ->
  exists h', completes (fun fuel => assign fuel dst (EStencil V (step d (-1) iv_zero) c0 [(iv_zero, c1)] (EField V src))) h h' /\
    same_cells h h' /\
    (forall p, on_face n d p -> value V h' dst p =
       vadd (vmul (value V h src (step d (-1) p)) c0) (vmul (value V h src p) c1)) /\
    (forall b i, b <> fbuf dst -> bdata (h' b) i = bdata (h b) i).
Proof.
  intros W Fs Fd Nb.
  assert (Us : usable n SVol) by (left; reflexivity).
  assert (Ud : usable n (face_of d)) by (right; exists d; auto).
  assert (R : forall p, on_face n d p -> region V n (real_field n dst)
     (real_expr V n (EStencil V (step d (-1) iv_zero) c0 [(iv_zero, c1)] (EField V src))) p).
  { intros p P. three. pose proof (xc_bounds n bx by_ bz (face_of d) Ud d) as X. pose proof (xc_bounds n bx by_ bz SVol Us) as Y.
    split.
    - apply (fat_any V n bx by_ bz g h (face_of d)); [exact Fd|].
      assert (Z : forall e, 0 <= comp e (xc bx by_ bz (face_of d))) by (intros e; apply (xc_bounds n bx by_ bz _ Ud e)).
      pose proof (Z XDIR); pose proof (Z YDIR); pose proof (Z ZDIR).
      unfold on_face, in_region, wide in *. destruct d; cbn -[drop xc] in *; intuition lia.
    - intros l m u I q Q1 Q2. cbn [real_expr demands flat_map map fst app] in I.
      assert (E : l = LField (real_field n src)) by (destruct I as [[= <- _ _]|[[= <- _ _]|[]]]; reflexivity).
      subst l. unfold known. rewrite (fat_layers V n bx by_ bz g h SVol src Fs). cbn [fst snd].
      pose proof (Y XDIR); pose proof (Y YDIR); pose proof (Y ZDIR).
      unfold on_face, in_region, wide in *.
      destruct I as [[= <- <-]|[[= <- <-]|[]]]; unfold iv_le in *; destruct d; cbn -[drop xc Z.max] in *; intuition lia. }
  destruct (assign_completes V vadd vmul n (gminus g) (gplus g) h dst
     (EStencil V (step d (-1) iv_zero) c0 [(iv_zero, c1)] (EField V src))) as (h' & C & A1 & A2 & A3).
  - split; [|split; [|split; [intros m s []|intros f []]]].
    + split; [|split; [|exact (fat_thin V n bx by_ bz g Pn Pg h SVol src Us Fs)]].
      * unfold in_plane, wide in *. destruct d; unfold drop, drop1, step; cbn [ix iy iz comp] in *;
          rewrite (proj2 (Z.ltb_lt _ _) W); repeat match goal with |- context [if ?b then _ else _] => destruct b end; reflexivity.
      * intros pc [<-|[]]. unfold in_plane, drop, drop1. cbn [fst iv_zero ix iy iz].
        repeat match goal with |- context [if ?b then _ else _] => destruct b end; reflexivity.
    + intros f s I. assert (f = src) as -> by (cbn in I; intuition congruence). exact (fat_read V n bx by_ bz g h SVol src Us Fs).
  - exact (fat_dest V n bx by_ bz g Pn Pg h (face_of d) dst Ud Fd).
  - intros f s I. left. assert (f = src) as -> by (cbn in I; intuition congruence). exact Nb.
  - intros l m u I. cbn [real_expr demands flat_map map fst app] in I.
    assert (E : l = LField (real_field n src)) by (destruct I as [[= <- _ _]|[[= <- _ _]|[]]]; reflexivity).
    subst l. rewrite (fat_layers V n bx by_ bz g h SVol src Fs).
    change (fbc (real_field n dst)) with (fbc dst). rewrite (proj1 (fat_extra V n bx by_ bz g h (face_of d) dst Fd)). cbn [snd].
    three. pose proof (fun e => xc_bounds n bx by_ bz (face_of d) Ud e) as X. pose proof (fun e => xc_bounds n bx by_ bz SVol Us e) as Y.
    pose proof (X XDIR); pose proof (X YDIR); pose proof (X ZDIR). pose proof (Y XDIR); pose proof (Y YDIR); pose proof (Y ZDIR).
    unfold wide in *.
    destruct I as [[= <- <-]|[[= <- <-]|[]]]; destruct d; cbn -[drop xc Z.max] in *; intuition lia.
  - exists iv_zero. apply R. pose proof (pos_n n Pn). unfold on_face, in_region, wide in *. destruct d; cbn in *; lia.
  - exists h'. split; [exact C|]. split; [exact A1|]. split; [|intros b i Nd; apply A3; left; exact Nd].
    intros p P. rewrite (A2 p (R p P)). cbn [denote fold_left fst snd]. rewrite iv_add_0. do 3 f_equal.
    destruct p as [p1 p2 p3], d; unfold iv_add, step; cbn [ix iy iz iv_zero]; f_equal; lia.
Qed.
Lemma to_cells h d src dst c0 c1 : wide n d -> fat h (face_of d) src -> fat h SVol dst -> fbuf src <> fbuf dst ->
  exists h', completes (fun fuel => assign fuel dst (EStencil V iv_zero c0 [(step d 1 iv_zero, c1)] (EField V src))) h h' /\
    same_cells h h' /\
    (forall p, in_patch n p -> value V h' dst p =
       vadd (vmul (value V h src p) c0) (vmul (value V h src (step d 1 p)) c1)) /\
    (forall b i, b <> fbuf dst -> bdata (h' b) i = bdata (h b) i).
Proof.
  intros W Fs Fd Nb.
  assert (Ud : usable n SVol) by (left; reflexivity).
  assert (Us : usable n (face_of d)) by (right; exists d; auto).
  assert (R : forall p, in_patch n p -> region V n (real_field n dst)
     (real_expr V n (EStencil V iv_zero c0 [(step d 1 iv_zero, c1)] (EField V src))) p).
  { intros p P. three. pose proof (xc_bounds n bx by_ bz SVol Ud) as Y.
    assert (Z : forall e, 0 <= comp e (xc bx by_ bz (face_of d))) by (intros e; apply (xc_bounds n bx by_ bz _ Us e)).
    pose proof (Z XDIR); pose proof (Z YDIR); pose proof (Z ZDIR).
    pose proof (Y XDIR); pose proof (Y YDIR); pose proof (Y ZDIR).
    split.
    - apply (fat_any V n bx by_ bz g h SVol); [exact Fd|].
      unfold in_patch, in_region, wide in *. destruct d; cbn -[drop xc] in *; intuition lia.
    - intros l m u I q Q1 Q2. cbn [real_expr demands flat_map map fst app] in I.
      assert (E : l = LField (real_field n src)) by (destruct I as [[= <- _ _]|[[= <- _ _]|[]]]; reflexivity).
      subst l. unfold known. rewrite (fat_layers V n bx by_ bz g h (face_of d) src Fs). cbn [fst snd].
      unfold in_patch, in_region, wide in *.
      destruct I as [[= <- <-]|[[= <- <-]|[]]]; unfold iv_le in *; destruct d; cbn -[drop xc Z.max] in *; intuition lia. }
  destruct (assign_completes V vadd vmul n (gminus g) (gplus g) h dst
     (EStencil V iv_zero c0 [(step d 1 iv_zero, c1)] (EField V src))) as (h' & C & A1 & A2 & A3).
  - split; [|split; [|split; [intros m s []|intros f []]]].
    + split; [|split; [|exact (fat_thin V n bx by_ bz g Pn Pg h (face_of d) src Us Fs)]].
      * unfold in_plane, drop, drop1. cbn [fst iv_zero ix iy iz].
        repeat match goal with |- context [if ?b then _ else _] => destruct b end; reflexivity.
      * intros pc [<-|[]]. cbn [fst]. unfold in_plane, wide in *. destruct d; unfold drop, drop1, step; cbn [ix iy iz comp] in *;
          rewrite (proj2 (Z.ltb_lt _ _) W); repeat match goal with |- context [if ?b then _ else _] => destruct b end; reflexivity.
    + intros f s I. assert (f = src) as -> by (cbn in I; intuition congruence). exact (fat_read V n bx by_ bz g h (face_of d) src Us Fs).
  - exact (fat_dest V n bx by_ bz g Pn Pg h SVol dst Ud Fd).
  - intros f s I. left. assert (f = src) as -> by (cbn in I; intuition congruence). exact Nb.
  - intros l m u I. cbn [real_expr demands flat_map map fst app] in I.
    assert (E : l = LField (real_field n src)) by (destruct I as [[= <- _ _]|[[= <- _ _]|[]]]; reflexivity).
    subst l. rewrite (fat_layers V n bx by_ bz g h (face_of d) src Fs).
    change (fbc (real_field n dst)) with (fbc dst). rewrite (proj1 (fat_extra V n bx by_ bz g h SVol dst Fd)). cbn [snd].
    three. pose proof (fun e => xc_bounds n bx by_ bz (face_of d) Us e) as X. pose proof (fun e => xc_bounds n bx by_ bz SVol Ud e) as Y.
    pose proof (X XDIR); pose proof (X YDIR); pose proof (X ZDIR). pose proof (Y XDIR); pose proof (Y YDIR); pose proof (Y ZDIR).
    unfold wide in *.
    destruct I as [[= <- <-]|[[= <- <-]|[]]]; destruct d; cbn -[drop xc Z.max] in *; intuition lia.
  - exists iv_zero. apply R. pose proof (pos_n n Pn). unfold in_patch, in_region in *. cbn in *; lia.
  - exists h'. split; [exact C|]. split; [exact A1|]. split; [|intros b i Nd; apply A3; left; exact Nd].
    intros p P. rewrite (A2 p (R p P)). cbn [denote fold_left fst snd]. rewrite iv_add_0. do 3 f_equal.
    destruct p as [p1 p2 p3], d; unfold iv_add, step; cbn [ix iy iz iv_zero]; f_equal; lia.
Qed.

(** Assignments without stencils. *)
Fixpoint pw (h : heap V) (l : loc) (dst : field) (e : expr V) : Prop :=
  match e with
  | EScalar _ _ => True
  | EField _ f => fat h l f /\ (fbuf f <> fbuf dst \/ f = dst)
  | EOp1 _ _ x => pw h l dst x
  | EOp2 _ _ x y => pw h l dst x /\ pw h l dst y
  | _ => False
  end.
Lemma pw_demands h l dst e : pw h l dst e -> forall lf m u, In (lf, m, u) (demands V (real_expr V n e) iv_zero iv_zero) ->
  m = iv_zero /\ u = iv_zero /\ (lf = LConst \/ exists f, fat h l f /\ lf = LField (real_field n f)).
Proof.
  induction e as [v|f|f|op x IH|op x IHx y IHy| | |]; cbn [pw real_expr demands]; intros P lf m u I; try contradiction.
  - destruct I as [[= <- <- <-]|[]]. auto.
  - destruct I as [[= <- <- <-]|[]]. split; [reflexivity|]. split; [reflexivity|]. right. exists f. split; [apply P|reflexivity].
  - apply (IH P), I.
  - apply in_app_iff in I. destruct I as [I|I]; [apply (IHx (proj1 P)), I|apply (IHy (proj2 P)), I].
Qed.
Lemma pw_reads h l dst e : pw h l dst e -> forall f s, In (f, s) (reads V e iv_zero) ->
  s = iv_zero /\ fat h l f /\ (fbuf f <> fbuf dst \/ f = dst).
Proof.
  induction e as [v|f0|f0|op x IH|op x IHx y IHy| | |]; cbn [pw reads]; intros P f s I; try contradiction.
  - destruct I as [[= <- <-]|[]]. split; [reflexivity|exact P].
  - apply (IH P), I.
  - apply in_app_iff in I. destruct I as [I|I]; [apply (IHx (proj1 P)), I|apply (IHy (proj2 P)), I].
Qed.
Lemma pw_rest h l dst e : usable n l -> pw h l dst e -> thin_expr V n (gminus g) (gplus g) e /\ masks V e iv_zero = [] /\ singles V e = [].
Proof.
  intros U. induction e as [v|f0|f0|op x IH|op x IHx y IHy| | |]; cbn [pw thin_expr masks singles]; intros P; try contradiction; auto.
  - split; [|auto]. exact (fat_thin V n bx by_ bz g Pn Pg h l f0 U (proj1 P)).
  - destruct (IHx (proj1 P)) as (A & B & C). destruct (IHy (proj2 P)) as (A' & B' & C'). rewrite B, B', C, C'. auto.
Qed.
Lemma pointwise h l dst e : usable n l -> fat h l dst -> pw h l dst e ->
  exists h', completes (fun fuel => assign fuel dst e) h h' /\
    same_cells h h' /\
    (forall p, any_cell n (real_field n dst) p -> value V h' dst p = denote V vadd vmul h e p) /\
    (forall b i, b <> fbuf dst -> bdata (h' b) i = bdata (h b) i).
Proof.
  intros U Fd P. three.
  assert (X : forall d, 0 <= comp d (xc bx by_ bz l) <= 1).
  { intros d. pose proof (xc_bounds n bx by_ bz l U d). destruct (loc_beq l (face_of d)); lia. }
  pose proof (X XDIR); pose proof (X YDIR); pose proof (X ZDIR).
  destruct Pg as (_ & G). pose proof (G XDIR); pose proof (G YDIR); pose proof (G ZDIR). cbn [comp] in *.
  assert (R : forall p, any_cell n (real_field n dst) p -> region V n (real_field n dst) (real_expr V n e) p).
  { intros p A. split; [exact A|]. apply (fat_any V n bx by_ bz g h l dst p Fd) in A.
    intros lf m u I q Q1 Q2. destruct (pw_demands h l dst e P lf m u I) as (-> & -> & [->|(f & F & ->)]).
    - unfold known, in_region, iv_le in *. cbn -[drop xc GHOST_MAX] in *. unfold GHOST_MAX in *. intuition lia.
    - unfold known. rewrite (fat_layers V n bx by_ bz g h l f F). unfold in_region, iv_le in *. cbn -[drop xc] in *. intuition lia. }
  destruct (pw_rest h l dst e U P) as (TE & TM & TS).
  destruct (assign_completes V vadd vmul n (gminus g) (gplus g) h dst e) as (h' & C & A1 & A2 & A3).
  - split; [exact TE|]. rewrite TM, TS. split; [|split; [intros m s []|intros f []]].
    intros f s I. destruct (pw_reads h l dst e P f s I) as (_ & F & _). exact (fat_read V n bx by_ bz g h l f U F).
  - exact (fat_dest V n bx by_ bz g Pn Pg h l dst U Fd).
  - intros f s I. destruct (pw_reads h l dst e P f s I) as (-> & _ & [A|A]); [left; exact A|right]. subst f. auto.
  - intros lf m u I. change (fbc (real_field n dst)) with (fbc dst). rewrite (proj1 (fat_extra V n bx by_ bz g h l dst Fd)).
    destruct (pw_demands h l dst e P lf m u I) as (-> & -> & [->|(f & F & ->)]).
    + cbn -[drop xc GHOST_MAX] in *. unfold GHOST_MAX in *. intuition lia.
    + rewrite (fat_layers V n bx by_ bz g h l f F). cbn -[drop xc] in *. intuition lia.
  - exists iv_zero. apply R. apply (fat_any V n bx by_ bz g h l); [exact Fd|].
    unfold in_region. cbn -[drop xc] in *. intuition lia.
  - exists h'. split; [exact C|]. split; [exact A1|]. split; [|intros b i Nd; apply A3; left; exact Nd].
    intros p A. apply A2, R, A.
Qed.
Lemma cells_any h f p : fat h SVol f -> in_patch n p -> any_cell n (real_field n f) p.
Proof.
  intros F P. apply (fat_any V n bx by_ bz g h SVol f p F). three.
  pose proof (xc_bounds n bx by_ bz SVol (or_introl eq_refl)) as X. pose proof (X XDIR); pose proof (X YDIR); pose proof (X ZDIR).
  unfold in_patch, in_region in *. cbn -[drop xc] in *. intuition lia.
Qed.
Lemma faces_any h d f p : wide n d -> fat h (face_of d) f -> on_face n d p -> any_cell n (real_field n f) p.
Proof.
  intros W F P. apply (fat_any V n bx by_ bz g h (face_of d) f p F). three.
  assert (U : usable n (face_of d)) by (right; exists d; auto).
  pose proof (xc_bounds n bx by_ bz (face_of d) U) as X. pose proof (X XDIR); pose proof (X YDIR); pose proof (X ZDIR).
  unfold on_face, in_region, wide in *. destruct d; cbn -[drop xc] in *; intuition lia.
Qed.
Lemma value_frame h h' f p : (forall i, bdata (h' (fbuf f)) i = bdata (h (fbuf f)) i) -> value V h' f p = value V h f p.
Proof. intros E. apply E. Qed.

(** ** calculate_flux and calculate_rhs *)
Variable h0 h1 : V.
Variable cd0 cd1 : dir -> V.
Definition gen_flux (h : heap V) (T K : field) (d : dir) (p : ivec) : V :=
  vmul (vopp (vadd (vmul (value V h T (step d (-1) p)) (cd0 d)) (vmul (value V h T p) (cd1 d))))
       (vadd (vmul (value V h K (step d (-1) p)) h0) (vmul (value V h K p) h1)).
Definition grad_op (d : dir) : builder V := StencilOp (step d (-1) iv_zero, [iv_zero]) (cd0 d, [cd1 d]).
Definition interp_op (d : dir) : builder V := StencilOp (step d (-1) iv_zero, [iv_zero]) (h0, [h1]).
Definition div_op (d : dir) : builder V := StencilOp (iv_zero, [step d 1 iv_zero]) (cd0 d, [cd1 d]).
Lemma flux_ok h d T K F tmp : wide n d -> fat h SVol T -> fat h SVol K -> fat h (face_of d) F -> fat h (face_of d) tmp ->
  fbuf K <> fbuf tmp -> fbuf T <> fbuf tmp -> fbuf T <> fbuf F -> fbuf F <> fbuf tmp ->
  exists h', completes (fun fuel => calculate_flux V vadd vmul vopp vap fuel (grad_op d) (interp_op d) T K F tmp) h h' /\
    same_cells h h' /\
    (forall p, on_face n d p -> value V h' F p = gen_flux h T K d p) /\
    (forall b i, b <> fbuf F -> b <> fbuf tmp -> bdata (h' b) i = bdata (h b) i).
Proof.
  intros W FT FK FF Ft N1 N2 N3 N4. unfold calculate_flux, grad_op, interp_op.
  destruct (to_faces h d K tmp h0 h1 W FK Ft N1) as (ha & Ca & Ea & Va & Ra).
  pose proof (fat_same V n bx by_ bz g h ha SVol T Ea FT) as FTa.
  pose proof (fat_same V n bx by_ bz g h ha (face_of d) F Ea FF) as FFa.
  destruct (to_faces ha d T F (cd0 d) (cd1 d) W FTa FFa N3) as (hb & Cb & Eb & Vb & Rb).
  pose proof (fat_same V n bx by_ bz g ha hb (face_of d) F Eb FFa) as FFb.
  assert (Ftb : fat hb (face_of d) tmp).
  { eapply fat_same; [|exact Ft]. intros b i. rewrite Eb. apply Ea. }
  assert (U : usable n (face_of d)) by (right; exists d; auto).
  destruct (pointwise hb (face_of d) F (EOp2 V vmul (EOp1 V vopp (EField V F)) (EField V tmp)) U FFb) as (hc & Cc & Ec & Vc & Rc).
  { cbn [pw]. split; [split; [exact FFb|right; reflexivity]|]. split; [exact Ftb|left; congruence]. }
  exists hc. split; [|split; [|split]].
  - apply completes_seq with ha; [rewrite vap_two; exact Ca|]. apply completes_seq with hb; [rewrite vap_two; exact Cb|exact Cc].
  - intros b i. rewrite Ec, Eb. apply Ea.
  - intros p P. rewrite (Vc p (faces_any hb d F p W FFb P)). cbn [denote]. rewrite (Vb p P). unfold gen_flux.
    rewrite (value_frame h ha T), (value_frame h ha T) by (intros i; apply Ra; congruence).
    rewrite (value_frame ha hb tmp) by (intros i; apply Rb; congruence). rewrite (Va p P). reflexivity.
  - intros b i A B. rewrite Rc, Rb, Ra by assumption. reflexivity.
Qed.
Lemma rhs_ok h d F C R tmp : wide n d -> fat h (face_of d) F -> fat h SVol C -> fat h SVol R -> fat h SVol tmp ->
  fbuf F <> fbuf tmp -> fbuf R <> fbuf tmp -> fbuf C <> fbuf tmp -> fbuf C <> fbuf R ->
  exists h', completes (fun fuel => calculate_rhs V vadd vmul vsub vdiv vap fuel (div_op d) F C R tmp) h h' /\
    same_cells h h' /\
    (forall p, in_patch n p -> value V h' R p =
       vsub (value V h R p) (vdiv (vadd (vmul (value V h F p) (cd0 d)) (vmul (value V h F (step d 1 p)) (cd1 d))) (value V h C p))) /\
    (forall b i, b <> fbuf R -> b <> fbuf tmp -> bdata (h' b) i = bdata (h b) i).
Proof.
  intros W FF FC FR Ft N1 N2 N3 N4. unfold calculate_rhs, div_op.
  destruct (to_cells h d F tmp (cd0 d) (cd1 d) W FF Ft N1) as (ha & Ca & Ea & Va & Ra).
  pose proof (fat_same V n bx by_ bz g h ha SVol R Ea FR) as FRa.
  pose proof (fat_same V n bx by_ bz g h ha SVol C Ea FC) as FCa.
  pose proof (fat_same V n bx by_ bz g h ha SVol tmp Ea Ft) as Fta.
  destruct (pointwise ha SVol R (EOp2 V vsub (EField V R) (EOp2 V vdiv (EField V tmp) (EField V C))) (or_introl eq_refl) FRa)
    as (hb & Cb & Eb & Vb & Rb).
  { cbn [pw]. split; [split; [exact FRa|right; reflexivity]|]. split; [split; [exact Fta|left; congruence]|split; [exact FCa|left; congruence]]. }
  exists hb. split; [|split; [|split]].
  - apply completes_seq with ha; [rewrite vap_two; exact Ca|exact Cb].
  - intros b i. rewrite Eb. apply Ea.
  - intros p P. rewrite (Vb p (cells_any ha R p FRa P)). cbn [denote]. rewrite (Va p P).
    rewrite (value_frame h ha R), (value_frame h ha C) by (intros i; apply Ra; congruence). reflexivity.
  - intros b i A B. rewrite Rb, Ra by assumption. reflexivity.
Qed.
End HeatQ.
