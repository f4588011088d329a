(** Proofs for C65, over any element type: one pass of the loop over time, and
    the loop. *)
From Verif Require Import Prelude WindowM WindowS GhostM FieldM FieldS FieldP MaskM NeboM NeboS NeboF StencilM StencilS StencilP RoundR StoreM StoreS ThinS ThinP ThinQ ThinR HeatM HeatS HeatP HeatQ.
Open Scope Z_scope.

(** The operators of the database between cells and faces. *)
Section Ops.
Variable V : Type.
Variable c : stencil_coefs V.
Variable h0 h1 : V.
Variable cd0 cd1 : dir -> V.
Hypothesis Ch : coefHalf c = (h0, [h1]).
Hypothesis Cd : forall d, coefD c d = (cd0 d, [cd1 d]).
Lemma reg_grad d b : In (Gradient, SVol, face_of d, b) (registered c) -> b = grad_op V cd0 cd1 d.
Proof.
  intros I. apply registered_kind in I. inversion I as [| | |t s d' e E D N| | |]; subst.
  rewrite Cd. destruct d, e; cbn in N; try (exfalso; apply N; reflexivity); reflexivity.
Qed.
Lemma reg_div d b : In (Divergence, face_of d, SVol, b) (registered c) -> b = div_op V cd0 cd1 d.
Proof.
  intros I. apply registered_kind in I. inversion I as [| | |t s d' e E D N| | |]; subst.
  rewrite Cd. destruct d, e; cbn in N; try (exfalso; apply N; reflexivity); reflexivity.
Qed.
Lemma reg_interp d b : In (Interpolant, SVol, face_of d, b) (registered c) -> b = interp_op V h0 h1 d.
Proof.
  intros I. apply registered_kind in I. inversion I as [s d' D|s d' D|s d' D|t s d' e [E|E] D N| | |]; subst; try discriminate E;
    try (destruct d; discriminate D).
  rewrite Ch. destruct d; reflexivity.
Qed.
End Ops.

Section HeatR.
Variable V : Type.
Variable vadd vmul vsub vdiv : V -> V -> V.
Variable vopp : V -> V.
Variable vzero : V.
Variable vap : builder V -> expr V -> expr V.
Hypothesis vap_two : forall p0 p1 c0 c1 a, vap (StencilOp (p0, [p1]) (c0, [c1])) a = EStencil V p0 c0 [(p1, c1)] a.
Notation completes := (completes V).
Variable c : stencil_coefs V.
Variable h0 h1 : V.
Variable cd0 cd1 : dir -> V.
Hypothesis Ch : coefHalf c = (h0, [h1]).
Hypothesis Cd : forall d, coefD c d = (cd0 d, [cd1 d]).
Variable n : ivec.
Variable bx by_ bz : bool.
Variable g : ghost.
Variable P : problem V.
Notation setup h := (heat_setup V n bx by_ bz g (registered c) h P).
Notation scratch h s := (scratch_ok V n bx by_ bz g h P s).
Notation same_cells h h' := (forall b i, bcells (h' b) i = bcells (h b) i).

Lemma setup_same h h' : same_cells h h' -> setup h -> setup h'.
Proof.
  intros E []. constructor; auto; intros; eapply fat_same; eauto.
Qed.
Lemma scratch_same h h' s : same_cells h h' -> scratch h s -> scratch h' s.
Proof.
  intros E []. constructor; auto; intros; eapply fat_same; eauto.
Qed.
Lemma wide_dec d : (1 <? comp d n) = true <-> wide n d.
Proof. unfold wide. apply Z.ltb_lt. Qed.

(** What the program computes. *)
Definition gflux (h : heap V) (d : dir) (p : ivec) : V := gen_flux V vadd vmul vopp h0 h1 cd0 cd1 h (temperature P) (thermCond P) d p.
Definition gterm (h : heap V) (d : dir) (p : ivec) : V :=
  vdiv (vadd (vmul (gflux h d p) (cd0 d)) (vmul (gflux h d (step d 1 p)) (cd1 d))) (value V h (rhoCp P) p).
Definition grhs (h : heap V) (p : ivec) : V := fold_left (fun r d => vsub r (gterm h d p)) (wide_dirs n) vzero.

Lemma face_step d p : in_patch n p -> on_face n d p /\ on_face n d (step d 1 p).
Proof. unfold in_patch, on_face, in_region. destruct d; cbn; lia. Qed.

Lemma flux_stage h s d : setup h -> scratch h s -> exists h',
  completes (fun fuel => when V (1 <? comp d n)
    (calculate_flux V vadd vmul vopp vap fuel (op_grad P d) (op_interp P d) (temperature P) (thermCond P) (flux P d) (fst s d))) h h' /\
  same_cells h h' /\
  (wide n d -> forall p, on_face n d p -> value V h' (flux P d) p = gflux h d p) /\
  (forall b i, (wide n d -> b <> fbuf (flux P d) /\ b <> fbuf (fst s d)) -> bdata (h' b) i = bdata (h b) i).
Proof.
  intros S1 S2. destruct (1 <? comp d n) eqn:E.
  - pose proof (proj1 (wide_dec d) E) as W. destruct S1 as [Pn Pg HC HF OR OF OF2 HG HI HD]. destruct S2 as [SF SC SO SOF].
    assert (IT : In (temperature P) (rhs P :: inputs V P)) by (cbn; auto).
    assert (IK : In (thermCond P) (rhs P :: inputs V P)) by (cbn; auto).
    rewrite (reg_grad V c cd0 cd1 Cd d _ (HG d W)), (reg_interp V c h0 h1 Ch d _ (HI d W)).
    destruct (flux_ok V vadd vmul vsub vdiv vopp vzero vap vap_two n bx by_ bz g Pn Pg h0 h1 cd0 cd1 h d (temperature P) (thermCond P) (flux P d) (fst s d))
      as (h' & C & EC & EV & ER); auto; try (apply (SO d); assumption); try (apply (SOF d d); assumption).
    exists h'. split; [exact C|]. split; [exact EC|]. split; [intros _; exact EV|]. intros b i B. apply ER; apply (B W).
  - exists h. split; [apply completes_ret|]. split; [reflexivity|]. split; [|reflexivity].
    intros W. apply wide_dec in W. congruence.
Qed.
Lemma rhs_stage h s d F : setup h -> scratch h s -> (wide n d -> forall p, on_face n d p -> value V h (flux P d) p = F p) -> exists h',
  completes (fun fuel => when V (1 <? comp d n)
    (calculate_rhs V vadd vmul vsub vdiv vap fuel (op_div P d) (flux P d) (rhoCp P) (rhs P) (snd s d))) h h' /\
  same_cells h h' /\
  (forall p, in_patch n p -> value V h' (rhs P) p =
     if 1 <? comp d n then vsub (value V h (rhs P) p) (vdiv (vadd (vmul (F p) (cd0 d)) (vmul (F (step d 1 p)) (cd1 d))) (value V h (rhoCp P) p))
     else value V h (rhs P) p) /\
  (forall b i, b <> fbuf (rhs P) -> (wide n d -> b <> fbuf (snd s d)) -> bdata (h' b) i = bdata (h b) i).
Proof.
  intros S1 S2 HV. destruct (1 <? comp d n) eqn:E.
  - pose proof (proj1 (wide_dec d) E) as W. destruct S1 as [Pn Pg HC HF OR OF OF2 HG HI HD]. destruct S2 as [SF SC SO SOF].
    assert (IT : In (rhoCp P) (inputs V P)) by (cbn; auto).
    assert (IT' : In (rhoCp P) (rhs P :: inputs V P)) by (cbn; auto).
    assert (IR : In (rhs P) (rhs P :: inputs V P)) by (cbn; auto).
    rewrite (reg_div V c cd0 cd1 Cd d _ (HD d W)).
    destruct (rhs_ok V vadd vmul vsub vdiv vopp vzero vap vap_two n bx by_ bz g Pn Pg cd0 cd1 h d (flux P d) (rhoCp P) (rhs P) (snd s d))
      as (h' & C & EC & EV & ER); auto; try (apply (SO d); assumption); try (apply (SOF d d); assumption).
    exists h'. split; [exact C|]. split; [exact EC|]. split; [|intros b i B1 B2; apply ER; auto].
    intros p IP. destruct (face_step d p IP) as (A & B). rewrite (EV p IP), (HV W p A), (HV W _ B). reflexivity.
  - exists h. split; [apply completes_ret|]. split; [reflexivity|]. split; reflexivity.
Qed.

Ltac frame R := intros i; apply R; intros; cbn; intuition congruence.
(** One pass. *)
Lemma step_ok h s : setup h -> scratch h s -> exists h',
  completes (fun fuel => heat_step V vadd vmul vsub vdiv vopp vzero vap fuel n (with_scratch P s)) h h' /\
  same_cells h h' /\
  (forall p, in_patch n p -> value V h' (rhs P) p = grhs h p) /\
  (forall d p, wide n d -> on_face n d p -> value V h' (flux P d) p = gflux h d p) /\
  (forall b i, ~ written V n P [s] b -> bdata (h' b) i = bdata (h b) i).
Proof.
  intros S1 S2. pose proof S1 as [Pn Pg HC HF OR OF OF2 HG HI HD]. pose proof S2 as [SF SC SO SOF].
  assert (IT : In (temperature P) (rhs P :: inputs V P)) by (cbn; auto).
  assert (IK : In (thermCond P) (rhs P :: inputs V P)) by (cbn; auto).
  assert (IC : In (rhoCp P) (rhs P :: inputs V P)) by (cbn; auto).
  assert (IR : In (rhs P) (rhs P :: inputs V P)) by (cbn; auto).
  (* the fluxes *)
  destruct (flux_stage h s XDIR S1 S2) as (ha & Ca & Ea & Va & Ra).
  pose proof (setup_same h ha Ea S1) as S1a. pose proof (scratch_same h ha s Ea S2) as S2a.
  destruct (flux_stage ha s YDIR S1a S2a) as (hb & Cb & Eb & Vb & Rb).
  pose proof (setup_same ha hb Eb S1a) as S1b. pose proof (scratch_same ha hb s Eb S2a) as S2b.
  destruct (flux_stage hb s ZDIR S1b S2b) as (hc & Cc & Ec & Vc & Rc).
  pose proof (setup_same hb hc Ec S1b) as S1c. pose proof (scratch_same hb hc s Ec S2b) as S2c.
  assert (INa : forall f, In f (rhs P :: inputs V P) -> forall i, bdata (ha (fbuf f)) i = bdata (h (fbuf f)) i).
  { intros f I i. apply Ra. intros W. split; [apply OF; assumption|apply (SO XDIR f W I)]. }
  assert (INb : forall f, In f (rhs P :: inputs V P) -> forall i, bdata (hb (fbuf f)) i = bdata (h (fbuf f)) i).
  { intros f I i. rewrite <- (INa f I). apply Rb. intros W. split; [apply OF; assumption|apply (SO YDIR f W I)]. }
  assert (INc : forall f, In f (rhs P :: inputs V P) -> forall i, bdata (hc (fbuf f)) i = bdata (h (fbuf f)) i).
  { intros f I i. rewrite <- (INb f I). apply Rc. intros W. split; [apply OF; assumption|apply (SO ZDIR f W I)]. }
  assert (FX : forall d p, wide n d -> on_face n d p -> value V hc (flux P d) p = gflux h d p).
  { intros d p W F. destruct d.
    - rewrite (value_frame V hb hc), (value_frame V ha hb); [exact (Va W p F)| |].
      + intros i. apply Rb. intros W'. split; [apply OF2; auto; discriminate|apply (SOF YDIR XDIR W' W)].
      + intros i. apply Rc. intros W'. split; [apply OF2; auto; discriminate|apply (SOF ZDIR XDIR W' W)].
    - rewrite (value_frame V hb hc), (Vb W p F).
      + unfold gflux, gen_flux. rewrite !(value_frame V h ha) by (apply INa; assumption). reflexivity.
      + intros i. apply Rc. intros W'. split; [apply OF2; auto; discriminate|apply (SOF ZDIR YDIR W' W)].
    - rewrite (Vc W p F). unfold gflux, gen_flux. rewrite !(value_frame V h hb) by (apply INb; assumption). reflexivity. }
  (* the right-hand side *)
  destruct (pointwise V vadd vmul vsub vdiv vopp vzero vap vap_two n bx by_ bz g Pn Pg hc SVol (rhs P) (EScalar V vzero) (or_introl eq_refl) (hs_cells _ _ _ _ _ _ _ _ _ S1c _ IR) I)
    as (hd & CD & ED & VD & RD).
  pose proof (setup_same hc hd ED S1c) as S1d. pose proof (scratch_same hc hd s ED S2c) as S2d.
  assert (FD : forall d p, wide n d -> on_face n d p -> value V hd (flux P d) p = gflux h d p).
  { intros d p W F. rewrite <- (FX d p W F). apply value_frame. intros i. apply RD. apply not_eq_sym, OF; assumption. }
  destruct (rhs_stage hd s XDIR (gflux h XDIR) S1d S2d (fun W p F => FD XDIR p W F)) as (he & CE & EE & VE & RE).
  pose proof (setup_same hd he EE S1d) as S1e. pose proof (scratch_same hd he s EE S2d) as S2e.
  assert (FE : forall d p, wide n d -> on_face n d p -> value V he (flux P d) p = gflux h d p).
  { intros d p W F. rewrite <- (FD d p W F). apply value_frame. intros i. apply RE; [apply not_eq_sym, OF; assumption|].
    intros W'. apply (SOF XDIR d W' W). }
  destruct (rhs_stage he s YDIR (gflux h YDIR) S1e S2e (fun W p F => FE YDIR p W F)) as (hf & CF & EF & VF & RF).
  pose proof (setup_same he hf EF S1e) as S1f. pose proof (scratch_same he hf s EF S2e) as S2f.
  assert (FF : forall d p, wide n d -> on_face n d p -> value V hf (flux P d) p = gflux h d p).
  { intros d p W F. rewrite <- (FE d p W F). apply value_frame. intros i. apply RF; [apply not_eq_sym, OF; assumption|].
    intros W'. apply (SOF YDIR d W' W). }
  destruct (rhs_stage hf s ZDIR (gflux h ZDIR) S1f S2f (fun W p F => FF ZDIR p W F)) as (hg & CG & EG & VG & RG).
  assert (FG : forall d p, wide n d -> on_face n d p -> value V hg (flux P d) p = gflux h d p).
  { intros d p W F. rewrite <- (FF d p W F). apply value_frame. intros i. apply RG; [apply not_eq_sym, OF; assumption|].
    intros W'. apply (SOF ZDIR d W' W). }
  assert (OC : fbuf (rhoCp P) <> fbuf (rhs P)) by (apply OR; cbn; auto).
  assert (Kd : forall p, value V hd (rhoCp P) p = value V h (rhoCp P) p).
  { intros p. rewrite (value_frame V hc hd) by (intros i; apply RD; exact OC). apply value_frame, INc, IC. }
  assert (Ke : forall p, value V he (rhoCp P) p = value V h (rhoCp P) p).
  { intros p. rewrite <- Kd. apply value_frame. intros i. apply RE; [exact OC|]. intros W. apply (SO XDIR _ W IC). }
  assert (Kf : forall p, value V hf (rhoCp P) p = value V h (rhoCp P) p).
  { intros p. rewrite <- Ke. apply value_frame. intros i. apply RF; [exact OC|]. intros W. apply (SO YDIR _ W IC). }
  exists hg. split; [|split; [|split; [|split; [exact FG|]]]].
  - unfold heat_step. cbn [temperature thermCond rhoCp rhs flux face_tmp cell_tmp op_grad op_interp op_div with_scratch].
    apply completes_seq with ha; [exact Ca|]. apply completes_seq with hb; [exact Cb|]. apply completes_seq with hc; [exact Cc|].
    apply completes_seq with hd; [exact CD|]. apply completes_seq with he; [exact CE|]. apply completes_seq with hf; [exact CF|exact CG].
  - intros b i. rewrite EG, EF, EE, ED, Ec, Eb. apply Ea.
  - intros p IP. rewrite (VG p IP), (VF p IP), (VE p IP), Kf, Ke, Kd.
    rewrite (VD p (cells_any V vadd vmul vsub vdiv vopp vzero vap vap_two n bx by_ bz g Pn Pg hc (rhs P) p (hs_cells _ _ _ _ _ _ _ _ _ S1c _ IR) IP)). cbn [denote].
    unfold grhs, wide_dirs, dirs, gterm. cbn [filter].
    destruct (1 <? comp XDIR n), (1 <? comp YDIR n), (1 <? comp ZDIR n); reflexivity.
  - intros b i B.
    assert (Br : b <> fbuf (rhs P)) by (intros Eq; apply B; left; exact Eq).
    assert (Bf : forall d, wide n d -> b <> fbuf (flux P d)) by (intros d W Eq; apply B; right; left; exists d; auto).
    assert (Bs : forall d, wide n d -> b <> fbuf (fst s d) /\ b <> fbuf (snd s d)).
    { intros d W. split; intros Eq; apply B; right; right; exists s, d; cbn; auto. }
    rewrite RG, RF, RE, RD, Rc, Rb, Ra; auto; intros W; try (split; [apply Bf, W|]); apply (Bs _ W).
Qed.

(** The loop over time. *)
Lemma written_in b s scr : ~ written V n P (s :: scr) b -> ~ written V n P [s] b /\ ~ written V n P scr b.
Proof.
  intros B. split; intros [A|[A|(s' & d & I & A)]]; apply B.
  - left; exact A.
  - right; left; exact A.
  - right; right. exists s', d. destruct I as [<-|[]]. cbn; auto.
  - left; exact A.
  - right; left; exact A.
  - right; right. exists s', d. cbn; auto.
Qed.
Lemma loop_ok scr : forall h, setup h -> (forall s, In s scr -> scratch h s) -> exists h',
  completes (fun fuel => heat_loop V vadd vmul vsub vdiv vopp vzero vap fuel n P scr) h h' /\
  same_cells h h' /\
  (scr <> [] -> (forall p, in_patch n p -> value V h' (rhs P) p = grhs h p) /\
     (forall d p, wide n d -> on_face n d p -> value V h' (flux P d) p = gflux h d p)) /\
  (forall b i, ~ written V n P scr b -> bdata (h' b) i = bdata (h b) i).
Proof.
  induction scr as [|s scr IH]; intros h S1 S2.
  - exists h. split; [apply completes_ret|]. split; [reflexivity|]. split; [intros []; reflexivity|reflexivity].
  - destruct (step_ok h s S1 (S2 s (or_introl eq_refl))) as (h1' & C1 & E1 & R1 & F1 & K1).
    destruct (IH h1') as (h' & C & E & R & K).
    { exact (setup_same h h1' E1 S1). }
    { intros t I. apply (scratch_same h h1' t E1), S2. right. exact I. }
    exists h'. split; [cbn [heat_loop]; apply completes_seq with h1'; assumption|].
    split; [intros b i; rewrite E; apply E1|]. split.
    + intros _. destruct scr as [|t scr].
      { clear IH. assert (Eh : h' = h1').
        { destruct C as (N & C). specialize (C N (le_n N)). cbn in C. congruence. }
        subst h'. auto. }
      destruct (R ltac:(discriminate)) as (RR & FF).
      (* inputs are not written by the first pass *)
      assert (IN : forall f, In f (inputs V P) -> forall q, value V h1' f q = value V h f q).
      { intros f I q. apply K1. pose proof S1 as [Pn Pg HC HF OR OF OF2 HG HI HD]. pose proof (S2 s (or_introl eq_refl)) as [SF SC SO SOF].
        intros [Eq|[(d & W & Eq)|(s' & d & [<-|[]] & W & Eq)]].
        - apply (OR f I Eq).
        - apply (OF d f W (or_intror I) Eq).
        - destruct (SO d f W (or_intror I)) as (A & B). destruct Eq as [Eq|Eq]; [apply A, Eq|apply B, Eq]. }
      assert (GF : forall d p, gflux h1' d p = gflux h d p).
      { intros d p. unfold gflux, gen_flux. rewrite !IN by (cbn; auto). reflexivity. }
      split.
      * intros p IP. rewrite (RR p IP). unfold grhs, gterm.
        assert (Ex : forall l r, fold_left (fun r d => vsub r (vdiv (vadd (vmul (gflux h1' d p) (cd0 d)) (vmul (gflux h1' d (step d 1 p)) (cd1 d))) (value V h1' (rhoCp P) p))) l r
          = fold_left (fun r d => vsub r (vdiv (vadd (vmul (gflux h d p) (cd0 d)) (vmul (gflux h d (step d 1 p)) (cd1 d))) (value V h (rhoCp P) p))) l r).
        { induction l as [|d l IHl]; intros r; [reflexivity|]. cbn [fold_left]. rewrite <- IHl. f_equal. rewrite !GF. f_equal. f_equal. apply IN. cbn; auto. }
        apply Ex.
      * intros d p W F. rewrite (FF d p W F). apply GF.
    + intros b i B. destruct (written_in b s scr B) as (B1 & B2). rewrite (K b i B2). apply (K1 b i B1).
Qed.
End HeatR.
