(** The boundary-condition operators in double precision: what they leave in memory. *)
From Verif Require Import Prelude WindowM WindowS WindowP GhostM FieldM FieldS FieldP MaskM MaskS NeboM NeboS NeboP NeboQ NeboA NeboB NeboC NeboD NeboE NeboF NeboG StencilM StencilS StencilP StencilQ BCM BCS BCP BCQ RoundM RoundS HeatM BC64M BC64S.
Open Scope Z_scope.

Notation den h e p := (denote dbl dadd dmul h e p).
Notation bden h e p := (bdenote dbl dadd dmul h e p).

(** ** In-place evaluation of the boundary-condition expression *)
Section Builder.
Variable b : bc_builder64.
Variable m : mask.
Variable phi : field.
Variable gamma : expr dbl.
Variable minus : bool.
Variable n : ivec.
Variable h0 : heap dbl.
Let D := b_dest64 b.
Let S := b_src64 b.
Let e := bc_expr64 b m phi gamma minus.

Hypothesis Side : forall g, next_to minus (offset (b_gamma64 b)) (offset (b_phi64 b)) g (iv_add g D).
Hypothesis OnP : on_patch n phi.
Hypothesis SD : S <> D.
Hypothesis Greads : forall g s, In (g, s) (reads dbl gamma iv_zero) -> fbuf g <> fbuf phi.
Hypothesis Gsingles : forall g, In g (singles dbl gamma) -> fbuf g <> fbuf phi.

Definition hit64 (p : ivec) : bool := holds m (iv_sub p D).
Definition want64 (p : ivec) : dbl := denote dbl dadd dmul h0 gamma (iv_sub p D).

(** An expression that does not read the buffer does not see changes to it. *)
Lemma denote_frame64 h h' :
  (forall a p s, (forall g u, In (g, u) (reads dbl a s) -> h (fbuf g) = h' (fbuf g)) ->
               (forall g, In g (singles dbl a) -> h (fbuf g) = h' (fbuf g)) ->
     denote dbl dadd dmul h a p = denote dbl dadd dmul h' a p) /\
  (forall a p s, (forall g u, In (g, u) (breads dbl a s) -> h (fbuf g) = h' (fbuf g)) ->
               (forall g, In g (bsingles dbl a) -> h (fbuf g) = h' (fbuf g)) ->
     bdenote dbl dadd dmul h a p = bdenote dbl dadd dmul h' a p).
Proof.
  apply expr_bexpr_ind.
  - reflexivity.
  - intros f p s R _. cbn. unfold value. rewrite (R f s) by (left; reflexivity). reflexivity.
  - intros f p s _ R. cbn. rewrite (R f) by (left; reflexivity). reflexivity.
  - intros op a IH p s R Q. cbn. rewrite (IH p s); auto.
  - intros op a IHa c IHc p s R Q. change (op (den h a p) (den h c p) = op (den h' a p) (den h' c p)).
    change (forall g u, In (g, u) (reads dbl a s ++ reads dbl c s) -> h (fbuf g) = h' (fbuf g)) in R.
    change (forall g, In g (singles dbl a ++ singles dbl c) -> h (fbuf g) = h' (fbuf g)) in Q.
    rewrite (IHa p s), (IHc p s); auto; frame R Q.
  - intros c IHc x IHx o IHo p s R Q.
    change ((if bden h c p then den h x p else den h o p) = (if bden h' c p then den h' x p else den h' o p)).
    change (forall g u, In (g, u) (breads dbl c s ++ reads dbl x s ++ reads dbl o s) -> h (fbuf g) = h' (fbuf g)) in R.
    change (forall g, In g (bsingles dbl c ++ singles dbl x ++ singles dbl o) -> h (fbuf g) = h' (fbuf g)) in Q.
    rewrite (IHc p s), (IHx p s), (IHo p s); auto; frame R Q.
  - intros p0 c0 rest a IH p s R Q.
    change (forall g u, In (g, u) (reads dbl a (iv_add s p0) ++ flat_map (fun pc => reads dbl a (iv_add s (fst pc))) rest) -> h (fbuf g) = h' (fbuf g)) in R.
    cbn [denote].
    rewrite (IH (iv_add p p0) (iv_add s p0)); [|frame R Q|exact Q].
    assert (K : forall x, In x rest -> den h a (iv_add p (fst x)) = den h' a (iv_add p (fst x))).
    { intros x Ix. apply (IH _ (iv_add s (fst x))); [|exact Q]. intros g u I. eapply R. apply in_app_iff. right. apply in_flat_map. eauto. }
    clear R Q. generalize (dmul (den h' a (iv_add p p0)) c0).
    induction rest as [|x rest IHr]; intros w; cbn [fold_left]; [reflexivity|]. rewrite K by (left; reflexivity). apply IHr. intros; apply K; right; assumption.
  - intros p0 rest a IH p s R Q.
    change (forall g u, In (g, u) (reads dbl a (iv_add s p0) ++ flat_map (fun x => reads dbl a (iv_add s x)) rest) -> h (fbuf g) = h' (fbuf g)) in R.
    cbn [denote].
    rewrite (IH (iv_add p p0) (iv_add s p0)); [|frame R Q|exact Q].
    assert (K : forall x, In x rest -> den h a (iv_add p x) = den h' a (iv_add p x)).
    { intros x Ix. apply (IH _ (iv_add s x)); [|exact Q]. intros g u I. eapply R. apply in_app_iff. right. apply in_flat_map. eauto. }
    clear R Q. generalize (den h' a (iv_add p p0)).
    induction rest as [|x rest IHr]; intros w; cbn [fold_left]; [reflexivity|]. rewrite K by (left; reflexivity). apply IHr. intros; apply K; right; assumption.
  - reflexivity.
  - reflexivity.
  - intros c a IHa d IHd p s R Q. change (c (den h a p) (den h d p) = c (den h' a p) (den h' d p)).
    change (forall g u, In (g, u) (reads dbl a s ++ reads dbl d s) -> h (fbuf g) = h' (fbuf g)) in R.
    change (forall g, In g (singles dbl a ++ singles dbl d) -> h (fbuf g) = h' (fbuf g)) in Q.
    rewrite (IHa p s), (IHd p s); auto; frame R Q.
  - intros a IHa d IHd p s R Q. change (bden h a p && bden h d p = bden h' a p && bden h' d p).
    change (forall g u, In (g, u) (breads dbl a s ++ breads dbl d s) -> h (fbuf g) = h' (fbuf g)) in R.
    change (forall g, In g (bsingles dbl a ++ bsingles dbl d) -> h (fbuf g) = h' (fbuf g)) in Q.
    rewrite (IHa p s), (IHd p s); auto; frame R Q.
  - intros a IHa d IHd p s R Q. change (bden h a p || bden h d p = bden h' a p || bden h' d p).
    change (forall g u, In (g, u) (breads dbl a s ++ breads dbl d s) -> h (fbuf g) = h' (fbuf g)) in R.
    change (forall g, In g (bsingles dbl a ++ bsingles dbl d) -> h (fbuf g) = h' (fbuf g)) in Q.
    rewrite (IHa p s), (IHd p s); auto; frame R Q.
  - intros a IH p s R Q. change (negb (bden h a p) = negb (bden h' a p)). rewrite (IH p s); auto.
  - intros q a IH p s R Q. apply (IH _ (iv_add s q)); auto.
Qed.

Lemma bc_denote64 h p : (forall c, c <> fbuf phi -> h c = h0 c) ->
  denote dbl dadd dmul h e p =
  if hit64 p then ddiv (dsub (want64 p) (dmul (value dbl h phi (iv_add p (iv_sub S D))) (b_srccoef64 b))) (b_destcoef64 b)
  else value dbl h phi p.
Proof.
  intros F.
  change (den h e p) with (if bden h (bc_mask64 b m minus) p
    then ddiv (dsub (den h gamma (iv_add p (shifted_gamma64 b))) (dmul (value dbl h phi (iv_add p (shifted_src64 b))) (b_srccoef64 b))) (b_destcoef64 b)
    else value dbl h phi p).
  assert (B : bdenote dbl dadd dmul h (bc_mask64 b m minus) p = hit64 p).
  { pose proof (next_to_point minus _ _ D (offset_staggered (b_gamma64 b)) (offset_staggered (b_phi64 b)) Side) as E.
    unfold bc_mask64, hit64. destruct minus; cbn [bdenote]; f_equal; rewrite E;
      destruct p; unfold iv_sub, iv_add, iv_neg; cbn; f_equal; lia. }
  rewrite B. destruct (hit64 p); [|reflexivity]. f_equal. f_equal.
  unfold want64. transitivity (denote dbl dadd dmul h gamma (iv_sub p D)).
  - f_equal.
  - apply (proj1 (denote_frame64 h h0) gamma _ iv_zero).
    + intros g u I. apply F. exact (Greads g u I).
    + intros g I. apply F. exact (Gsingles g I).
Qed.

(** Invariant after the points of l have been visited. *)
Definition bc_inv64 (l : list ivec) (h : heap dbl) : Prop :=
  (forall c i, bcells (h c) i = bcells (h0 c) i) /\
  (forall c, c <> fbuf phi -> h c = h0 c) /\
  (forall i, (forall p, In p l -> hit64 p = true -> i <> cell phi p) -> bdata (h (fbuf phi)) i = bdata (h0 (fbuf phi)) i) /\
  (forall p, In p l -> hit64 p = true ->
     value dbl h phi p = ddiv (dsub (want64 p) (dmul (value dbl h phi (iv_add p (iv_sub S D))) (b_srccoef64 b))) (b_destcoef64 b)).

Lemma sd_shift64 p : iv_add p (iv_sub S D) <> p.
Proof. intros E. apply SD. destruct p as [p1 p2 p3]. injection E as E1 E2 E3.
  clearbody S D. clear -E1 E2 E3. destruct S as [s1 s2 s3], D as [d1 d2 d3]. cbn in *. f_equal; lia. Qed.

Lemma bc_step64 l p h :
  bc_inv64 l h -> ~ In p l -> any_cell n phi p -> any_cell n phi (iv_add p (iv_sub S D)) ->
  (forall q, In q l -> any_cell n phi q /\ any_cell n phi (iv_add q (iv_sub S D))) ->
  (forall q, In q l -> hit64 q = true -> hit64 p = true -> iv_add q (iv_sub S D) <> p) ->
  bc_inv64 (l ++ [p]) (upd h (fbuf phi) (cell phi p) (denote dbl dadd dmul h e p)).
Proof.
  intros (I1 & I2 & I3 & I4) NI Ap As Al Ch.
  rewrite (bc_denote64 h p I2).
  assert (INJ : forall q, any_cell n phi q -> cell phi q = cell phi p -> q = p).
  { intros q Aq E. eapply in_block_inj; [eapply any_in_block; eauto..|exact E]. }
  set (v := if hit64 p then _ else _).
  assert (VAL : forall q, any_cell n phi q -> value dbl (upd h (fbuf phi) (cell phi p) v) phi q = value dbl h phi q \/ q = p).
  { intros q Aq. unfold value, upd. rewrite Nat.eqb_refl. cbn [bdata].
    destruct (Z.eqb_spec (cell phi q) (cell phi p)) as [E|E]; auto. }
  assert (OFF : hit64 p = false -> forall q, any_cell n phi q -> value dbl (upd h (fbuf phi) (cell phi p) v) phi q = value dbl h phi q).
  { intros Hp q Aq. destruct (VAL q Aq) as [E|E]; [exact E|]. subst q. unfold value at 1, upd. rewrite Nat.eqb_refl. cbn [bdata].
    rewrite Z.eqb_refl. unfold v. rewrite Hp. reflexivity. }
  split; [|split; [|split]].
  - intros c i. unfold upd. destruct (Nat.eqb c (fbuf phi)); apply I1.
  - intros c Nc. unfold upd. apply Nat.eqb_neq in Nc. rewrite Nc. apply I2, Nat.eqb_neq, Nc.
  - intros i Hi. unfold upd. rewrite Nat.eqb_refl. cbn [bdata].
    assert (Hi' : forall q, In q l -> hit64 q = true -> i <> cell phi q) by (intros q Iq; apply Hi, in_app_iff; auto).
    destruct (Z.eqb_spec i (cell phi p)) as [E|E]; [|apply I3, Hi'].
    subst i. unfold v. destruct (hit64 p) eqn:Hp; [exfalso; apply (Hi p); [apply in_app_iff; right; left; reflexivity|exact Hp|reflexivity]|].
    unfold value. apply I3, Hi'.
  - intros q Iq Hq. apply in_app_iff in Iq. destruct Iq as [Iq|[<-|[]]].
    + destruct (Al q Iq) as (A1 & A2).
      assert (E1 : value dbl (upd h (fbuf phi) (cell phi p) v) phi q = value dbl h phi q).
      { destruct (VAL q A1) as [E|E]; [exact E|]. subst q. contradiction. }
      assert (E2 : value dbl (upd h (fbuf phi) (cell phi p) v) phi (iv_add q (iv_sub S D)) = value dbl h phi (iv_add q (iv_sub S D))).
      { destruct (hit64 p) eqn:Hp; [|apply OFF; auto]. destruct (VAL _ A2) as [E|E]; [exact E|].
        exfalso. exact (Ch q Iq Hq eq_refl E). }
      rewrite E1, E2. apply I4; assumption.
    + assert (E2 : value dbl (upd h (fbuf phi) (cell phi p) v) phi (iv_add p (iv_sub S D)) = value dbl h phi (iv_add p (iv_sub S D))).
      { destruct (VAL _ As) as [E|E]; [exact E|]. destruct (sd_shift64 p E). }
      rewrite E2. unfold value at 1, upd. rewrite Nat.eqb_refl. cbn [bdata]. rewrite Z.eqb_refl. unfold v. rewrite Hq.
      reflexivity.
Qed.

Lemma bc_all64 l1 l2 h : bc_inv64 l1 h -> NoDup (l1 ++ l2) ->
  (forall q, In q (l1 ++ l2) -> any_cell n phi q /\ any_cell n phi (iv_add q (iv_sub S D))) ->
  (forall a c q p, l1 ++ l2 = a ++ p :: c -> In q a -> hit64 q = true -> hit64 p = true -> iv_add q (iv_sub S D) <> p) ->
  bc_inv64 (l1 ++ l2) (in_turn dbl dadd dmul phi e l2 h).
Proof.
  revert l1 h. induction l2 as [|p l2 IH]; intros l1 h I ND A C; [rewrite app_nil_r; exact I|].
  cbn [in_turn fold_left]. unfold in_turn. cbn [fold_left]. fold (in_turn dbl dadd dmul phi e l2).
  replace (l1 ++ p :: l2) with ((l1 ++ [p]) ++ l2) in * by (rewrite <- app_assoc; reflexivity).
  apply IH; auto. apply bc_step64; auto.
  - rewrite <- app_assoc in ND. apply NoDup_remove_2 in ND. rewrite in_app_iff in ND. tauto.
  - apply A. rewrite !in_app_iff. cbn; auto.
  - apply A. rewrite !in_app_iff. cbn; auto.
  - intros q Iq. apply A. rewrite !in_app_iff. cbn; auto.
  - intros q Iq. apply (C l1 l2 q p); [rewrite <- app_assoc; reflexivity|exact Iq].
Qed.
End Builder.


(** ** The Nebo boundary-condition operator *)
Lemma nebo_bc64 n h b m phi gamma minus :
  let D := b_dest64 b in let S := b_src64 b in let e := bc_expr64 b m phi gamma minus in
  operands_ok dbl n h e -> destination_ok dbl n h phi -> covers_extra dbl phi e -> (exists p, region dbl n phi e p) ->
  (forall g s, In (g, s) (reads dbl gamma iv_zero) -> fbuf g <> fbuf phi) ->
  (forall g, In g (singles dbl gamma) -> fbuf g <> fbuf phi) ->
  (forall g, next_to minus (offset (b_gamma64 b)) (offset (b_phi64 b)) g (iv_add g D)) ->
  S <> D ->
  (forall g g', holds m g = true -> holds m g' = true -> region dbl n phi e (iv_add g D) -> region dbl n phi e (iv_add g' D) ->
     before (iv_add g D) (iv_add g' D) -> iv_add g S <> iv_add g' D) ->
  exists N, forall fuel, (N <= fuel)%nat -> exists h',
    run (bc_apply64 fuel b m phi gamma minus) h = RDone h' tt /\
    (forall g, holds m g = true -> region dbl n phi e (iv_add g D) ->
       solved h' phi D S (b_destcoef64 b) (b_srccoef64 b) (denote dbl dadd dmul h gamma g) g) /\
    only_changed64 h h' (fun c i => c = fbuf phi /\
       exists g, holds m g = true /\ region dbl n phi e (iv_add g D) /\ i = cell phi (iv_add g D)).
Proof.
  intros D S e O De Cx Ne Gr Gs Side SD Ch.
  assert (Rd : reads dbl e iv_zero = reads dbl gamma (shifted_gamma64 b) ++ (phi, iv_sub S D) :: (phi, iv_zero) :: []).
  { unfold e, bc_expr64, bc_value64, bc_mask64. destruct minus; cbn [reads breads flat_map app];
    change (breads dbl (BMask dbl m)) with (fun _ : ivec => @nil (field * ivec)); cbn [app].
    all: rewrite ?app_nil_r; cbn [app]; rewrite <- ?app_assoc; cbn [app].
    all: replace (iv_add iv_zero (shifted_gamma64 b)) with (shifted_gamma64 b) by (destruct (shifted_gamma64 b); reflexivity).
    all: replace (iv_add iv_zero (shifted_src64 b)) with (iv_sub S D) by (change (shifted_src64 b) with (iv_sub S D); destruct (iv_sub S D); reflexivity).
    all: reflexivity. }
  destruct (assign_in_turn dbl dadd dmul n h phi e O De) as (N & l & L & RUN); [|exact Cx|exact Ne|].
  { intros g I. apply Gs. revert I. unfold e, bc_expr64, bc_value64, bc_mask64. destruct minus; cbn; rewrite ?app_nil_r; auto. }
  exists N. intros fuel F. exists (in_turn dbl dadd dmul phi e l h). split; [apply RUN; exact F|].
  assert (I : bc_inv64 b m phi gamma h ([] ++ l) (in_turn dbl dadd dmul phi e l h)).
  { apply (bc_all64 b m phi gamma minus n h Side (proj1 De) SD Gr Gs).
    - repeat split; auto; intros p [].
    - exact (ordered_nodup _ _ L).
    - intros q Iq. apply (proj1 L) in Iq. destruct Iq as (A & K). split; [exact A|].
      apply valid_any; [exact (proj1 De)|]. apply (known_read dbl n e phi _ q K). rewrite Rd. apply in_app_iff. right. left. reflexivity.
    - intros a c q p E Iq Hq Hp. cbn [app] in E. pose proof (ordered_split _ _ _ _ _ _ L E Iq) as B.
      unfold hit64 in Hq, Hp. specialize (Ch _ _ Hq Hp). rewrite !add_sub_iv in Ch.
      rewrite <- (add_sub_iv q (b_dest64 b)) at 1. rewrite add_sub_shift. apply Ch; [apply (proj1 L).. |exact B]; rewrite E; apply in_app_iff; [left; exact Iq|right; left; reflexivity]. }
  destruct I as (I1 & I2 & I3 & I4). cbn [app] in *. split.
  - intros g Hg Rg. specialize (I4 (iv_add g D)). unfold hit64, want64 in I4. fold D S in I4. rewrite sub_add_iv, add_sub_shift in I4.
    apply I4; [apply (proj1 L); exact Rg|exact Hg].
  - split; [exact I1|]. intros c i NC. destruct (Nat.eq_dec c (fbuf phi)) as [->|Nc]; [|rewrite I2 by exact Nc; reflexivity].
    apply I3. intros p Ip Hp E. apply NC. split; [reflexivity|]. exists (iv_sub p D). rewrite add_sub_iv.
    split; [exact Hp|]. split; [apply (proj1 L); exact Ip|exact E].
Qed.
