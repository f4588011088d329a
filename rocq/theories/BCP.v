(** Proofs about boundary-condition operators. *)
From Verif Require Import Prelude WindowM WindowS WindowP GhostM FieldM FieldS FieldP MaskM MaskS NeboM NeboS NeboP NeboQ NeboA NeboB NeboC NeboD NeboE NeboF NeboG StencilM StencilS StencilP StencilQ BCM BCS.

Notation bden h e p := (bdenote Qc Qcplus Qcmult h e p).
Ltac frame R Q := intros; first [apply Q; rewrite !in_app_iff; tauto|eapply R; rewrite !in_app_iff; eauto].

(** ** Cells of one field *)
Lemma in_block_inj f p q : in_block f p -> in_block f q -> cell f p = cell f q -> p = q.
Proof.
  unfold in_block, in_box, cell, addr. destruct (fint f) as [[g1 g2 g3] [o1 o2 o3] e], p as [p1 p2 p3], q as [q1 q2 q3].
  cbn [wglob woff ix iy iz iv_add]. intros (A1 & A2 & A3) (B1 & B2 & B3) E.
  pose proof (flat_unique g1 g2 (o1 + p1) (o2 + p2) (o3 + p3) ltac:(lia) ltac:(lia) A1 A2) as U.
  pose proof (flat_unique g1 g2 (o1 + q1) (o2 + q2) (o3 + q3) ltac:(lia) ltac:(lia) B1 B2) as U'.
  cbv zeta in U, U'. rewrite E in U. destruct U as (U1 & _ & U2 & U3 & _), U' as (V1 & _ & V2 & V3 & _).
  rewrite U1 in V1. rewrite U2 in V2. rewrite U3 in V3. f_equal; lia.
Qed.

Lemma any_in_block n f p : on_patch n f -> any_cell n f p -> in_block f p.
Proof.
  intros (_ & _ & W & _ & _ & _ & _ & _ & (FG & FO & FE)) A.
  unfold any_cell, reach, in_region, in_block, in_box, grown, iv_le, pos_dims in *. cbn [wglob woff wext] in *. rewrite W in FG, FO, FE.
  cbn in *. lia.
Qed.
Lemma valid_any n f p : on_patch n f -> valid_cell n f p -> any_cell n f p.
Proof.
  intros (_ & _ & _ & _ & _ & ((A1 & A2 & A3) & (B1 & B2 & B3)) & _) V.
  unfold any_cell, valid_cell, reach, in_region in *. cbn in *. lia.
Qed.

(** ** The side of a masked point *)
Lemma next_to_point minus g f D : staggered g -> staggered f ->
  (forall q, next_to minus g f q (iv_add q D)) ->
  D = iv_neg (if minus then mask_minus_point g f else mask_plus_point g f).
Proof.
  intros Sg Sf H. specialize (H iv_zero).
  pose proof (H XDIR) as X. pose proof (H YDIR) as Y. pose proof (H ZDIR) as Z.
  pose proof (Sg XDIR). pose proof (Sg YDIR). pose proof (Sg ZDIR).
  pose proof (Sf XDIR). pose proof (Sf YDIR). pose proof (Sf ZDIR).
  destruct g as [g1 g2 g3], f as [f1 f2 f3], D as [d1 d2 d3].
  cbn -[Z.mul Z.add] in *. unfold iv_neg, mask_minus_point, mask_plus_point, less_than, greater_than, it_negate, lthan, gthan.
  destruct minus; cbn [ix iy iz] in *; f_equal;
  repeat match goal with
  | |- context [?a <? ?b] => destruct (Z.ltb_spec a b)
  | |- context [?a >? ?b] => rewrite (Z.gtb_ltb a b); destruct (Z.ltb_spec b a)
  end;
  repeat match goal with H : context [?a =? ?b] |- _ => destruct (Z.eqb_spec a b) end; lia.
Qed.

(** ** In-place evaluation of the boundary-condition expression *)
Section Builder.
Variable b : bc_builder.
Variable m : mask.
Variable phi : field.
Variable gamma : expr Qc.
Variable minus : bool.
Variable n : ivec.
Variable h0 : heap Qc.
Let D := b_dest b.
Let S := b_src b.
Let e := bc_expr b m phi gamma minus.

Hypothesis Side : forall g, next_to minus (offset (b_gamma b)) (offset (b_phi b)) g (iv_add g D).
Hypothesis OnP : on_patch n phi.
Hypothesis NZ : b_destcoef b <> 0%Qc.
Hypothesis SD : S <> D.
Hypothesis Greads : forall g s, In (g, s) (reads Qc gamma iv_zero) -> fbuf g <> fbuf phi.
Hypothesis Gsingles : forall g, In g (singles Qc gamma) -> fbuf g <> fbuf phi.

Definition hit (p : ivec) : bool := holds m (iv_sub p D).
Definition want (p : ivec) : Qc := denote Qc Qcplus Qcmult h0 gamma (iv_sub p D).

(** An expression that does not read the buffer does not see changes to it. *)
Lemma denote_frame h h' :
  (forall a p s, (forall g u, In (g, u) (reads Qc a s) -> h (fbuf g) = h' (fbuf g)) ->
               (forall g, In g (singles Qc a) -> h (fbuf g) = h' (fbuf g)) ->
     denote Qc Qcplus Qcmult h a p = denote Qc Qcplus Qcmult h' a p) /\
  (forall a p s, (forall g u, In (g, u) (breads Qc a s) -> h (fbuf g) = h' (fbuf g)) ->
               (forall g, In g (bsingles Qc a) -> h (fbuf g) = h' (fbuf g)) ->
     bdenote Qc Qcplus Qcmult h a p = bdenote Qc Qcplus Qcmult h' a p).
Proof.
  apply expr_bexpr_ind.
  - reflexivity.
  - intros f p s R _. cbn. unfold value. rewrite (R f s) by (left; reflexivity). reflexivity.
  - intros f p s _ R. cbn. rewrite (R f) by (left; reflexivity). reflexivity.
  - intros op a IH p s R Q. cbn. rewrite (IH p s); auto.
  - intros op a IHa c IHc p s R Q. change (op (den h a p) (den h c p) = op (den h' a p) (den h' c p)).
    change (forall g u, In (g, u) (reads Qc a s ++ reads Qc c s) -> h (fbuf g) = h' (fbuf g)) in R.
    change (forall g, In g (singles Qc a ++ singles Qc c) -> h (fbuf g) = h' (fbuf g)) in Q.
    rewrite (IHa p s), (IHc p s); auto; frame R Q.
  - intros c IHc x IHx o IHo p s R Q.
    change ((if bden h c p then den h x p else den h o p) = (if bden h' c p then den h' x p else den h' o p)).
    change (forall g u, In (g, u) (breads Qc c s ++ reads Qc x s ++ reads Qc o s) -> h (fbuf g) = h' (fbuf g)) in R.
    change (forall g, In g (bsingles Qc c ++ singles Qc x ++ singles Qc o) -> h (fbuf g) = h' (fbuf g)) in Q.
    rewrite (IHc p s), (IHx p s), (IHo p s); auto; frame R Q.
  - intros p0 c0 rest a IH p s R Q.
    change (forall g u, In (g, u) (reads Qc a (iv_add s p0) ++ flat_map (fun pc => reads Qc a (iv_add s (fst pc))) rest) -> h (fbuf g) = h' (fbuf g)) in R.
    cbn [denote].
    rewrite (IH (iv_add p p0) (iv_add s p0)); [|frame R Q|exact Q].
    assert (K : forall x, In x rest -> den h a (iv_add p (fst x)) = den h' a (iv_add p (fst x))).
    { intros x Ix. apply (IH _ (iv_add s (fst x))); [|exact Q]. intros g u I. eapply R. apply in_app_iff. right. apply in_flat_map. eauto. }
    clear R Q. generalize (den h' a (iv_add p p0) * c0)%Qc.
    induction rest as [|x rest IHr]; intros w; cbn [fold_left]; [reflexivity|]. rewrite K by (left; reflexivity). apply IHr. intros; apply K; right; assumption.
  - intros p0 rest a IH p s R Q.
    change (forall g u, In (g, u) (reads Qc a (iv_add s p0) ++ flat_map (fun x => reads Qc a (iv_add s x)) rest) -> h (fbuf g) = h' (fbuf g)) in R.
    cbn [denote].
    rewrite (IH (iv_add p p0) (iv_add s p0)); [|frame R Q|exact Q].
    assert (K : forall x, In x rest -> den h a (iv_add p x) = den h' a (iv_add p x)).
    { intros x Ix. apply (IH _ (iv_add s x)); [|exact Q]. intros g u I. eapply R. apply in_app_iff. right. apply in_flat_map. eauto. }
    clear R Q. generalize (den h' a (iv_add p p0))%Qc.
    induction rest as [|x rest IHr]; intros w; cbn [fold_left]; [reflexivity|]. rewrite K by (left; reflexivity). apply IHr. intros; apply K; right; assumption.
  - reflexivity.
  - reflexivity.
  - intros c a IHa d IHd p s R Q. change (c (den h a p) (den h d p) = c (den h' a p) (den h' d p)).
    change (forall g u, In (g, u) (reads Qc a s ++ reads Qc d s) -> h (fbuf g) = h' (fbuf g)) in R.
    change (forall g, In g (singles Qc a ++ singles Qc d) -> h (fbuf g) = h' (fbuf g)) in Q.
    rewrite (IHa p s), (IHd p s); auto; frame R Q.
  - intros a IHa d IHd p s R Q. change (bden h a p && bden h d p = bden h' a p && bden h' d p).
    change (forall g u, In (g, u) (breads Qc a s ++ breads Qc d s) -> h (fbuf g) = h' (fbuf g)) in R.
    change (forall g, In g (bsingles Qc a ++ bsingles Qc d) -> h (fbuf g) = h' (fbuf g)) in Q.
    rewrite (IHa p s), (IHd p s); auto; frame R Q.
  - intros a IHa d IHd p s R Q. change (bden h a p || bden h d p = bden h' a p || bden h' d p).
    change (forall g u, In (g, u) (breads Qc a s ++ breads Qc d s) -> h (fbuf g) = h' (fbuf g)) in R.
    change (forall g, In g (bsingles Qc a ++ bsingles Qc d) -> h (fbuf g) = h' (fbuf g)) in Q.
    rewrite (IHa p s), (IHd p s); auto; frame R Q.
  - intros a IH p s R Q. change (negb (bden h a p) = negb (bden h' a p)). rewrite (IH p s); auto.
  - intros q a IH p s R Q. apply (IH _ (iv_add s q)); auto.
Qed.

Lemma bc_denote h p : (forall c, c <> fbuf phi -> h c = h0 c) ->
  denote Qc Qcplus Qcmult h e p =
  if hit p then ((want p - value Qc h phi (iv_add p (iv_sub S D)) * b_srccoef b) / b_destcoef b)%Qc
  else value Qc h phi p.
Proof.
  intros F.
  change (den h e p) with (if bden h (bc_mask b m minus) p
    then ((den h gamma (iv_add p (shifted_gamma b)) - value Qc h phi (iv_add p (shifted_src b)) * b_srccoef b) / b_destcoef b)%Qc
    else value Qc h phi p).
  assert (B : bdenote Qc Qcplus Qcmult h (bc_mask b m minus) p = hit p).
  { pose proof (next_to_point minus _ _ D (offset_staggered (b_gamma b)) (offset_staggered (b_phi b)) Side) as E.
    unfold bc_mask, hit. destruct minus; cbn [mask_minus mask_plus bdenote]; f_equal; rewrite E;
      destruct p; unfold iv_sub, iv_add, iv_neg; cbn; f_equal; lia. }
  rewrite B. destruct (hit p); [|reflexivity]. f_equal. f_equal.
  unfold want. transitivity (denote Qc Qcplus Qcmult h gamma (iv_sub p D)).
  - f_equal.
  - apply (proj1 (denote_frame h h0) gamma _ iv_zero).
    + intros g u I. apply F. exact (Greads g u I).
    + intros g I. apply F. exact (Gsingles g I).
Qed.

(** Invariant after the points of l have been visited. *)
Definition bc_inv (l : list ivec) (h : heap Qc) : Prop :=
  (forall c i, bcells (h c) i = bcells (h0 c) i) /\
  (forall c, c <> fbuf phi -> h c = h0 c) /\
  (forall i, (forall p, In p l -> hit p = true -> i <> cell phi p) -> bdata (h (fbuf phi)) i = bdata (h0 (fbuf phi)) i) /\
  (forall p, In p l -> hit p = true ->
     (b_destcoef b * value Qc h phi p + b_srccoef b * value Qc h phi (iv_add p (iv_sub S D)) = want p)%Qc).

Lemma sd_shift p : iv_add p (iv_sub S D) <> p.
Proof. intros E. apply SD. destruct p as [p1 p2 p3]. injection E as E1 E2 E3.
  clearbody S D. clear -E1 E2 E3. destruct S as [s1 s2 s3], D as [d1 d2 d3]. cbn in *. f_equal; lia. Qed.

Lemma bc_step l p h :
  bc_inv l h -> ~ In p l -> any_cell n phi p -> any_cell n phi (iv_add p (iv_sub S D)) ->
  (forall q, In q l -> any_cell n phi q /\ any_cell n phi (iv_add q (iv_sub S D))) ->
  (forall q, In q l -> hit q = true -> hit p = true -> iv_add q (iv_sub S D) <> p) ->
  bc_inv (l ++ [p]) (upd h (fbuf phi) (cell phi p) (denote Qc Qcplus Qcmult h e p)).
Proof.
  intros (I1 & I2 & I3 & I4) NI Ap As Al Ch.
  rewrite (bc_denote h p I2).
  assert (INJ : forall q, any_cell n phi q -> cell phi q = cell phi p -> q = p).
  { intros q Aq E. eapply in_block_inj; [eapply any_in_block; eauto..|exact E]. }
  set (v := if hit p then _ else _).
  assert (VAL : forall q, any_cell n phi q -> value Qc (upd h (fbuf phi) (cell phi p) v) phi q = value Qc h phi q \/ q = p).
  { intros q Aq. unfold value, upd. rewrite Nat.eqb_refl. cbn [bdata].
    destruct (Z.eqb_spec (cell phi q) (cell phi p)) as [E|E]; auto. }
  assert (OFF : hit p = false -> forall q, any_cell n phi q -> value Qc (upd h (fbuf phi) (cell phi p) v) phi q = value Qc h phi q).
  { intros Hp q Aq. destruct (VAL q Aq) as [E|E]; [exact E|]. subst q. unfold value at 1, upd. rewrite Nat.eqb_refl. cbn [bdata].
    rewrite Z.eqb_refl. unfold v. rewrite Hp. reflexivity. }
  split; [|split; [|split]].
  - intros c i. unfold upd. destruct (Nat.eqb c (fbuf phi)); apply I1.
  - intros c Nc. unfold upd. apply Nat.eqb_neq in Nc. rewrite Nc. apply I2, Nat.eqb_neq, Nc.
  - intros i Hi. unfold upd. rewrite Nat.eqb_refl. cbn [bdata].
    assert (Hi' : forall q, In q l -> hit q = true -> i <> cell phi q) by (intros q Iq; apply Hi, in_app_iff; auto).
    destruct (Z.eqb_spec i (cell phi p)) as [E|E]; [|apply I3, Hi'].
    subst i. unfold v. destruct (hit p) eqn:Hp; [exfalso; apply (Hi p); [apply in_app_iff; right; left; reflexivity|exact Hp|reflexivity]|].
    unfold value. apply I3, Hi'.
  - intros q Iq Hq. apply in_app_iff in Iq. destruct Iq as [Iq|[<-|[]]].
    + destruct (Al q Iq) as (A1 & A2).
      assert (E1 : value Qc (upd h (fbuf phi) (cell phi p) v) phi q = value Qc h phi q).
      { destruct (VAL q A1) as [E|E]; [exact E|]. subst q. contradiction. }
      assert (E2 : value Qc (upd h (fbuf phi) (cell phi p) v) phi (iv_add q (iv_sub S D)) = value Qc h phi (iv_add q (iv_sub S D))).
      { destruct (hit p) eqn:Hp; [|apply OFF; auto]. destruct (VAL _ A2) as [E|E]; [exact E|].
        exfalso. exact (Ch q Iq Hq eq_refl E). }
      rewrite E1, E2. apply I4; assumption.
    + assert (E2 : value Qc (upd h (fbuf phi) (cell phi p) v) phi (iv_add p (iv_sub S D)) = value Qc h phi (iv_add p (iv_sub S D))).
      { destruct (VAL _ As) as [E|E]; [exact E|]. destruct (sd_shift p E). }
      rewrite E2. unfold value at 1, upd. rewrite Nat.eqb_refl. cbn [bdata]. rewrite Z.eqb_refl. unfold v. rewrite Hq.
      field. exact NZ.
Qed.

Lemma bc_all l1 l2 h : bc_inv l1 h -> NoDup (l1 ++ l2) ->
  (forall q, In q (l1 ++ l2) -> any_cell n phi q /\ any_cell n phi (iv_add q (iv_sub S D))) ->
  (forall a c q p, l1 ++ l2 = a ++ p :: c -> In q a -> hit q = true -> hit p = true -> iv_add q (iv_sub S D) <> p) ->
  bc_inv (l1 ++ l2) (in_turn Qc Qcplus Qcmult phi e l2 h).
Proof.
  revert l1 h. induction l2 as [|p l2 IH]; intros l1 h I ND A C; [rewrite app_nil_r; exact I|].
  cbn [in_turn fold_left]. unfold in_turn. cbn [fold_left]. fold (in_turn Qc Qcplus Qcmult phi e l2).
  replace (l1 ++ p :: l2) with ((l1 ++ [p]) ++ l2) in * by (rewrite <- app_assoc; reflexivity).
  apply IH; auto. apply bc_step; auto.
  - rewrite <- app_assoc in ND. apply NoDup_remove_2 in ND. rewrite in_app_iff in ND. tauto.
  - apply A. rewrite !in_app_iff. cbn; auto.
  - apply A. rewrite !in_app_iff. cbn; auto.
  - intros q Iq. apply A. rewrite !in_app_iff. cbn; auto.
  - intros q Iq. apply (C l1 l2 q p); [rewrite <- app_assoc; reflexivity|exact Iq].
Qed.
End Builder.

(** ** The Nebo boundary-condition operator *)
Lemma before_irrefl p : ~ before p p.
Proof. unfold before. lia. Qed.
Lemma before_asym p q : before p q -> ~ before q p.
Proof. unfold before. lia. Qed.
Lemma ordered_nodup R l : lists_in_order R l -> NoDup l.
Proof.
  intros (_ & O). apply NoDup_nth_error. intros i j Hi E.
  destruct (nth_error l i) eqn:Ei; [|apply nth_error_None in Ei; lia]. symmetry in E.
  destruct (Nat.lt_trichotomy i j) as [L|[L|L]]; [|exact L|].
  - destruct (before_irrefl i0 (O i j _ _ L Ei E)).
  - destruct (before_irrefl i0 (O j i _ _ L E Ei)).
Qed.
Lemma ordered_split R l a p c q : lists_in_order R l -> l = a ++ p :: c -> In q a -> before q p.
Proof.
  intros (_ & O) -> Iq. apply In_nth_error in Iq. destruct Iq as (i & Ei).
  assert (Li : (i < length a)%nat) by (apply nth_error_Some; congruence).
  apply (O i (length a) q p Li).
  - rewrite nth_error_app1; assumption.
  - rewrite nth_error_app2, Nat.sub_diag; [reflexivity|lia].
Qed.
Lemma add_sub_iv p d : iv_add (iv_sub p d) d = p.
Proof. destruct p as [p1 p2 p3], d as [d1 d2 d3]. unfold iv_add, iv_sub; cbn [ix iy iz]. f_equal; lia. Qed.
Lemma sub_add_iv p d : iv_sub (iv_add p d) d = p.
Proof. destruct p as [p1 p2 p3], d as [d1 d2 d3]. unfold iv_add, iv_sub; cbn [ix iy iz]. f_equal; lia. Qed.
Lemma add_sub_shift g s d : iv_add (iv_add g d) (iv_sub s d) = iv_add g s.
Proof. destruct g as [g1 g2 g3], s as [s1 s2 s3], d as [d1 d2 d3]. unfold iv_add, iv_sub; cbn [ix iy iz]. f_equal; lia. Qed.

Lemma nebo_bc n h b m phi gamma minus :
  let D := b_dest b in let S := b_src b in let e := bc_expr b m phi gamma minus in
  operands_ok Qc n h e -> destination_ok Qc n h phi -> covers_extra Qc phi e -> (exists p, region Qc n phi e p) ->
  (forall g s, In (g, s) (reads Qc gamma iv_zero) -> fbuf g <> fbuf phi) ->
  (forall g, In g (singles Qc gamma) -> fbuf g <> fbuf phi) ->
  (forall g, next_to minus (offset (b_gamma b)) (offset (b_phi b)) g (iv_add g D)) ->
  b_destcoef b <> 0%Qc -> S <> D ->
  (forall g g', holds m g = true -> holds m g' = true -> region Qc n phi e (iv_add g D) -> region Qc n phi e (iv_add g' D) ->
     before (iv_add g D) (iv_add g' D) -> iv_add g S <> iv_add g' D) ->
  exists N, forall fuel, (N <= fuel)%nat -> exists h',
    run (bc_apply fuel b m phi gamma minus) h = RDone h' tt /\
    (forall g, holds m g = true -> region Qc n phi e (iv_add g D) ->
       two_point h' phi D S (b_destcoef b) (b_srccoef b) g = denote Qc Qcplus Qcmult h gamma g) /\
    only_changed h h' (fun c i => c = fbuf phi /\
       exists g, holds m g = true /\ region Qc n phi e (iv_add g D) /\ i = cell phi (iv_add g D)).
Proof.
  intros D S e O De Cx Ne Gr Gs Side NZ SD Ch.
  assert (Rd : reads Qc e iv_zero = reads Qc gamma (shifted_gamma b) ++ (phi, iv_sub S D) :: (phi, iv_zero) :: []).
  { unfold e, bc_expr, bc_value, bc_mask. destruct minus; cbn [reads breads mask_minus mask_plus flat_map app];
    change (breads Qc (BMask Qc m)) with (fun _ : ivec => @nil (field * ivec)); cbn [app].
    all: rewrite ?app_nil_r; cbn [app]; rewrite <- ?app_assoc; cbn [app].
    all: replace (iv_add iv_zero (shifted_gamma b)) with (shifted_gamma b) by (destruct (shifted_gamma b); reflexivity).
    all: replace (iv_add iv_zero (shifted_src b)) with (iv_sub S D) by (change (shifted_src b) with (iv_sub S D); destruct (iv_sub S D); reflexivity).
    all: reflexivity. }
  destruct (assign_in_turn Qc Qcplus Qcmult n h phi e O De) as (N & l & L & RUN); [|exact Cx|exact Ne|].
  { intros g I. apply Gs. revert I. unfold e, bc_expr, bc_value, bc_mask. destruct minus; cbn; rewrite ?app_nil_r; auto. }
  exists N. intros fuel F. exists (in_turn Qc Qcplus Qcmult phi e l h). split; [apply RUN; exact F|].
  assert (I : bc_inv b m phi gamma h ([] ++ l) (in_turn Qc Qcplus Qcmult phi e l h)).
  { apply (bc_all b m phi gamma minus n h Side (proj1 De) NZ SD Gr Gs).
    - repeat split; auto; intros p [].
    - exact (ordered_nodup _ _ L).
    - intros q Iq. apply (proj1 L) in Iq. destruct Iq as (A & K). split; [exact A|].
      apply valid_any; [exact (proj1 De)|]. apply (known_read Qc n e phi _ q K). rewrite Rd. apply in_app_iff. right. left. reflexivity.
    - intros a c q p E Iq Hq Hp. cbn [app] in E. pose proof (ordered_split _ _ _ _ _ _ L E Iq) as B.
      unfold hit in Hq, Hp. specialize (Ch _ _ Hq Hp). rewrite !add_sub_iv in Ch.
      rewrite <- (add_sub_iv q (b_dest b)) at 1. rewrite add_sub_shift. apply Ch; [apply (proj1 L).. |exact B]; rewrite E; apply in_app_iff; [left; exact Iq|right; left; reflexivity]. }
  destruct I as (I1 & I2 & I3 & I4). cbn [app] in *. split.
  - intros g Hg Rg. specialize (I4 (iv_add g D)). unfold hit, want in I4. fold D S in I4. rewrite sub_add_iv, add_sub_shift in I4.
    apply I4; [apply (proj1 L); exact Rg|exact Hg].
  - split; [exact I1|]. intros c i NC. destruct (Nat.eq_dec c (fbuf phi)) as [->|Nc]; [|rewrite I2 by exact Nc; reflexivity].
    apply I3. intros p Ip Hp E. apply NC. split; [reflexivity|]. exists (iv_sub p D). rewrite add_sub_iv.
    split; [exact Hp|]. split; [apply (proj1 L); exact Ip|exact E].
Qed.
