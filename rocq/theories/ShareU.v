(** Threads that share the pool: assignments, and their meaning one after the other. *)
From Verif Require Import Prelude WindowM WindowS WindowP GhostM FieldM FieldS FieldP MaskM NeboM NeboS NeboP NeboQ NeboA NeboB NeboC ParM ParS ParP ParQ TPoolM TPoolS ShareM ShareS ShareP ShareQ ShareR ShareT.

Section User.
Variable V : Type.
Variable vadd vmul : V -> V -> V.
Notation heap := (heap V).
Notation asg := (asg V).
Notation den := (denote V vadd vmul).
Notation bden := (bdenote V vadd vmul).
Variable dim : asg -> ivec.

(** ** An expression sees only the blocks it reads *)
Definition same_block (h h' : heap) (b : nat) : Prop := forall x, bdata (h b) x = bdata (h' b) x.
Local Ltac frame R Q := intros; solve [eapply R; repeat rewrite in_app_iff; eauto | eapply Q; repeat rewrite in_app_iff; eauto].
Lemma denote_blocks h h' :
  (forall a p s, (forall g u, In (g, u) (reads V a s) -> same_block h h' (fbuf g)) ->
               (forall g, In g (singles V a) -> same_block h h' (fbuf g)) -> den h a p = den h' a p) /\
  (forall a p s, (forall g u, In (g, u) (breads V a s) -> same_block h h' (fbuf g)) ->
               (forall g, In g (bsingles V a) -> same_block h h' (fbuf g)) -> bden h a p = bden h' a p).
Proof.
  apply expr_bexpr_ind.
  - reflexivity.
  - intros f p s R _. cbn. unfold value. rewrite (R f s) by (left; reflexivity). reflexivity.
  - intros f p s _ R. cbn. rewrite (R f) by (left; reflexivity). reflexivity.
  - intros op a IH p s R Q. cbn. rewrite (IH p s); auto.
  - intros op a IHa c IHc p s R Q. change (op (den h a p) (den h c p) = op (den h' a p) (den h' c p)).
    change (forall g u, In (g, u) (reads V a s ++ reads V c s) -> same_block h h' (fbuf g)) in R.
    change (forall g, In g (singles V a ++ singles V c) -> same_block h h' (fbuf g)) in Q.
    rewrite (IHa p s), (IHc p s); auto; frame R Q.
  - intros c IHc x IHx o IHo p s R Q.
    change ((if bden h c p then den h x p else den h o p) = (if bden h' c p then den h' x p else den h' o p)).
    change (forall g u, In (g, u) (breads V c s ++ reads V x s ++ reads V o s) -> same_block h h' (fbuf g)) in R.
    change (forall g, In g (bsingles V c ++ singles V x ++ singles V o) -> same_block h h' (fbuf g)) in Q.
    rewrite (IHc p s), (IHx p s), (IHo p s); auto; frame R Q.
  - intros p0 c0 rest a IH p s R Q.
    change (forall g u, In (g, u) (reads V a (iv_add s p0) ++ flat_map (fun pc => reads V a (iv_add s (fst pc))) rest) -> same_block h h' (fbuf g)) in R.
    cbn [denote].
    rewrite (IH (iv_add p p0) (iv_add s p0)); [|frame R Q|exact Q].
    assert (K : forall x, In x rest -> den h a (iv_add p (fst x)) = den h' a (iv_add p (fst x))).
    { intros x Ix. apply (IH _ (iv_add s (fst x))); [|exact Q]. intros g u I. eapply R. apply in_app_iff. right. apply in_flat_map. eauto. }
    clear R Q. generalize (vmul (den h' a (iv_add p p0)) c0).
    induction rest as [|x rest IHr]; intros w; cbn [fold_left]; [reflexivity|]. rewrite K by (left; reflexivity). apply IHr. intros; apply K; right; assumption.
  - intros p0 rest a IH p s R Q.
    change (forall g u, In (g, u) (reads V a (iv_add s p0) ++ flat_map (fun x => reads V a (iv_add s x)) rest) -> same_block h h' (fbuf g)) in R.
    cbn [denote].
    rewrite (IH (iv_add p p0) (iv_add s p0)); [|frame R Q|exact Q].
    assert (K : forall x, In x rest -> den h a (iv_add p x) = den h' a (iv_add p x)).
    { intros x Ix. apply (IH _ (iv_add s x)); [|exact Q]. intros g u I. eapply R. apply in_app_iff. right. apply in_flat_map. eauto. }
    clear R Q. generalize (den h' a (iv_add p p0)).
    induction rest as [|x rest IHr]; intros w; cbn [fold_left]; [reflexivity|]. rewrite K by (left; reflexivity). apply IHr. intros; apply K; right; assumption.
  - reflexivity.
  - reflexivity.
  - intros c a IHa d IHd p s R Q. change (c (den h a p) (den h d p) = c (den h' a p) (den h' d p)).
    change (forall g u, In (g, u) (reads V a s ++ reads V d s) -> same_block h h' (fbuf g)) in R.
    change (forall g, In g (singles V a ++ singles V d) -> same_block h h' (fbuf g)) in Q.
    rewrite (IHa p s), (IHd p s); auto; frame R Q.
  - intros a IHa d IHd p s R Q. change (bden h a p && bden h d p = bden h' a p && bden h' d p).
    change (forall g u, In (g, u) (breads V a s ++ breads V d s) -> same_block h h' (fbuf g)) in R.
    change (forall g, In g (bsingles V a ++ bsingles V d) -> same_block h h' (fbuf g)) in Q.
    rewrite (IHa p s), (IHd p s); auto; frame R Q.
  - intros a IHa d IHd p s R Q. change (bden h a p || bden h d p = bden h' a p || bden h' d p).
    change (forall g u, In (g, u) (breads V a s ++ breads V d s) -> same_block h h' (fbuf g)) in R.
    change (forall g, In g (bsingles V a ++ bsingles V d) -> same_block h h' (fbuf g)) in Q.
    rewrite (IHa p s), (IHd p s); auto; frame R Q.
  - intros a IH p s R Q. change (negb (bden h a p) = negb (bden h' a p)). rewrite (IH p s); auto.
  - intros q a IH p s R Q. apply (IH _ (iv_add s q)); auto.
Qed.
Lemma denote_source h h' a p : (forall b, In b (source_blocks V a) -> same_block h h' b) -> den h (arhs a) p = den h' (arhs a) p.
Proof.
  intros H. apply (proj1 (denote_blocks h h')) with (s := iv_zero).
  - intros g u I. apply H. unfold source_blocks. apply in_app_iff. left. apply in_map_iff. exists (g, u). auto.
  - intros g I. apply H. unfold source_blocks. apply in_app_iff. right. apply in_map_iff. eauto.
Qed.

(** ** One assignment is a phase *)
Definition same_cells (h h' : heap) : Prop := forall b x, bcells (h' b) x = bcells (h b) x.
Lemma operands_cells n h h' e : same_cells h h' -> operands_ok V n h e -> operands_ok V n h' e.
Proof.
  intros C (R & M & S0). split; [|split; [exact M|]].
  - intros f s I. destruct (R f s I) as (P & Q). split; [exact P|]. intros p Hp. rewrite C. apply Q, Hp.
  - intros f I. rewrite C. apply S0, I.
Qed.
Lemma destination_cells n h h' f : same_cells h h' -> destination_ok V n h f -> destination_ok V n h' f.
Proof. intros C (P & R & D). split; [exact P|]. split; [exact R|]. intros p Hp. rewrite C. apply D, Hp. Qed.

Lemma asg_ghosts h a : asg_ok dim h a -> exists rg lg, assign_ghosts V (aug a) (adst a) (arhs a) = Ok (rg, lg) /\
  gminus lg = gminus rg /\ gplus lg = iv_sub (gplus rg) (has_extra (fbc (adst a))) /\
  (forall p, box_of (dim a) rg p <-> arange dim a p) /\
  (forall p, box_of (dim a) rg p -> any_cell (dim a) (adst a) p /\ expr_known V (dim a) (arhs a) p) /\
  0 < ix (box_ext (dim a) rg) /\ 0 < iy (box_ext (dim a) rg) /\ 0 < iz (box_ext (dim a) rg).
Proof.
  intros (O & D & Al & Hp & X). unfold arange. destruct (aug a).
  - destruct X as (Cx & p0 & P0). destruct (assign_ghosts_region V _ h _ _ O (proj1 D) Cx) as (rg & lg & E & L1 & L2 & B).
    destruct (box_nonempty _ rg p0 (proj2 (B p0) P0)) as (Ex & Ey & Ez). exists rg, lg. repeat (split; [assumption|]).
    split; [intros p H; apply B, H|]. auto.
  - destruct (interior_ghosts V _ h _ _ O D X) as (rg & lg & E). exists rg, lg. exact E.
Qed.

Lemma asg_phase h0 a (rdc wrc : nat -> Z -> Prop) : asg_ok dim h0 a ->
  (forall b x, In b (source_blocks V a) -> rdc b x) -> (forall x, wrc (fbuf (adst a)) x) ->
  exists N, forall fuel, (N <= fuel)%nat -> forall h, same_cells h0 h ->
  exists h', phase_ok V rdc wrc (phase vadd vmul fuel a) h h' /\ assigned V h h' (adst a) (arange dim a) (den h (arhs a)).
Proof.
  intros Ok Rc Wc. destruct (asg_ghosts h0 a Ok) as (rg & lg & E & L1 & L2 & B & K & Ex & Ey & Ez).
  destruct Ok as (O0 & D0 & Al & Hp & _). exists (Z.to_nat (npts (box_ext (dim a) rg))). intros fuel Hf h C.
  pose proof (operands_cells _ _ _ _ C O0) as O. pose proof (destination_cells _ _ _ _ C D0) as D.
  set (n := dim a) in *. set (f := adst a) in *. set (e := arhs a) in *.
  assert (Rr : forall g s b x, In (g, s) (reads V e iv_zero) -> b = fbuf g -> rdc b x).
  { intros g s b x I ->. apply Rc. unfold source_blocks. apply in_app_iff. left. apply in_map_iff. exists (g, s). auto. }
  assert (Rs : forall g b x, In g (singles V e) -> b = fbuf g -> rdc b x).
  { intros g b x I ->. apply Rc. unfold source_blocks. apply in_app_iff. right. apply in_map_iff. eauto. }
  destruct (core_assign V vadd vmul n h f e (aug a) rg lg O D Al E L1 L2 K Ex Ey Ez fuel Hf) as (h' & Sq & A).
  exists h'. split; [|eapply assigned_ext; [exact B|exact A]]. unfold phase. fold f e. destruct (apar a).
  2:{ exists h', []. split.
      - eapply solo_bind; [|apply solo_ret]. eapply solo_mono; [| |exact Sq].
        + intros b x [(g & s & p & I & _ & -> & _)|(g & I & -> & _)]; [eapply Rr; eauto|eapply Rs; eauto].
        + intros b x (-> & _). apply Wc.
      - exists (fun _ _ _ => False), (fun _ _ _ => False). repeat split; try contradiction.
        + intros [|q] j X; discriminate.
        + intros b x _. right. split; [intros q X; cbn in X; lia|reflexivity]. }
  set (split := find_partition (box_ext n rg) (fparts f)).
  destruct (find_partition_ok (box_ext n rg) (fparts f) (conj Ex (conj Ey Ez)) (Hp eq_refl)) as (Sp & Sl & Sc). fold split in Sp, Sl, Sc.
  set (lhs := reset_valid_ghosts f (mk_ghost (gminus lg) (gplus lg))). set (rhs := rz V h (gminus rg) (gplus rg) e).
  set (M := Z.to_nat (partition_count split)). set (jobs := schedule_jobs V vadd vmul M fuel lhs rhs split iv_zero).
  exists h, jobs. split.
  - unfold thread_parallel_jobs. rewrite E. cbn [lift pbind].
    replace (wext (fwin (resize_ghost f (gminus lg) (gplus lg)))) with (box_ext n rg).
    2:{ destruct (proj1 D) as (_ & _ & W & Ew & _). unfold resize_ghost, reshape, field_window; cbn [fwin wext].
        rewrite Ew. cbn [grown wext]. rewrite W, L1, L2. unfold box_ext. iv_solve. }
    fold split. eapply solo_bind; [|apply solo_ret].
    apply (proj1 (resize_all V h (gminus rg) (gplus rg) rdc wrc)). intros g I. split; [apply O; exact I|eapply Rs; eauto].
  - assert (Ej : jobs = schedule_jobs V vadd vmul M fuel lhs rhs split (loc_at split 0)) by (unfold jobs; rewrite loc_0 by exact Sp; reflexivity).
    destruct (schedule_nth V vadd vmul fuel lhs rhs split M Sp 0 ltac:(lia)) as (L & J). rewrite <- Ej in L, J.
    assert (LB : forall i, (i < M)%nat -> in_box split (loc_at split (Z.of_nat i))) by (intros i Hi; apply loc_box; [exact Sp|unfold M in Hi; lia]).
    assert (Pb : forall l p, in_box split l -> part n rg split l p -> box_of n rg p) by (intros l p; apply (part_box_of V n f e rg K Ex Ey Ez split Sp)).
    assert (Pu : forall p l l', part n rg split l p -> part n rg split l' p -> l = l') by (intros p l l'; apply (part_unique V n f e rg K Ex Ey Ez split Sp)).
    assert (Inj : forall p q, any_cell n f p -> any_cell n f q -> cell f p = cell f q -> p = q) by (apply (any_cell_inj V n h f e rg D K)).
    exists (fun q => prd V n e rg split (loc_at split (Z.of_nat q))), (fun q => pwr n f rg split (loc_at split (Z.of_nat q))).
    split; [|split; [|split; [|split; [|split]]]].
    + intros q b x (g & s & p & I & _ & -> & _). left. eapply Rr; eauto.
    + intros q b x (-> & _). apply Wc.
    + rewrite L. intros i k b c Hi Hk N' (-> & p & P & ->).
      assert (LN : loc_at split (Z.of_nat i) <> loc_at split (Z.of_nat k)) by (intros X; apply (loc_inj _ _ _ Sp) in X; lia).
      assert (AP : any_cell n f p) by (apply K; eapply Pb; [|exact P]; apply LB, Hi).
      split.
      * intros (g & s & q & I & Q & Eb & Ec). destruct (Al g s I) as [X|(-> & X)]; [congruence|].
        rewrite iv_add_0_r in Ec. assert (Ec' : cell f p = cell f q) by (unfold cell in *; rewrite <- X; rewrite X; rewrite X in Ec; exact Ec).
        apply Inj in Ec'; [|exact AP|apply K; eapply Pb; [|exact Q]; apply LB, Hk].
        subst q. apply LN. eapply Pu; eauto.
      * intros (_ & q & Q & Ec). apply Inj in Ec; [|exact AP|apply K; eapply Pb; [|exact Q]; apply LB, Hk].
        subst q. apply LN. eapply Pu; eauto.
    + intros q j Eq. assert (Hq : (q < M)%nat) by (rewrite <- L; apply nth_error_Some; congruence).
      rewrite (J q j Eq). replace (0 + Z.of_nat q) with (Z.of_nat q) by lia.
      destruct (job_solo V vadd vmul n h f e rg lg O D Al L1 L2 K Ex Ey Ez split Sp Sl (loc_at split (Z.of_nat q)) fuel (LB q Hq) Hf) as (hq & S0 & W).
      exists hq. split; [exact S0|]. intros b x (-> & p & P & ->).
      destruct A as (_ & A & _). specialize (A p (Pb _ _ (LB q Hq) P)). specialize (W p P). unfold value in *. congruence.
    + rewrite L. intros b x _. destruct A as (_ & A2 & A3). destruct (Nat.eq_dec b (fbuf f)) as [->|Nb].
      2:{ right. split; [intros q _ (X & _); contradiction|]. symmetry. apply A3. left. exact Nb. }
      destruct (in_dec Z.eq_dec x (map (fun q => cell f (iv_add (box_lo rg) q)) (box_points (box_ext n rg)))) as [I|I].
      * apply in_map_iff in I as (q & <- & I). apply in_box_points in I. left.
        assert (P : box_of n rg (iv_add (box_lo rg) q)).
        { apply box_of_eq. unfold in_region, in_box, box_hi in *. cbn [ix iy iz iv_add] in *. lia. }
        apply (part_tile V n f e rg K Ex Ey Ez split Sp) in P as (l & Bl & Pl). destruct (loc_onto split l Sp Bl) as (k & Hk & <-).
        exists (Z.to_nat k). split; [unfold M; lia|]. split; [reflexivity|]. rewrite Z2Nat.id by lia. eauto.
      * assert (Q : forall p, box_of n rg p -> x <> cell f p).
        { intros p P ->. apply I, in_map_iff. exists (iv_sub p (box_lo rg)). split.
          - f_equal. iv_solve.
          - apply in_box_points. apply box_of_eq in P. unfold in_region, in_box, box_hi in *. cbn [ix iy iz iv_add iv_sub] in *. lia. }
        right. split; [|symmetry; apply A3; auto]. intros q Hq (_ & p & P & X). exact (Q p (Pb _ _ (LB q Hq) P) X).
    + intros b x. symmetry. apply A.
Qed.

(** ** A script: one assignment after the other *)
Notation in_order := (in_order vadd vmul dim).
Definition dest_of (l : list asg) (b : nat) : Prop := exists a, In a l /\ b = fbuf (adst a).
Definition block_of (l : list asg) (b : nat) : Prop := exists a, In a l /\ In b (blocks a).
Definition read_of (l : list asg) (b : nat) : Prop := exists a, In a l /\ In b (source_blocks V a).

Lemma script_phases h0 all (rdc wrc : nat -> Z -> Prop) :
  (forall a, In a all -> asg_ok dim h0 a) ->
  (forall a b x, In a all -> In b (source_blocks V a) -> rdc b x) -> (forall a x, In a all -> wrc (fbuf (adst a)) x) ->
  exists N, forall fuel, (N <= fuel)%nat -> forall h, same_cells h0 h -> exists hp : nat -> heap, hp 0%nat = h /\
    (forall k p, nth_error (map (phase vadd vmul fuel) all) k = Some p -> phase_ok V rdc wrc p (hp k) (hp (S k))) /\
    (forall k, (k <= length all)%nat -> in_order h (firstn k all) (hp k)).
Proof.
  induction all as [|a l IH]; intros Ok R W.
  - exists 0%nat. intros fuel _ h _. exists (fun _ => h). split; [reflexivity|]. split; [intros [|k] p X; discriminate|].
    intros k Hk. cbn in Hk. replace k with 0%nat by lia. constructor.
  - destruct IH as (N1 & IH); [intros; apply Ok; right; assumption|intros; eapply R; [right; eassumption|assumption]|intros; apply W; right; assumption|].
    destruct (asg_phase h0 a rdc wrc (Ok a (or_introl eq_refl))) as (N2 & P); [intros; eapply R; [left; reflexivity|assumption]|intros; apply W; left; reflexivity|].
    exists (Nat.max N1 N2). intros fuel Hf h C. destruct (P fuel ltac:(lia) h C) as (h' & P1 & P2).
    assert (C' : same_cells h0 h') by (intros b x; rewrite (proj1 P2); apply C).
    destruct (IH fuel ltac:(lia) h' C') as (hp & E & Q1 & Q2). exists (fun k => match k with O => h | S k => hp k end).
    split; [reflexivity|]. split.
    + intros [|k] p X; cbn in X.
      * injection X as <-. rewrite E. exact P1.
      * apply Q1. exact X.
    + intros [|k] Hk; cbn [firstn]; [constructor|]. cbn in Hk. econstructor; [exact P2|]. apply Q2. lia.
Qed.

Lemma order_cells h l h' : in_order h l h' -> same_cells h h'.
Proof. induction 1 as [|h a l h1 h2 A O IH]; [intros b x; reflexivity|]. intros b x. rewrite IH. apply A. Qed.
Lemma order_other h l h' b : in_order h l h' -> ~ dest_of l b -> same_block h h' b.
Proof.
  induction 1 as [|h a l h1 h2 A O IH]; intros N x; [reflexivity|]. rewrite <- IH by (intros (c & I & E); apply N; exists c; split; [right; exact I|exact E]).
  symmetry. apply A. left. intros ->. apply N. exists a. split; [left; reflexivity|reflexivity].
Qed.
(** The same assignments, from a memory that is the same where they look. *)
Lemma order_frame (B : nat -> Prop) h l h2 : in_order h l h2 -> (forall b, block_of l b -> B b) ->
  forall g, same_cells h g -> (forall b, B b -> same_block h g b) ->
  exists g2, in_order g l g2 /\ (forall b, B b -> same_block h2 g2 b) /\ (forall b, ~ dest_of l b -> same_block g g2 b).
Proof.
  induction 1 as [h|h a l h1 h2 A O IH]; intros Bl g C S0.
  - exists g. split; [constructor|]. split; [exact S0|]. intros b _ x. reflexivity.
  - set (g1 := fun b => if Nat.eqb b (fbuf (adst a)) then h1 b else g b).
    assert (Ba : forall b, In b (blocks a) -> B b) by (intros b I; apply Bl; exists a; split; [left; reflexivity|exact I]).
    assert (A1 : assigned V g g1 (adst a) (arange dim a) (den g (arhs a))).
    { destruct A as (A1 & A2 & A3). split; [|split].
      - intros b i. unfold g1. destruct (Nat.eqb b _); [rewrite A1; symmetry; apply C|reflexivity].
      - intros p Hp. unfold value, g1. rewrite Nat.eqb_refl. rewrite <- (denote_source h g a p) by (intros b I; apply S0, Ba; right; exact I). apply A2, Hp.
      - intros b i Q. unfold g1. destruct (Nat.eqb_spec b (fbuf (adst a))) as [->|_]; [|reflexivity].
        rewrite A3 by exact Q. apply S0, Ba. left. reflexivity. }
    destruct (IH ltac:(intros b (c & I & J); apply Bl; exists c; split; [right; exact I|exact J]) g1) as (g2 & O2 & E2 & D2).
    + intros b x. rewrite (proj1 A1), (proj1 A). apply C.
    + intros b Hb x. unfold g1. destruct (Nat.eqb_spec b (fbuf (adst a))) as [->|N]; [reflexivity|]. rewrite (proj2 (proj2 A)) by auto. apply S0, Hb.
    + exists g2. split; [econstructor; eassumption|]. split; [exact E2|]. intros b N x.
      rewrite <- D2 by (intros (c & I & J); apply N; exists c; split; [right; exact I|exact J]). unfold g1.
      destruct (Nat.eqb_spec b (fbuf (adst a))) as [->|_]; [|reflexivity]. exfalso. apply N. exists a. split; [left|]; reflexivity.
Qed.
Lemma order_app h l h1 m h2 : in_order h l h1 -> in_order h1 m h2 -> in_order h (l ++ m) h2.
Proof. induction 1; intros Q; [exact Q|]. econstructor; eauto. Qed.

(** Threads that do not disturb each other might as well run one after the other. *)
Definition apart (l m : list asg) : Prop := forall b, dest_of l b -> ~ block_of m b.
Lemma one_by_one h0 (ss : list (list asg)) : forall he : nat -> heap,
  (forall c s, nth_error ss c = Some s -> in_order h0 s (he c)) ->
  (forall c d s t, c <> d -> nth_error ss c = Some s -> nth_error ss d = Some t -> apart s t) ->
  forall g, same_cells h0 g -> (forall s b, In s ss -> block_of s b -> same_block h0 g b) ->
  exists g', in_order g (concat ss) g' /\ (forall c s b, nth_error ss c = Some s -> block_of s b -> same_block (he c) g' b) /\
    (forall b, (forall s, In s ss -> ~ dest_of s b) -> same_block g g' b).
Proof.
  induction ss as [|s ss IH]; intros he H Ap g C S0.
  - exists g. split; [constructor|]. split; [intros [|c] s b X; discriminate|]. intros b _ x. reflexivity.
  - destruct (order_frame (block_of s) h0 s (he 0%nat) (H 0%nat s eq_refl) (fun b X => X) g C) as (g1 & O1 & E1 & D1).
    { intros b Hb. apply (S0 s); [left; reflexivity|exact Hb]. }
    destruct (IH (fun c => he (S c))) with (g := g1) as (g2 & O2 & E2 & D2).
    + intros c t X. apply (H (S c)). exact X.
    + intros c d t u N X Y. apply (Ap (S c) (S d)); auto.
    + intros b x. rewrite (order_cells _ _ _ O1). apply C.
    + intros t b I Hb x. rewrite <- D1.
      * apply (S0 t); [right; exact I|exact Hb].
      * intros Hd. apply In_nth_error in I as (d & Ed). apply (Ap 0%nat (S d) s t ltac:(discriminate) eq_refl Ed b Hd Hb).
    + exists g2. split; [cbn [concat]; eapply order_app; eassumption|]. split.
      * intros [|c] t b X Hb x; cbn in X.
        -- injection X as <-. rewrite <- D2; [apply E1, Hb|]. intros t I Hd. apply In_nth_error in I as (d & Ed).
           apply (Ap (S d) 0%nat t s ltac:(discriminate) Ed eq_refl b Hd Hb).
        -- apply (E2 c t b X Hb).
      * intros b N x. rewrite <- D2 by (intros t I; apply N; right; exact I). apply D1. apply N. left. reflexivity.
Qed.
End User.
