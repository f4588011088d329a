(** Proofs about stencil operators. *)
From Coq Require Import Permutation.
From Verif Require Import Prelude WindowM WindowS GhostM FieldM FieldS MaskM NeboM NeboS StencilM StencilS.

(** ** Rationals *)
Lemma Q2Qc_plus a b : (Q2Qc a + Q2Qc b)%Qc = Q2Qc (a + b).
Proof.
  unfold Qcplus. apply Q2Qc_eq_iff. cbn [this Q2Qc]. rewrite !Qred_correct. reflexivity.
Qed.
Lemma Q2Qc_mult a b : (Q2Qc a * Q2Qc b)%Qc = Q2Qc (a * b).
Proof.
  unfold Qcmult. apply Q2Qc_eq_iff. cbn [this Q2Qc]. rewrite !Qred_correct. reflexivity.
Qed.
Lemma qc_add a b : qc_of (a + b) = (qc_of a + qc_of b)%Qc.
Proof. unfold qc_of. rewrite Q2Qc_plus, inject_Z_plus. reflexivity. Qed.
Lemma qc_mul a b : qc_of (a * b) = (qc_of a * qc_of b)%Qc.
Proof. unfold qc_of. rewrite Q2Qc_mult, inject_Z_mult. reflexivity. Qed.
Lemma qc_0 : qc_of 0 = 0%Qc. Proof. reflexivity. Qed.
Lemma qc_1 : qc_of 1 = 1%Qc. Proof. reflexivity. Qed.
Lemma qc_opp a : qc_of (- a) = (- qc_of a)%Qc.
Proof.
  assert (H : (qc_of a + qc_of (- a) = 0)%Qc) by (rewrite <- qc_add, Z.add_opp_diag_r; reflexivity).
  transitivity (qc_of a + qc_of (- a) - qc_of a)%Qc; [ring|]. rewrite H. ring.
Qed.
Lemma qc_neg1 : qc_of (-1) = (- (1))%Qc. Proof. apply (qc_opp 1). Qed.
Lemma qc_inj a b : qc_of a = qc_of b -> a = b.
Proof.
  unfold qc_of. intros H. apply Q2Qc_eq_iff in H. unfold Qeq in H; cbn in H. lia.
Qed.
Lemma qc_neq0 a : a <> 0 -> qc_of a <> 0%Qc.
Proof. intros H E. apply H, qc_inj. exact E. Qed.
Lemma two_neq0 : (1 + 1 <> 0)%Qc. Proof. intros H; discriminate (f_equal this H). Qed.
Lemma half_eq : half = (1 / (1 + 1))%Qc. Proof. apply Qc_is_canon. reflexivity. Qed.
Lemma quarter_eq : quarter = (1 / ((1 + 1) * (1 + 1)))%Qc. Proof. apply Qc_is_canon. reflexivity. Qed.

(** ** Points of the stencils *)
Lemma offset_staggered l : staggered (offset l).
Proof. intros []; destruct l; cbn; auto. Qed.

Lemma staggered_xyz o : staggered o ->
  (ix o = 0 \/ ix o = -1) /\ (iy o = 0 \/ iy o = -1) /\ (iz o = 0 \/ iz o = -1).
Proof. intros H. exact (conj (H XDIR) (conj (H YDIR) (H ZDIR))). Qed.

Lemma iv_ext a b : (forall d, comp d a = comp d b) -> a = b.
Proof.
  intros H. destruct a, b. f_equal; [exact (H XDIR)|exact (H YDIR)|exact (H ZDIR)].
Qed.

Ltac cases_off H :=
  let a := fresh in let b := fresh in let c := fresh in
  destruct (staggered_xyz _ H) as ([a|a] & [b|b] & [c|c]).

(** The two points sit half a spacing below and above the destination. *)
Lemma stencil2_places src dst : staggered src -> staggered dst -> differ src dst = 1 ->
  exists d lo hi, comp d src <> comp d dst /\ (forall e, e <> d -> comp e src = comp e dst) /\
    stencil2 src dst = (lo, [hi]) /\
    (forall p, place src (iv_add p lo) = step d (-1) (place dst p)) /\
    (forall p, place src (iv_add p hi) = step d 1 (place dst p)).
Proof.
  intros Hs Hd D. destruct src as [a b c], dst as [a' b' c'].
  destruct (staggered_xyz _ Hs) as (A & B & C), (staggered_xyz _ Hd) as (A' & B' & C').
  cbn [ix iy iz] in *. unfold differ in D; cbn [ix iy iz] in D.
  destruct A as [-> | ->], B as [-> | ->], C as [-> | ->], A' as [-> | ->], B' as [-> | ->], C' as [-> | ->];
    cbn in D; try lia;
    first [ exists XDIR; do 2 eexists; (split; [cbn; lia|]); (split; [intros [] E; cbn; congruence|]); (split; [reflexivity|]);
            split; intros [x y z]; apply iv_ext; intros []; cbn [comp place step iv_add ix iy iz it_negate greater_than less_than lthan gthan]; cbn -[Z.add Z.mul]; lia
          | exists YDIR; do 2 eexists; (split; [cbn; lia|]); (split; [intros [] E; cbn; congruence|]); (split; [reflexivity|]);
            split; intros [x y z]; apply iv_ext; intros []; cbn -[Z.add Z.mul]; lia
          | exists ZDIR; do 2 eexists; (split; [cbn; lia|]); (split; [intros [] E; cbn; congruence|]); (split; [reflexivity|]);
            split; intros [x y z]; apply iv_ext; intros []; cbn -[Z.add Z.mul]; lia ].
Qed.

(** The four points: half a spacing below and above in both directions. *)
Lemma stencil4_places src dst : staggered src -> staggered dst -> differ src dst = 2 ->
  exists d e a b c f, d <> e /\ comp d src <> comp d dst /\ comp e src <> comp e dst /\
    (forall g, g <> d -> g <> e -> comp g src = comp g dst) /\
    stencil4 src dst = (a, [b; c; f]) /\
    (forall p, place src (iv_add p a) = step d (-1) (step e (-1) (place dst p))) /\
    (forall p, place src (iv_add p b) = step d 1 (step e (-1) (place dst p))) /\
    (forall p, place src (iv_add p c) = step d (-1) (step e 1 (place dst p))) /\
    (forall p, place src (iv_add p f) = step d 1 (step e 1 (place dst p))).
Proof.
  intros Hs Hd D. destruct src as [a b c], dst as [a' b' c'].
  destruct (staggered_xyz _ Hs) as (A & B & C), (staggered_xyz _ Hd) as (A' & B' & C').
  cbn [ix iy iz] in *. unfold differ in D; cbn [ix iy iz] in D.
  destruct A as [-> | ->], B as [-> | ->], C as [-> | ->], A' as [-> | ->], B' as [-> | ->], C' as [-> | ->];
    cbn in D; try lia;
    let go d e := (exists d, e; do 4 eexists; (split; [discriminate|]); (split; [cbn; lia|]); (split; [cbn; lia|]);
       (split; [intros [] E F; cbn; congruence|]); (split; [cbv; reflexivity|]);
       repeat split; intros [x y z]; apply iv_ext; intros []; cbn -[Z.add Z.mul]; lia) in
    first [ go XDIR YDIR | go XDIR ZDIR | go YDIR ZDIR ].
Qed.

Lemma place_inj o p q : place o p = place o q -> p = q.
Proof.
  destruct p as [a b c], q as [a' b' c'], o as [u v w]. unfold place. cbn [ix iy iz]. intros E.
  pose proof (f_equal ix E) as A. pose proof (f_equal iy E) as B. pose proof (f_equal iz E) as C.
  cbn [ix iy iz] in *. f_equal; lia.
Qed.

Lemma comp_step d e k p : comp d (step e k p) = comp d p + (if dir_beq d e then k else 0).
Proof. destruct d, e, p; cbn; lia. Qed.

Lemma adjacent_iff src dst p q : adjacent src dst p q <->
  exists k, place src q = iv_add (place dst p) k /\ forall d, -1 <= comp d k <= 1.
Proof.
  split.
  - intros H. exists (iv_sub (place src q) (place dst p)). split.
    + apply iv_ext. intros d. specialize (H d). destruct d; cbn -[Z.add Z.mul] in *; lia.
    + intros d. specialize (H d). destruct d; cbn -[Z.add Z.mul] in *; lia.
  - intros (k & E & H) d. rewrite E. specialize (H d). destruct d; cbn -[Z.add Z.mul place] in *; lia.
Qed.

Lemma place_parity o p d : comp d (place o p) = 2 * comp d p + 1 + comp d o.
Proof. destruct d; reflexivity. Qed.

Theorem two_points src dst : staggered src -> staggered dst -> differ src dst = 1 -> forall p,
  length (cells_read (stencil2 src dst) p) = 2%nat /\
  NoDup (cells_read (stencil2 src dst) p) /\
  (forall q, In q (cells_read (stencil2 src dst) p) <-> adjacent src dst p q) /\
  exists d lo hi, cells_read (stencil2 src dst) p = [lo; hi] /\
    comp d (place src lo) = comp d (place dst p) - 1 /\
    comp d (place src hi) = comp d (place dst p) + 1 /\
    forall e, e <> d -> comp e (place src lo) = comp e (place dst p) /\ comp e (place src hi) = comp e (place dst p).
Proof.
  intros Hs Hd D p. destruct (stencil2_places src dst Hs Hd D) as (d & lo & hi & N & O & E & L & U).
  unfold cells_read. rewrite E. cbn [fst snd map length].
  assert (LN : iv_add p lo <> iv_add p hi).
  { intros X. pose proof (f_equal (comp d) (L p)) as A. pose proof (f_equal (comp d) (U p)) as B.
    rewrite X in A. rewrite A in B. rewrite !comp_step in B. destruct d; cbn -[place] in B; lia. }
  split; [reflexivity|]. split; [|split].
  - constructor; [intros [X|[]]; congruence|]. constructor; [intros []|constructor].
  - intros q. cbn [In]. split.
    + intros [<-|[<-|[]]] e; [rewrite L|rewrite U]; rewrite comp_step; destruct (dir_beq e d); lia.
    + intros A. pose proof (Hs d) as Sd. pose proof (Hd d) as Dd. pose proof (A d) as Ad. rewrite !place_parity in Ad.
      assert (OT : forall e, e <> d -> comp e q = comp e p).
      { intros e Ne. pose proof (A e) as Ae. rewrite !place_parity in Ae. specialize (O e Ne). lia. }
      assert (C : comp d (place src q) = comp d (place dst p) - 1 \/ comp d (place src q) = comp d (place dst p) + 1)
        by (rewrite !place_parity; lia).
      destruct C as [C|C]; [left|right; left]; apply (place_inj src); apply iv_ext; intros e;
        [rewrite L|rewrite U]; rewrite comp_step; destruct (dir_beq e d) eqn:B.
      * apply internal_dir_dec_bl in B. subst e. lia.
      * assert (Ne : e <> d) by (intros ->; destruct d; discriminate).
        rewrite !place_parity, (OT e Ne), (O e Ne). lia.
      * apply internal_dir_dec_bl in B. subst e. lia.
      * assert (Ne : e <> d) by (intros ->; destruct d; discriminate).
        rewrite !place_parity, (OT e Ne), (O e Ne). lia.
  - exists d, (iv_add p lo), (iv_add p hi). split; [reflexivity|]. rewrite L, U, !comp_step.
    assert (R : dir_beq d d = true) by (destruct d; reflexivity). rewrite R. split; [lia|]. split; [lia|].
    intros e Ne. rewrite !comp_step. destruct (dir_beq e d) eqn:B; [|lia].
    apply internal_dir_dec_bl in B. contradiction.
Qed.

Theorem four_points src dst : staggered src -> staggered dst -> differ src dst = 2 -> forall p,
  length (cells_read (stencil4 src dst) p) = 4%nat /\
  NoDup (cells_read (stencil4 src dst) p) /\
  (forall q, In q (cells_read (stencil4 src dst) p) <-> adjacent src dst p q) /\
  (forall q, In q (cells_read (stencil4 src dst) p) ->
     exists q', In q' (cells_read (stencil4 src dst) p) /\
                iv_add (place src q) (place src q') = iv_add (place dst p) (place dst p)).
Proof.
  intros Hs Hd D p.
  destruct (stencil4_places src dst Hs Hd D) as (d & e & a & b & c & f & NE & Nd & Nn & O & E & LA & LB & LC & LF).
  unfold cells_read. rewrite E. cbn [fst snd map length].
  assert (RR : forall x, dir_beq x x = true) by (intros []; reflexivity).
  assert (DE : dir_beq d e = false) by (destruct d, e; cbn; congruence).
  assert (ED : dir_beq e d = false) by (destruct d, e; cbn; congruence).
  assert (CO : forall x y, (place src x = place src y -> x = y)) by (intros; eapply place_inj; eauto).
  assert (KE : forall x u v, place src (iv_add p x) = step d u (step e v (place dst p)) ->
     comp d (place src (iv_add p x)) = comp d (place dst p) + u /\
     comp e (place src (iv_add p x)) = comp e (place dst p) + v).
  { intros x u v ->. rewrite !comp_step, !RR, DE, ED. lia. }
  pose proof (KE _ _ _ (LA p)) as [A1 A2]. pose proof (KE _ _ _ (LB p)) as [B1 B2].
  pose proof (KE _ _ _ (LC p)) as [C1 C2]. pose proof (KE _ _ _ (LF p)) as [F1 F2].
  split; [reflexivity|]. split; [|split].
  - repeat constructor; cbn [In]; intros X; repeat destruct X as [X|X]; try contradiction; rewrite X in *; lia.
  - intros q. cbn [In]. split.
    + intros [<-|[<-|[<-|[<-|[]]]]] g; [rewrite LA|rewrite LB|rewrite LC|rewrite LF];
        rewrite !comp_step; destruct (dir_beq g d) eqn:G1, (dir_beq g e) eqn:G2; try lia;
        apply internal_dir_dec_bl in G1; apply internal_dir_dec_bl in G2; congruence.
    + intros A.
      assert (OT : forall g, g <> d -> g <> e -> comp g q = comp g p).
      { intros g N1 N2. pose proof (A g) as Ag. rewrite !place_parity in Ag. specialize (O g N1 N2). lia. }
      assert (CC : forall g, comp g src <> comp g dst ->
        comp g (place src q) = comp g (place dst p) - 1 \/ comp g (place src q) = comp g (place dst p) + 1).
      { intros g N. pose proof (Hs g). pose proof (Hd g). pose proof (A g) as Ag. rewrite !place_parity in *. lia. }
      assert (FIN : forall x u v, place src (iv_add p x) = step d u (step e v (place dst p)) ->
        comp d (place src q) = comp d (place dst p) + u -> comp e (place src q) = comp e (place dst p) + v ->
        iv_add p x = q).
      { intros x u v Ex U V. apply (place_inj src). apply iv_ext. intros g. rewrite Ex, !comp_step.
        destruct (dir_beq g d) eqn:G1; [apply internal_dir_dec_bl in G1; subst g; rewrite DE; lia|].
        destruct (dir_beq g e) eqn:G2; [apply internal_dir_dec_bl in G2; subst g; lia|].
        assert (N1 : g <> d) by (intros ->; rewrite RR in G1; discriminate).
        assert (N2 : g <> e) by (intros ->; rewrite RR in G2; discriminate).
        rewrite !place_parity, (OT g N1 N2), (O g N1 N2). lia. }
      destruct (CC d Nd) as [X|X], (CC e Nn) as [Y|Y].
      * left. apply (FIN a (-1) (-1) (LA p)); lia.
      * right; right; left. apply (FIN c (-1) 1 (LC p)); lia.
      * right; left. apply (FIN b 1 (-1) (LB p)); lia.
      * right; right; right; left. apply (FIN f 1 1 (LF p)); lia.
  - assert (SY : forall x y u v, place src (iv_add p x) = step d u (step e v (place dst p)) ->
       place src (iv_add p y) = step d (-u) (step e (-v) (place dst p)) ->
       iv_add (place src (iv_add p x)) (place src (iv_add p y)) = iv_add (place dst p) (place dst p)).
    { intros x y u v -> ->. destruct (place dst p) as [k1 k2 k3], d, e; unfold iv_add; cbn [step ix iy iz]; f_equal; lia. }
    intros q. cbn [In]. intros [<-|[<-|[<-|[<-|[]]]]].
    + exists (iv_add p f). split; [auto|]. exact (SY _ _ (-1) (-1) (LA p) (LF p)).
    + exists (iv_add p c). split; [auto|]. exact (SY _ _ 1 (-1) (LB p) (LC p)).
    + exists (iv_add p b). split; [auto|]. exact (SY _ _ (-1) 1 (LC p) (LB p)).
    + exists (iv_add p a). split; [auto|]. exact (SY _ _ 1 1 (LF p) (LA p)).
Qed.

(** ** The registered operators *)
Inductive kind (dx : dir -> Qc) : optag -> loc -> loc -> builder Qc -> Prop :=
| k_two s d : differ (offset s) (offset d) = 1 ->
    kind dx Interpolant s d (StencilOp (stencil2 (offset s) (offset d)) (half, [half]))
| k_four s d : differ (offset s) (offset d) = 2 ->
    kind dx Interpolant s d (StencilOp (stencil4 (offset s) (offset d)) (quarter, [quarter; quarter; quarter]))
| k_null s d : differ (offset s) (offset d) = 0 -> kind dx Interpolant s d (SumOp null_stencil)
| k_grad t s d e : t = Gradient \/ t = Divergence -> differ (offset s) (offset d) = 1 ->
    comp e (offset s) <> comp e (offset d) ->
    kind dx t s d (StencilOp (stencil2 (offset s) (offset d)) ((- (1) / dx e)%Qc, [(1 / dx e)%Qc]))
| k_filter s : kind dx Filter s s (AverageOp box3d)
| k_interp_d s e : kind dx (InterpolantD e) s s (StencilOp (fd_stencil e) (half, [half]))
| k_grad_d s e : kind dx (GradientD e) s s (StencilOp (fd_stencil e) ((- half / dx e)%Qc, [(half / dx e)%Qc])).

Definition reg_ok (dx : dir -> Qc) (r : optag * loc * loc * args Qc) : Prop :=
  let '(t, s, d, a) := r in exists b, new_operator t s d a = Some b /\ kind dx t s d b.

Ltac reg1 :=
  unfold reg_ok, new_operator;
  match goal with |- context [find_optype ?t ?s ?d] =>
    let v := eval vm_compute in (find_optype t s d) in change (find_optype t s d) with v end;
  cbv iota beta; eexists; split; [reflexivity|];
  first [ apply k_two; reflexivity | apply k_four; reflexivity | apply k_null; reflexivity
        | apply k_grad; [first [left; reflexivity|right; reflexivity]|reflexivity|cbn; discriminate]
        | apply k_filter | apply k_interp_d | apply k_grad_d ].

Lemma all_registered dx : Forall (reg_ok dx) (registrations (make_coefs dx)).
Proof.
  cbv [registrations reg_basic reg_fd x_face y_face z_face make_coefs coefHalf coefD coefQuarter coefHalfD app map fst snd
       two_point_coefs four_point_coefs].
  repeat (apply Forall_cons; [reg1|]). apply Forall_nil.
Qed.
