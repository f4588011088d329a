(** Proofs about stencil operators: exactness, telescoping, averaging. *)
From Coq Require Import Permutation.
From Verif Require Import Prelude WindowM WindowS GhostM FieldM FieldS MaskM NeboM NeboS NeboP NeboQ NeboA NeboB NeboC NeboD NeboE NeboF StencilM StencilS StencilP.

Notation den h e p := (denote Qc Qcplus Qcmult h e p).

Definition op_points (b : builder Qc) : list ivec :=
  match b with
  | StencilOp (p0, ps) (_, cs) => p0 :: map fst (combine ps cs)
  | SumOp (p0, ps) | AverageOp (p0, ps) => p0 :: ps
  end.

Ltac nz := repeat split; first [assumption | exact two_neq0 | intros Hc; discriminate (f_equal this Hc)].

Lemma coord_place dx s d p q g k :
  comp g (place (offset s) q) = comp g (place (offset d) p) + k ->
  coord dx s q g = (coord dx d p g + dx g * half * qc_of k)%Qc.
Proof. intros E. unfold coord. rewrite E, qc_add. ring. Qed.

Lemma coord_step dx s d p q e k g :
  place (offset s) q = step e k (place (offset d) p) ->
  coord dx s q g = (coord dx d p g + dx g * half * qc_of (if dir_beq g e then k else 0))%Qc.
Proof. intros E. apply coord_place. rewrite E. apply comp_step. Qed.
Lemma coord_step2 dx s d p q e k f l g :
  place (offset s) q = step e k (step f l (place (offset d) p)) ->
  coord dx s q g = (coord dx d p g + dx g * half * qc_of (if dir_beq g e then k else 0)
                    + dx g * half * qc_of (if dir_beq g f then l else 0))%Qc.
Proof.
  intros E. rewrite (coord_place dx s d p q g ((if dir_beq g e then k else 0) + (if dir_beq g f then l else 0))).
  - rewrite qc_add. ring.
  - rewrite E, !comp_step. lia.
Qed.
Lemma coord_same dx s p q g :
  coord dx s (iv_add p q) g = (coord dx s p g + dx g * qc_of (comp g q))%Qc.
Proof.
  unfold coord. rewrite (place_parity _ (iv_add p q)), (place_parity _ p).
  replace (2 * comp g (iv_add p q) + 1 + comp g (offset s)) with ((2 * comp g p + 1 + comp g (offset s)) + (comp g q + comp g q))
    by (destruct g; cbn [comp iv_add ix iy iz]; lia).
  rewrite !qc_add, half_eq. field; nz.
Qed.

Lemma interp_exact dx t s d b h a p c : kind dx t s d b -> averages t ->
  (forall v, In v (op_points b) -> den h a (iv_add p v) = trilinear c (coord dx s (iv_add p v))) ->
  den h (apply_op b a) p = trilinear c (coord dx d p).
Proof.
  intros K A H. destruct K as [s d D|s d D|s d D|t s d e T D N|s|s e|s e].
  - destruct (stencil2_places _ _ (offset_staggered s) (offset_staggered d) D) as (g & lo & hi & _ & _ & E & L & U).
    rewrite E in *. cbn [apply_op denote combine fold_left fst snd map op_points] in *.
    rewrite (H lo), (H hi) by (cbn; auto).
    unfold trilinear. rewrite !(coord_step _ _ _ _ _ _ _ _ (L p)), !(coord_step _ _ _ _ _ _ _ _ (U p)).
    destruct g; cbn [dir_beq]; rewrite ?qc_0, ?qc_1, ?qc_neg1, half_eq; field; nz.
  - destruct (stencil4_places _ _ (offset_staggered s) (offset_staggered d) D)
      as (g & e & x1 & x2 & x3 & x4 & NE & _ & _ & _ & E & L1 & L2 & L3 & L4).
    rewrite E in *. cbn [apply_op denote combine fold_left fst snd map op_points] in *.
    rewrite (H x1), (H x2), (H x3), (H x4) by (cbn; auto).
    unfold trilinear.
    rewrite !(coord_step2 _ _ _ _ _ _ _ _ _ _ (L1 p)), !(coord_step2 _ _ _ _ _ _ _ _ _ _ (L2 p)),
            !(coord_step2 _ _ _ _ _ _ _ _ _ _ (L3 p)), !(coord_step2 _ _ _ _ _ _ _ _ _ _ (L4 p)).
    destruct g, e; try congruence; cbn [dir_beq]; rewrite ?qc_0, ?qc_1, ?qc_neg1, quarter_eq, half_eq; field; nz.
  - cbn [apply_op null_stencil denote fold_left op_points In] in *.
    rewrite (H _ (or_introl eq_refl)). unfold trilinear.
    assert (X : forall g, coord dx s (iv_add p (IV 0 0 0)) g = coord dx d p g).
    { intros g. rewrite coord_same. replace (comp g (IV 0 0 0)) with 0 by (destruct g; reflexivity). rewrite qc_0.
      unfold coord. unfold differ in D.
      destruct (ix (offset s) =? ix (offset d)) eqn:E1, (iy (offset s) =? iy (offset d)) eqn:E2, (iz (offset s) =? iz (offset d)) eqn:E3;
        try discriminate D. apply Z.eqb_eq in E1, E2, E3.
      assert (OE : offset s = offset d) by (apply iv_ext; intros []; assumption). rewrite OE. ring. }
    rewrite !X. reflexivity.
  - destruct T as [-> | ->]; destruct A.
  - cbn [apply_op denote combine fold_left fst snd map op_points box3d In] in *.
    repeat (rewrite H by tauto). unfold trilinear. rewrite !coord_same. cbn [comp ix iy iz].
    rewrite ?qc_0, ?qc_1, ?qc_neg1. change (qc_of (points_length _)) with (qc_of 27).
    assert (N : qc_of 27 <> 0%Qc) by (apply qc_neq0; lia).
    assert (E : qc_of 27 = (1+1+1+1+1+1+1+1+1+1+1+1+1+1+1+1+1+1+1+1+1+1+1+1+1+1+1)%Qc)
      by (apply Qc_is_canon; reflexivity).
    rewrite E in *. field; nz.
  - cbn [apply_op denote combine fold_left fst snd map op_points fd_stencil In] in *.
    repeat (rewrite H by tauto). unfold trilinear. rewrite !coord_same.
    destruct e; cbn [comp ix iy iz unit_triplet it_negate Z.opp]; rewrite ?qc_0, ?qc_1, ?qc_neg1, half_eq; field; nz.
  - destruct A.
Qed.

Lemma grad_exact dx t s d b h a p c e : kind dx t s d b -> differentiates t s d e -> dx e <> 0%Qc ->
  (forall v, In v (op_points b) -> den h a (iv_add p v) = quadratic c (coord dx s (iv_add p v))) ->
  den h (apply_op b a) p = slope c e (coord dx d p).
Proof.
  intros K A X H. destruct K as [s d D|s d D|s d D|t s d f T D N|s|s f|s f]; try (destruct A; fail).
  - assert (A' : comp e (offset s) <> comp e (offset d)) by (destruct T as [-> | ->]; exact A). clear A.
    destruct (stencil2_places _ _ (offset_staggered s) (offset_staggered d) D) as (g & lo & hi & _ & O & E & L & U).
    assert (e = g) by (destruct (dir_eq_dec e g) as [|Z]; [assumption|destruct (A' (O e Z))]).
    assert (f = g) by (destruct (dir_eq_dec f g) as [|Z]; [assumption|destruct (N (O f Z))]).
    subst e f. rewrite E in *. cbn [apply_op denote combine fold_left fst snd map op_points] in *.
    rewrite (H lo), (H hi) by (cbn; auto).
    unfold quadratic. rewrite !(coord_step _ _ _ _ _ _ _ _ (L p)), !(coord_step _ _ _ _ _ _ _ _ (U p)).
    destruct g; cbn [dir_beq slope]; rewrite ?qc_0, ?qc_1, ?qc_neg1, half_eq; field; nz.
  - cbn in A. subst f.
    cbn [apply_op denote combine fold_left fst snd map op_points fd_stencil In] in *.
    repeat (rewrite H by tauto). unfold quadratic. rewrite !coord_same.
    destruct e; cbn [comp ix iy iz unit_triplet it_negate Z.opp slope]; rewrite ?qc_0, ?qc_1, ?qc_neg1, half_eq; field; nz.
Qed.

Lemma build_kind n Lx Ly Lz t s d b : In (t, s, d, b) (build_stencils n Lx Ly Lz) ->
  kind (grid_spacing n Lx Ly Lz) t s d b.
Proof.
  unfold build_stencils. intros H. apply in_flat_map in H. destruct H as ((((t' & s') & d') & a) & I & J).
  pose proof (proj1 (Forall_forall _ _) (all_registered (grid_spacing n Lx Ly Lz)) _ I) as (b' & E & K).
  rewrite E in J. destruct J as [[= <- <- <- <-]|[]]. exact K.
Qed.

Lemma op_near t s d b dx v : kind dx t s d b -> In v (op_points b) -> forall p, near p (iv_add p v).
Proof.
  intros K I p g.
  assert (B : Z.abs (comp g v) <= 1).
  { destruct K as [s d D|s d D|s d D|t s d f T D N|s|s f|s f].
    - destruct s, d; try discriminate D; cbn in I; repeat (destruct I as [<-|I]; [destruct g; cbn; lia|]); destruct I.
    - destruct s, d; try discriminate D; cbn in I; repeat (destruct I as [<-|I]; [destruct g; cbn; lia|]); destruct I.
    - cbn in I; repeat (destruct I as [<-|I]; [destruct g; cbn; lia|]); destruct I.
    - destruct s, d; try discriminate D; cbn in I; repeat (destruct I as [<-|I]; [destruct g; cbn; lia|]); destruct I.
    - cbn in I; repeat (destruct I as [<-|I]; [destruct g; cbn; lia|]); destruct I.
    - destruct f; cbn in I; repeat (destruct I as [<-|I]; [destruct g; cbn; lia|]); destruct I.
    - destruct f; cbn in I; repeat (destruct I as [<-|I]; [destruct g; cbn; lia|]); destruct I. }
  destruct g; cbn [comp iv_add ix iy iz] in *; lia.
Qed.

Lemma interpolate_exact n Lx Ly Lz t s d b h a p c :
  In (t, s, d, b) (build_stencils n Lx Ly Lz) -> averages t ->
  (forall q, near p q -> den h a q = trilinear c (coord (grid_spacing n Lx Ly Lz) s q)) ->
  den h (apply_op b a) p = trilinear c (coord (grid_spacing n Lx Ly Lz) d p).
Proof.
  intros I A H. apply build_kind in I. eapply interp_exact; eauto. intros v Iv. apply H. eapply op_near; eauto.
Qed.

Lemma spacing_neq0 n Lx Ly Lz e : iv_le (IV 1 1 1) n -> (Lx <> 0 -> Ly <> 0 -> Lz <> 0 -> grid_spacing n Lx Ly Lz e <> 0)%Qc.
Proof.
  intros (A & B & C) X Y Z. cbn in A, B, C.
  assert (D : forall L k, L <> 0%Qc -> 1 <= k -> (L / qc_of k <> 0)%Qc).
  { intros L k NL K E. apply NL. assert (NK : qc_of k <> 0%Qc) by (apply qc_neq0; lia).
    transitivity ((L / qc_of k) * qc_of k)%Qc; [field; exact NK|]. rewrite E. ring. }
  destruct e; cbn [grid_spacing]; apply D; assumption.
Qed.

Lemma differentiate_exact n Lx Ly Lz t s d b h a p c e :
  iv_le (IV 1 1 1) n -> Lx <> 0%Qc -> Ly <> 0%Qc -> Lz <> 0%Qc ->
  In (t, s, d, b) (build_stencils n Lx Ly Lz) -> differentiates t s d e ->
  (forall q, near p q -> den h a q = quadratic c (coord (grid_spacing n Lx Ly Lz) s q)) ->
  den h (apply_op b a) p = slope c e (coord (grid_spacing n Lx Ly Lz) d p).
Proof.
  intros Pn X Y Z I A H. apply build_kind in I. eapply grad_exact; eauto using spacing_neq0.
  intros v Iv. apply H. eapply op_near; eauto.
Qed.

(** ** Linearity *)
Lemma apply_linear b h a1 a2 al be p :
  den h (apply_op b (EOp2 Qc (fun x y => al * x + be * y)%Qc a1 a2)) p =
  (al * den h (apply_op b a1) p + be * den h (apply_op b a2) p)%Qc.
Proof.
  destruct b as [[p0 ps] [c0 cs]|[p0 ps]|[p0 ps]]; cbn [apply_op denote].
  - assert (G : forall l u v w, u = (al * v + be * w)%Qc ->
      fold_left (fun acc pc => (acc + (al * den h a1 (iv_add p (fst pc)) + be * den h a2 (iv_add p (fst pc))) * snd pc)%Qc) l u =
      (al * fold_left (fun acc pc => (acc + den h a1 (iv_add p (fst pc)) * snd pc)%Qc) l v
       + be * fold_left (fun acc pc => (acc + den h a2 (iv_add p (fst pc)) * snd pc)%Qc) l w)%Qc).
    { induction l as [|x l IH]; intros u v w E; cbn [fold_left]; [exact E|]. apply IH. rewrite E. ring. }
    apply G. ring.
  - assert (G : forall l u v w, u = (al * v + be * w)%Qc ->
      fold_left (fun acc q => (acc + (al * den h a1 (iv_add p q) + be * den h a2 (iv_add p q)))%Qc) l u =
      (al * fold_left (fun acc q => (acc + den h a1 (iv_add p q))%Qc) l v
       + be * fold_left (fun acc q => (acc + den h a2 (iv_add p q))%Qc) l w)%Qc).
    { induction l as [|x l IH]; intros u v w E; cbn [fold_left]; [exact E|]. apply IH. rewrite E. ring. }
    apply G. ring.
  - assert (G : forall l u v w, u = (al * v + be * w)%Qc ->
      fold_left (fun acc q => (acc + (al * den h a1 (iv_add p q) + be * den h a2 (iv_add p q)))%Qc) l u =
      (al * fold_left (fun acc q => (acc + den h a1 (iv_add p q))%Qc) l v
       + be * fold_left (fun acc q => (acc + den h a2 (iv_add p q))%Qc) l w)%Qc).
    { induction l as [|x l IH]; intros u v w E; cbn [fold_left]; [exact E|]. apply IH. rewrite E. ring. }
    rewrite (G _ _ (den h a1 (iv_add p p0)) (den h a2 (iv_add p p0))) by ring. ring.
Qed.

(** ** Every registration compiles and every derivative operator has one direction *)
Lemma registered_all n Lx Ly Lz : length (build_stencils n Lx Ly Lz) = 131%nat.
Proof.
  unfold build_stencils.
  pose proof (all_registered (grid_spacing n Lx Ly Lz)) as F.
  assert (G : forall l, Forall (reg_ok (grid_spacing n Lx Ly Lz)) l ->
    length (flat_map (fun r : optag * loc * loc * args Qc => let '(t, s, d, a) := r in
       match new_operator t s d a with Some b => [(t, s, d, b)] | None => [] end) l) = length l).
  { induction l as [|(((t & s) & d) & a) l IH]; intros H; [reflexivity|]. inversion H as [|? ? H1 H2]; subst. destruct H1 as (b & E & _).
    cbn [flat_map]. rewrite E. cbn [app length]. rewrite (IH H2). reflexivity. }
  etransitivity; [exact (G _ F)|reflexivity].
Qed.

Lemma registered_direction n Lx Ly Lz t s d b : In (t, s, d, b) (build_stencils n Lx Ly Lz) ->
  averages t \/ exists e, differentiates t s d e /\ forall e', differentiates t s d e' -> e' = e.
Proof.
  intros H. apply build_kind in H. destruct H as [s d D|s d D|s d D|t s d e T D N|s|s e|s e]; cbn; auto.
  - right. exists e. destruct T as [-> | ->]; (split; [exact N|]); cbn; intros e' N';
      destruct (stencil2_places _ _ (offset_staggered s) (offset_staggered d) D) as (g & _ & _ & _ & O & _);
      (destruct (dir_eq_dec e g) as [->|Z]; [|destruct (N (O e Z))]);
      (destruct (dir_eq_dec e' g) as [->|Z]; [reflexivity|destruct (N' (O e' Z))]).
  - right. exists e. auto.
Qed.

(** ** Divergence *)
Lemma qsum_app a b : qsum (a ++ b) = (qsum a + qsum b)%Qc.
Proof. induction a as [|x a IH]; cbn [qsum app]; [ring|rewrite IH; ring]. Qed.

Lemma step_step d k l p : step d k (step d l p) = step d (k + l) p.
Proof. destruct d, p as [p1 p2 p3]; cbn [step ix iy iz]; f_equal; lia. Qed.
Lemma step_0 d p : step d 0 p = p.
Proof. destruct d, p as [p1 p2 p3]; cbn [step ix iy iz]; f_equal; lia. Qed.
Lemma place_step o d k p : place o (step d k p) = step d (2 * k) (place o p).
Proof. destruct d, p as [p1 p2 p3]; unfold place; cbn [step ix iy iz]; f_equal; lia. Qed.

Lemma divergence_row n Lx Ly Lz s d b h a e :
  iv_le (IV 1 1 1) n -> Lx <> 0%Qc -> Ly <> 0%Qc -> Lz <> 0%Qc ->
  In (Divergence, s, d, b) (build_stencils n Lx Ly Lz) -> comp e (offset s) <> comp e (offset d) ->
  forall p first last m, 0 <= m ->
  place (offset s) first = step e (-1) (place (offset d) p) ->
  place (offset s) last = step e (-1) (place (offset d) (step e m p)) ->
  qsum (map (fun k => den h (apply_op b a) (step e k p)) (zrange m)) =
  ((den h a last - den h a first) / grid_spacing n Lx Ly Lz e)%Qc.
Proof.
  intros Pn X Y Z I N p first last m Hm F L.
  assert (NZ : grid_spacing n Lx Ly Lz e <> 0%Qc) by (apply spacing_neq0; assumption).
  apply build_kind in I. set (dx := grid_spacing n Lx Ly Lz) in *. inversion I as [| | |? ? ? f T D N2| | |]; subst.
  destruct (stencil2_places _ _ (offset_staggered s) (offset_staggered d) D) as (g & lo & hi & _ & O & E & LL & UU).
  assert (e = g) by (destruct (dir_eq_dec e g) as [|W]; [assumption|destruct (N (O e W))]).
  assert (f = g) by (destruct (dir_eq_dec f g) as [|W]; [assumption|destruct (N2 (O f W))]).
  subst e f. rewrite E. cbn [apply_op denote combine fold_left fst snd].
  revert last L. pattern m. apply Zlt_0_ind; [|exact Hm]. clear m Hm. intros m IH Hm last L.
  destruct (Z.eq_dec m 0) as [->|Nm].
  - cbn [zrange map qsum]. rewrite step_0, <- F in L. apply place_inj in L. subst last. cbn. field. exact NZ.
  - replace m with ((m - 1) + 1) by lia. rewrite zrange_succ by lia. rewrite map_app, qsum_app. cbn [map qsum].
    set (q := iv_add (step g (m - 1) p) lo).
    assert (Lq : place (offset s) q = step g (-1) (place (offset d) (step g (m - 1) p))) by apply LL.
    rewrite (IH (m - 1) ltac:(lia) q Lq).
    assert (Uq : iv_add (step g (m - 1) p) hi = last).
    { apply (place_inj (offset s)). rewrite UU, L, !place_step, !step_step. f_equal. lia. }
    rewrite Uq. fold q. field. exact NZ.
Qed.

Lemma divergence_rows n Lx Ly Lz s d b h a e :
  iv_le (IV 1 1 1) n -> Lx <> 0%Qc -> Ly <> 0%Qc -> Lz <> 0%Qc ->
  In (Divergence, s, d, b) (build_stencils n Lx Ly Lz) -> comp e (offset s) <> comp e (offset d) ->
  forall rows m, 0 <= m ->
  (forall p first last, In (p, first, last) rows ->
     place (offset s) first = step e (-1) (place (offset d) p) /\
     place (offset s) last = step e (-1) (place (offset d) (step e m p))) ->
  qsum (map (fun r => qsum (map (fun k => den h (apply_op b a) (step e k (fst (fst r)))) (zrange m))) rows) =
  ((qsum (map (fun r => den h a (snd r)) rows) - qsum (map (fun r => den h a (snd (fst r))) rows))
     / grid_spacing n Lx Ly Lz e)%Qc.
Proof.
  intros Pn X Y Z I N rows m Hm. induction rows as [|((p & u) & v) rows IH]; intros H; cbn [map qsum fst snd].
  - assert (NZ : grid_spacing n Lx Ly Lz e <> 0%Qc) by (apply spacing_neq0; assumption). field. exact NZ.
  - assert (NZ : grid_spacing n Lx Ly Lz e <> 0%Qc) by (apply spacing_neq0; assumption).
    destruct (H p u v (or_introl eq_refl)) as [A B].
    rewrite (divergence_row n Lx Ly Lz s d b h a e Pn X Y Z I N p u v m Hm A B).
    rewrite IH by (intros; apply H; right; assumption). field. exact NZ.
Qed.

(** ** Averages *)
Lemma fold_qsum {A} (f : A -> Qc) l u : fold_left (fun acc q => (acc + f q)%Qc) l u = (u + qsum (map f l))%Qc.
Proof. revert u. induction l as [|x l IH]; intros u; cbn [fold_left map qsum]; [ring|rewrite IH; ring]. Qed.

Lemma average_den pts h a p :
  den h (apply_op (AverageOp pts) a) p =
  (qsum (map (fun q => den h a q) (cells_read pts p)) / qc_of (points_length pts))%Qc.
Proof.
  destruct pts as [p0 ps]. cbn [apply_op denote]. rewrite (fold_qsum (fun q => den h a (iv_add p q))).
  unfold cells_read. cbn [fst snd map qsum]. rewrite map_map.
  assert (N : qc_of (points_length (p0, ps)) <> 0%Qc) by (apply qc_neq0; unfold points_length; lia).
  field. exact N.
Qed.

Lemma qsum_perm l l' : Permutation l l' -> qsum l = qsum l'.
Proof. induction 1; cbn [qsum]; try congruence; ring. Qed.

Lemma box3d_near p q : In q (cells_read box3d p) <-> near p q.
Proof.
  split.
  - unfold cells_read. cbn [box3d fst snd map In]. intros H g.
    repeat (destruct H as [<-|H]; [destruct g; cbn [comp iv_add ix iy iz]; lia|]). destruct H.
  - intros H. pose proof (H XDIR) as A. pose proof (H YDIR) as B. pose proof (H ZDIR) as C. cbn [comp] in A, B, C.
    assert (E : q = iv_add p (IV (ix q - ix p) (iy q - iy p) (iz q - iz p))).
    { destruct q as [k1 k2 k3]; unfold iv_add; cbn [ix iy iz]; f_equal; lia. }
    assert (X : ix q - ix p = -1 \/ ix q - ix p = 0 \/ ix q - ix p = 1) by lia.
    assert (Y : iy q - iy p = -1 \/ iy q - iy p = 0 \/ iy q - iy p = 1) by lia.
    assert (W : iz q - iz p = -1 \/ iz q - iz p = 0 \/ iz q - iz p = 1) by lia.
    rewrite E. unfold cells_read. apply in_map_iff. eexists; split; [reflexivity|].
    destruct X as [-> |[-> | ->]], Y as [-> |[-> | ->]], W as [-> |[-> | ->]]; cbn; tauto.
Qed.

Lemma iv_add_inj p a b : iv_add p a = iv_add p b -> a = b.
Proof.
  destruct p as [x y z], a as [a1 a2 a3], b as [b1 b2 b3]. unfold iv_add. cbn [ix iy iz]. intros E.
  pose proof (f_equal ix E); pose proof (f_equal iy E); pose proof (f_equal iz E); cbn [ix iy iz] in *. f_equal; lia.
Qed.
Lemma iv_dec (a b : ivec) : {a = b} + {a <> b}.
Proof. decide equality; apply Z.eq_dec. Qed.
Lemma box3d_nodup p : NoDup (cells_read box3d p).
Proof.
  unfold cells_read. apply FinFun.Injective_map_NoDup; [intros a b; apply iv_add_inj|].
  repeat (constructor; [cbn [box3d fst snd In]; intros H; repeat (destruct H as [H|H]; [discriminate H|]); exact H|]). constructor.
Qed.

Lemma filter_mean n Lx Ly Lz s d b h a p l :
  In (Filter, s, d, b) (build_stencils n Lx Ly Lz) ->
  NoDup l -> (forall q, In q l <-> near p q) ->
  den h (apply_op b a) p = (qsum (map (fun q => den h a q) l) / qc_of 27)%Qc.
Proof.
  intros I ND E. apply build_kind in I. inversion I; subst.
  - match goal with T : _ \/ _ |- _ => destruct T; discriminate end.
  - rewrite average_den. f_equal. apply qsum_perm, Permutation_map, NoDup_Permutation; [apply box3d_nodup|exact ND|].
    intros q. rewrite box3d_near, E. reflexivity.
Qed.

Lemma qc_le_of a b : a <= b -> (qc_of a <= qc_of b)%Qc.
Proof. intros H. unfold Qcle, qc_of. cbn [this Q2Qc]. rewrite !Qred_correct. rewrite <- Zle_Qle. exact H. Qed.
Lemma qc_lt_of a b : a < b -> (qc_of a < qc_of b)%Qc.
Proof. intros H. unfold Qclt, qc_of. cbn [this Q2Qc]. rewrite !Qred_correct. rewrite <- Zlt_Qlt. exact H. Qed.

Lemma qsum_le l k : (forall x, In x l -> (x <= k)%Qc) -> (qsum l <= qc_of (Z.of_nat (length l)) * k)%Qc.
Proof.
  induction l as [|x l IH]; intros H; cbn [qsum length].
  - replace (qc_of (Z.of_nat 0) * k)%Qc with 0%Qc by (cbn; rewrite qc_0; ring). apply Qcle_refl.
  - replace (qc_of (Z.of_nat (S (length l))) * k)%Qc with (k + qc_of (Z.of_nat (length l)) * k)%Qc
      by (rewrite Nat2Z.inj_succ, <- Z.add_1_l, qc_add, qc_1; ring).
    apply Qcplus_le_compat; [apply H; left; reflexivity|]. apply IH. intros; apply H; right; assumption.
Qed.
Lemma qsum_ge l k : (forall x, In x l -> (k <= x)%Qc) -> (qc_of (Z.of_nat (length l)) * k <= qsum l)%Qc.
Proof.
  induction l as [|x l IH]; intros H; cbn [qsum length].
  - replace (qc_of (Z.of_nat 0) * k)%Qc with 0%Qc by (cbn; rewrite qc_0; ring). apply Qcle_refl.
  - replace (qc_of (Z.of_nat (S (length l))) * k)%Qc with (k + qc_of (Z.of_nat (length l)) * k)%Qc
      by (rewrite Nat2Z.inj_succ, <- Z.add_1_l, qc_add, qc_1; ring).
    apply Qcplus_le_compat; [apply H; left; reflexivity|]. apply IH. intros; apply H; right; assumption.
Qed.

Lemma qc_div_le a b c : (0 < c -> a <= c * b -> a / c <= b)%Qc.
Proof.
  intros C H. assert (N : c <> 0%Qc) by (intros ->; apply (Qclt_not_eq _ _ C); reflexivity).
  apply (Qcmult_lt_0_le_reg_r _ _ c C). replace (a / c * c)%Qc with a by (field; exact N). rewrite (Qcmult_comm b c). exact H.
Qed.
Lemma qc_le_div a b c : (0 < c -> c * b <= a -> b <= a / c)%Qc.
Proof.
  intros C H. assert (N : c <> 0%Qc) by (intros ->; apply (Qclt_not_eq _ _ C); reflexivity).
  apply (Qcmult_lt_0_le_reg_r _ _ c C). replace (a / c * c)%Qc with a by (field; exact N). rewrite (Qcmult_comm b c). exact H.
Qed.

Lemma average_bounds pts h a p lo hi :
  (forall q, In q (cells_read pts p) -> (lo <= den h a q)%Qc /\ (den h a q <= hi)%Qc) ->
  (lo <= den h (apply_op (AverageOp pts) a) p)%Qc /\ (den h (apply_op (AverageOp pts) a) p <= hi)%Qc.
Proof.
  intros H. rewrite average_den.
  assert (P : (0 < qc_of (points_length pts))%Qc) by (apply (qc_lt_of 0); unfold points_length; lia).
  assert (L : Z.of_nat (length (map (fun q => den h a q) (cells_read pts p))) = points_length pts)
    by (unfold cells_read, points_length; rewrite !map_length; reflexivity).
  split.
  - apply (qc_le_div _ _ _ P). rewrite <- L. apply qsum_ge. intros x I. apply in_map_iff in I. destruct I as (q & <- & I). apply H, I.
  - apply (qc_div_le _ _ _ P). rewrite <- L. apply qsum_le. intros x I. apply in_map_iff in I. destruct I as (q & <- & I). apply H, I.
Qed.

Lemma filter_bounds n Lx Ly Lz s d b h a p lo hi :
  In (Filter, s, d, b) (build_stencils n Lx Ly Lz) ->
  (forall q, near p q -> (lo <= den h a q)%Qc /\ (den h a q <= hi)%Qc) ->
  (lo <= den h (apply_op b a) p)%Qc /\ (den h (apply_op b a) p <= hi)%Qc.
Proof.
  intros I H. apply build_kind in I. inversion I; subst.
  - match goal with T : _ \/ _ |- _ => destruct T; discriminate end.
  - apply average_bounds. intros q Iq. apply H, box3d_near, Iq.
Qed.

(** ** Applying an operator to fields in memory *)
Lemma op_demands b f v : In v (op_points b) ->
  In (LField f, iv_add iv_zero (below v), iv_add iv_zero (above v)) (demands Qc (apply_op b (EField Qc f)) iv_zero iv_zero).
Proof.
  intros H. destruct b as [[p0 ps] [c0 cs]|[p0 ps]|[p0 ps]]; cbn [apply_op demands op_points] in *.
  - apply in_flat_map. exists v. split; [exact H|left; reflexivity].
  - apply in_flat_map. exists v. split; [exact H|left; reflexivity].
  - apply in_or_app. left. apply in_flat_map. exists v. split; [exact H|left; reflexivity].
Qed.

Lemma region_points n f g b p v : region Qc n g (apply_op b (EField Qc f)) p -> In v (op_points b) ->
  valid_cell n f (iv_add p v).
Proof.
  intros [_ K] I. specialize (K _ _ _ (op_demands b f v I) (iv_add p v)).
  assert (A : known n (LField f) (iv_add p v)).
  { apply K; destruct p as [x y z], v as [a b' c]; unfold iv_le, below, above; cbn [ix iy iz iv_add iv_sub iv_zero]; lia. }
  unfold known, valid_cell, reach, in_region in *. cbn [layers fst snd] in A.
  destruct p as [x y z], v as [a b' c]. cbn [ix iy iz iv_add iv_sub iv_zero iv_neg] in *. lia.
Qed.

Lemma op_reads b f g s : In (g, s) (reads Qc (apply_op b (EField Qc f)) iv_zero) -> g = f.
Proof.
  destruct b as [[p0 ps] [c0 cs]|[p0 ps]|[p0 ps]]; cbn [apply_op reads app]; rewrite ?app_nil_r; intros [[= <- _]|H];
    try reflexivity; apply in_flat_map in H; destruct H as (x & _ & [[= <- _]|[]]); reflexivity.
Qed.
Lemma op_masks b f : masks Qc (apply_op b (EField Qc f)) iv_zero = [].
Proof.
  assert (N : forall A (l : list A), flat_map (fun _ : A => @nil (mask * ivec)) l = []) by (induction l; auto).
  destruct b as [[p0 ps] [c0 cs]|[p0 ps]|[p0 ps]]; cbn [apply_op masks app]; rewrite ?N; reflexivity.
Qed.
Lemma op_singles b f : singles Qc (apply_op b (EField Qc f)) = [].
Proof. destruct b as [[p0 ps] [c0 cs]|[p0 ps]|[p0 ps]]; reflexivity. Qed.

Lemma apply_in_memory n h b src dst :
  on_patch n src -> (forall p, valid_cell n src p -> bcells (h (fbuf src)) (cell src p) = true) ->
  destination_ok Qc n h dst -> fbuf src <> fbuf dst -> covers_extra Qc dst (apply_op b (EField Qc src)) ->
  (exists p, region Qc n dst (apply_op b (EField Qc src)) p) ->
  exists N, forall fuel, (N <= fuel)%nat -> exists h',
    run (apply_to_field fuel b src dst) h = RDone h' tt /\
    assigned Qc h h' dst (region Qc n dst (apply_op b (EField Qc src))) (denote Qc Qcplus Qcmult h (apply_op b (EField Qc src))).
Proof.
  intros P C D A X R. apply assign_correct; try assumption.
  - split; [|split].
    + intros f s I. apply op_reads in I. subst f. auto.
    + rewrite op_masks. intros ? ? [].
    + rewrite op_singles. intros ? [].
  - intros g s I. apply op_reads in I. subst g. left. exact A.
Qed.

Lemma interpolate_in_memory n Lx Ly Lz t s d b np h src dst c :
  In (t, s, d, b) (build_stencils n Lx Ly Lz) -> averages t ->
  on_patch np src -> (forall p, valid_cell np src p -> bcells (h (fbuf src)) (cell src p) = true) ->
  destination_ok Qc np h dst -> fbuf src <> fbuf dst -> covers_extra Qc dst (apply_op b (EField Qc src)) ->
  (exists p, region Qc np dst (apply_op b (EField Qc src)) p) ->
  (forall q, valid_cell np src q -> value Qc h src q = trilinear c (coord (grid_spacing n Lx Ly Lz) s q)) ->
  exists N, forall fuel, (N <= fuel)%nat -> exists h',
    run (apply_to_field fuel b src dst) h = RDone h' tt /\
    forall p, region Qc np dst (apply_op b (EField Qc src)) p ->
      value Qc h' dst p = trilinear c (coord (grid_spacing n Lx Ly Lz) d p).
Proof.
  intros I A P C D X V R H. destruct (apply_in_memory np h b src dst P C D X V R) as (N & F).
  exists N. intros fuel Hf. destruct (F fuel Hf) as (h' & E & _ & G & _). exists h'. split; [exact E|].
  intros p Rp. rewrite (G p Rp). eapply interp_exact; [apply build_kind, I|exact A|].
  intros v Iv. cbn [denote]. apply H. eapply region_points; eauto.
Qed.

Lemma differentiate_in_memory n Lx Ly Lz t s d b e np h src dst c :
  iv_le (IV 1 1 1) n -> Lx <> 0%Qc -> Ly <> 0%Qc -> Lz <> 0%Qc ->
  In (t, s, d, b) (build_stencils n Lx Ly Lz) -> differentiates t s d e ->
  on_patch np src -> (forall p, valid_cell np src p -> bcells (h (fbuf src)) (cell src p) = true) ->
  destination_ok Qc np h dst -> fbuf src <> fbuf dst -> covers_extra Qc dst (apply_op b (EField Qc src)) ->
  (exists p, region Qc np dst (apply_op b (EField Qc src)) p) ->
  (forall q, valid_cell np src q -> value Qc h src q = quadratic c (coord (grid_spacing n Lx Ly Lz) s q)) ->
  exists N, forall fuel, (N <= fuel)%nat -> exists h',
    run (apply_to_field fuel b src dst) h = RDone h' tt /\
    forall p, region Qc np dst (apply_op b (EField Qc src)) p ->
      value Qc h' dst p = slope c e (coord (grid_spacing n Lx Ly Lz) d p).
Proof.
  intros Pn LX LY LZ I A P C D X V R H. destruct (apply_in_memory np h b src dst P C D X V R) as (N & F).
  exists N. intros fuel Hf. destruct (F fuel Hf) as (h' & E & _ & G & _). exists h'. split; [exact E|].
  intros p Rp. rewrite (G p Rp). eapply grad_exact; [apply build_kind, I|exact A|apply spacing_neq0; assumption|].
  intros v Iv. cbn [denote]. apply H. eapply region_points; eauto.
Qed.

(** ** Which cells the registered operators read *)
Lemma op_reads_points b f v : In (f, v) (reads Qc (apply_op b (EField Qc f)) iv_zero) <-> In v (op_points b).
Proof.
  assert (Z0 : forall w, iv_add iv_zero w = w) by (intros [x y z]; reflexivity).
  destruct b as [[p0 ps] [c0 cs]|[p0 ps]|[p0 ps]]; cbn [apply_op reads op_points app In]; rewrite ?app_nil_r, Z0.
  - rewrite in_flat_map, in_map_iff. split.
    + intros [[= <-]|(pc & I & [E|[]])]; [auto|]. rewrite Z0 in E. injection E as E. right. exists pc. auto.
    + intros [->|(pc & E & I)]; [auto|]. right. exists pc. split; [exact I|]. rewrite Z0. left. congruence.
  - rewrite in_flat_map. split.
    + intros [[= <-]|(w & I & [E|[]])]; [auto|]. rewrite Z0 in E. injection E as <-. auto.
    + intros [->|I]; [auto|]. right. exists v. split; [exact I|]. rewrite Z0. left. reflexivity.
  - rewrite in_flat_map. split.
    + intros [[= <-]|(w & I & [E|[]])]; [auto|]. rewrite Z0 in E. injection E as <-. auto.
    + intros [->|I]; [auto|]. right. exists v. split; [exact I|]. rewrite Z0. left. reflexivity.
Qed.

Lemma cells_read_in pts p v : In (iv_add p v) (cells_read pts p) <-> In v (fst pts :: snd pts).
Proof.
  unfold cells_read. rewrite in_map_iff. split.
  - intros (w & E & I). apply iv_add_inj in E. subst w. exact I.
  - intros I. exists v. auto.
Qed.

Lemma staggered_reads n Lx Ly Lz t s d b f v p :
  In (t, s, d, b) (build_stencils n Lx Ly Lz) -> t = Interpolant \/ t = Gradient \/ t = Divergence ->
  (In (f, v) (reads Qc (apply_op b (EField Qc f)) iv_zero) <-> adjacent (offset s) (offset d) p (iv_add p v)).
Proof.
  intros I T. rewrite op_reads_points. apply build_kind in I.
  destruct I as [s d D|s d D|s d D|t s d e T' D N|s|s e|s e]; try (destruct T as [T|[T|T]]; discriminate).
  - destruct (two_points _ _ (offset_staggered s) (offset_staggered d) D p) as (L & _ & A & _). rewrite <- A, cells_read_in.
    destruct (stencil2 (offset s) (offset d)) as [p0 [|p1 [|]]]; cbn in L; try discriminate. reflexivity.
  - destruct (four_points _ _ (offset_staggered s) (offset_staggered d) D p) as (L & _ & A & _). rewrite <- A, cells_read_in.
    destruct (stencil4 (offset s) (offset d)) as [p0 [|p1 [|p2 [|p3 [|]]]]]; cbn in L; try discriminate. reflexivity.
  - cbn [op_points null_stencil In]. unfold differ in D.
    assert (E : offset s = offset d).
    { destruct (offset s) as [a1 a2 a3], (offset d) as [b1 b2 b3]. cbn in D.
      destruct (Z.eqb_spec a1 b1), (Z.eqb_spec a2 b2), (Z.eqb_spec a3 b3); try lia. congruence. }
    rewrite E. unfold adjacent, place. destruct p as [p1 p2 p3], v as [v1 v2 v3]. cbn [iv_add ix iy iz]. split.
    + intros [[= <- <- <-]|[]] [| |]; cbn [comp ix iy iz]; lia.
    + intros A. left. pose proof (A XDIR); pose proof (A YDIR); pose proof (A ZDIR). cbn [comp ix iy iz] in *. f_equal; lia.
  - destruct (two_points _ _ (offset_staggered s) (offset_staggered d) D p) as (L & _ & A & _). rewrite <- A, cells_read_in.
    destruct (stencil2 (offset s) (offset d)) as [p0 [|p1 [|]]]; cbn in L; try discriminate. reflexivity.
Qed.

Lemma same_place_reads n Lx Ly Lz t s d b f v e :
  In (t, s, d, b) (build_stencils n Lx Ly Lz) -> t = InterpolantD e \/ t = GradientD e ->
  (In (f, v) (reads Qc (apply_op b (EField Qc f)) iv_zero) <-> v = step e (-1) iv_zero \/ v = step e 1 iv_zero).
Proof.
  intros I T. rewrite op_reads_points. apply build_kind in I.
  destruct I as [s d D|s d D|s d D|t s d e' T' D N|s|s e'|s e']; try (destruct T as [T|T]; discriminate).
  - subst. destruct T' as [-> | ->], T as [T|T]; discriminate.
  - destruct T as [[= <-]|T]; [|discriminate]. destruct e'; cbn; (split; [intros [<-|[<-|[]]]; auto|intros [-> | ->]; auto]).
  - destruct T as [T|[= <-]]; [discriminate|]. destruct e'; cbn; (split; [intros [<-|[<-|[]]]; auto|intros [-> | ->]; auto]).
Qed.

(** ** An instance in memory *)
Definition kn : ivec := IV 3 2 1.
Definition kL : Qc := qc_of 6.
Definition kdx : dir -> Qc := grid_spacing kn kL kL kL.
Definition ktri : tri := Tri (qc_of 5) (qc_of 2) (qc_of (-3)) 0 1 0 0 0.
Definition kquad : quad := Quad (qc_of 5) (qc_of 2) (qc_of (-3)) 0 1 (qc_of 4) 0 1 0 0.
Definition kheap (f : ivec -> Qc) : heap Qc := fun b =>
  Block (fun i => (0 <=? i) && (i <? 200)) (fun i => f (IV (i mod 7 - 2) (i / 7 - 2) 0)).

Lemma kvalue f q : valid_cell xdim xs q -> value Qc (kheap f) xs q = f q.
Proof.
  intros V. unfold value, kheap. cbn [bdata].
  assert (E1 : fint xs = Win (IV 7 6 1) (IV 2 2 0) (IV 3 2 1)) by reflexivity.
  unfold valid_cell, reach, in_region, cell, addr in *. rewrite E1. destruct q as [x y z]. cbn -[Z.mul Z.add Z.div Z.modulo] in *.
  assert (E : 7 * 6 * (0 + z) + 7 * (2 + y) + (2 + x) = (y + 2) * 7 + (x + 2)) by lia.
  match goal with |- f (IV (?a mod 7 - 2) (_ / 7 - 2) 0) = _ => replace a with ((x + 2) + (y + 2) * 7) by lia end.
  rewrite Z.mod_add, Z.div_add by lia. rewrite Z.mod_small, Z.div_small by lia. f_equal. f_equal; lia.
Qed.

Lemma k_instance f b : (exists p0 p1 cs, b = StencilOp (p0, [p1]) cs /\ p0 = IV (-1) 0 0 /\ p1 = IV 0 0 0) ->
  on_patch xdim xs /\ (forall p, valid_cell xdim xs p -> bcells (kheap f (fbuf xs)) (cell xs p) = true) /\
  destination_ok Qc xdim (kheap f) xf /\ fbuf xs <> fbuf xf /\ covers_extra Qc xf (apply_op b (EField Qc xs)) /\
  region Qc xdim xf (apply_op b (EField Qc xs)) (IV 3 1 0).
Proof.
  intros (p0 & p1 & (c0 & cs) & -> & -> & ->).
  split; [apply user_field_on_patch, user_xs|]. split; [intros p P; apply xcell_ok; cbn; auto|].
  split; [split; [apply user_field_on_patch, user_xf|split; [reflexivity|intros p P; apply xcell_ok; cbn; auto]]|].
  split; [discriminate|]. split.
  - intros l m u I. destruct cs; cbn in I; repeat (destruct I as [E|I]; [injection E as <- <- <-; cbn; unfold GHOST_MAX; lia|]); destruct I.
  - split; [unfold any_cell, reach, in_region; cbn; lia|].
    intros l m u I q L U. unfold known, in_region, iv_le in *.
    destruct cs; cbn in I; repeat (destruct I as [E|I]; [injection E as <- <- <-; cbn in *; unfold GHOST_MAX; lia|]); destruct I.
Qed.

Lemma filter_constant n Lx Ly Lz s d b h a p k :
  In (Filter, s, d, b) (build_stencils n Lx Ly Lz) -> (forall q, near p q -> den h a q = k) ->
  den h (apply_op b a) p = k.
Proof.
  intros I H. destruct (filter_bounds n Lx Ly Lz s d b h a p k k I) as [A B].
  - intros q N. rewrite (H q N). split; apply Qcle_refl.
  - apply Qcle_antisym; assumption.
Qed.
Lemma gradient_constant n Lx Ly Lz t s d b e h a p k :
  iv_le (IV 1 1 1) n -> Lx <> 0%Qc -> Ly <> 0%Qc -> Lz <> 0%Qc ->
  In (t, s, d, b) (build_stencils n Lx Ly Lz) -> differentiates t s d e ->
  (forall q, near p q -> den h a q = k) -> den h (apply_op b a) p = 0%Qc.
Proof.
  intros Pn X Y Z I D H. rewrite (differentiate_exact n Lx Ly Lz t s d b h a p (Quad k 0 0 0 0 0 0 0 0 0) e Pn X Y Z I D).
  - destruct e; cbn; ring.
  - intros q N. rewrite (H q N). unfold quadratic. cbn. ring.
Qed.

Lemma k_registered : exists b, In (Interpolant, SVol, SSurfX, b) (build_stencils kn kL kL kL) /\
  exists p0 p1 cs, b = StencilOp (p0, [p1]) cs /\ p0 = IV (-1) 0 0 /\ p1 = IV 0 0 0.
Proof. eexists. split; [vm_compute; repeat (first [left; reflexivity|right])|]. do 3 eexists. repeat split. Qed.
Lemma k_gradient : exists b, In (Gradient, SVol, SSurfX, b) (build_stencils kn kL kL kL) /\
  exists p0 p1 cs, b = StencilOp (p0, [p1]) cs /\ p0 = IV (-1) 0 0 /\ p1 = IV 0 0 0.
Proof. eexists. split; [vm_compute; repeat (first [left; reflexivity|right])|]. do 3 eexists. repeat split. Qed.
Lemma k_divergence : exists b, In (Divergence, SSurfX, SVol, b) (build_stencils kn kL kL kL).
Proof. eexists. vm_compute; repeat (first [left; reflexivity|right]). Qed.
Lemma k_filter_reg : exists b, In (Filter, SVol, SVol, b) (build_stencils kn kL kL kL).
Proof. eexists. vm_compute; repeat (first [left; reflexivity|right]). Qed.
