(** Proofs about the particle operators. *)
From Verif Require Import Prelude WindowM WindowS WindowP GhostM FieldM FieldS MaskM NeboM NeboS NeboF StencilM StencilP LagrangeM LagrangeQ BCM BCS IterM IterS IterP CompareM CompareS CompareP PointS PointP ParticleM ParticleS.
From Coq Require Import Lqa Qround.
Local Open Scope Z_scope.

(** ** Filling a field with a constant *)
Lemma fill_ok n h f (v : Qc) : destination_ok Qc n h f -> finite_ghosts f -> pos_dims (wext (fwin f)) ->
  exists N, forall fuel, (N <= fuel)%nat -> exists h',
    run (fst (nebo_assign Qc Qcplus Qcmult fuel f (EScalar Qc v))) h = RDone h' tt /\
    (forall i, In i (cells_of f) -> bdata (h' (fbuf f)) i = v) /\ differs_only h h' (fun b i => b = fbuf f).
Proof.
  intros D FG P. pose proof D as (OP & RO & BE).
  assert (REG : forall p, any_cell n f p -> region Qc n f (EScalar Qc v) p).
  { intros p A. split; [exact A|]. intros l m u I q Q1 Q2. destruct I as [I|[]]. injection I as <- <- <-.
    unfold finite_ghosts, g_nonneg, iv_le in FG. unfold any_cell, reach, known, in_region, iv_le, layers in *. cbn in *. unfold GHOST_MAX. lia. }
  assert (CE : covers_extra Qc f (EScalar Qc v)).
  { intros l m u I. destruct I as [I|[]]. injection I as <- <- <-. unfold finite_ghosts, g_nonneg, iv_le in FG. unfold layers. cbn in *. unfold GHOST_MAX. lia. }
  assert (OK : operands_ok Qc n h (EScalar Qc v)) by (split; [|split]; cbn; tauto).
  assert (AL : alias_ok Qc f (EScalar Qc v)) by (intros g s []).
  assert (CELL : forall i, In i (cells_of f) -> exists p, any_cell n f p /\ i = cell f p).
  { intros i I. unfold cells_of in I. apply in_map_iff in I as (p & <- & I). apply in_box_points in I.
    exists (iv_sub p (gminus (fvalid f))). destruct OP as (_ & E0 & E & W & GN & GL & _).
    unfold cell. rewrite W in I |- *. clear - E0 E GN GL I.
    unfold any_cell, reach, g_le, g_nonneg, iv_le, in_box, in_region, grown, addr in *. cbn [wext wglob woff] in *. rewrite E in I.
    revert I GN GL E0. generalize (has_extra (fbc f)). intros e. cbn. intros. split; [lia|]. replace (iz (woff (fint f)) - iz (gminus (fvalid f)) + iz p) with (iz (woff (fint f)) + (iz p - iz (gminus (fvalid f)))) by lia. replace (iy (woff (fint f)) - iy (gminus (fvalid f)) + iy p) with (iy (woff (fint f)) + (iy p - iy (gminus (fvalid f)))) by lia. lia. }
  assert (EX : exists p, region Qc n f (EScalar Qc v) p).
  { destruct (CELL (kcell (fwin f) 0)) as (p & A & _); [|exists p; apply REG; exact A].
    apply in_cells; [exact P|]. exists 0. pose proof (npts_pos _ P). split; [lia|reflexivity]. }
  destruct (assign_correct Qc Qcplus Qcmult n h f (EScalar Qc v) OK D AL CE EX) as (N & H).
  exists N. intros fuel Hf. destruct (H fuel Hf) as (h' & R & A1 & A2 & A3). exists h'. split; [exact R|]. split.
  - intros i I. destruct (CELL i I) as (p & A & ->). specialize (A2 p (REG p A)). exact A2.
  - split; [exact A1|]. intros b i NB. apply A3. left. exact NB.
Qed.

(** ** Sums *)
Lemma qsum_cons a l : qsum (a :: l) = (a + qsum l)%Qc. Proof. reflexivity. Qed.
Lemma qsum_nil : qsum [] = 0%Qc. Proof. reflexivity. Qed.
Lemma qsum_app l m : qsum (l ++ m) = (qsum l + qsum m)%Qc.
Proof. induction l as [|a l IH]; [change (qsum m = 0 + qsum m)%Qc; ring|]. cbn [app]. rewrite !qsum_cons, IH. ring. Qed.
Lemma qsum_map_add {A} (f g : A -> Qc) l : qsum (map (fun a => f a + g a)%Qc l) = (qsum (map f l) + qsum (map g l))%Qc.
Proof. induction l as [|a l IH]; cbn [map]; [rewrite qsum_nil; ring|]. rewrite !qsum_cons, IH. ring. Qed.
Lemma qsum_map_mul {A} (c : Qc) (f : A -> Qc) l : qsum (map (fun a => c * f a)%Qc l) = (c * qsum (map f l))%Qc.
Proof. induction l as [|a l IH]; cbn [map]; [rewrite qsum_nil; ring|]. rewrite !qsum_cons, IH. ring. Qed.
Lemma qsum_zero {A} (f : A -> Qc) l : (forall a, In a l -> f a = 0%Qc) -> qsum (map f l) = 0%Qc.
Proof. induction l as [|a l IH]; intros H; [reflexivity|]. cbn [map]. rewrite qsum_cons, IH by (intros; apply H; right; assumption). rewrite H by (left; reflexivity). ring. Qed.
(** Changing one element of a list of distinct cells. *)
Lemma qsum_upd (d d' : Z -> Qc) l i x : NoDup l -> In i l -> d' i = (d i + x)%Qc -> (forall j, j <> i -> d' j = d j) ->
  qsum (map d' l) = (qsum (map d l) + x)%Qc.
Proof.
  intros ND I E O. induction l as [|a l IH]; [destruct I|]. inversion ND as [|? ? NI ND']; subst. cbn [map]. rewrite !qsum_cons.
  destruct (Z.eq_dec a i) as [->|Na].
  - rewrite E. rewrite (map_ext_in d' d); [ring|]. intros j J. apply O. intros ->. tauto.
  - destruct I as [->|I]; [congruence|]. rewrite IH by assumption. rewrite O by exact Na. ring.
Qed.
Lemma cells_nodup f : pos_dims (wext (fwin f)) -> fits (fwin f) -> NoDup (cells_of f).
Proof.
  intros P F. rewrite cells_kcell by exact P. 
  assert (G : forall l, NoDup l -> (forall k, In k l -> 0 <= k) -> NoDup (map (kcell (fwin f)) l)).
  { induction l as [|a l IH]; cbn; intros ND H; [constructor|]. inversion ND; subst. constructor; [|apply IH; auto].
    intros I. apply in_map_iff in I as (k & E & K). apply kcell_inj in E; auto. congruence. }
  apply G; [apply zrange_NoDup|]. intros k K. apply in_zrange in K. lia.
Qed.

(** ** Arithmetic *)
Lemma ltb_spec a b : if qc_ltb a b then (a < b)%Qc else (b <= a)%Qc.
Proof. unfold qc_ltb. destruct (Qclt_le_dec a b); assumption. Qed.
Lemma two_neq : qc_of 2 <> 0%Qc. Proof. apply qc_neq0. lia. Qed.
Lemma half_div x : (x / qc_of 2 = half * x)%Qc.
Proof. unfold Qcdiv. rewrite Qcmult_comm. f_equal. Qed.
Lemma half_two x : (half * x + half * x = x)%Qc.
Proof. rewrite <- Qcmult_plus_distr_l. assert (half + half = 1)%Qc as -> by (apply Qc_is_canon; reflexivity). ring. Qed.

(** Any mesh: the pieces always add up. *)
Lemma right_bound_le c dx r : (right_bound c dx r <= r)%Qc.
Proof.
  unfold right_bound. cbv zeta. pose proof (ltb_spec r (c + dx / qc_of 2)%Qc) as H. destruct (qc_ltb _ _); [apply Qcle_refl|exact H].
Qed.
Definition weight (l r v s : Qc) : Qc := if qc_ltb l r then (v * (r - l) / s)%Qc else 0%Qc.
Lemma deposit_total fuel dx mesh dest i l r v s cells : NoDup cells ->
  forall h h', (forall j, bcells (h (fbuf dest)) j = true -> In j cells) ->
  run (deposit fuel dx mesh dest i l r v s) h = RDone h' tt -> s <> 0%Qc ->
  qsum (map (bdata (h' (fbuf dest))) cells) = (qsum (map (bdata (h (fbuf dest))) cells) + weight l r v s)%Qc /\
  differs_only h h' (fun b i => b = fbuf dest).
Proof.
  intros ND. revert i l. induction fuel as [|fuel IH]; intros i l h h' C R S; cbn [deposit] in R.
  - unfold weight. pose proof (ltb_spec l r). destruct (qc_ltb l r); [discriminate|]. injection R as <-. split; [ring|split; reflexivity].
  - unfold weight. destruct (qc_ltb l r) eqn:LR; [|injection R as <-; split; [ring|split; reflexivity]].
    unfold get_elem, set_elem in R. cbn [pbind run] in R.
    destruct (bcells (h (fbuf mesh)) i); [|discriminate]. cbn [run] in R.
    destruct (bcells (h (fbuf dest)) i) eqn:Ci; [|discriminate].
    destruct (freadonly dest); [discriminate|]. cbn [pbind run] in R. rewrite Ci in R.
    set (c := bdata (h (fbuf mesh)) i) in *. set (rb := right_bound c dx r) in *.
    set (h1 := upd h (fbuf dest) i _) in R.
    apply IH in R; [|intros j; unfold h1; rewrite upd_cells; apply C|exact S]. destruct R as (R1 & R2 & R3).
    assert (U : qsum (map (bdata (h1 (fbuf dest))) cells) = (qsum (map (bdata (h (fbuf dest))) cells) + v * (rb - l) / s)%Qc).
    { apply (qsum_upd _ _ _ i); [exact ND|apply C; exact Ci|unfold h1; rewrite upd_same; reflexivity|].
      intros j J. unfold h1. apply upd_other. right. exact J. }
    split.
    + rewrite R1, U. unfold weight. assert (RL : (rb <= r)%Qc) by apply right_bound_le. pose proof (ltb_spec rb r) as H. destruct (qc_ltb rb r).
      * field. exact S.
      * assert (rb = r) as -> by (apply Qcle_antisym; assumption). ring.
    + split; [intros; rewrite R2; unfold h1; rewrite upd_cells; reflexivity|].
      intros b j NB. rewrite R3 by exact NB. unfold h1. apply upd_other. left. exact NB.
Qed.

(** ** Loops that returned *)
Lemma run_bind_inv {V A B} (p : prog V A) (f : A -> prog V B) h h' b : run (pbind p f) h = RDone h' b ->
  exists h1 a, run p h = RDone h1 a /\ run (f a) h1 = RDone h' b.
Proof.
  revert h. induction p; cbn; intros h E; try discriminate; [eexists _, _; split; [reflexivity|exact E]| |].
  - destruct (bcells (h b0) i); [|discriminate]. apply H. exact E.
  - destruct (bcells (h b0) i); [|discriminate]. apply IHp. exact E.
Qed.
Lemma for_iter_returned {V S} (w : window) (body : WindowM.iter -> S -> prog V (S * bool)) (Inv : Z -> heap V -> S -> Prop) :
  pos_dims (wext w) -> fits w ->
  (forall k h s h' r, 0 <= k < local_npts w -> Inv k h s -> run (body (iter_at 0 w k) s) h = RDone h' r -> snd r = false /\ Inv (k + 1) h' (fst r)) ->
  forall fuel k h s h' s', 0 <= k <= local_npts w -> Inv k h s ->
  run (for_iter fuel (iter_at 0 w k) (iter_at 0 w (local_npts w)) s body) h = RDone h' s' -> Inv (local_npts w) h' s'.
Proof.
  intros (Ex & Ey & Ez) F B. induction fuel as [|fuel IH]; intros k h s h' s' Hk I R; cbn [for_iter] in R;
    rewrite iter_at_eqb in R by (assumption || lia || (destruct F as (? & ? & ?); lia)); (destruct (Z.eqb_spec k (local_npts w)) as [->|NE];
    [injection R as <- <-; exact I|]); [discriminate|].
  apply run_bind_inv in R as (h1 & r & R1 & R2). destruct (B k h s h1 r ltac:(lia) I R1) as (Br & I'). rewrite Br in R2.
  rewrite iter_at_incr in R2 by (assumption || (destruct F as (? & ? & ?); lia)). apply (IH (k + 1) h1 (fst r)); [lia|exact I'|exact R2].
Qed.

Lemma combine_map {A B C} (f : A -> B) (g : A -> C) l : combine (map f l) (map g l) = map (fun a => (f a, g a)) l.
Proof. induction l; cbn; congruence. Qed.
Definition part_at (h : heap Qc) (pcoord psize src : field) (k : Z) : particle :=
  (bdata (h (fbuf pcoord)) (kcell (fwin pcoord) k), bdata (h (fbuf psize)) (kcell (fwin pcoord) k), bdata (h (fbuf src)) (kcell (fwin pcoord) k)).
Lemma particles_at h pcoord psize src : pos_dims (wext (fwin pcoord)) -> fwin psize = fwin pcoord -> fwin src = fwin pcoord ->
  particles h pcoord psize src = map (part_at h pcoord psize src) (zrange (local_npts (fwin pcoord))).
Proof.
  intros P W1 W2. unfold particles. rewrite !contents_kcell by (rewrite ?W1, ?W2; exact P). rewrite W1, W2, !combine_map. reflexivity.
Qed.
Lemma part_differs h h' P pcoord psize src k : differs_only h h' P -> (forall i, ~ P (fbuf pcoord) i) -> (forall i, ~ P (fbuf psize) i) -> (forall i, ~ P (fbuf src) i) ->
  part_at h' pcoord psize src k = part_at h pcoord psize src k.
Proof. intros (_ & D) A B C. unfold part_at. rewrite !D by auto. reflexivity. Qed.
Lemma differs_trans (h h1 h2 : heap Qc) P : differs_only h h1 P -> differs_only h1 h2 P -> differs_only h h2 P.
Proof. intros (A & B) (C & D). split; [intros; rewrite C; apply A|]. intros b i N. rewrite D by exact N. apply B. exact N. Qed.
Lemma differs_refl (h : heap Qc) P : differs_only h h P. Proof. split; reflexivity. Qed.
Lemma differs_mono (h h1 : heap Qc) (P Q : nat -> Z -> Prop) : differs_only h h1 P -> (forall b i, P b i -> Q b i) -> differs_only h h1 Q.
Proof. intros (A & B) H. split; [exact A|]. intros b i N. apply B. intros X. apply N, H, X. Qed.

(** What a particle deposits in total: its value, or nothing without a size. *)
Definition kept (p : particle) : Qc := if Qclt_le_dec 0 (p_size p) then p_value p else 0%Qc.
Lemma weight_kept x s v : weight (x - s / qc_of 2) (x + half * s) v s = kept (x, s, v).
Proof.
  unfold weight, kept. cbn [p_size p_value]. rewrite half_div. pose proof (half_two s) as T.
  pose proof (ltb_spec (x - half * s)%Qc (x + half * s)%Qc) as H. destruct (qc_ltb _ _), (Qclt_le_dec 0 s) as [S|S].
  - assert (x + half * s - (x - half * s) = s)%Qc as -> by (transitivity (half * s + half * s)%Qc; [ring|exact T]).
    unfold Qcdiv. rewrite <- Qcmult_assoc, Qcmult_inv_r by (intros ->; discriminate). ring.
  - exfalso. revert T S H. generalize (half * s)%Qc. intros t T S H. clear - T S H. qc_lra.
  - exfalso. revert T S H. generalize (half * s)%Qc. intros t T S H. clear - T S H. qc_lra.
  - reflexivity.
Qed.

Definition only (f : field) : nat -> Z -> Prop := fun b i => b = fbuf f.
Lemma particle_to_cell_conserves n h mesh pcoord psize src dest dx :
  live h pcoord -> live h psize -> live h src -> fwin psize = fwin pcoord -> fwin src = fwin pcoord ->
  destination_ok Qc n h dest -> finite_ghosts dest -> live h dest -> (forall i, bcells (h (fbuf dest)) i = true -> In i (cells_of dest)) ->
  fbuf pcoord <> fbuf dest -> fbuf psize <> fbuf dest -> fbuf src <> fbuf dest ->
  exists N, forall fuel, (N <= fuel)%nat -> forall h', run (particle_to_cell fuel dx mesh pcoord psize src dest) h = RDone h' tt ->
    qsum (contents h' dest) = qsum (map kept (particles h pcoord psize src)) /\ differs_only h h' (only dest).
Proof.
  intros Lc Ls Lv W1 W2 D FG Ld EX S1 S2 S3. pose proof Lc as (P & F & _). pose proof Ld as (Pd & Fd & _).
  destruct (fill_ok n h dest 0%Qc D FG Pd) as (N & FILL). exists N. intros fuel Hf h' R.
  destruct (FILL fuel Hf) as (h0 & R0 & Z0 & D0). unfold particle_to_cell in R. rewrite (run_bind _ _ _ _ _ _ R0) in R.
  rewrite !cbegin_ok, cend_ok in R by (rewrite ?W1, ?W2; exact P). cbn [lift pbind] in R. rewrite W1, W2 in R.
  apply run_bind_inv in R as (h1 & r & R1 & R2). injection R2 as <-.
  rewrite particles_at by assumption.
  apply (for_iter_returned (fwin pcoord) _ (fun k hk s => s = (iter_at 0 (fwin pcoord) k, iter_at 0 (fwin pcoord) k) /\ differs_only h hk (only dest) /\
     qsum (contents hk dest) = qsum (map (fun j => kept (part_at h pcoord psize src j)) (zrange k)))) in R1; auto.
  - destruct R1 as (_ & A & B). rewrite map_map. split; [exact B|exact A].
  - clear R0 R1. intros k hk s hk' r' Hk (-> & Dk & Sk) R. cbn [fst snd run] in R.
    rewrite !icur_at in R. pose proof Dk as (Ck & _).
    destruct (bcells (hk (fbuf pcoord)) _); [|discriminate]. cbn [run] in R. destruct (bcells (hk (fbuf psize)) _); [|discriminate].
    apply run_bind_inv in R as (hk0 & i & Ri & R). unfold first_cell in Ri. destruct (qc_eqb dx 0); [discriminate|]. injection Ri as <- <-.
    cbn [run] in R. destruct (bcells (hk (fbuf src)) _); [|discriminate].
    apply run_bind_inv in R as (hk1 & u & Rd & R). injection R as <- <-. cbn [snd fst].
    assert (PA : part_at hk pcoord psize src k = part_at h pcoord psize src k) by (apply (part_differs _ _ _ _ _ _ _ Dk); intros i; unfold only; assumption).
    unfold part_at in PA. injection PA as X1 X2 X3. rewrite X1, X2, X3 in Rd.
    split; [reflexivity|]. rewrite !incr_ok by exact P. split; [reflexivity|].
    assert (RES : qsum (contents hk1 dest) = (qsum (contents hk dest) + kept (part_at h pcoord psize src k))%Qc /\ differs_only hk hk1 (only dest)).
    { destruct u. unfold part_at. rewrite <- weight_kept. destruct (Qc_eq_dec (bdata (h (fbuf psize)) (kcell (fwin pcoord) k)) 0) as [E0|E0].
      - rewrite E0 in Rd |- *. set (x := bdata (h (fbuf pcoord)) (kcell (fwin pcoord) k)) in *.
        assert (LT : qc_ltb (x - 0 / qc_of 2) (x + half * 0) = false).
        { pose proof (ltb_spec (x - 0 / qc_of 2) (x + half * 0)) as H. destruct (qc_ltb _ _); [|reflexivity]. exfalso. revert H. rewrite half_div.
          replace (half * 0)%Qc with 0%Qc by ring. qc_lra. }
        assert (RD : run (Ret tt) hk = RDone hk1 tt) by (destruct fuel; cbn [deposit] in Rd; rewrite LT in Rd; exact Rd).
        injection RD as <-. split; [|apply differs_refl]. unfold weight. rewrite LT. ring.
      - apply (deposit_total _ _ _ _ _ _ _ _ _ (cells_of dest)) in Rd; [exact Rd|apply cells_nodup; assumption| |exact E0].
        intros j. rewrite Ck. apply EX. }
    destruct RES as (RS & RD). split; [eapply differs_trans; eassumption|].
    rewrite RS, Sk, zrange_succ, map_app, qsum_app by lia. cbn [map]. rewrite qsum_cons, qsum_nil. ring.
  - pose proof (npts_pos _ P). lia.
  - split; [reflexivity|]. split; [exact D0|]. unfold contents. cbn [zrange map]. rewrite qsum_zero; [reflexivity|exact Z0].
Qed.

(** ** Where the pieces go *)
Lemma trunc_spec q : (0 <= q)%Qc -> (qc_of (trunc q) <= q)%Qc /\ (q < qc_of (trunc q + 1))%Qc /\ 0 <= trunc q.
Proof.
  intros Q. assert (N : 0 <= Qnum q) by (unfold Qcle, Qle in Q; cbn in Q; lia).
  assert (T : trunc q = Qfloor q) by (unfold trunc; rewrite Z.quot_div_nonneg by lia; destruct q as ((a & b) & c); reflexivity).
  rewrite T. split; [|split].
  - unfold Qcle, qc_of. cbn [this Q2Qc]. rewrite Qred_correct. apply Qfloor_le.
  - unfold Qclt, qc_of. cbn [this Q2Qc]. rewrite Qred_correct. apply Qlt_floor.
  - rewrite <- T. unfold trunc. apply Z.quot_pos; lia.
Qed.
Lemma qc_of_le a b : a <= b -> (qc_of a <= qc_of b)%Qc.
Proof. intros H. unfold Qcle, qc_of. cbn [this Q2Qc]. rewrite !Qred_correct. rewrite <- Zle_Qle. exact H. Qed.
Lemma qc_of_lt a b : (qc_of a < qc_of b)%Qc -> a < b.
Proof. unfold Qclt, qc_of. cbn [this Q2Qc]. rewrite !Qred_correct. rewrite <- Zlt_Qlt. tauto. Qed.
Lemma edge_le dx a b : (0 < dx)%Qc -> a <= b -> (qc_of a * dx <= qc_of b * dx)%Qc.
Proof. intros D H. apply Qcmult_le_compat_r; [apply qc_of_le; exact H|apply Qclt_le_weak; exact D]. Qed.
Lemma edge_lt dx a b : (0 < dx)%Qc -> (qc_of a * dx < qc_of b * dx)%Qc -> a < b.
Proof.
  intros D H. apply Z.nle_gt. intros L. apply (edge_le dx _ _ D) in L. apply (Qclt_not_le _ _ H L).
Qed.
Lemma centre_bound dx i r : right_bound (centre dx i) dx r = qmin r (qc_of i * dx).
Proof.
  unfold right_bound, centre, qmin, qc_ltb. rewrite half_div.
  replace ((qc_of i - half) * dx + half * dx)%Qc with (qc_of i * dx)%Qc by ring. destruct (Qclt_le_dec _ _); reflexivity.
Qed.
Ltac cases_q := repeat match goal with
  | |- context [Qclt_le_dec ?a ?b] => destruct (Qclt_le_dec a b)
  | H : context [Qclt_le_dec ?a ?b] |- _ => destruct (Qclt_le_dec a b) end.
Section Overlap.
Local Open Scope Qc_scope.
Lemma overlap_here l r D E : D <= l -> l <= E -> l < r -> overlap l r D E = qmin r E - l.
Proof. unfold overlap, qmin, qmax. intros. cases_q; qc_lra. Qed.
Lemma overlap_none l r c d : d <= l \/ r <= c \/ r <= l -> overlap l r c d = 0.
Proof. unfold overlap, qmin, qmax. intros [H|[H|H]]; cases_q; qc_lra. Qed.
Lemma overlap_later l r E c d : l <= E -> E <= c -> overlap E r c d = overlap l r c d.
Proof. unfold overlap, qmin, qmax. intros. cases_q; qc_lra. Qed.
End Overlap.

Lemma deposit_exact n dx mesh dest v s r : (0 < dx)%Qc -> fbuf mesh <> fbuf dest -> freadonly dest = false -> (r <= qc_of (n - 1) * dx)%Qc ->
  forall fuel i l h, (Z.to_nat (n - i) <= fuel)%nat -> 0 <= i -> (qc_of (i - 1) * dx <= l)%Qc -> (l <= qc_of i * dx)%Qc ->
  (forall k, 0 <= k < n -> bcells (h (fbuf mesh)) k = true /\ bdata (h (fbuf mesh)) k = centre dx k /\ bcells (h (fbuf dest)) k = true) ->
  IterP.ends (deposit fuel dx mesh dest i l r v s) h (fun h' _ =>
    (forall j, bdata (h' (fbuf dest)) j = (bdata (h (fbuf dest)) j + v * overlap l r (qc_of (j - 1) * dx) (qc_of j * dx) / s)%Qc) /\
    differs_only h h' (fun b j => b = fbuf dest /\ 0 <= j < n)).
Proof.
  intros D S RO R. induction fuel as [|fuel IH]; intros i l h Hf Hi L1 L2 M.
  - cbn [deposit]. pose proof (ltb_spec l r) as H. destruct (qc_ltb l r).
    + exfalso. assert (i - 1 < n - 1); [|lia]. apply (edge_lt dx); [exact D|]. eapply Qcle_lt_trans; [exact L1|]. eapply Qclt_le_trans; [exact H|exact R].
    + apply ends_ret. split; [|apply differs_refl]. intros j. rewrite overlap_none by auto. unfold Qcdiv. ring.
  - cbn [deposit]. pose proof (ltb_spec l r) as H. destruct (qc_ltb l r).
    2:{ apply ends_ret. split; [|apply differs_refl]. intros j. rewrite overlap_none by auto. unfold Qcdiv. ring. }
    assert (In : i < n). { assert (i - 1 < n - 1); [|lia]. apply (edge_lt dx); [exact D|]. eapply Qcle_lt_trans; [exact L1|]. eapply Qclt_le_trans; [exact H|exact R]. }
    destruct (M i ltac:(lia)) as (M1 & M2 & M3).
    unfold get_elem, set_elem. rewrite RO. apply ends_bind. apply ends_load; [exact M1|]. apply ends_ret. rewrite M2, centre_bound.
    apply ends_bind, ends_load; [exact M3|]. apply ends_ret. apply ends_bind, ends_store; [exact M3|]. apply ends_ret.
    set (rb := qmin r (qc_of i * dx)). set (h1 := upd h (fbuf dest) i _).
    assert (D1 : differs_only h h1 (fun b j => b = fbuf dest /\ 0 <= j < n)).
    { split; [intros; apply upd_cells|]. intros b j NB. apply upd_other. destruct (Nat.eq_dec b (fbuf dest)); [right|left; assumption]. intros ->. apply NB. split; [assumption|lia]. }
    assert (HERE : overlap l r (qc_of (i - 1) * dx) (qc_of i * dx) = (rb - l)%Qc) by (apply overlap_here; assumption).
    assert (BEF : forall j, j < i -> overlap l r (qc_of (j - 1) * dx) (qc_of j * dx) = 0%Qc).
    { intros j J. apply overlap_none. left. eapply Qcle_trans; [|exact L1]. apply edge_le; [exact D|lia]. }
    assert (V1 : forall j, bdata (h1 (fbuf dest)) j = (bdata (h (fbuf dest)) j + (if j =? i then v * (rb - l) / s else 0))%Qc).
    { intros j. destruct (Z.eqb_spec j i) as [->|NE]; [unfold h1; rewrite upd_same; reflexivity|]. unfold h1. rewrite upd_other by auto. ring. }
    destruct (Qclt_le_dec (qc_of i * dx) r) as [C|C].
    + assert (RB : rb = (qc_of i * dx)%Qc).
      { unfold rb, qmin. destruct (Qclt_le_dec r (qc_of i * dx)) as [X|]; [exfalso; qc_lra|reflexivity]. }
      rewrite RB. eapply ends_mono; [|apply (IH (i + 1) _ h1); [lia|lia| | |]].
      * intros h' u (A & B). split; [|eapply differs_trans; eassumption]. intros j. rewrite A, V1. rewrite <- Qcplus_assoc. f_equal.
        destruct (Z.eqb_spec j i) as [->|NE].
        -- rewrite HERE. rewrite overlap_none by (left; apply Qcle_refl). rewrite RB. unfold Qcdiv. ring.
        -- destruct (Z_lt_ge_dec j i) as [J|J].
           ++ rewrite (BEF j J). rewrite overlap_none; [unfold Qcdiv; ring|]. left. apply edge_le; [exact D|lia].
           ++ rewrite (overlap_later l) by (assumption || (apply edge_le; [exact D|lia])). ring.
      * replace (i + 1 - 1) with i by lia. apply Qcle_refl.
      * apply edge_le; [exact D|lia].
      * intros k Hk. destruct (M k Hk) as (A & B & C'). unfold h1. rewrite !upd_cells. rewrite upd_other by auto. auto.
    + assert (RB : rb = r).
      { unfold rb, qmin. destruct (Qclt_le_dec r (qc_of i * dx)); [reflexivity|]. apply Qcle_antisym; assumption. }
      rewrite RB. assert (LT : qc_ltb r r = false) by (pose proof (ltb_spec r r) as X; destruct (qc_ltb r r); [exfalso; exact (Qclt_not_eq _ _ X eq_refl)|reflexivity]).
      assert (E : deposit fuel dx mesh dest (i + 1) r r v s = Ret tt) by (destruct fuel; cbn [deposit]; rewrite LT; reflexivity).
      rewrite E. apply ends_ret. split; [|exact D1]. intros j. rewrite V1. f_equal. destruct (Z.eqb_spec j i) as [->|NE]; [rewrite HERE; reflexivity|].
      destruct (Z_lt_ge_dec j i) as [J|J]; [rewrite (BEF j J); unfold Qcdiv; ring|].
      rewrite overlap_none; [unfold Qcdiv; ring|]. right. left. eapply Qcle_trans; [exact C|]. apply edge_le; [exact D|lia].
Qed.

Lemma left_right x s v : (x - s / qc_of 2)%Qc = p_left (x, s, v) /\ (x + half * s)%Qc = p_right (x, s, v) /\ (x - half * s)%Qc = p_left (x, s, v) /\ (x + s / qc_of 2)%Qc = p_right (x, s, v).
Proof. unfold p_left, p_right. rewrite !half_div. auto. Qed.
Lemma size_pos p : (p_left p < p_right p)%Qc <-> (0 < p_size p)%Qc.
Proof.
  destruct p as ((x & s) & v). unfold p_left, p_right, p_size. rewrite half_div. pose proof (half_two s) as T. revert T. generalize (half * s)%Qc.
  intros t T. split; intros H; clear - T H; qc_lra.
Qed.
Lemma start_cell dx l : (0 < dx)%Qc -> (0 <= l)%Qc -> let i := trunc (l / dx) + 1 in
  0 <= i /\ (qc_of (i - 1) * dx <= l)%Qc /\ (l <= qc_of i * dx)%Qc.
Proof.
  intros D L i. assert (N : dx <> 0%Qc) by (intros ->; discriminate).
  assert (Q : (0 <= l / dx)%Qc).
  { apply (Qcmult_lt_0_le_reg_r _ _ dx D). replace (0 * dx)%Qc with 0%Qc by ring. replace (l / dx * dx)%Qc with l by (field; exact N). exact L. }
  destruct (trunc_spec _ Q) as (A & B & C). subst i. split; [lia|]. replace (trunc (l / dx) + 1 - 1) with (trunc (l / dx)) by lia.
  assert (E : (l / dx * dx)%Qc = l) by (field; exact N). split.
  - rewrite <- E at 2. apply Qcmult_le_compat_r; [exact A|apply Qclt_le_weak; exact D].
  - rewrite <- E at 1. apply Qcmult_le_compat_r; [apply Qclt_le_weak; exact B|apply Qclt_le_weak; exact D].
Qed.
Lemma mesh_at (h : heap Qc) mesh (g : Z -> Qc) k : live h mesh -> whole_block mesh -> contents h mesh = map g (zrange (local_npts (fwin mesh))) -> 0 <= k < local_npts (fwin mesh) ->
  bcells (h (fbuf mesh)) k = true /\ bdata (h (fbuf mesh)) k = g k.
Proof.
  intros L W C K. pose proof L as (P & _ & _). rewrite <- (kcell_whole mesh k W P) at 1 2 by lia. split; [apply live_cell; assumption|].
  pose proof (contents_nth h mesh k P K) as E. rewrite C, nth_error_map in E.
  assert (nth_error (zrange (local_npts (fwin mesh))) (Z.to_nat k) = Some k) as X.
  { unfold zrange. rewrite nth_error_map. rewrite (nth_error_nth' _ 0%nat) by (rewrite seq_length; lia). rewrite seq_nth by lia. cbn. f_equal. lia. }
  rewrite X in E. cbn in E. injection E as E. symmetry. exact E.
Qed.

Lemma particle_to_cell_exact n h mesh pcoord psize src dest dx :
  (0 < dx)%Qc -> live h mesh -> whole_block mesh -> contents h mesh = map (centre dx) (zrange (local_npts (fwin mesh))) ->
  live h pcoord -> live h psize -> live h src -> fwin psize = fwin pcoord -> fwin src = fwin pcoord ->
  destination_ok Qc n h dest -> finite_ghosts dest -> live h dest -> fwin dest = fwin mesh ->
  fbuf mesh <> fbuf dest -> fbuf pcoord <> fbuf dest -> fbuf psize <> fbuf dest -> fbuf src <> fbuf dest ->
  (forall p, In p (particles h pcoord psize src) -> (0 < p_size p)%Qc ->
     (0 <= p_left p)%Qc /\ (p_right p <= qc_of (local_npts (fwin mesh) - 1) * dx)%Qc) ->
  exists N, forall fuel, (N <= fuel)%nat -> exists h', run (particle_to_cell fuel dx mesh pcoord psize src dest) h = RDone h' tt /\
    contents h' dest = map (fun k => qsum (map (fun p => p_value p * covered dx p k / p_size p)%Qc (particles h pcoord psize src))) (zrange (local_npts (fwin mesh))) /\
    differs_only h h' (only dest).
Proof.
  intros D Lm WM CM Lc Ls Lv W1 W2 DO FG Ld WD S0 S1 S2 S3 IN. pose proof Lc as (P & F & _). pose proof Ld as (Pd & Fd & _).
  set (np := local_npts (fwin mesh)) in *. set (nq := local_npts (fwin pcoord)).
  assert (WDd : whole_block dest) by (unfold whole_block; rewrite WD; exact WM).
  assert (NQ : 0 < nq) by (apply npts_pos; exact P).
  destruct (fill_ok n h dest 0%Qc DO FG Pd) as (N & FILL). exists (Nat.max N (Nat.max (Z.to_nat np) (Z.to_nat nq))). intros fuel Hf.
  destruct (FILL fuel ltac:(lia)) as (h0 & R0 & Z0 & D0).
  pose proof (proj1 (proj2 DO)) as RO.
  set (part := part_at h pcoord psize src). set (dep := fun p k => (p_value p * covered dx p k / p_size p)%Qc).
  assert (E : IterP.ends (particle_to_cell fuel dx mesh pcoord psize src dest) h (fun h' _ =>
    differs_only h h' (only dest) /\ forall k, 0 <= k < np -> bdata (h' (fbuf dest)) k = qsum (map (fun j => dep (part j) k) (zrange nq)))).
  { unfold particle_to_cell. apply ends_bind. exists h0, tt. split; [exact R0|].
    rewrite !cbegin_ok, cend_ok by (rewrite ?W1, ?W2; exact P). cbn [lift pbind]. rewrite W1, W2.
    apply ends_bind. eapply ends_mono.
    2:{ apply (for_iter_rule Qc (fwin pcoord) _ (fun q hk s => s = (iter_at 0 (fwin pcoord) q, iter_at 0 (fwin pcoord) q) /\ differs_only h hk (only dest) /\
            forall k, 0 <= k < np -> bdata (hk (fbuf dest)) k = qsum (map (fun j => dep (part j) k) (zrange q)))
            (fun hk _ => differs_only h hk (only dest) /\ forall k, 0 <= k < np -> bdata (hk (fbuf dest)) k = qsum (map (fun j => dep (part j) k) (zrange nq))))
          with (n := Z.to_nat nq); try lia; try apply P; try exact F.
        - intros q hk s Hq (-> & Dk & Vk). pose proof Dk as (Ck & Nk).
          assert (PA : part_at hk pcoord psize src q = part q) by (apply (part_differs _ _ _ _ _ _ _ Dk); intros i; unfold only; assumption).
          cbn [fst snd]. rewrite !icur_at.
          apply ends_load; [rewrite Ck; apply live_cell; assumption|]. apply ends_load; [rewrite Ck, <- W1; apply live_cell; [assumption|rewrite W1; assumption]|].
          cbv zeta. set (x := bdata (hk (fbuf pcoord)) (kcell (fwin pcoord) q)). set (s := bdata (hk (fbuf psize)) (kcell (fwin pcoord) q)).
          set (v := bdata (hk (fbuf src)) (kcell (fwin pcoord) q)). change (part_at hk pcoord psize src q) with (x, s, v) in PA.
          destruct (left_right x s v) as (E1 & E2 & E3 & _). rewrite E1, E2, E3. 
          unfold first_cell. assert (qc_eqb dx 0 = false) as ->.
          { unfold qc_eqb. destruct (Qc_eq_dec dx 0) as [->|]; [discriminate|reflexivity]. }
          apply ends_bind, ends_ret. apply ends_load; [rewrite Ck, <- W2; apply live_cell; [assumption|rewrite W2; assumption]|]. fold v.
          apply ends_bind. eapply ends_mono with (Q := fun h' _ => (forall j, bdata (h' (fbuf dest)) j = (bdata (hk (fbuf dest)) j + dep (x, s, v) j)%Qc) /\ differs_only hk h' (only dest)).
          { intros h' u (A & B). apply ends_ret. cbn [fst snd]. rewrite !incr_ok by exact P. split; [reflexivity|]. split; [eapply differs_trans; eassumption|].
            intros k Hk. rewrite A, Vk by exact Hk. rewrite zrange_succ, map_app, qsum_app by lia. cbn [map]. rewrite qsum_cons, qsum_nil, PA. ring. }
          destruct (Qclt_le_dec 0 s) as [SP|SP].
          + destruct (IN (part q)) as (I1 & I2).
            { rewrite particles_at by assumption. apply in_map. apply in_zrange. exact Hq. }
            { rewrite <- PA. exact SP. }
            rewrite <- PA in I1, I2. destruct (start_cell dx (p_left (x, s, v)) D I1) as (B1 & B2 & B3).
            eapply ends_mono; [|apply (deposit_exact np)]; auto.
            * intros h' u (A & B). split; [intros j; rewrite A; reflexivity|]. apply (differs_mono _ _ _ _ B). intros b i (C1 & _). exact C1.
            * lia.
            * intros k Hk. destruct (mesh_at h mesh (centre dx) k Lm WM CM Hk) as (M1 & M2). rewrite !Ck, Nk by (unfold only; assumption). split; [exact M1|]. split; [exact M2|].
              rewrite <- (kcell_whole dest k WDd Pd) by lia. apply live_cell; [exact Ld|]. rewrite WD. exact Hk.
          + assert (LT : qc_ltb (p_left (x, s, v)) (p_right (x, s, v)) = false).
            { pose proof (ltb_spec (p_left (x, s, v)) (p_right (x, s, v))) as H. destruct (qc_ltb _ _); [|reflexivity]. apply (proj1 (size_pos _)) in H. cbn in H. exfalso. apply (Qclt_not_le _ _ H SP). }
            assert (RE : forall i, deposit fuel dx mesh dest i (p_left (x, s, v)) (p_right (x, s, v)) v s = Ret tt) by (intros i; destruct fuel; cbn [deposit]; rewrite LT; reflexivity).
            rewrite RE. apply ends_ret. split; [|apply differs_refl]. intros j. unfold dep, covered. rewrite overlap_none; [unfold Qcdiv; ring|].
            right. right. pose proof (ltb_spec (p_left (x, s, v)) (p_right (x, s, v))) as H. rewrite LT in H. exact H.
        - intros hk s (_ & A & B). split; [exact A|exact B].
        - split; [reflexivity|]. split; [exact D0|]. intros k Hk. cbn [zrange map]. rewrite Z0; [reflexivity|].
          rewrite cells_whole by assumption. apply in_zrange. rewrite WD. exact Hk. }
    intros h' s A. apply ends_ret. exact A. }
  destruct E as (h' & [] & R & A & B). exists h'. split; [exact R|]. split; [|exact A].
  rewrite contents_kcell, WD by assumption. fold np. apply map_ext_in. intros k K. apply in_zrange in K.
  rewrite <- WD, kcell_whole by (assumption || lia). rewrite B by exact K. rewrite particles_at by assumption. rewrite map_map. reflexivity.
Qed.
