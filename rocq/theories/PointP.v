(** Proofs about the point operators. *)
From Verif Require Import Prelude WindowM WindowS WindowP GhostM FieldM FieldS MaskM NeboM StencilM LagrangeM IterM IterS IterP PointM PointS CompareP.
Local Open Scope Z_scope.

Notation ends := (@ends Qc _).
Lemma index_ok idx i j h (Q : heap Qc -> Z -> Prop) : 0 <= i -> nth_error idx (Z.to_nat i) = Some j -> Q h j -> IterP.ends (index_of idx i) h Q.
Proof. intros I E H. unfold index_of. destruct (Z.ltb_spec i 0); [lia|]. rewrite E. apply ends_ret. exact H. Qed.

Lemma upd_same (h : heap Qc) b i v : bdata (upd h b i v b) i = v.
Proof. unfold upd. rewrite Nat.eqb_refl. cbn. rewrite Z.eqb_refl. reflexivity. Qed.
Lemma upd_other (h : heap Qc) b i v c j : c <> b \/ j <> i -> bdata (upd h b i v c) j = bdata (h c) j.
Proof.
  intros N. unfold upd. destruct (Nat.eqb_spec c b) as [->|]; [|reflexivity]. cbn.
  destruct (Z.eqb_spec j i); [destruct N; congruence|reflexivity].
Qed.
Lemma upd_cells (h : heap Qc) b i v c j : bcells (upd h b i v c) j = bcells (h c) j.
Proof. unfold upd. destruct (Nat.eqb c b); reflexivity. Qed.

(** ** Marked cells *)
Definition marks (h : heap Qc) (f : field) (n : Z) : list Z :=
  filter (fun k => negb (qc_eqb (bdata (h (fbuf f)) (kcell (fwin f) k)) 0)) (zrange n).
Lemma collect_ok h locs : live h locs -> exists N, forall fuel, (N <= fuel)%nat ->
  run (collect_indices fuel locs) h = RDone h (marks h locs (local_npts (fwin locs))).
Proof.
  intros L. pose proof L as (P & F & _). pose proof (npts_pos _ P). exists (Z.to_nat (local_npts (fwin locs))). intros fuel Hf.
  assert (E : IterP.ends (collect_indices fuel locs) h (fun h' r => h' = h /\ r = marks h locs (local_npts (fwin locs)))).
  { unfold collect_indices. rewrite cbegin_ok, cend_ok by exact P. cbn [lift pbind]. apply ends_bind. eapply ends_mono.
    2:{ apply (for_iter_rule Qc (fwin locs) _ (fun k h' s => h' = h /\ s = (k, marks h locs k)) (fun h' s => h' = h /\ snd s = marks h locs (local_npts (fwin locs))))
          with (n := Z.to_nat (local_npts (fwin locs))); try lia; try apply P; try exact F.
        - intros k h' s Hk (-> & ->). apply ends_load; [apply live_cell; assumption|]. apply ends_ret. cbn [fst snd].
          split; [reflexivity|]. rewrite icur_at. unfold marks. rewrite zrange_succ, filter_app by lia. cbn [filter].
          destruct (qc_eqb _ _); cbn [negb]; [rewrite app_nil_r|]; reflexivity.
        - intros h' s (-> & ->). auto.
        - split; reflexivity. }
    intros h' s (-> & <-). apply ends_ret. auto. }
  destruct E as (h' & r & E & -> & ->). exact E.
Qed.

Lemma marks_spec h f k : pos_dims (wext (fwin f)) -> In k (marks h f (local_npts (fwin f))) <->
  0 <= k /\ exists v, nth_error (contents h f) (Z.to_nat k) = Some v /\ v <> 0%Qc.
Proof.
  intros P. unfold marks. rewrite filter_In, in_zrange, negb_true_iff. rewrite contents_kcell by exact P. split.
  - intros (R & E). split; [lia|]. eexists. split.
    + rewrite nth_error_map. assert (nth_error (zrange (local_npts (fwin f))) (Z.to_nat k) = Some k) as ->; [|reflexivity].
      unfold zrange. rewrite nth_error_map. rewrite (nth_error_nth' _ 0%nat) by (rewrite seq_length; lia). rewrite seq_nth by lia. cbn. f_equal. lia.
    + intros Z0. rewrite Z0 in E. discriminate.
  - intros (K & v & E & N). rewrite nth_error_map in E.
    destruct (nth_error (zrange (local_npts (fwin f))) (Z.to_nat k)) as [k'|] eqn:E'; [|discriminate]. injection E as <-.
    assert (k' = k /\ (Z.to_nat k < Z.to_nat (local_npts (fwin f)))%nat) as (-> & Lk).
    { unfold zrange in E'. rewrite nth_error_map in E'. destruct (nth_error (seq 0 (Z.to_nat (local_npts (fwin f)))) (Z.to_nat k)) as [m|] eqn:S; [|discriminate].
      injection E' as <-. assert (Ls : (Z.to_nat k < length (seq 0 (Z.to_nat (local_npts (fwin f)))))%nat) by (apply nth_error_Some; congruence).
      rewrite seq_length in Ls. rewrite (nth_error_nth' _ 0%nat) in S by (rewrite seq_length; lia). rewrite seq_nth in S by lia. injection S as <-. lia. }
    split; [lia|]. destruct (qc_eqb _ _) eqn:Q; [apply qc_eqb_eq in Q; contradiction|reflexivity].
Qed.
Lemma filter_sorted (p : Z -> bool) n i j a b : (i < j)%nat -> nth_error (filter p (zrange n)) i = Some a -> nth_error (filter p (zrange n)) j = Some b -> a < b.
Proof.
  assert (G : forall l, (forall i j a b, (i < j)%nat -> nth_error l i = Some a -> nth_error l j = Some b -> a < b) ->
     forall i j a b, (i < j)%nat -> nth_error (filter p l) i = Some a -> nth_error (filter p l) j = Some b -> a < b).
  { clear. induction l as [|x l IH]; intros S i j a b L A B; cbn in A, B; [destruct i; discriminate|].
    assert (S' : forall i j a b, (i < j)%nat -> nth_error l i = Some a -> nth_error l j = Some b -> a < b) by (intros i' j' a' b' L' A' B'; apply (S (1 + i')%nat (1 + j')%nat); [lia|exact A'|exact B']).
    destruct (p x); [|apply (IH S' i j); assumption]. destruct j; [lia|]. cbn in B. destruct i; cbn in A.
    - injection A as <-. apply nth_error_In in B. apply filter_In in B. destruct B as (B & _). apply In_nth_error in B as (m & B). apply (S 0%nat (1 + m)%nat); [lia|reflexivity|exact B].
    - apply (IH S' i j); [lia|exact A|exact B]. }
  apply G. clear. intros i j a b L A B. unfold zrange in *. rewrite nth_error_map in A, B.
  destruct (nth_error (seq 0 (Z.to_nat n)) i) eqn:E1; [|discriminate]. destruct (nth_error (seq 0 (Z.to_nat n)) j) eqn:E2; [|discriminate].
  cbn in A, B. injection A as <-. injection B as <-.
  assert (L1 : (i < length (seq 0 (Z.to_nat n)))%nat) by (apply nth_error_Some; congruence). assert (L2 : (j < length (seq 0 (Z.to_nat n)))%nat) by (apply nth_error_Some; congruence).
  rewrite (nth_error_nth' _ 0%nat) in E1 by assumption. rewrite (nth_error_nth' _ 0%nat) in E2 by assumption. rewrite seq_length in *. rewrite seq_nth in E1 by lia. rewrite seq_nth in E2 by lia. injection E1 as <-. injection E2 as <-. lia.
Qed.

(** ** Scatter *)
Lemma contents_nth (h : heap Qc) f k : pos_dims (wext (fwin f)) -> 0 <= k < local_npts (fwin f) ->
  nth_error (contents h f) (Z.to_nat k) = Some (bdata (h (fbuf f)) (kcell (fwin f) k)).
Proof.
  intros P R. rewrite contents_kcell by exact P. rewrite nth_error_map.
  assert (nth_error (zrange (local_npts (fwin f))) (Z.to_nat k) = Some k) as ->; [|reflexivity].
  unfold zrange. rewrite nth_error_map. rewrite (nth_error_nth' _ 0%nat) by (rewrite seq_length; lia). rewrite seq_nth by lia. cbn. f_equal. lia.
Qed.
Lemma contents_length {V} (h : heap V) f : pos_dims (wext (fwin f)) -> Z.of_nat (length (contents h f)) = local_npts (fwin f).
Proof. intros P. rewrite contents_kcell by exact P. rewrite map_length, zrange_length. pose proof (npts_pos _ P). lia. Qed.
Lemma list_ext {A} (l m : list A) : length l = length m -> (forall i a, nth_error l i = Some a -> nth_error m i = Some a) -> l = m.
Proof.
  revert m. induction l as [|a l IH]; intros [|b m] L H; try discriminate; [reflexivity|].
  pose proof (H 0%nat a eq_refl) as E. injection E as ->. f_equal. apply IH; [cbn in L; lia|]. intros i c Hc. exact (H (S i) c Hc).
Qed.

Lemma scatter_ok h idx src dest : live h src -> length idx = length (contents h src) -> NoDup idx ->
  fbuf src <> fbuf dest -> freadonly dest = false -> (forall j, In j idx -> bcells (h (fbuf dest)) j = true) ->
  forall fuel, (Z.to_nat (local_npts (fwin src)) <= fuel)%nat -> exists h', run (point_to_field fuel idx src dest) h = RDone h' tt /\
    elems h' dest idx = contents h src /\ differs_only h h' (fun b i => b = fbuf dest /\ In i idx).
Proof.
  intros L Len ND Sep RO Ex. pose proof L as (P & F & _). pose proof (npts_pos _ P) as NP. intros fuel Hf.
  pose proof (contents_length h src P) as CL.
  set (ok := fun (h' : heap Qc) (k : Z) => differs_only h h' (fun b i => b = fbuf dest /\ In i (firstn (Z.to_nat k) idx)) /\
     forall m j, (m < Z.to_nat k)%nat -> nth_error idx m = Some j -> bdata (h' (fbuf dest)) j = bdata (h (fbuf src)) (kcell (fwin src) (Z.of_nat m))).
  assert (E : IterP.ends (point_to_field fuel idx src dest) h (fun h' r => ok h' (local_npts (fwin src)))).
  { unfold point_to_field. rewrite cbegin_ok, cend_ok by exact P. cbn [lift pbind]. apply ends_bind. eapply ends_mono.
    2:{ apply (for_iter_rule Qc (fwin src) _ (fun k h' s => s = k /\ ok h' k) (fun h' s => ok h' (local_npts (fwin src))))
          with (n := Z.to_nat (local_npts (fwin src))); try lia; try apply P; try exact F.
        - intros k h' s Hk (-> & (C & D) & V). destruct (nth_error idx (Z.to_nat k)) as [j|] eqn:J; [|apply nth_error_None in J; lia].
          apply ends_bind. apply (index_ok idx k j); [lia|exact J|]. apply ends_load; [rewrite C; apply live_cell; assumption|].
          apply ends_bind. unfold set_elem. rewrite RO. apply ends_store; [rewrite C; apply Ex; eapply nth_error_In; exact J|]. apply ends_ret. apply ends_ret. cbn [fst snd].
          split; [reflexivity|]. rewrite D by (intros (X & _); congruence). rewrite icur_at. unfold ok. replace (Z.to_nat (k + 1)) with (S (Z.to_nat k)) by lia. split; [split|].
          + intros b i. rewrite upd_cells. apply C.
          + intros b i N. assert (FS : firstn (S (Z.to_nat k)) idx = firstn (Z.to_nat k) idx ++ [j]).
            { clear -J. revert J. generalize (Z.to_nat k). clear k. intros k. revert idx. induction k; intros [|a idx] J; try discriminate; cbn in *; [congruence|]. f_equal. apply IHk. exact J. }
            rewrite FS in N. rewrite upd_other.
            * apply D. intros (-> & I). apply N. split; [reflexivity|apply in_or_app; left; exact I].
            * destruct (Nat.eq_dec b (fbuf dest)) as [->|]; [right|left; assumption]. intros ->. apply N. split; [reflexivity|apply in_or_app; right; left; reflexivity].
          + intros m j' Lm J'. destruct (Nat.eq_dec m (Z.to_nat k)) as [->|Nm].
            * assert (j' = j) as -> by congruence. rewrite upd_same. rewrite Z2Nat.id by lia. reflexivity.
            * rewrite upd_other; [apply V; [lia|exact J']|]. right. intros ->. apply Nm. rewrite NoDup_nth_error in ND. apply ND; [apply nth_error_Some; congruence|congruence].
        - intros h' s (_ & H). exact H.
        - split; [reflexivity|]. split; [split; [reflexivity|reflexivity]|]. intros m j Lm. lia. }
    intros h' s H. apply ends_ret. exact H. }
  destruct E as (h' & [] & E & (C & D) & V). exists h'. split; [exact E|].
  assert (Fi : firstn (Z.to_nat (local_npts (fwin src))) idx = idx) by (apply firstn_all2; lia). rewrite Fi in D.
  split; [|split; [exact C|exact D]]. apply list_ext; [unfold elems; rewrite map_length; exact Len|].
  intros i a Ha. unfold elems in Ha. rewrite nth_error_map in Ha. destruct (nth_error idx i) as [j|] eqn:J; [|discriminate]. injection Ha as <-.
  assert (Li : (i < length idx)%nat) by (apply nth_error_Some; congruence).
  rewrite (V i j) by (lia || exact J). rewrite <- (Nat2Z.id i) at 1. apply contents_nth; [exact P|lia].
Qed.

(** ** Gather *)
Lemma gather_ok h idx src dest : live h dest -> length idx = length (contents h dest) ->
  fbuf src <> fbuf dest -> freadonly dest = false -> (forall j, In j idx -> bcells (h (fbuf src)) j = true) ->
  forall fuel, (Z.to_nat (local_npts (fwin dest)) <= fuel)%nat -> exists h', run (field_to_point fuel idx src dest) h = RDone h' tt /\
    contents h' dest = elems h src idx /\ differs_only h h' (fun b i => b = fbuf dest /\ In i (cells_of dest)).
Proof.
  intros L Len Sep RO Ex. pose proof L as (P & F & _). pose proof (npts_pos _ P) as NP. intros fuel Hf.
  pose proof (contents_length h dest P) as CL.
  set (ok := fun (h' : heap Qc) (k : Z) => differs_only h h' (fun b i => b = fbuf dest /\ exists m, 0 <= m < k /\ i = kcell (fwin dest) m) /\
     forall m, 0 <= m < k -> exists j, nth_error idx (Z.to_nat m) = Some j /\ bdata (h' (fbuf dest)) (kcell (fwin dest) m) = bdata (h (fbuf src)) j).
  assert (E : IterP.ends (field_to_point fuel idx src dest) h (fun h' r => ok h' (local_npts (fwin dest)))).
  { unfold field_to_point. rewrite begin_ok, end_ok by assumption. cbn [lift pbind]. apply ends_bind. eapply ends_mono.
    2:{ apply (for_iter_rule Qc (fwin dest) _ (fun k h' s => s = k /\ ok h' k) (fun h' s => ok h' (local_npts (fwin dest))))
          with (n := Z.to_nat (local_npts (fwin dest))); try lia; try apply P; try exact F.
        - intros k h' s Hk (-> & (C & D) & V). destruct (nth_error idx (Z.to_nat k)) as [j|] eqn:J; [|apply nth_error_None in J; lia].
          apply ends_bind. apply (index_ok idx k j); [lia|exact J|]. apply ends_bind. unfold get_elem. apply ends_load; [rewrite C; apply Ex; eapply nth_error_In; exact J|].
          apply ends_ret. apply ends_store; [rewrite C; apply live_cell; assumption|]. apply ends_ret. cbn [fst snd].
          split; [reflexivity|]. rewrite D by (intros (X & _); congruence). rewrite icur_at. split; [split|].
          + intros b i. rewrite upd_cells. apply C.
          + intros b i N. rewrite upd_other.
            * apply D. intros (-> & m & Hm & ->). apply N. split; [reflexivity|]. exists m. split; [lia|reflexivity].
            * destruct (Nat.eq_dec b (fbuf dest)) as [->|]; [right|left; assumption]. intros ->. apply N. split; [reflexivity|]. exists k. split; [lia|reflexivity].
          + intros m Hm. destruct (Z.eq_dec m k) as [->|Nm].
            * exists j. split; [exact J|apply upd_same].
            * destruct (V m ltac:(lia)) as (j' & J' & E'). exists j'. split; [exact J'|]. rewrite upd_other; [exact E'|]. right. intros X.
              apply kcell_inj in X; try assumption; lia.
        - intros h' s (_ & H). exact H.
        - split; [reflexivity|]. split; [split; [reflexivity|reflexivity]|]. intros m Lm. lia. }
    intros h' s H. apply ends_ret. exact H. }
  destruct E as (h' & [] & E & (C & D) & V). exists h'. split; [exact E|]. split.
  - apply list_ext; [unfold elems; rewrite map_length, Len, !contents_kcell, !map_length by exact P; reflexivity|].
    intros i a Ha. assert (Li : (i < length (contents h' dest))%nat) by (apply nth_error_Some; congruence).
    pose proof (contents_length h' dest P) as CL'. rewrite <- (Nat2Z.id i) in Ha. rewrite contents_nth in Ha by (exact P || lia). injection Ha as <-.
    destruct (V (Z.of_nat i) ltac:(lia)) as (j & J & E'). rewrite Nat2Z.id in J. unfold elems. rewrite nth_error_map, J, E'. reflexivity.
  - split; [exact C|]. intros b i N. apply D. intros (-> & m & Hm & ->). apply N. split; [reflexivity|]. apply in_cells; [exact P|]. exists m. auto.
Qed.

(** ** Round trips *)
Lemma live_differs (h h' : heap Qc) P f : differs_only h h' P -> live h f -> live h' f.
Proof. intros (C & _) (A & B & L). split; [exact A|]. split; [exact B|]. intros i I. rewrite C. apply L. exact I. Qed.
Lemma contents_differs (h h' : heap Qc) P f : differs_only h h' P -> (forall i, In i (cells_of f) -> ~ P (fbuf f) i) -> contents h' f = contents h f.
Proof. intros (_ & D) N. unfold contents. apply map_ext_in. intros i I. apply D. apply N. exact I. Qed.
Lemma elems_differs (h h' : heap Qc) P f idx : differs_only h h' P -> (forall i, In i idx -> ~ P (fbuf f) i) -> elems h' f idx = elems h f idx.
Proof. intros (_ & D) N. unfold elems. apply map_ext_in. intros i I. apply D. apply N. exact I. Qed.

Lemma len_npts (h : heap Qc) f (idx : list Z) : pos_dims (wext (fwin f)) -> length idx = length (contents h f) -> Z.to_nat (local_npts (fwin f)) = length idx.
Proof. intros P L. rewrite L. rewrite <- (contents_length h f P). lia. Qed.
Lemma scatter_gather h idx src fld back : live h src -> live h back -> length idx = length (contents h src) -> length idx = length (contents h back) -> NoDup idx ->
  fbuf src <> fbuf fld -> fbuf back <> fbuf fld -> freadonly fld = false -> freadonly back = false -> (forall j, In j idx -> bcells (h (fbuf fld)) j = true) ->
  forall fuel, (length idx <= fuel)%nat -> exists h1 h2,
    run (point_to_field fuel idx src fld) h = RDone h1 tt /\ run (field_to_point fuel idx fld back) h1 = RDone h2 tt /\
    contents h2 back = contents h src.
Proof.
  intros L1 L2 Len1 Len2 ND S1 S2 R1 R2 Ex fuel Hf.
  destruct (scatter_ok h idx src fld L1 Len1 ND S1 R1 Ex fuel) as (h1 & E1 & C1 & D1); [rewrite (len_npts h src idx); [exact Hf|apply L1|exact Len1]|].
  destruct (gather_ok h1 idx fld back) with (fuel := fuel) as (h2 & E2 & C2 & D2); auto.
  - eapply live_differs; [exact D1|exact L2].
  - rewrite Len2. unfold contents. rewrite !map_length. reflexivity.
  - intros j I. destruct D1 as (C & _). rewrite C. apply Ex. exact I.
  - rewrite (len_npts h back idx); [exact Hf|apply L2|exact Len2].
  - exists h1, h2. split; [exact E1|]. split; [exact E2|]. congruence.
Qed.
Lemma gather_scatter h idx fld pts : live h pts -> length idx = length (contents h pts) -> NoDup idx ->
  fbuf pts <> fbuf fld -> freadonly fld = false -> freadonly pts = false -> (forall j, In j idx -> bcells (h (fbuf fld)) j = true) ->
  forall fuel, (length idx <= fuel)%nat -> exists h1 h2,
    run (field_to_point fuel idx fld pts) h = RDone h1 tt /\ run (point_to_field fuel idx pts fld) h1 = RDone h2 tt /\
    forall i, bdata (h2 (fbuf fld)) i = bdata (h (fbuf fld)) i.
Proof.
  intros L Len ND S R1 R2 Ex fuel Hf.
  destruct (gather_ok h idx fld pts) with (fuel := fuel) as (h1 & E1 & C1 & D1); auto.
  { rewrite (len_npts h pts idx); [exact Hf|apply L|exact Len]. }
  destruct (scatter_ok h1 idx pts fld) with (fuel := fuel) as (h2 & E2 & C2 & D2); auto.
  - eapply live_differs; [exact D1|exact L].
  - rewrite Len. unfold contents. rewrite !map_length. reflexivity.
  - intros j I. destruct D1 as (C & _). rewrite C. apply Ex. exact I.
  - rewrite (len_npts h pts idx); [exact Hf|apply L|exact Len].
  - exists h1, h2. split; [exact E1|]. split; [exact E2|]. rewrite C1 in C2. intros i.
    assert (K : bdata (h1 (fbuf fld)) i = bdata (h (fbuf fld)) i) by (apply D1; intros (X & _); congruence).
    destruct (in_dec Z.eq_dec i idx) as [I|I].
    + apply In_nth_error in I as (m & M). unfold elems in C2.
      assert (nth_error (map (bdata (h2 (fbuf fld))) idx) m = nth_error (map (bdata (h (fbuf fld))) idx) m) as X by (rewrite C2; reflexivity).
      rewrite !nth_error_map, M in X. cbn in X. congruence.
    + rewrite <- K. apply D2. intros (_ & X). contradiction.
Qed.


(** Too few indices: reading past the end of the index list. *)
Lemma few_indices h idx src dest : live h src -> (length idx < length (contents h src))%nat ->
  freadonly dest = false -> (forall j, In j idx -> bcells (h (fbuf dest)) j = true) ->
  forall fuel, (Z.to_nat (local_npts (fwin src)) <= fuel)%nat -> run (point_to_field fuel idx src dest) h = RUB.
Proof.
  intros L Len RO Ex fuel Hf. pose proof L as (P & F & _). pose proof (npts_pos _ P) as NP. pose proof (contents_length h src P) as CL.
  unfold point_to_field. rewrite cbegin_ok, cend_ok by exact P. cbn [lift pbind]. apply run_bind_ub.
  apply (for_iter_ub Qc (fwin src) _ (fun k h' s => s = k /\ forall b i, bcells (h' b) i = bcells (h b) i) (Z.of_nat (length idx))) with (n := length idx);
    try lia; try apply P; try exact F.
  - intros k h' s Hk (-> & C). destruct (nth_error idx (Z.to_nat k)) as [j|] eqn:J; [|apply nth_error_None in J; lia].
    apply ends_bind. apply (index_ok idx k j); [lia|exact J|]. apply ends_load; [rewrite C; apply live_cell; [exact L|lia]|].
    apply ends_bind. unfold set_elem. rewrite RO. apply ends_store; [rewrite C; apply Ex; eapply nth_error_In; exact J|]. apply ends_ret. apply ends_ret. cbn [fst snd].
    split; [reflexivity|]. split; [reflexivity|]. intros b i. rewrite upd_cells. apply C.
  - intros h' s (-> & C). apply run_bind_ub. unfold index_of. destruct (Z.ltb_spec (Z.of_nat (length idx)) 0); [lia|].
    rewrite Nat2Z.id. rewrite (proj2 (nth_error_None idx (length idx))) by lia. reflexivity.
  - split; reflexivity.
Qed.

(** Fields made by a constructor cover their block, so the positions found by
    the constructors are the elements accessed. *)
Lemma marked_cells h f k : whole_block f -> pos_dims (wext (fwin f)) -> In k (marks h f (local_npts (fwin f))) -> In k (cells_of f).
Proof.
  intros W P I. unfold marks in I. apply filter_In in I as (I & _). rewrite cells_whole by assumption. exact I.
Qed.

Lemma filter_combine {A B} (p : A -> bool) (f : Z -> A) (g : Z -> B) l :
  map snd (filter (fun ab => p (fst ab)) (combine (map f l) (map g l))) = map g (filter (fun k => p (f k)) l).
Proof. induction l as [|a l IH]; cbn; [reflexivity|]. destruct (p (f a)); cbn; rewrite IH; reflexivity. Qed.

Lemma gather_marked h locs fld pts : live h locs -> live h fld -> live h pts -> fwin fld = fwin locs -> whole_block locs ->
  let marked := at_marks (contents h locs) (contents h fld) in
  length (contents h pts) = length marked -> fbuf fld <> fbuf pts -> freadonly pts = false ->
  exists N, forall fuel, (N <= fuel)%nat -> exists idx h',
    run (collect_indices fuel locs) h = RDone h idx /\ run (field_to_point fuel idx fld pts) h = RDone h' tt /\
    contents h' pts = marked /\ differs_only h h' (fun b i => b = fbuf pts /\ In i (cells_of pts)).
Proof.
  intros Ll Lf Lp W WB marked Len Sep RO. pose proof Ll as (P & F & _). pose proof Lf as (Pf & _ & Cf).
  destruct (collect_ok h locs Ll) as (N & HN). set (idx := marks h locs (local_npts (fwin locs))) in *.
  assert (WBf : whole_block fld) by (unfold whole_block; rewrite W; exact WB).
  assert (IN : forall k, In k idx -> 0 <= k < local_npts (fwin locs)) by (intros k I; apply filter_In in I as (I & _); apply in_zrange; exact I).
  assert (EQ : marked = elems h fld idx).
  { unfold marked, at_marks. rewrite !contents_kcell by assumption. rewrite W.
    rewrite (filter_combine (fun a => negb (qc_eqb a 0)) (fun k => bdata (h (fbuf locs)) (kcell (fwin locs) k)) (fun k => bdata (h (fbuf fld)) (kcell (fwin locs) k))).
    unfold elems. apply map_ext_in. intros k I. rewrite kcell_whole; [reflexivity|exact WB|exact P|]. apply IN in I. lia. }
  exists (Nat.max N (Z.to_nat (local_npts (fwin pts)))). intros fuel Hf. exists idx.
  destruct (gather_ok h idx fld pts) with (fuel := fuel) as (h' & E & C & D); auto; try lia.
  - rewrite Len, EQ. unfold elems. rewrite map_length. reflexivity.
  - intros j I. apply Cf. rewrite cells_whole by assumption. apply in_zrange. rewrite W. apply IN. exact I.
  - exists h'. split; [apply HN; lia|]. split; [exact E|]. split; [rewrite C; symmetry; exact EQ|exact D].
Qed.

Lemma scatter_marked h locs fld pts : live h locs -> live h fld -> live h pts -> fwin fld = fwin locs -> whole_block locs ->
  length (contents h pts) = length (filter (fun m => negb (qc_eqb m 0)) (contents h locs)) -> fbuf pts <> fbuf fld -> freadonly fld = false ->
  exists N, forall fuel, (N <= fuel)%nat -> exists idx h',
    run (collect_indices fuel locs) h = RDone h idx /\ run (point_to_field fuel idx pts fld) h = RDone h' tt /\
    at_marks (contents h locs) (contents h' fld) = contents h pts /\
    (forall k m v, nth_error (contents h locs) k = Some m -> m = 0%Qc -> nth_error (contents h fld) k = Some v -> nth_error (contents h' fld) k = Some v) /\
    differs_only h h' (fun b i => b = fbuf fld /\ In i (cells_of fld)).
Proof.
  intros Ll Lf Lp W WB Len Sep RO. pose proof Ll as (P & F & _). pose proof Lf as (Pf & _ & Cf).
  destruct (collect_ok h locs Ll) as (N & HN). set (idx := marks h locs (local_npts (fwin locs))) in *.
  assert (WBf : whole_block fld) by (unfold whole_block; rewrite W; exact WB).
  assert (IN : forall k, In k idx -> 0 <= k < local_npts (fwin locs)) by (intros k I; apply filter_In in I as (I & _); apply in_zrange; exact I).
  assert (ND : NoDup idx) by (apply NoDup_filter, zrange_NoDup).
  exists (Nat.max N (Z.to_nat (local_npts (fwin pts)))). intros fuel Hf. exists idx.
  destruct (scatter_ok h idx pts fld) with (fuel := fuel) as (h' & E & C & D); auto; try lia.
  - rewrite Len. rewrite contents_kcell by exact P. unfold idx, marks.
    transitivity (length (map (fun k => bdata (h (fbuf locs)) (kcell (fwin locs) k)) (filter (fun k => negb (qc_eqb (bdata (h (fbuf locs)) (kcell (fwin locs) k)) 0)) (zrange (local_npts (fwin locs)))))); [rewrite map_length; reflexivity|].
    f_equal. generalize (zrange (local_npts (fwin locs))). induction l as [|a l IH]; cbn; [reflexivity|]. destruct (qc_eqb _ _); cbn; rewrite IH; reflexivity.
  - intros j I. apply Cf. rewrite cells_whole by assumption. apply in_zrange. rewrite W. apply IN. exact I.
  - exists h'. split; [apply HN; lia|]. split; [exact E|]. split; [|split].
    + unfold at_marks. rewrite !contents_kcell by assumption.
      rewrite ?W.
      rewrite (filter_combine (fun a => negb (qc_eqb a 0)) (fun k => bdata (h (fbuf locs)) (kcell (fwin locs) k)) (fun k => bdata (h' (fbuf fld)) (kcell (fwin locs) k))).
      rewrite <- C. unfold elems. apply map_ext_in. intros k I. rewrite kcell_whole; [reflexivity|exact WB|exact P|]. apply IN in I. lia.
    + intros k m v M Z0 V. assert (Lk : (k < length (contents h fld))%nat) by (apply nth_error_Some; congruence).
      pose proof (contents_length h fld Pf) as CL. rewrite <- (Nat2Z.id k) in M, V |- *.
      rewrite contents_nth in V by (exact Pf || lia). rewrite contents_nth by (exact Pf || lia). injection V as <-. f_equal.
      apply D. intros (_ & I). rewrite kcell_whole in I by (assumption || lia). apply filter_In in I as (_ & I).
      rewrite contents_nth in M by (exact P || (rewrite <- W; lia)). injection M as M. rewrite M, Z0 in I. discriminate.
    + destruct D as (D1 & D2). split; [exact D1|]. intros b i NI. apply D2. intros (-> & I). apply NI. split; [reflexivity|].
      rewrite cells_whole by assumption. apply in_zrange. rewrite W. apply IN. exact I.
Qed.

(** A view of the two middle cells of a row of four. *)
Definition pfull (b : nat) : field := patch_field (IV 4 1 1) false false false iv_zero (mk_ghost iv_zero iv_zero) b 1.
Definition pview (b : nat) : field := field_window (Win (IV 4 1 1) (IV 1 0 0) (IV 2 1 1)) (pfull b).
Definition ppts (b : nat) : field := patch_field (IV 1 1 1) false false false iv_zero (mk_ghost iv_zero iv_zero) b 1.
(** block 0: marks, block 1: values, block 2: points *)
Definition pheap : heap Qc := fun b => Block (fun i => (0 <=? i) && (i <? 4))
  (fun i => qc_of (nth (Z.to_nat i) (match b with 0%nat => [0; 0; 1; 0] | 1%nat => [10; 11; 12; 13] | _ => [7; 7; 7; 7] end) 0)).
Lemma view_wrong : live pheap (pview 0) /\ live pheap (pview 1) /\ live pheap (ppts 2) /\ fwin (pview 0) = fwin (pview 1) /\
  contents pheap (pview 0) = [0%Qc; 1%Qc] /\ contents pheap (pview 1) = [qc_of 11; qc_of 12] /\
  exists idx h', run (collect_indices 10 (pview 0)) pheap = RDone pheap idx /\ run (field_to_point 10 idx (pview 1) (ppts 2)) pheap = RDone h' tt /\
    contents h' (ppts 2) = [qc_of 11].
Proof.
  split; [|split; [|split; [|split; [reflexivity|split; [reflexivity|split; [reflexivity|]]]]]].
  1-3: (split; [cbv; repeat split|]; split; [cbv; repeat split; discriminate|]; intros i I).
  1-2: (change (In i [1; 2]) in I; destruct I as [<-|[<-|[]]]; reflexivity).
  1: (change (In i [0]) in I; destruct I as [<-|[]]; reflexivity).
  eexists _, _. split; [cbv; reflexivity|]. split; [cbv; reflexivity|reflexivity].
Qed.
Lemma p_example : live pheap (pfull 0) /\ live pheap (pfull 1) /\ live pheap (ppts 2) /\ fwin (pfull 1) = fwin (pfull 0) /\ whole_block (pfull 0) /\
  length (contents pheap (ppts 2)) = length (filter (fun m => negb (qc_eqb m 0)) (contents pheap (pfull 0))) /\
  at_marks (contents pheap (pfull 0)) (contents pheap (pfull 1)) = [qc_of 12].
Proof.
  split; [|split; [|split; [|split; [reflexivity|split; [split; reflexivity|split; reflexivity]]]]].
  all: (split; [cbv; repeat split|]; split; [cbv; repeat split; discriminate|]; intros i I).
  1-2: (change (In i [0; 1; 2; 3]) in I; destruct I as [<-|[<-|[<-|[<-|[]]]]]; reflexivity).
  change (In i [0]) in I; destruct I as [<-|[]]; reflexivity.
Qed.
Lemma positions_ok : forall h locs, live h locs -> exists N, forall fuel, (N <= fuel)%nat -> exists idx,
  run (collect_indices fuel locs) h = RDone h idx /\
  (forall k, In k idx <-> 0 <= k /\ exists v, nth_error (contents h locs) (Z.to_nat k) = Some v /\ v <> 0%Qc) /\
  (forall i j a b, (i < j)%nat -> nth_error idx i = Some a -> nth_error idx j = Some b -> a < b).
Proof.
  intros h locs L. destruct (collect_ok h locs L) as (N & H). exists N. intros fuel Hf. eexists. split; [apply H; exact Hf|].
  split; [intros k; apply marks_spec; apply L|]. intros i j a b. apply filter_sorted.
Qed.
