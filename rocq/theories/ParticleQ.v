(** Proofs about the particle operators, continued: CellToParticle, constructors. *)
From Verif Require Import Prelude WindowM WindowS WindowP GhostM FieldM FieldS MaskM NeboM NeboS NeboF StencilM StencilP LagrangeM LagrangeQ BCM BCS IterM IterS IterP CompareM CompareS CompareP PointS PointP ParticleM ParticleS ParticleP.
From Coq Require Import Lqa.
Local Open Scope Z_scope.

Definition edges (dx l r : Qc) (k : Z) : Qc := overlap l r (qc_of (k - 1) * dx) (qc_of k * dx).
Lemma edges_step dx l r i k : (0 < dx)%Qc -> (qc_of (i - 1) * dx <= l)%Qc -> (l <= qc_of i * dx)%Qc -> (l < r)%Qc ->
  edges dx l r k = ((if k =? i then qmin r (qc_of i * dx) - l else 0) + edges dx (qmin r (qc_of i * dx)) r k)%Qc.
Proof.
  intros D L1 L2 LR. unfold edges. set (rb := qmin r (qc_of i * dx)).
  assert (C : (rb = (qc_of i * dx)%Qc /\ (qc_of i * dx < r)%Qc) \/ (rb = r /\ (r <= qc_of i * dx)%Qc)).
  { unfold rb, qmin. destruct (Qclt_le_dec r (qc_of i * dx)) as [H|H]; [right; split; [reflexivity|apply Qclt_le_weak; exact H]|].
    destruct (Qc_eq_dec r (qc_of i * dx)) as [E|E]; [right; split; [congruence|rewrite E; apply Qcle_refl]|left; split; [reflexivity|]].
    destruct (Qcle_lt_or_eq _ _ H); congruence. }
  destruct (Z.eqb_spec k i) as [->|NE].
  - rewrite overlap_here by assumption. fold rb. rewrite (overlap_none rb); [ring|]. destruct C as [(-> & _)|(-> & _)]; [left; apply Qcle_refl|right; right; apply Qcle_refl].
  - destruct (Z_lt_ge_dec k i) as [K|K].
    + assert (H : (qc_of k * dx <= qc_of (i - 1) * dx)%Qc) by (apply edge_le; [exact D|lia]).
      rewrite (overlap_none l), (overlap_none rb); [ring| |left; eapply Qcle_trans; eassumption].
      destruct C as [(-> & _)|(-> & _)]; [left; apply edge_le; [exact D|lia]|right; right; apply Qcle_refl].
    + assert (H : (qc_of i * dx <= qc_of (k - 1) * dx)%Qc) by (apply edge_le; [exact D|lia]).
      destruct C as [(-> & _)|(-> & C)].
      * rewrite (overlap_later l r (qc_of i * dx)) by assumption. ring.
      * rewrite (overlap_none l), (overlap_none r) by (right; first [left; eapply Qcle_trans; eassumption|right; apply Qcle_refl]). ring.
Qed.
Lemma qsum_single n i x : 0 <= i < n -> qsum (map (fun k => if k =? i then x else 0%Qc) (zrange n)) = x.
Proof.
  intros H. rewrite (qsum_upd (fun _ => 0%Qc) _ _ i x).
  - rewrite qsum_zero by reflexivity. ring.
  - apply zrange_NoDup.
  - apply in_zrange. exact H.
  - rewrite Z.eqb_refl. ring.
  - intros j J. destruct (Z.eqb_spec j i); congruence.
Qed.

Lemma collect_exact n dx mesh src b j s r : (0 < dx)%Qc -> fbuf mesh <> b -> fbuf src <> b -> (r <= qc_of (n - 1) * dx)%Qc ->
  forall fuel i l h, (Z.to_nat (n - i) <= fuel)%nat -> 0 <= i -> (qc_of (i - 1) * dx <= l)%Qc -> (l <= qc_of i * dx)%Qc -> bcells (h b) j = true ->
  (forall k, 0 <= k < n -> bcells (h (fbuf mesh)) k = true /\ bdata (h (fbuf mesh)) k = centre dx k /\ bcells (h (fbuf src)) k = true) ->
  IterP.ends (collect_at fuel dx mesh src b j i l r s) h (fun h' _ =>
    bdata (h' b) j = (bdata (h b) j + qsum (map (fun k => bdata (h (fbuf src)) k * edges dx l r k / s) (zrange n)))%Qc /\
    differs_only h h' (fun c m => c = b /\ m = j)).
Proof.
  intros D S1 S2 R. induction fuel as [|fuel IH]; intros i l h Hf Hi L1 L2 BJ M.
  - cbn [collect_at]. pose proof (ltb_spec l r) as H. destruct (qc_ltb l r).
    + exfalso. assert (i - 1 < n - 1); [|lia]. apply (edge_lt dx); [exact D|]. eapply Qcle_lt_trans; [exact L1|]. eapply Qclt_le_trans; [exact H|exact R].
    + apply ends_ret. split; [|apply differs_refl]. rewrite qsum_zero; [ring|]. intros k _. unfold edges. rewrite overlap_none by auto. unfold Qcdiv. ring.
  - cbn [collect_at]. pose proof (ltb_spec l r) as H. destruct (qc_ltb l r).
    2:{ apply ends_ret. split; [|apply differs_refl]. rewrite qsum_zero; [ring|]. intros k _. unfold edges. rewrite overlap_none by auto. unfold Qcdiv. ring. }
    assert (In : i < n). { assert (i - 1 < n - 1); [|lia]. apply (edge_lt dx); [exact D|]. eapply Qcle_lt_trans; [exact L1|]. eapply Qclt_le_trans; [exact H|exact R]. }
    destruct (M i ltac:(lia)) as (M1 & M2 & M3).
    unfold get_elem. apply ends_bind. apply ends_load; [exact M1|]. apply ends_ret. rewrite M2, centre_bound.
    apply ends_bind, ends_load; [exact M3|]. apply ends_ret. apply ends_load; [exact BJ|]. apply ends_store; [exact BJ|].
    set (rb := qmin r (qc_of i * dx)). set (h1 := upd h b j _).
    assert (D1 : differs_only h h1 (fun c m => c = b /\ m = j)).
    { split; [intros; apply upd_cells|]. intros c m NB. apply upd_other. destruct (Nat.eq_dec c b); [right|left; assumption]. intros ->. apply NB. auto. }
    assert (V1 : bdata (h1 b) j = (bdata (h b) j + bdata (h (fbuf src)) i * (rb - l) / s)%Qc) by (unfold h1; rewrite upd_same; reflexivity).
    assert (SUM : qsum (map (fun k => bdata (h (fbuf src)) k * edges dx l r k / s)%Qc (zrange n)) =
                  (bdata (h (fbuf src)) i * (rb - l) / s + qsum (map (fun k => bdata (h (fbuf src)) k * edges dx rb r k / s)%Qc (zrange n)))%Qc).
    { rewrite <- (qsum_single n i (bdata (h (fbuf src)) i * (rb - l) / s)%Qc) by lia. rewrite <- qsum_map_add. f_equal. apply map_ext. intros k.
      rewrite (edges_step dx l r i k D L1 L2 H). fold rb. destruct (Z.eqb_spec k i) as [->|]; unfold Qcdiv; ring. }
    assert (SRC : forall k, bdata (h1 (fbuf src)) k = bdata (h (fbuf src)) k) by (intros k; apply upd_other; auto).
    destruct (Qclt_le_dec (qc_of i * dx) r) as [C|C].
    + assert (RB : rb = (qc_of i * dx)%Qc).
      { unfold rb, qmin. destruct (Qclt_le_dec r (qc_of i * dx)) as [X|]; [exfalso; qc_lra|reflexivity]. }
      eapply ends_mono; [|apply (IH (i + 1) _ h1); [lia|lia| | | |]].
      * intros h' u (A & B). split; [|eapply differs_trans; eassumption]. rewrite A, V1, SUM. rewrite <- Qcplus_assoc. do 2 f_equal.
        f_equal. apply map_ext. intros k. rewrite SRC. reflexivity.
      * rewrite RB. replace (i + 1 - 1) with i by lia. apply Qcle_refl.
      * rewrite RB. apply edge_le; [exact D|lia].
      * unfold h1. rewrite upd_cells. exact BJ.
      * intros k Hk. destruct (M k Hk) as (A & B & C'). unfold h1. rewrite !upd_cells. rewrite upd_other by auto. auto.
    + assert (RB : rb = r).
      { unfold rb, qmin. destruct (Qclt_le_dec r (qc_of i * dx)); [reflexivity|]. apply Qcle_antisym; assumption. }
      assert (LT : qc_ltb rb r = false) by (rewrite RB; pose proof (ltb_spec r r) as X; destruct (qc_ltb r r); [exfalso; exact (Qclt_not_eq _ _ X eq_refl)|reflexivity]).
      assert (E : collect_at fuel dx mesh src b j (i + 1) rb r s = Ret tt) by (destruct fuel; cbn [collect_at]; rewrite LT; reflexivity).
      rewrite E. apply ends_ret. split; [|exact D1]. rewrite V1, SUM. rewrite (qsum_zero (fun k => bdata (h (fbuf src)) k * edges dx rb r k / s)%Qc); [ring|].
      intros k _. unfold edges. rewrite overlap_none; [unfold Qcdiv; ring|]. right. right. rewrite RB. apply Qcle_refl.
Qed.

Lemma cell_to_particle_exact h mesh pcoord psize src dest dx :
  (0 < dx)%Qc -> live h mesh -> whole_block mesh -> contents h mesh = map (centre dx) (zrange (local_npts (fwin mesh))) ->
  live h pcoord -> live h psize -> live h src -> live h dest -> fwin psize = fwin pcoord -> fwin dest = fwin pcoord -> fwin src = fwin mesh ->
  freadonly dest = false ->
  fbuf mesh <> fbuf dest -> fbuf pcoord <> fbuf dest -> fbuf psize <> fbuf dest -> fbuf src <> fbuf dest ->
  (forall p, In p (particles h pcoord psize pcoord) -> (0 < p_size p)%Qc ->
     (0 <= p_left p)%Qc /\ (p_right p <= qc_of (local_npts (fwin mesh) - 1) * dx)%Qc) ->
  exists N, forall fuel, (N <= fuel)%nat -> exists h', run (cell_to_particle fuel dx mesh pcoord psize src dest) h = RDone h' tt /\
    contents h' dest = map (fun p => qsum (map (fun sk => fst sk * covered dx p (snd sk) / p_size p)%Qc
                                             (combine (contents h src) (zrange (local_npts (fwin mesh)))))) (particles h pcoord psize pcoord) /\
    differs_only h h' (only dest).
Proof.
  intros D Lm WM CM Lc Ls Lv Ld W1 W2 W3 RO S0 S1 S2 S3 IN. pose proof Lc as (P & F & _). pose proof Ld as (Pd & Fd & _). pose proof Lm as (Pm & _ & _).
  set (np := local_npts (fwin mesh)) in *. set (nq := local_npts (fwin pcoord)).
  assert (WDs : whole_block src) by (unfold whole_block; rewrite W3; exact WM).
  assert (NQ : 0 < nq) by (apply npts_pos; exact P).
  exists (Nat.max (Z.to_nat np) (Z.to_nat nq)). intros fuel Hf.
  set (part := part_at h pcoord psize pcoord). set (col := fun p => qsum (map (fun k => bdata (h (fbuf src)) k * covered dx p k / p_size p)%Qc (zrange np))).
  assert (E : IterP.ends (cell_to_particle fuel dx mesh pcoord psize src dest) h (fun h' _ =>
    differs_only h h' (only dest) /\ forall j, 0 <= j < nq -> bdata (h' (fbuf dest)) (kcell (fwin pcoord) j) = col (part j))).
  { unfold cell_to_particle. rewrite !cbegin_ok, cend_ok by (rewrite ?W1, ?W2; exact P). rewrite begin_ok by (assumption || (rewrite W2; exact P)). cbn [lift pbind]. rewrite W1, W2.
    apply ends_bind. eapply ends_mono.
    2:{ apply (for_iter_rule Qc (fwin pcoord) _ (fun q hk s => s = (iter_at 0 (fwin pcoord) q, iter_at 0 (fwin pcoord) q) /\ differs_only h hk (only dest) /\
            forall j, 0 <= j < q -> bdata (hk (fbuf dest)) (kcell (fwin pcoord) j) = col (part j))
            (fun hk _ => differs_only h hk (only dest) /\ forall j, 0 <= j < nq -> bdata (hk (fbuf dest)) (kcell (fwin pcoord) j) = col (part j)))
          with (n := Z.to_nat nq); try lia; try apply P; try exact F.
        - intros q hk s Hq (-> & Dk & Vk). pose proof Dk as (Ck & Nk).
          assert (PA : part_at hk pcoord psize pcoord q = part q) by (apply (part_differs _ _ _ _ _ _ _ Dk); intros i; unfold only; assumption).
          cbn [fst snd]. rewrite !icur_at.
          apply ends_load; [rewrite Ck; apply live_cell; assumption|]. apply ends_load; [rewrite Ck, <- W1; apply live_cell; [assumption|rewrite W1; assumption]|].
          cbv zeta. set (x := bdata (hk (fbuf pcoord)) (kcell (fwin pcoord) q)). set (s := bdata (hk (fbuf psize)) (kcell (fwin pcoord) q)).
          change (part_at hk pcoord psize pcoord q) with (x, s, x) in PA.
          destruct (left_right x s x) as (E1 & E2 & E3 & E4). rewrite E1, E4.
          unfold first_cell. assert (qc_eqb dx 0 = false) as ->.
          { unfold qc_eqb. destruct (Qc_eq_dec dx 0) as [->|]; [discriminate|reflexivity]. }
          apply ends_bind, ends_ret. set (c := kcell (fwin pcoord) q).
          assert (BC : bcells (hk (fbuf dest)) c = true) by (rewrite Ck; unfold c; rewrite <- W2; apply live_cell; [assumption|rewrite W2; assumption]).
          apply ends_store; [exact BC|]. set (h0 := upd hk (fbuf dest) c 0%Qc).
          assert (D0 : differs_only hk h0 (fun b m => b = fbuf dest /\ m = c)).
          { split; [intros; apply upd_cells|]. intros b m NB. apply upd_other. destruct (Nat.eq_dec b (fbuf dest)); [right|left; assumption]. intros ->. apply NB. auto. }
          assert (Dh0 : differs_only h h0 (only dest)) by (eapply differs_trans; [exact Dk|eapply differs_mono; [exact D0|unfold only; tauto]]).
          apply ends_bind. eapply ends_mono with (Q := fun h' _ => bdata (h' (fbuf dest)) c = col (x, s, x) /\ differs_only h0 h' (fun b m => b = fbuf dest /\ m = c)).
          { intros h' u (A & B). apply ends_ret. cbn [fst snd]. rewrite !incr_ok by exact P. split; [reflexivity|].
            split; [eapply differs_trans; [exact Dh0|eapply differs_mono; [exact B|unfold only; tauto]]|].
            intros j Hj. destruct (Z.eq_dec j q) as [->|NE]; [fold c; rewrite A, PA; reflexivity|].
            assert (NC : kcell (fwin pcoord) j <> c) by (intros X; apply kcell_inj in X; [congruence|exact P|exact F|lia|lia]).
            rewrite (proj2 B) by tauto. rewrite (proj2 D0) by tauto. apply Vk. lia. }
          destruct (Qclt_le_dec 0 s) as [SP|SP].
          + destruct (IN (part q)) as (I1 & I2).
            { rewrite particles_at by assumption || reflexivity. apply in_map. apply in_zrange. exact Hq. }
            { rewrite <- PA. exact SP. }
            rewrite <- PA in I1, I2. destruct (start_cell dx (p_left (x, s, x)) D I1) as (B1 & B2 & B3).
            eapply ends_mono; [|apply (collect_exact np)]; auto.
            * intros h' u (A & B). split; [|exact B]. rewrite A. unfold h0 at 1. rewrite upd_same. rewrite Qcplus_0_l. unfold col. f_equal. apply map_ext. intros k.
              rewrite (proj2 Dh0) by (unfold only; assumption). reflexivity.
            * lia.
            * unfold h0. rewrite upd_cells. exact BC.
            * intros k Hk. destruct (mesh_at h mesh (centre dx) k Lm WM CM Hk) as (M1 & M2). rewrite !(proj1 Dh0), (proj2 Dh0) by (unfold only; assumption). split; [exact M1|]. split; [exact M2|].
              rewrite <- (kcell_whole src k WDs) by (lia || apply Lv). apply live_cell; [exact Lv|]. rewrite W3. exact Hk.
          + assert (LT : qc_ltb (p_left (x, s, x)) (p_right (x, s, x)) = false).
            { pose proof (ltb_spec (p_left (x, s, x)) (p_right (x, s, x))) as H. destruct (qc_ltb _ _); [|reflexivity]. apply (proj1 (size_pos _)) in H. cbn in H. exfalso. apply (Qclt_not_le _ _ H SP). }
            assert (RE : forall i, collect_at fuel dx mesh src (fbuf dest) c i (p_left (x, s, x)) (p_right (x, s, x)) s = Ret tt) by (intros i; destruct fuel; cbn [collect_at]; rewrite LT; reflexivity).
            rewrite RE. apply ends_ret. split; [|apply differs_refl]. unfold h0. rewrite upd_same. unfold col. rewrite qsum_zero; [reflexivity|].
            intros k _. unfold covered. rewrite overlap_none; [unfold Qcdiv; ring|].
            right. right. pose proof (ltb_spec (p_left (x, s, x)) (p_right (x, s, x))) as H. rewrite LT in H. exact H.
        - intros hk s (_ & A & B). split; [exact A|exact B].
        - split; [reflexivity|]. split; [apply differs_refl|]. intros; lia. }
    intros h' s A. apply ends_ret. exact A. }
  destruct E as (h' & [] & R & A & B). exists h'. split; [exact R|]. split; [|exact A].
  rewrite contents_kcell by exact Pd. rewrite W2. fold nq. rewrite particles_at by assumption || reflexivity. rewrite map_map. apply map_ext_in. intros q Q. apply in_zrange in Q.
  rewrite B by exact Q. fold (part q). unfold col. rewrite contents_kcell by (rewrite W3; exact Pm). rewrite W3. fold np.
  rewrite <- (map_id (zrange np)) at 3. rewrite combine_map, map_map. f_equal. apply map_ext_in. intros k K. apply in_zrange in K. cbn [fst snd].
  rewrite <- W3, kcell_whole by (assumption || lia || apply Lv). reflexivity.
Qed.

(** ** Constants, on any mesh *)
Lemma collect_const fuel dx mesh src b j c s r : s <> 0%Qc -> fbuf src <> b ->
  forall i l h h', (forall k, bcells (h (fbuf src)) k = true -> bdata (h (fbuf src)) k = c) ->
  run (collect_at fuel dx mesh src b j i l r s) h = RDone h' tt ->
  bdata (h' b) j = (bdata (h b) j + weight l r c s)%Qc /\ differs_only h h' (fun d m => d = b /\ m = j).
Proof.
  intros S Sep. induction fuel as [|fuel IH]; intros i l h h' C R; cbn [collect_at] in R; unfold weight.
  - destruct (qc_ltb l r); [discriminate|]. injection R as <-. split; [ring|apply differs_refl].
  - destruct (qc_ltb l r) eqn:LR; [|injection R as <-; split; [ring|apply differs_refl]].
    unfold get_elem in R. cbn [pbind run] in R. destruct (bcells (h (fbuf mesh)) i); [|discriminate]. cbn [run] in R.
    destruct (bcells (h (fbuf src)) i) eqn:Ci; [|discriminate]. cbn [run] in R. destruct (bcells (h b) j) eqn:Cj; [|discriminate]. cbn [run] in R.
    set (rb := right_bound _ dx r) in *. rewrite (C i Ci) in R. set (h1 := upd h b j _) in R.
    apply IH in R.
    + destruct R as (R1 & R2). split.
      * rewrite R1. unfold h1. rewrite upd_same. unfold weight. assert (RL : (rb <= r)%Qc) by apply right_bound_le. pose proof (ltb_spec rb r) as H. destruct (qc_ltb rb r).
        -- field. exact S.
        -- assert (rb = r) as -> by (apply Qcle_antisym; assumption). ring.
      * eapply differs_trans; [|exact R2]. split; [intros; apply upd_cells|]. intros d m NB. apply upd_other. destruct (Nat.eq_dec d b); [right|left; assumption]. intros ->. apply NB. auto.
    + intros k. unfold h1. rewrite upd_cells, upd_other by auto. apply C.
Qed.
Lemma weight_kept' x s c v : weight (x - s / qc_of 2) (x + s / qc_of 2) c s = (if Qclt_le_dec 0 (p_size (x, s, v)) then c else 0%Qc).
Proof. pose proof (weight_kept x s c) as H. rewrite !half_div in *. exact H. Qed.

Lemma cell_to_particle_const h mesh pcoord psize src dest dx c :
  live h pcoord -> live h psize -> live h dest -> fwin psize = fwin pcoord -> fwin dest = fwin pcoord -> freadonly dest = false ->
  fbuf pcoord <> fbuf dest -> fbuf psize <> fbuf dest -> fbuf src <> fbuf dest ->
  (forall i, bcells (h (fbuf src)) i = true -> bdata (h (fbuf src)) i = c) ->
  forall fuel h', run (cell_to_particle fuel dx mesh pcoord psize src dest) h = RDone h' tt ->
    contents h' dest = map (fun s => if Qclt_le_dec 0 s then c else 0%Qc) (contents h psize) /\ differs_only h h' (only dest).
Proof.
  intros Lc Ls Ld W1 W2 RO S1 S2 S3 K fuel h' R. pose proof Lc as (P & F & _). pose proof Ld as (Pd & _).
  unfold cell_to_particle in R. rewrite !cbegin_ok, cend_ok in R by (rewrite ?W1, ?W2; exact P). rewrite begin_ok in R by (assumption || (rewrite W2; exact P)).
  cbn [lift pbind] in R. rewrite W1, W2 in R. apply run_bind_inv in R as (h1 & r & R1 & R2). injection R2 as <-.
  set (res := fun j => if Qclt_le_dec 0 (bdata (h (fbuf psize)) (kcell (fwin pcoord) j)) then c else 0%Qc).
  apply (for_iter_returned (fwin pcoord) _ (fun q hk s => s = (iter_at 0 (fwin pcoord) q, iter_at 0 (fwin pcoord) q) /\ differs_only h hk (only dest) /\
     forall j, 0 <= j < q -> bdata (hk (fbuf dest)) (kcell (fwin pcoord) j) = res j)) in R1; auto.
  - destruct R1 as (_ & A & B). split; [|exact A]. rewrite !contents_kcell by (rewrite ?W1; assumption). rewrite W1, W2, map_map. apply map_ext_in. intros k I. apply in_zrange in I. apply B. exact I.
  - clear R1. intros q hk s hk' r' Hq (-> & Dk & Vk) R. cbn [fst snd run] in R. rewrite !icur_at in R. pose proof Dk as (Ck & Nk).
    destruct (bcells (hk (fbuf pcoord)) _); [|discriminate]. cbn [run] in R. destruct (bcells (hk (fbuf psize)) _); [|discriminate].
    apply run_bind_inv in R as (hk0 & i & Ri & R). unfold first_cell in Ri. destruct (qc_eqb dx 0); [discriminate|]. injection Ri as <- <-.
    cbn [run] in R. set (cl := kcell (fwin pcoord) q) in *. destruct (bcells (hk (fbuf dest)) cl); [|discriminate].
    set (h0 := upd hk (fbuf dest) cl 0%Qc) in R.
    apply run_bind_inv in R as (hk1 & u & Rd & R). injection R as <- <-. cbn [snd fst]. rewrite !incr_ok by exact P.
    assert (D0 : differs_only hk h0 (fun b m => b = fbuf dest /\ m = cl)).
    { split; [intros; apply upd_cells|]. intros b m NB. apply upd_other. destruct (Nat.eq_dec b (fbuf dest)); [right|left; assumption]. intros ->. apply NB. auto. }
    assert (Dh0 : differs_only h h0 (only dest)) by (eapply differs_trans; [exact Dk|eapply differs_mono; [exact D0|unfold only; tauto]]).
    assert (K0 : forall k, bcells (h0 (fbuf src)) k = true -> bdata (h0 (fbuf src)) k = c).
    { intros k. rewrite (proj1 Dh0), (proj2 Dh0) by (unfold only; assumption). apply K. }
    rewrite !Nk in Rd by (unfold only; assumption). set (x := bdata (h (fbuf pcoord)) cl) in *. set (s := bdata (h (fbuf psize)) cl) in *. destruct u.
    assert (RES : bdata (hk1 (fbuf dest)) cl = res q /\ differs_only h0 hk1 (fun b m => b = fbuf dest /\ m = cl)).
    { unfold res. fold cl s. destruct (Qc_eq_dec s 0) as [E0|E0].
      - rewrite E0 in Rd |- *. assert (LT : qc_ltb (x - 0 / qc_of 2) (x + 0 / qc_of 2) = false).
        { pose proof (ltb_spec (x - 0 / qc_of 2) (x + 0 / qc_of 2)) as H. destruct (qc_ltb _ _); [|reflexivity]. exfalso. revert H. rewrite half_div.
          replace (half * 0)%Qc with 0%Qc by ring. qc_lra. }
        assert (RD : run (Ret tt) h0 = RDone hk1 tt) by (destruct fuel; cbn [collect_at] in Rd; rewrite LT in Rd; exact Rd).
        injection RD as <-. split; [|apply differs_refl]. unfold h0. rewrite upd_same. reflexivity.
      - apply (collect_const _ _ _ _ _ _ c) in Rd; [|exact E0|exact S3|exact K0]. destruct Rd as (A & B). split; [|exact B].
        rewrite A. unfold h0. rewrite upd_same, (weight_kept' x s c x). cbn [p_size]. apply Qcplus_0_l. }
    destruct RES as (A & B). split; [reflexivity|]. split; [reflexivity|]. split; [eapply differs_trans; [exact Dh0|eapply differs_mono; [exact B|unfold only; tauto]]|].
    intros j Hj. destruct (Z.eq_dec j q) as [->|NE]; [exact A|].
    assert (NC : kcell (fwin pcoord) j <> cl) by (intros X; apply kcell_inj in X; [congruence|exact P|exact F|lia|lia]).
    rewrite (proj2 B) by tauto. rewrite (proj2 D0) by tauto. apply Vk. lia.
  - pose proof (npts_pos _ P). lia.
  - split; [reflexivity|]. split; [apply differs_refl|]. intros; lia.
Qed.

(** ** Constructors *)
Lemma quot_gt_false dx d t : (0 < dx)%Qc -> quot_gt (qc_abs d) dx t = false <-> (qc_abs d <= t * dx)%Qc.
Proof.
  intros D. unfold quot_gt. assert (N : dx <> 0%Qc) by (intros ->; discriminate). destruct (qc_eqb dx 0) eqn:E; [apply qc_eqb_eq in E; congruence|].
  rewrite qc_ltb_false. split; intros H.
  - apply (Qcmult_le_compat_r _ _ dx) in H; [|apply Qclt_le_weak; exact D]. replace (qc_abs d / dx * dx)%Qc with (qc_abs d) in H by (field; exact N). exact H.
  - apply Qcnot_lt_le. intros L. apply (Qcmult_lt_compat_r _ _ dx D) in L. replace (qc_abs d / dx * dx)%Qc with (qc_abs d) in L by (field; exact N). exact (Qclt_not_le _ _ L H).
Qed.
Lemma quot_gt_neg dx d t : (dx < 0)%Qc -> (0 <= t)%Qc -> quot_gt (qc_abs d) dx t = false.
Proof.
  intros D T. unfold quot_gt. assert (N : dx <> 0%Qc) by (intros ->; discriminate). destruct (qc_eqb dx 0) eqn:E; [apply qc_eqb_eq in E; congruence|].
  apply qc_ltb_false. eapply Qcle_trans; [|exact T]. apply Qcnot_lt_le. intros L. pose proof (qc_abs_nonneg d) as A.
  assert (ND : (0 < - dx)%Qc) by (clear - D; qc_lra). apply (Qcmult_lt_compat_r _ _ _ ND) in L. replace (qc_abs d / dx * - dx)%Qc with (- qc_abs d)%Qc in L by (field; exact N).
  replace (0 * - dx)%Qc with 0%Qc in L by ring. clear - L A. qc_lra.
Qed.
Definition tol : Qc := (1 / qc_of 1000000)%Qc.
Lemma ctor_run h mesh m0 m1 : live h mesh -> whole_block mesh -> nth_error (contents h mesh) 0 = Some m0 -> nth_error (contents h mesh) 1 = Some m1 ->
  let dx := (m1 - m0)%Qc in
  exists N, forall fuel, (N <= fuel)%nat -> exists b : bool, run (particle_op fuel mesh) h = (if b then RDone h dx else RThrow) /\
    (b = true <-> forall k a c, nth_error (contents h mesh) k = Some a -> nth_error (contents h mesh) (S k) = Some c -> quot_gt (qc_abs (dx - (c - a))%Qc) dx tol = false).
Proof.
  intros L W E0 E1 dx. pose proof L as (P & F & _). pose proof (contents_length h mesh P) as CL. set (np := local_npts (fwin mesh)) in *.
  assert (N2 : 2 <= np) by (assert (1 < length (contents h mesh))%nat by (apply nth_error_Some; congruence); lia).
  set (C := fun k => bdata (h (fbuf mesh)) (kcell (fwin mesh) k)).
  assert (CN : forall k, 0 <= k < np -> nth_error (contents h mesh) (Z.to_nat k) = Some (C k)) by (intros k K; apply contents_nth; assumption).
  exists (Z.to_nat np). intros fuel Hf.
  set (D := fun k : Z => quot_gt (qc_abs (dx - (C (k + 1)%Z - C k))%Qc) dx tol).
  assert (E : exists r, IterP.ends (let* ix2 := lift (field_cbegin mesh) in let* e := lift (field_cend mesh) in
     for_iter fuel (it_incr ix2) e (true, ix2)
       (fun i2 s => Load (fbuf mesh) (icur i2) (fun b => Load (fbuf mesh) (icur (snd s)) (fun a =>
       Ret ((if quot_gt (qc_abs (dx - (b - a))%Qc) dx tol then false else fst s, it_incr (snd s)), false))))) h
       (fun h' s => h' = h /\ s = r /\ (fst r = true <-> forall k, 0 <= k < np - 1 -> D k = false))).
  { rewrite cbegin_ok, cend_ok by exact P. cbn [lift pbind]. rewrite incr_ok by exact P.
    set (b := fold_left (fun b k => if D k then false else b) (zrange (np - 1)) true).
    exists (b, iter_at 0 (fwin mesh) (np - 1)).
    assert (FB : forall n, 0 <= n -> fold_left (fun b k => if D k then false else b) (zrange n) true = true <-> forall k, 0 <= k < n -> D k = false).
    { intros n Hn. pattern n. apply natlike_ind; [|intros m Hm IH|exact Hn].
      - cbn. split; [intros; lia|reflexivity].
      - replace (Z.succ m) with (m + 1) by lia. rewrite zrange_succ, fold_left_app by exact Hm. cbn [fold_left]. destruct (D m) eqn:Dm.
        + split; [discriminate|]. intros H. rewrite (H m) in Dm by lia. discriminate.
        + rewrite IH. split; intros H k K; [destruct (Z.eq_dec k m) as [->|]; [exact Dm|apply H; lia]|apply H; lia]. }
    apply (for_iter_rule Qc (fwin mesh) _ (fun k h' s => 1 <= k /\ h' = h /\ s = (fold_left (fun b k => if D k then false else b) (zrange (k - 1)) true, iter_at 0 (fwin mesh) (k - 1))))
      with (n := Z.to_nat (np - 1)); try lia; try apply P; try exact F.
    - intros k h' s K (K1 & -> & ->). cbn [fst snd]. rewrite !icur_at. apply ends_load; [apply live_cell; [exact L|exact K]|]. apply ends_load; [apply live_cell; [exact L|fold np; fold np in K; lia]|].
      apply ends_ret. cbn [fst snd]. split; [lia|]. split; [reflexivity|]. rewrite incr_ok by exact P.
      replace (k + 1 - 1) with (k - 1 + 1) by lia. rewrite zrange_succ, fold_left_app by lia. cbn [fold_left].
      replace (D (k - 1)) with (quot_gt (qc_abs (dx - (C k - C (k - 1)%Z))%Qc) dx tol) by (unfold D; replace (k - 1 + 1) with k by lia; reflexivity). reflexivity.
    - intros h' s (_ & -> & ->). split; [reflexivity|]. split; [reflexivity|]. cbn [fst]. apply FB. fold np. lia.
    - split; [lia|]. split; [reflexivity|]. reflexivity. }
  destruct E as (r & h' & s & E & -> & -> & B). exists (fst r). split.
  - unfold particle_op. unfold get_elem. rewrite (run_bind _ _ _ h h m1); [|].
    2:{ cbn [run]. rewrite <- (kcell_whole mesh 1 W P) by lia. rewrite live_cell by (exact L || (fold np; lia)). fold (C 1). pose proof (CN 1 ltac:(lia)) as X. change (Z.to_nat 1) with 1%nat in X. congruence. }
    rewrite (run_bind _ _ _ h h m0); [|].
    2:{ cbn [run]. rewrite <- (kcell_whole mesh 0 W P) by lia. rewrite live_cell by (exact L || (fold np; lia)). fold (C 0). pose proof (CN 0 ltac:(lia)) as X. change (Z.to_nat 0) with 0%nat in X. congruence. }
    fold dx. rewrite cbegin_ok, cend_ok in * by exact P. cbn [lift pbind] in *. cbv zeta. fold tol. rewrite (run_bind _ _ _ _ _ _ E). destruct (fst r); reflexivity.
  - rewrite B. split.
    + intros H k a c A A'. assert (LK : (S k < length (contents h mesh))%nat) by (apply nth_error_Some; congruence).
      rewrite <- (Nat2Z.id k) in A. rewrite <- (Nat2Z.id (S k)) in A'. rewrite CN in A, A' by lia. injection A as <-. injection A' as <-.
      specialize (H (Z.of_nat k) ltac:(lia)). unfold D in H. replace (Z.of_nat k + 1) with (Z.of_nat (S k)) in H by lia. exact H.
    + intros H k K. unfold D. apply (H (Z.to_nat k)); [apply CN; lia|]. replace (S (Z.to_nat k)) with (Z.to_nat (k + 1)) by lia. apply CN. lia.
Qed.
Lemma ctor_ok h mesh m0 m1 : live h mesh -> whole_block mesh -> nth_error (contents h mesh) 0 = Some m0 -> nth_error (contents h mesh) 1 = Some m1 ->
  (m0 < m1)%Qc ->
  exists N, forall fuel, (N <= fuel)%nat -> exists b : bool, run (particle_op fuel mesh) h = (if b then RDone h (m1 - m0)%Qc else RThrow) /\
    (b = true <-> uniform (1 / qc_of 1000000) (m1 - m0) (contents h mesh)).
Proof.
  intros L W E0 E1 LT. destruct (ctor_run h mesh m0 m1 L W E0 E1) as (N & H). exists N. intros fuel Hf. destruct (H fuel Hf) as (b & R & B). exists b. split; [exact R|].
  rewrite B. assert (D : (0 < m1 - m0)%Qc) by (clear - LT; qc_lra). unfold uniform. fold tol.
  split; intros U k a c A A'; specialize (U k a c A A').
  - apply (proj1 (quot_gt_false _ _ _ D)) in U. revert U. generalize (tol * (m1 - m0))%Qc. intros t U.
    destruct (qc_abs_cases (m1 - m0 - (c - a))) as [(X & Y)|(X & Y)]; rewrite Y in U; clear - X U; split; qc_lra.
  - apply (quot_gt_false _ _ _ D). revert U. generalize (tol * (m1 - m0))%Qc. intros t (U & U').
    destruct (qc_abs_cases (m1 - m0 - (c - a))) as [(X & Y)|(X & Y)]; rewrite Y; clear - X U U'; qc_lra.
Qed.
Lemma ctor_decreasing h mesh m0 m1 : live h mesh -> whole_block mesh -> nth_error (contents h mesh) 0 = Some m0 -> nth_error (contents h mesh) 1 = Some m1 ->
  (m1 < m0)%Qc -> exists N, forall fuel, (N <= fuel)%nat -> run (particle_op fuel mesh) h = RDone h (m1 - m0)%Qc.
Proof.
  intros L W E0 E1 LT. destruct (ctor_run h mesh m0 m1 L W E0 E1) as (N & H). exists N. intros fuel Hf. destruct (H fuel Hf) as (b & R & B).
  assert (b = true) as ->; [|exact R]. apply B. intros k a c _ _. apply quot_gt_neg; [clear - LT; qc_lra|]. unfold tol. cbv. discriminate.
Qed.

(** ** The weights add up to one *)
Definition clamp (l r x : Qc) : Qc := qmin r (qmax l x).
Lemma overlap_clamp l r c d : (l <= r)%Qc -> (c <= d)%Qc -> overlap l r c d = (clamp l r d - clamp l r c)%Qc.
Proof. unfold overlap, clamp, qmin, qmax. intros. cases_q; qc_lra. Qed.
Lemma edges_sum dx l r n : (0 < dx)%Qc -> (l <= r)%Qc -> 0 <= n ->
  qsum (map (edges dx l r) (zrange n)) = (clamp l r (qc_of (n - 1) * dx) - clamp l r (qc_of (-1) * dx))%Qc.
Proof.
  intros D LR Hn. pattern n. apply natlike_ind; [|intros m Hm IH|exact Hn].
  - change (0 - 1) with (-1). change (zrange 0) with (@nil Z). cbn [map]. rewrite qsum_nil. ring.
  - replace (Z.succ m) with (m + 1) by lia. rewrite zrange_succ, map_app, qsum_app, IH by exact Hm. cbn [map]. rewrite qsum_cons, qsum_nil.
    unfold edges. rewrite overlap_clamp; [|exact LR|apply edge_le; [exact D|lia]]. replace (m + 1 - 1) with m by lia. ring.
Qed.
Lemma covered_sum dx p n : (0 < dx)%Qc -> (0 < p_size p)%Qc -> (- dx <= p_left p)%Qc -> (p_right p <= qc_of (n - 1) * dx)%Qc -> 0 <= n ->
  qsum (map (covered dx p) (zrange n)) = p_size p.
Proof.
  intros D S L R N. change (covered dx p) with (edges dx (p_left p) (p_right p)). pose proof (proj2 (size_pos p) S) as LR.
  rewrite edges_sum by (assumption || (apply Qclt_le_weak; exact LR)).
  assert (qc_of (-1) * dx = - dx)%Qc as -> by (change (qc_of (-1)) with (- (1))%Qc; ring).
  assert (E : (p_right p - p_left p = p_size p)%Qc).
  { destruct p as ((x & s) & v). unfold p_left, p_right, p_size. rewrite half_div. transitivity (half * s + half * s)%Qc; [ring|apply half_two]. }
  rewrite <- E. revert L R LR. generalize (qc_of (n - 1) * dx)%Qc (p_left p) (p_right p). intros e l r L R LR. clear - L R LR D.
  unfold clamp, qmin, qmax. cases_q; qc_lra.
Qed.
