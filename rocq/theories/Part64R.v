(** Proofs about the particle operators in double precision: the whole calls. *)
From Coq Require Import Reals Lra Lia Psatz.
From Flocq Require Import Core.
From Verif Require Import Prelude WindowM WindowS WindowP GhostM FieldM FieldS MaskM NeboM NeboS IterM IterS IterP RoundM RoundS RoundP RoundT RedM RedP HeatM Cmp64M BCS Part64M Part64S Part64P Part64Q.
Local Open Scope Z_scope.

(** 0.5 * s and s / 2.0 are the same double. *)
Lemma half_any s : dmul d_half s = ddiv s d_two.
Proof.
  destruct (is_finite s) eqn:F; [|destruct s as [| [|] | |]; try discriminate F; reflexivity].
  destruct two_val as (F2 & V2). destruct half_val as (Fh & Vh). change (bpow radix2 (-1)) with (/ 2)%R in Vh.
  assert (Hle : (Rabs (val s / 2) <= Rabs (val s))%R) by (unfold Rdiv; rewrite Rabs_mult, (Rabs_pos_eq (/ 2)) by lra; pose proof (Rabs_pos (val s)); lra).
  pose proof (rnd_abs_le _ _ (generic_format_abs _ _ _ (fmt_val s)) Hle) as Rl. pose proof (val_lt s) as Vs.
  pose proof (Bmult_correct 53 1024 d_prec d_emax mode_NE d_half s) as M. pose proof (Bdiv_correct 53 1024 d_prec d_emax mode_NE s d_two) as D.
  change (B2R d_half) with (val d_half) in M. change (B2R d_two) with (val d_two) in D. change (B2R s) with (val s) in M, D. rewrite Vh in M. rewrite V2 in D. specialize (D ltac:(lra)).
  replace (/ 2 * val s)%R with (val s / 2)%R in M by lra.
  change (round radix2 (SpecFloat.fexp 53 1024) (round_mode mode_NE) (val s / 2)) with (rnd (val s / 2)) in M, D.
  rewrite Rlt_bool_true in M, D by (eapply Rle_lt_trans; [exact Rl|exact Vs]).
  destruct M as (M1 & M2 & M3), D as (D1 & D2 & D3).
  apply B2R_Bsign_inj.
  - unfold dmul. rewrite M2. apply andb_true_intro. split; [reflexivity|exact F].
  - unfold ddiv. rewrite D2. exact F.
  - transitivity (rnd (val s / 2)); [exact M1|symmetry; exact D1].
  - assert (NN : forall z : dbl, is_finite z = true -> is_nan z = false) by (intros []; cbn; congruence).
    transitivity (xorb (Bsign d_half) (Bsign s)); [apply M3, NN; rewrite M2; apply andb_true_intro; split; [reflexivity|exact F]|].
    transitivity (xorb (Bsign s) (Bsign d_two)); [destruct (Bsign s); reflexivity|]. symmetry. apply D3, NN. rewrite D2. exact F.
Qed.

Definition part_at (h : heap dbl) (pcoord psize src : field) (k : Z) : particle64 :=
  (bdata (h (fbuf pcoord)) (kcell (fwin pcoord) k), bdata (h (fbuf psize)) (kcell (fwin pcoord) k), bdata (h (fbuf src)) (kcell (fwin pcoord) k)).
Lemma combine_map {A B C} (f : A -> B) (g : A -> C) l : combine (map f l) (map g l) = map (fun a => (f a, g a)) l.
Proof. induction l; cbn; congruence. Qed.
Lemma particles_at h pcoord psize src : pos_dims (wext (fwin pcoord)) -> fwin psize = fwin pcoord -> fwin src = fwin pcoord ->
  particles64 h pcoord psize src = map (part_at h pcoord psize src) (zrange (local_npts (fwin pcoord))).
Proof. intros P W1 W2. unfold particles64. rewrite !contents_kcell by (rewrite ?W1, ?W2; exact P). rewrite W1, W2, !combine_map. reflexivity. Qed.
Lemma part_differs h h' P pcoord psize src k : differs_only h h' P -> (forall i, ~ P (fbuf pcoord) i) -> (forall i, ~ P (fbuf psize) i) -> (forall i, ~ P (fbuf src) i) ->
  part_at h' pcoord psize src k = part_at h pcoord psize src k.
Proof. intros (_ & D) A B C. unfold part_at. rewrite !D by auto. reflexivity. Qed.
(** A mesh that is a whole block. *)
Lemma whole_contents {V} (h : heap V) f : live h f -> whole_block f -> contents h f = map (bdata (h (fbuf f))) (zrange (local_npts (fwin f))) /\
  forall k, 0 <= k < local_npts (fwin f) -> bcells (h (fbuf f)) k = true.
Proof.
  intros L W. pose proof L as (P & _ & _). split.
  - rewrite contents_kcell by exact P. apply map_ext_in. intros k K. apply in_zrange in K. rewrite kcell_whole by (assumption || lia). reflexivity.
  - intros k K. rewrite <- (kcell_whole f k W P) by lia. apply live_cell; assumption.
Qed.
Lemma nth_zrange {B} (g : Z -> B) n k : 0 <= k < n -> nth_error (map g (zrange n)) (Z.to_nat k) = Some (g k).
Proof.
  intros K. rewrite nth_error_map. unfold zrange. rewrite nth_error_map, (nth_error_nth' _ 0%nat) by (rewrite seq_length; lia). rewrite seq_nth by lia. cbn.
  f_equal. f_equal. lia.
Qed.
Lemma nth_zrange_inv {B} (g : Z -> B) n j c : nth_error (map g (zrange n)) j = Some c -> Z.of_nat j < n /\ c = g (Z.of_nat j).
Proof.
  intros E. assert (L : (j < length (map g (zrange n)))%nat) by (apply nth_error_Some; congruence). rewrite map_length, zrange_length in L.
  split; [lia|]. pose proof (nth_zrange g n (Z.of_nat j) ltac:(lia)) as X. rewrite Nat2Z.id in X. congruence.
Qed.

(** More steps than cells change nothing. *)
Lemma piece_fuel m dx r j k : stops m dx r j -> forall n i l, i <= j + 1 -> (i = j + 1 -> dltb l r = false) -> (Z.to_nat (j + 1 - i) <= n)%nat ->
  piece n m dx i l r k = piece (Z.to_nat (j + 1 - i)) m dx i l r k.
Proof.
  intros ST. induction n as [|n IH]; intros i l Hi Hl Hn.
  - replace (Z.to_nat (j + 1 - i)) with 0%nat by lia. reflexivity.
  - destruct (dltb l r) eqn:LR.
    + assert (i <> j + 1) by (intros E; discriminate (Hl E)). replace (Z.to_nat (j + 1 - i)) with (S (Z.to_nat (j + 1 - (i + 1)))) by lia.
      cbn [piece]. rewrite LR. destruct (k =? i); [reflexivity|]. apply IH; try lia. intros E. apply bound_stops. replace i with j by lia. exact ST.
    + cbn [piece]. rewrite LR. destruct (Z.to_nat (j + 1 - i)); cbn [piece]; rewrite LR; reflexivity.
Qed.
Lemma gathered_fuel m a dx r s j : stops m dx r j -> forall n i l, i <= j + 1 -> (i = j + 1 -> dltb l r = false) -> (Z.to_nat (j + 1 - i) <= n)%nat ->
  gathered n m a dx i l r s = gathered (Z.to_nat (j + 1 - i)) m a dx i l r s.
Proof.
  intros ST. induction n as [|n IH]; intros i l Hi Hl Hn.
  - replace (Z.to_nat (j + 1 - i)) with 0%nat by lia. reflexivity.
  - destruct (dltb l r) eqn:LR.
    + assert (i <> j + 1) by (intros E; discriminate (Hl E)). replace (Z.to_nat (j + 1 - i)) with (S (Z.to_nat (j + 1 - (i + 1)))) by lia.
      cbn [gathered]. rewrite LR. f_equal. apply IH; try lia. intros E. apply bound_stops. replace i with j by lia. exact ST.
    + cbn [gathered]. rewrite LR. destruct (Z.to_nat (j + 1 - i)); cbn [gathered]; rewrite LR; reflexivity.
Qed.

(** One particle. *)
Lemma reached_first dx coords x s v : reached dx coords (x, s, v) -> first_cell64 (lft x s) dx = Ret (i0 dx x s).
Proof.
  intros (F & B & _). unfold reached, position, size in *. cbn [fst snd] in *. fold d_two in *. fold (lft x s) in *. fold (i0 dx x s) in *.
  unfold first_cell64, to_int. unfold finite in F. rewrite F. cbn [andb]. unfold i0 in *.
  assert (- 2 ^ 31 <=? Btrunc (ddiv (lft x s) dx) = true) as -> by (apply Z.leb_le; lia). assert (Btrunc (ddiv (lft x s) dx) <? 2 ^ 31 = true) as -> by (apply Z.ltb_lt; lia).
  cbn [andb pbind]. assert (Btrunc (ddiv (lft x s) dx) + 1 <? 2 ^ 31 = true) as -> by (apply Z.ltb_lt; lia). reflexivity.
Qed.
Lemma reached_stop dx m N x s v : reached dx (map m (zrange N)) (x, s, v) ->
  dltb (lft x s) (rgt x s) = false \/ 0 <= i0 dx x s /\ exists j, i0 dx x s <= j < N /\ stops m dx (rgt x s) j.
Proof.
  intros (_ & _ & [E|(I & j & c & J & E & L)]); [left; exact E|right]. split; [exact I|]. apply nth_zrange_inv in E as (JN & ->). exists (Z.of_nat j). split; [split; [exact J|exact JN]|exact L].
Qed.
Lemma deposit_whole fuel dx mesh dest x s v m N h : reached dx (map m (zrange N)) (x, s, v) -> fbuf mesh <> fbuf dest -> freadonly dest = false -> (Z.to_nat N <= fuel)%nat ->
  (forall k, 0 <= k < N -> bcells (h (fbuf mesh)) k = true /\ bdata (h (fbuf mesh)) k = m k /\ bcells (h (fbuf dest)) k = true) ->
  IterP.ends (deposit64 fuel dx mesh dest (i0 dx x s) (lft x s) (rgt x s) v s) h (fun h' _ =>
    (forall k, bdata (h' (fbuf dest)) k = plus_opt (bdata (h (fbuf dest)) k) (ctr dx m N x s v k)) /\ differs_only h h' (fun b k => b = fbuf dest)).
Proof.
  intros RE S RO Hf M. destruct (reached_stop _ _ _ _ _ _ RE) as [LT|(I & j & J & ST)].
  - assert (E : deposit64 fuel dx mesh dest (i0 dx x s) (lft x s) (rgt x s) v s = Ret tt) by (destruct fuel; cbn [deposit64]; rewrite LT; reflexivity).
    rewrite E. apply ends_ret. split; [|apply differs_refl]. intros k. unfold ctr, pc. destruct (Z.to_nat (N - i0 dx x s)); cbn [piece]; rewrite LT; reflexivity.
  - eapply ends_mono; [|apply (deposit_ends dx mesh dest v s (rgt x s) m j S RO ST)]; try lia.
    + intros h' r (A & B). split.
      * intros k. rewrite A. unfold ctr, pc. rewrite (piece_fuel m dx (rgt x s) j k ST (Z.to_nat (N - i0 dx x s))) by lia. reflexivity.
      * eapply differs_mono; [exact B|]. intros b k (C & _). exact C.
    + intros k Hk. apply M. lia.
Qed.
Lemma collect_whole fuel dx mesh src b c x s v m a N h : reached dx (map m (zrange N)) (x, s, v) -> fbuf mesh <> b -> fbuf src <> b -> (Z.to_nat N <= fuel)%nat -> bcells (h b) c = true ->
  (forall k, 0 <= k < N -> bcells (h (fbuf mesh)) k = true /\ bdata (h (fbuf mesh)) k = m k /\ bcells (h (fbuf src)) k = true /\ bdata (h (fbuf src)) k = a k) ->
  IterP.ends (collect64 fuel dx mesh src b c (i0 dx x s) (lft x s) (rgt x s) s) h (fun h' _ =>
    bdata (h' b) c = fold_left dadd (gathered (Z.to_nat (N - i0 dx x s)) m a dx (i0 dx x s) (lft x s) (rgt x s) s) (bdata (h b) c) /\
    differs_only h h' (fun d k => d = b /\ k = c)).
Proof.
  intros RE S1 S2 Hf BC M. destruct (reached_stop _ _ _ _ _ _ RE) as [LT|(I & j & J & ST)].
  - assert (E : collect64 fuel dx mesh src b c (i0 dx x s) (lft x s) (rgt x s) s = Ret tt) by (destruct fuel; cbn [collect64]; rewrite LT; reflexivity).
    rewrite E. apply ends_ret. split; [|apply differs_refl]. destruct (Z.to_nat (N - i0 dx x s)); cbn [gathered]; rewrite LT; reflexivity.
  - eapply ends_mono; [|apply (collect_ends dx mesh src b c s (rgt x s) m a j S1 S2 ST)]; try lia; try exact BC.
    + intros h' r (A & B). split; [|exact B]. rewrite A. rewrite (gathered_fuel m a dx (rgt x s) s j ST (Z.to_nat (N - i0 dx x s))) by lia. reflexivity.
    + intros k Hk. apply M. lia.
Qed.

(** The calls. *)
Definition only (f : field) : nat -> Z -> Prop := fun b i => b = fbuf f.
Definition placed (dx : dbl) (m : Z -> dbl) (N : Z) (p : particle64) (k : Z) : option dbl := ctr dx m N (position p) (size p) (amount p) k.
Definition found (dx : dbl) (m a : Z -> dbl) (N : Z) (p : particle64) : list dbl :=
  gathered (Z.to_nat (N - i0 dx (position p) (size p))) m a dx (i0 dx (position p) (size p)) (lft (position p) (size p)) (rgt (position p) (size p)) (size p).
Lemma zrange_fold {B} (f : B -> Z -> B) q b : 0 <= q -> fold_left f (zrange (q + 1)) b = f (fold_left f (zrange q) b) q.
Proof. intros H. rewrite zrange_succ by exact H. rewrite fold_left_app. reflexivity. Qed.

Lemma p2c_run n h mesh pcoord psize src dest dx :
  live h mesh -> whole_block mesh -> live h pcoord -> live h psize -> live h src -> fwin psize = fwin pcoord -> fwin src = fwin pcoord ->
  destination_ok dbl n h dest -> finite_ghosts dest -> live h dest -> fwin dest = fwin mesh ->
  fbuf mesh <> fbuf dest -> fbuf pcoord <> fbuf dest -> fbuf psize <> fbuf dest -> fbuf src <> fbuf dest ->
  (forall p, In p (particles64 h pcoord psize src) -> reached dx (contents h mesh) p) ->
  let N := local_npts (fwin mesh) in
  exists K, forall fuel, (K <= fuel)%nat -> exists h', run (particle_to_cell64 fuel dx mesh pcoord psize src dest) h = RDone h' tt /\
    contents h' dest = map (fun k => fold_left (fun c p => plus_opt c (placed dx (bdata (h (fbuf mesh))) N p k)) (particles64 h pcoord psize src) d_zero) (zrange N) /\
    differs_only h h' (only dest).
Proof.
  intros Lm WM Lc Ls Lv W1 W2 DO FG Ld WD S0 S1 S2 S3 IN np. pose proof Lc as (P & F & _). pose proof Ld as (Pd & Fd & _).
  set (nq := local_npts (fwin pcoord)). set (m := bdata (h (fbuf mesh))). destruct (whole_contents h mesh Lm WM) as (CM & BM). fold np in CM, BM. fold m in CM. rewrite CM in IN.
  assert (WDd : whole_block dest) by (unfold whole_block; rewrite WD; exact WM). destruct (whole_contents h dest Ld WDd) as (_ & BD). rewrite WD in BD. fold np in BD.
  assert (NQ : 0 < nq) by (apply npts_pos; exact P).
  destruct (fill_ok dbl dadd dmul n h dest d_zero DO FG Pd) as (N & FILL). exists (Nat.max N (Nat.max (Z.to_nat np) (Z.to_nat nq))). intros fuel Hf.
  destruct (FILL fuel ltac:(lia)) as (h0 & R0 & Z0 & D0). pose proof (proj1 (proj2 DO)) as RO.
  set (part := part_at h pcoord psize src). set (cellv := fun q k => fold_left (fun c j => plus_opt c (placed dx m np (part j) k)) (zrange q) d_zero).
  assert (E : IterP.ends (particle_to_cell64 fuel dx mesh pcoord psize src dest) h (fun h' _ =>
    differs_only h h' (only dest) /\ forall k, 0 <= k < np -> bdata (h' (fbuf dest)) k = cellv nq k)).
  { unfold particle_to_cell64. apply ends_bind. exists h0, tt. split; [exact R0|].
    rewrite !cbegin_ok, cend_ok by (rewrite ?W1, ?W2; exact P). cbn [lift pbind]. rewrite W1, W2.
    apply ends_bind. eapply ends_mono.
    2:{ apply (for_iter_rule dbl (fwin pcoord) _ (fun q hk s => s = (iter_at 0 (fwin pcoord) q, iter_at 0 (fwin pcoord) q) /\ differs_only h hk (only dest) /\
            forall k, 0 <= k < np -> bdata (hk (fbuf dest)) k = cellv q k)
            (fun hk _ => differs_only h hk (only dest) /\ forall k, 0 <= k < np -> bdata (hk (fbuf dest)) k = cellv nq k))
          with (n := Z.to_nat nq); try lia; try apply P; try exact F.
        - intros q hk s Hq (-> & Dk & Vk). pose proof Dk as (Ck & Nk).
          assert (PA : part_at hk pcoord psize src q = part q) by (apply (part_differs _ _ _ _ _ _ _ Dk); intros i; unfold only; assumption).
          cbn [fst snd]. rewrite !icur_at.
          apply ends_load; [rewrite Ck; apply live_cell; assumption|]. apply ends_load; [rewrite Ck, <- W1; apply live_cell; [assumption|rewrite W1; assumption]|].
          cbv zeta. set (x := bdata (hk (fbuf pcoord)) (kcell (fwin pcoord) q)). set (s := bdata (hk (fbuf psize)) (kcell (fwin pcoord) q)).
          set (v := bdata (hk (fbuf src)) (kcell (fwin pcoord) q)). change (part_at hk pcoord psize src q) with (x, s, v) in PA.
          rewrite half_any. fold (lft x s). fold (rgt x s).
          assert (RE : reached dx (map m (zrange np)) (x, s, v)) by (rewrite PA; apply IN; rewrite particles_at by assumption; apply in_map, in_zrange; exact Hq).
          rewrite (reached_first _ _ _ _ _ RE). apply ends_bind, ends_ret.
          apply ends_load; [rewrite Ck, <- W2; apply live_cell; [assumption|rewrite W2; assumption]|]. fold v.
          apply ends_bind. eapply ends_mono; [|apply (deposit_whole fuel dx mesh dest x s v m np hk RE S0 RO)]; try lia.
          { intros h' r (A & B). apply ends_ret. cbn [fst snd]. rewrite !incr_ok by exact P. split; [reflexivity|]. split; [eapply differs_trans; eassumption|].
            intros k Hk. rewrite A, Vk by exact Hk. unfold cellv. rewrite zrange_fold by lia. rewrite <- PA. reflexivity. }
          intros k Hk. rewrite !Ck, Nk by (unfold only; assumption). auto.
        - intros hk s (_ & A & B). split; [exact A|exact B].
        - split; [reflexivity|]. split; [exact D0|]. intros k Hk. unfold cellv. rewrite zrange_0 by lia. cbn [fold_left]. apply Z0.
          rewrite cells_whole by assumption. apply in_zrange. rewrite WD. exact Hk. }
    intros h' s A. apply ends_ret. exact A. }
  destruct E as (h' & [] & R & A & B). exists h'. split; [exact R|]. split; [|exact A].
  rewrite contents_kcell, WD by assumption. fold np. apply map_ext_in. intros k K. apply in_zrange in K.
  rewrite <- WD, kcell_whole by (assumption || lia). rewrite B by exact K. unfold cellv. rewrite particles_at by assumption. fold nq. fold part.
  generalize d_zero. generalize (zrange nq). intros l. induction l as [|y l IH]; intros acc; [reflexivity|]. cbn [map fold_left]. apply IH.
Qed.

Lemma c2p_run h mesh pcoord psize src dest dx :
  live h mesh -> whole_block mesh -> live h pcoord -> live h psize -> live h src -> live h dest -> fwin psize = fwin pcoord -> fwin dest = fwin pcoord -> fwin src = fwin mesh ->
  freadonly dest = false ->
  fbuf mesh <> fbuf dest -> fbuf pcoord <> fbuf dest -> fbuf psize <> fbuf dest -> fbuf src <> fbuf dest ->
  (forall p, In p (particles64 h pcoord psize pcoord) -> reached dx (contents h mesh) p) ->
  let N := local_npts (fwin mesh) in
  exists K, forall fuel, (K <= fuel)%nat -> exists h', run (cell_to_particle64 fuel dx mesh pcoord psize src dest) h = RDone h' tt /\
    contents h' dest = map (fun p => fold_left dadd (found dx (bdata (h (fbuf mesh))) (bdata (h (fbuf src))) N p) d_zero) (particles64 h pcoord psize pcoord) /\
    differs_only h h' (only dest).
Proof.
  intros Lm WM Lc Ls Lv Ld W1 W2 W3 RO S0 S1 S2 S3 IN np. pose proof Lc as (P & F & _). pose proof Ld as (Pd & Fd & _).
  set (nq := local_npts (fwin pcoord)). set (m := bdata (h (fbuf mesh))). set (a := bdata (h (fbuf src))). destruct (whole_contents h mesh Lm WM) as (CM & BM). fold np in CM, BM. fold m in CM. rewrite CM in IN.
  assert (WDs : whole_block src) by (unfold whole_block; rewrite W3; exact WM). destruct (whole_contents h src Lv WDs) as (_ & BS). rewrite W3 in BS. fold np in BS.
  assert (NQ : 0 < nq) by (apply npts_pos; exact P).
  exists (Nat.max (Z.to_nat np) (Z.to_nat nq)). intros fuel Hf.
  set (part := part_at h pcoord psize pcoord). set (col := fun p => fold_left dadd (found dx m a np p) d_zero).
  assert (E : IterP.ends (cell_to_particle64 fuel dx mesh pcoord psize src dest) h (fun h' _ =>
    differs_only h h' (only dest) /\ forall j, 0 <= j < nq -> bdata (h' (fbuf dest)) (kcell (fwin pcoord) j) = col (part j))).
  { unfold cell_to_particle64. rewrite !cbegin_ok, cend_ok by (rewrite ?W1, ?W2; exact P). rewrite begin_ok by (assumption || (rewrite W2; exact P)). cbn [lift pbind]. rewrite W1, W2.
    apply ends_bind. eapply ends_mono.
    2:{ apply (for_iter_rule dbl (fwin pcoord) _ (fun q hk s => s = (iter_at 0 (fwin pcoord) q, iter_at 0 (fwin pcoord) q) /\ differs_only h hk (only dest) /\
            forall j, 0 <= j < q -> bdata (hk (fbuf dest)) (kcell (fwin pcoord) j) = col (part j))
            (fun hk _ => differs_only h hk (only dest) /\ forall j, 0 <= j < nq -> bdata (hk (fbuf dest)) (kcell (fwin pcoord) j) = col (part j)))
          with (n := Z.to_nat nq); try lia; try apply P; try exact F.
        - intros q hk s Hq (-> & Dk & Vk). pose proof Dk as (Ck & Nk).
          assert (PA : part_at hk pcoord psize pcoord q = part q) by (apply (part_differs _ _ _ _ _ _ _ Dk); intros i; unfold only; assumption).
          cbn [fst snd]. rewrite !icur_at.
          apply ends_load; [rewrite Ck; apply live_cell; assumption|]. apply ends_load; [rewrite Ck, <- W1; apply live_cell; [assumption|rewrite W1; assumption]|].
          cbv zeta. set (x := bdata (hk (fbuf pcoord)) (kcell (fwin pcoord) q)). set (s := bdata (hk (fbuf psize)) (kcell (fwin pcoord) q)).
          change (part_at hk pcoord psize pcoord q) with (x, s, x) in PA. fold (lft x s). fold (rgt x s).
          assert (RE : reached dx (map m (zrange np)) (x, s, x)) by (rewrite PA; apply IN; rewrite particles_at by assumption || reflexivity; apply in_map, in_zrange; exact Hq).
          rewrite (reached_first _ _ _ _ _ RE). apply ends_bind, ends_ret. set (c := kcell (fwin pcoord) q).
          assert (BC : bcells (hk (fbuf dest)) c = true) by (rewrite Ck; unfold c; rewrite <- W2; apply live_cell; [assumption|rewrite W2; assumption]).
          apply ends_store; [exact BC|]. set (h0 := upd hk (fbuf dest) c d_zero).
          assert (D0 : differs_only hk h0 (fun b m => b = fbuf dest /\ m = c)) by (apply differs_upd; auto).
          assert (Dh0 : differs_only h h0 (only dest)) by (eapply differs_trans; [exact Dk|eapply differs_mono; [exact D0|unfold only; tauto]]).
          apply ends_bind. eapply ends_mono; [|apply (collect_whole fuel dx mesh src (fbuf dest) c x s x m a np h0 RE S0 S3)]; try lia.
          { intros h' r (A & B). apply ends_ret. cbn [fst snd]. rewrite !incr_ok by exact P. split; [reflexivity|].
            split; [eapply differs_trans; [exact Dh0|eapply differs_mono; [exact B|unfold only; tauto]]|].
            intros j Hj. destruct (Z.eq_dec j q) as [->|NE]; [fold c; rewrite A, <- PA; unfold h0; rewrite upd_same; reflexivity|].
            assert (NC : kcell (fwin pcoord) j <> c) by (intros X; apply kcell_inj in X; [congruence|exact P|exact F|lia|lia]).
            rewrite (proj2 B) by tauto. rewrite (proj2 D0) by tauto. apply Vk. lia. }
          + unfold h0. rewrite upd_cells. exact BC.
          + intros k Hk. rewrite !(proj1 Dh0), !(proj2 Dh0) by (unfold only; assumption). auto.
        - intros hk s (_ & A & B). split; [exact A|exact B].
        - split; [reflexivity|]. split; [apply differs_refl|]. intros; lia. }
    intros h' s A. apply ends_ret. exact A. }
  destruct E as (h' & [] & R & A & B). exists h'. split; [exact R|]. split; [|exact A].
  rewrite contents_kcell by exact Pd. rewrite W2. fold nq. rewrite particles_at by assumption || reflexivity. rewrite map_map. apply map_ext_in. intros q Q. apply in_zrange in Q.
  rewrite B by exact Q. reflexivity.
Qed.
