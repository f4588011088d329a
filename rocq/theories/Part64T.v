(** Proofs about the particle operators in double precision: errors of the whole
    calls, and the constructors. *)
From Coq Require Import Reals Lra Lia Psatz.
From Flocq Require Import Core.
From Verif Require Import Prelude WindowM WindowS WindowP GhostM FieldM FieldS MaskM NeboM NeboS IterM IterS IterP RoundM RoundS RoundP RoundQ RoundT RedM RedP HeatM Cmp64M Cmp64S Cmp64P BCS Part64M Part64S Part64P Part64Q Part64R.
Open Scope R_scope.

Lemma four_u : powerRZ 2 (-51) = 4 * u.
Proof. rewrite p2. unfold u. change (-51)%Z with (2 + -53)%Z. rewrite bpow_plus. cbn. lra. Qed.
Lemma last_zrange (m : Z -> dbl) N : (0 < N)%Z -> last (map m (zrange N)) NaN = m (N - 1)%Z.
Proof. intros H. replace N with (N - 1 + 1)%Z at 1 by lia. rewrite zrange_succ, map_app by lia. apply last_last. Qed.

Section Call.
Variables (dx : dbl) (m : Z -> dbl) (N : Z) (delta : R).
Hypothesis Hm : mesh64 delta dx (map m (zrange N)).
Notation W := (val dx).
Notation B := (IZR N * W).
Lemma count_N : INR (length (map m (zrange N))) = IZR N /\ (2 <= N < 2 ^ 31)%Z.
Proof.
  destruct Hm as (_ & _ & _ & L2 & L31 & _). rewrite map_length, zrange_length in *. rewrite INR_IZR_INZ in *. rewrite Z2Nat.id in * by lia.
  split; [reflexivity|]. split; [lia|]. apply lt_IZR. rewrite p2 in L31. exact L31.
Qed.
Lemma mesh_facts : finite dx /\ b2 (-400) <= W /\ B <= b2 400 /\ 0 <= delta /\
  forall k, (0 <= k < N)%Z -> finite (m k) /\ Rabs (val (m k) - (IZR k - / 2) * W) <= delta.
Proof.
  destruct count_N as (C & _). destruct Hm as (F & L & U & _ & _ & D & Ce). rewrite C in U. rewrite p2 in L, U. repeat (split; [assumption|]).
  intros k K. destruct (Ce (Z.to_nat k) (m k)) as (A & E); [apply nth_zrange; exact K|]. split; [exact A|].
  rewrite INR_IZR_INZ, Z2Nat.id in E by lia. exact E.
Qed.
Variable p : particle64.
Hypothesis Hp : inside delta B (mesh_top W (map m (zrange N))) p.
Notation x := (position p).
Notation s := (size p).
Lemma part_facts : finite x /\ finite s /\ b2 (-400) <= val s /\ 4 * (delta + 8 * u * B) <= val s /\ 0 <= val x - val s / 2 /\ val x + val s / 2 <= val (m (N - 1)%Z) + W / 2.
Proof.
  destruct Hp as (A1 & A2 & A3 & A4 & A5 & A6). destruct count_N as (_ & CN). rewrite p2 in A3. unfold blur in A4. rewrite eight_u in A4. unfold mesh_top in A6. rewrite last_zrange in A6 by lia.
  repeat (split; [assumption|]). exact A6.
Qed.
Lemma inside_reached : reached dx (map m (zrange N)) p.
Proof.
  destruct mesh_facts as (F & L & U & D & Ce). destruct part_facts as (P1 & P2 & P3 & P4 & P5 & P6). destruct count_N as (_ & CN).
  destruct (start_val dx m N delta L U CN D Ce x s P1 P2 P3 P4 P5 P6) as (S1 & S2 & _).
  pose proof (last_stops dx m N delta F L U CN D Ce x s P1 P2 P3 P4 P5 P6) as ST.
  split; [exact S1|]. split; [unfold lft, d_two in S2; lia|]. right. split; [unfold lft, d_two in S2; lia|].
  exists (Z.to_nat (N - 1)), (m (N - 1)%Z). split; [unfold lft, d_two in S2; lia|]. split; [apply nth_zrange; lia|exact ST].
Qed.
Lemma ctr_facts v k : ordinary v -> (0 <= k < N)%Z ->
  match ctr dx m N x s v k with Some z => finite z | None => True end /\
  Rabs (vopt (ctr dx m N x s v k) - val v * share W p k) <= Rabs (val v) * (4 * blur delta B / val s) /\ Rabs (vopt (ctr dx m N x s v k)) <= 2 * Rabs (val v).
Proof.
  intros Ov K. destruct mesh_facts as (F & L & U & D & Ce). destruct part_facts as (P1 & P2 & P3 & P4 & P5 & P6). destruct count_N as (_ & CN).
  split; [exact (proj1 (ctr_err dx m N delta F L U CN D Ce x s P1 P2 P3 P4 P5 P6 v k Ov K))|].
  unfold blur. rewrite eight_u. replace p with (x, s, amount p) at 3 by (destruct p as ((a & b) & c); reflexivity).
  exact (ctr_share dx m N delta F L U CN D Ce x s P1 P2 P3 P4 P5 P6 v (amount p) k Ov K).
Qed.
Lemma ctr_total v : ordinary v ->
  Rabs (rsum (map (fun k => vopt (ctr dx m N x s v k)) (zrange N)) - val v) <= Rabs (val v) * (4 * u * (B / val s) + 5 * u * (1 + 2 * IZR N * blur delta B / val s)) /\
  rsum (map (fun k => Rabs (vopt (ctr dx m N x s v k))) (zrange N)) <= 2 * Rabs (val v) * (1 + 2 * IZR N * blur delta B / val s) /\
  1 <= 1 + 2 * IZR N * blur delta B / val s.
Proof.
  intros Ov. destruct mesh_facts as (F & L & U & D & Ce). destruct part_facts as (P1 & P2 & P3 & P4 & P5 & P6). destruct count_N as (_ & CN).
  unfold blur. rewrite eight_u. destruct (ctr_sum dx m N delta F L U CN D Ce x s P1 P2 P3 P4 P5 P6 v Ov) as (A & C). split; [exact A|]. split; [exact C|].
  assert (0 <= 2 * IZR N * (delta + 8 * u * B) / val s); [|lra]. pose proof u_pos. assert (0 < W) by (eapply Rlt_le_trans; [apply bpow_gt_0|exact L]).
  assert (0 < val s) by (eapply Rlt_le_trans; [apply bpow_gt_0|exact P3]). assert (2 <= IZR N) by (apply IZR_le; lia).
  apply Rmult_le_pos; [|left; apply Rinv_0_lt_compat; assumption]. apply Rmult_le_pos; [lra|]. assert (0 <= IZR N * W) by nra. nra.
Qed.
Lemma found_opts a : found dx m a N p = opts (fun k => ctr dx m N x s (a k) k) (zrange N).
Proof.
  destruct mesh_facts as (F & L & U & D & Ce). destruct part_facts as (P1 & P2 & P3 & P4 & P5 & P6). destruct count_N as (_ & CN).
  destruct (start_val dx m N delta L U CN D Ce x s P1 P2 P3 P4 P5 P6) as (_ & S2 & _). fold (i0 dx x s) in S2. cbv zeta in S2.
  unfold found. rewrite gathered_opts. set (i := i0 dx x s) in *. rewrite zup_zrange. replace (Z.to_nat N) with (Z.to_nat i + Z.to_nat (N - i))%nat by lia.
  rewrite zup_app. replace (0 + Z.of_nat (Z.to_nat i))%Z with i by lia. unfold opts at 2. rewrite flat_map_app.
  match goal with |- _ = ?e ++ _ => assert (e = []) as -> end; [|reflexivity].
  assert (G : forall l, (forall k, In k l -> (k < i)%Z) -> flat_map (fun k => match ctr dx m N x s (a k) k with Some z => [z] | None => [] end) l = []).
  { induction l as [|k l IH]; intros H; [reflexivity|]. cbn [flat_map]. rewrite IH by (intros j J; apply H; right; exact J). unfold ctr, pc. rewrite piece_before by (apply H; left; reflexivity). reflexivity. }
  apply G. intros k K. apply in_zup in K. lia.
Qed.
End Call.

Lemma deposit_value n h mesh pcoord psize src dest dx delta :
  deposit_fields n h mesh pcoord psize src dest -> mesh64 delta dx (contents h mesh) ->
  let B := INR (length (contents h mesh)) * val dx in
  let ps := particles64 h pcoord psize src in
  (forall p, In p ps -> inside delta B (mesh_top (val dx) (contents h mesh)) p /\ ordinary (amount p)) ->
  INR (length ps) <= powerRZ 2 50 -> rsum (map (fun p => Rabs (val (amount p))) ps) <= powerRZ 2 400 ->
  leaves (fun fuel => particle_to_cell64 fuel dx mesh pcoord psize src dest) h dest (fun cells =>
    length cells = length (contents h mesh) /\
    (forall k c, nth_error cells k = Some c -> finite c /\
       Rabs (val c - rsum (map (fun p => val (amount p) * share (val dx) p (Z.of_nat k)) ps))
         <= rsum (map (fun p => Rabs (val (amount p)) * (4 * blur delta B / val (size p) + INR (length ps) * powerRZ 2 (-51))) ps)) /\
    Rabs (rsum (map val cells) - rsum (map (fun p => val (amount p)) ps))
      <= powerRZ 2 (-51) * rsum (map (fun p => Rabs (val (amount p)) *
           (B / val (size p) + (INR (length ps) + 2) * (1 + 2 * INR (length (contents h mesh)) * blur delta B / val (size p)))) ps)).
Proof.
  intros (Lm & WM & Lc & Ls & Lv & W1 & W2 & DO & FG & Ld & WD & S0 & S1 & S2 & S3) HM B ps IN K50 V400.
  destruct (whole_contents h mesh Lm WM) as (CM & _). set (N := local_npts (fwin mesh)) in *. set (m := bdata (h (fbuf mesh))) in *.
  rewrite CM in HM, IN. destruct (count_N dx m N delta HM) as (CN & NB). subst B. rewrite CM in *. rewrite CN in *.
  destruct (p2c_run n h mesh pcoord psize src dest dx Lm WM Lc Ls Lv W1 W2 DO FG Ld WD S0 S1 S2 S3) as (K & H).
  { intros p I. fold N. fold m in CM. rewrite CM. eapply inside_reached; [exact HM|]. apply IN. exact I. }
  fold N in H. fold m in H. fold ps in H. exists K. intros fuel Hf. destruct (H fuel Hf) as (h' & R & C & D). exists h'. split; [exact R|]. split; [exact D|]. rewrite C. clear H R D C.
  set (g := fun k => fold_left (fun c p => plus_opt c (placed dx m N p k)) ps d_zero).
  set (V := fun p : particle64 => Rabs (val (amount p))) in *.
  assert (P : forall k, (0 <= k < N)%Z -> finite (g k) /\ Rabs (val (g k) - rsum (map (fun p => vopt (placed dx m N p k)) ps)) <= INR (length ps) * (2 * u) * rsum (map (fun p => Rabs (vopt (placed dx m N p k))) ps)).
  { intros k Hk. unfold g. rewrite opts_fold. apply (opts_err (fun p => placed dx m N p k) ps (fun p => 2 * V p)).
    - intros p I. destruct (IN p I) as (Ip & Op). exact (proj1 (ctr_facts dx m N delta HM p Ip (amount p) k Op Hk)).
    - intros p I. destruct (IN p I) as (Ip & Op). exact (proj2 (proj2 (ctr_facts dx m N delta HM p Ip (amount p) k Op Hk))).
    - eapply Rle_trans; [exact K50|]. rewrite !p2. apply bpow_le. lia.
    - rewrite rsum_scale. apply Rle_trans with (2 * powerRZ 2 400); [lra|]. rewrite !p2. change (2 * b2 400) with (b2 1 * b2 400). rewrite <- bpow_plus. apply bpow_le. lia. }
  pose proof u_pos as Up. pose proof (pos_INR (length ps)) as Kp. rewrite four_u.
  split; [rewrite !map_length; reflexivity|]. split.
  - intros k c E. apply nth_zrange_inv in E as (Hk & ->). fold (g (Z.of_nat k)). destruct (P (Z.of_nat k) ltac:(lia)) as (Fg & Eg). split; [exact Fg|].
    assert (E1 : Rabs (rsum (map (fun p => vopt (placed dx m N p (Z.of_nat k))) ps) - rsum (map (fun p => val (amount p) * share (val dx) p (Z.of_nat k)) ps)) <= rsum (map (fun p => V p * (4 * blur delta (IZR N * val dx) / val (size p))) ps)).
    { apply rsum_diff_le. intros p I. destruct (IN p I) as (Ip & Op). exact (proj1 (proj2 (ctr_facts dx m N delta HM p Ip (amount p) (Z.of_nat k) Op ltac:(lia)))). }
    assert (E2 : rsum (map (fun p => Rabs (vopt (placed dx m N p (Z.of_nat k)))) ps) <= rsum (map (fun p => 2 * V p) ps)).
    { apply rsum_le. intros p I. destruct (IN p I) as (Ip & Op). exact (proj2 (proj2 (ctr_facts dx m N delta HM p Ip (amount p) (Z.of_nat k) Op ltac:(lia)))). }
    rewrite (map_ext (fun p => Rabs (val (amount p)) * (4 * blur delta (IZR N * val dx) / val (size p) + INR (length ps) * (4 * u))) (fun p => V p * (4 * blur delta (IZR N * val dx) / val (size p)) + (INR (length ps) * (4 * u)) * V p)) by (intros p; unfold V; ring).
    rewrite rsum_plus, rsum_scale. rewrite rsum_scale in E2.
    match goal with |- Rabs (?a - ?c) <= _ => match type of E1 with Rabs (?b - _) <= _ => replace (a - c) with ((a - b) + (b - c)) by ring end end.
    eapply Rle_trans; [apply Rabs_triang|]. assert (INR (length ps) * (2 * u) * rsum (map (fun p => Rabs (vopt (placed dx m N p (Z.of_nat k)))) ps) <= INR (length ps) * (2 * u) * (2 * rsum (map V ps))) by (apply Rmult_le_compat_l; [nra|exact E2]). lra.
  - rewrite map_map. change (fun x => val (fold_left (fun c p => plus_opt c (placed dx m N p x)) ps d_zero)) with (fun x => val (g x)).
    assert (E1 : Rabs (rsum (map (fun k => val (g k)) (zrange N)) - rsum (map (fun k => rsum (map (fun p => vopt (placed dx m N p k)) ps)) (zrange N)))
                 <= rsum (map (fun k => INR (length ps) * (2 * u) * rsum (map (fun p => Rabs (vopt (placed dx m N p k))) ps)) (zrange N))).
    { apply rsum_diff_le. intros k I. apply in_zrange in I. exact (proj2 (P k I)). }
    rewrite rsum_scale in E1. rewrite (rsum_swap (fun k p => vopt (placed dx m N p k))), (rsum_swap (fun k p => Rabs (vopt (placed dx m N p k)))) in E1.
    set (sp := fun p => 1 + 2 * IZR N * blur delta (IZR N * val dx) / val (size p)).
    assert (E2 : Rabs (rsum (map (fun p => rsum (map (fun k => vopt (placed dx m N p k)) (zrange N))) ps) - rsum (map (fun p => val (amount p)) ps))
                 <= rsum (map (fun p => V p * (4 * u * (IZR N * val dx / val (size p)) + 5 * u * sp p)) ps)).
    { apply rsum_diff_le. intros p I. destruct (IN p I) as (Ip & Op). exact (proj1 (ctr_total dx m N delta HM p Ip (amount p) Op)). }
    assert (E3 : rsum (map (fun p => rsum (map (fun k => Rabs (vopt (placed dx m N p k))) (zrange N))) ps) <= rsum (map (fun p => 2 * V p * sp p) ps)).
    { apply rsum_le. intros p I. destruct (IN p I) as (Ip & Op). exact (proj1 (proj2 (ctr_total dx m N delta HM p Ip (amount p) Op))). }
    assert (E4 : INR (length ps) * (2 * u) * rsum (map (fun p => 2 * V p * sp p) ps) + rsum (map (fun p => V p * (4 * u * (IZR N * val dx / val (size p)) + 5 * u * sp p)) ps)
                 <= 4 * u * rsum (map (fun p => V p * (IZR N * val dx / val (size p) + (INR (length ps) + 2) * sp p)) ps)).
    { rewrite <- !rsum_scale, <- rsum_plus. apply rsum_le. intros p I. destruct (IN p I) as (Ip & Op). pose proof (proj2 (proj2 (ctr_total dx m N delta HM p Ip (amount p) Op))) as Sg. fold (sp p) in Sg.
      pose proof (Rabs_pos (val (amount p))) as Vp. fold (V p) in Vp.
      generalize (IZR N * val dx / val (size p)). intros bs.
      replace (INR (length ps) * (2 * u) * (2 * V p * sp p) + V p * (4 * u * bs + 5 * u * sp p))
        with (4 * u * (V p * (bs + (INR (length ps) + 5 / 4) * sp p))) by field.
      apply Rmult_le_compat_l; [lra|]. apply Rmult_le_compat_l; [exact Vp|]. apply Rplus_le_compat_l. apply Rmult_le_compat_r; lra. }
    match goal with |- Rabs (?a - ?c) <= _ => match type of E1 with Rabs (_ - ?b) <= _ => replace (a - c) with ((a - b) + (b - c)) by ring end end.
    eapply Rle_trans; [apply Rabs_triang|]. eapply Rle_trans; [|exact E4]. apply Rplus_le_compat; [|exact E2].
    eapply Rle_trans; [exact E1|]. apply Rmult_le_compat_l; [nra|exact E3].
Qed.

Lemma collect_value h mesh pcoord psize src dest dx delta :
  collect_fields h mesh pcoord psize src dest -> mesh64 delta dx (contents h mesh) -> Forall ordinary (contents h src) ->
  let Nc := INR (length (contents h mesh)) in
  let B := Nc * val dx in
  let ps := particles64 h pcoord psize pcoord in
  (forall p, In p ps -> inside delta B (mesh_top (val dx) (contents h mesh)) p) ->
  leaves (fun fuel => cell_to_particle64 fuel dx mesh pcoord psize src dest) h dest (fun out =>
    length out = length ps /\
    forall j p r, nth_error ps j = Some p -> nth_error out j = Some r -> finite r /\
      Rabs (val r - rsum (map (fun ka => val (snd ka) * share (val dx) p (fst ka)) (combine (zrange (Z.of_nat (length (contents h mesh)))) (contents h src))))
        <= (4 * blur delta B / val (size p) + Nc * powerRZ 2 (-51)) * rsum (map (fun a => Rabs (val a)) (contents h src)) /\
      forall c, (forall a, In a (contents h src) -> a = c) ->
        Rabs (val r - val c) <= powerRZ 2 (-51) * Rabs (val c) * (B / val (size p) + (Nc + 2) * (1 + 2 * Nc * blur delta B / val (size p)))).
Proof.
  intros (Lm & WM & Lc & Ls & Lv & Ld & W1 & W2 & W3 & RO & S0 & S1 & S2 & S3) HM OA Nc B ps IN. subst B Nc.
  destruct (whole_contents h mesh Lm WM) as (CM & _). set (N := local_npts (fwin mesh)) in *. set (m := bdata (h (fbuf mesh))) in *.
  assert (WS : whole_block src) by (unfold whole_block; rewrite W3; exact WM). destruct (whole_contents h src Lv WS) as (CS & _). rewrite W3 in CS. fold N in CS. set (a := bdata (h (fbuf src))) in *.
  rewrite CM in HM, IN. destruct (count_N dx m N delta HM) as (CN & NB). rewrite CM in *. rewrite CN in *. rewrite CS in *. clear CS.
  destruct (c2p_run h mesh pcoord psize src dest dx Lm WM Lc Ls Lv Ld W1 W2 W3 RO S0 S1 S2 S3) as (K & H).
  { intros p I. fold N. fold m in CM. rewrite CM. eapply inside_reached; [exact HM|]. apply IN. exact I. }
  fold N in H. fold m in H. fold a in H. fold ps in H. exists K. intros fuel Hf. destruct (H fuel Hf) as (h' & R & C & D). exists h'. split; [exact R|]. split; [exact D|]. rewrite C. clear H R D C.
  split; [apply map_length|]. intros j p r Ep Er. rewrite nth_error_map, Ep in Er. cbn [option_map] in Er. injection Er as <-.
  assert (Ip : inside delta (IZR N * val dx) (mesh_top (val dx) (map m (zrange N))) p) by (apply IN; eapply nth_error_In; exact Ep).
  rewrite (found_opts dx m N delta HM p Ip). set (f := fun k => ctr dx m N (position p) (size p) (a k) k).
  assert (Oa : forall k, (0 <= k < N)%Z -> ordinary (a k)) by (intros k Hk; rewrite Forall_forall in OA; apply OA; apply in_map, in_zrange; exact Hk).
  pose proof u_pos as Up. assert (Np : 2 <= IZR N) by (apply IZR_le; lia).
  assert (LN : INR (length (zrange N)) = IZR N) by (rewrite zrange_length, INR_IZR_INZ, Z2Nat.id by lia; reflexivity).
  destruct (opts_err f (zrange N) (fun k => 2 * Rabs (val (a k)))) as (Fr & Er).
  { intros k I. apply in_zrange in I. exact (proj1 (ctr_facts dx m N delta HM p Ip (a k) k (Oa k I) I)). }
  { intros k I. apply in_zrange in I. exact (proj2 (proj2 (ctr_facts dx m N delta HM p Ip (a k) k (Oa k I) I))). }
  { rewrite LN, p2. apply Rle_trans with (IZR (2 ^ 31)); [apply IZR_le; lia|]. change (IZR (2 ^ 31)) with (b2 31). apply bpow_le. lia. }
  { apply Rle_trans with (rsum (map (fun _ : Z => 2 * b2 400) (zrange N))).
    - apply rsum_le. intros k I. apply in_zrange in I. destruct (Oa k I) as (_ & _ & X). rewrite p2 in X. lra.
    - rewrite rsum_same, LN, p2. apply Rle_trans with (b2 31 * (b2 1 * b2 400)).
      + apply Rmult_le_compat_r; [rewrite <- bpow_plus; apply bpow_ge_0|]. apply Rle_trans with (IZR (2 ^ 31)); [apply IZR_le; lia|right; reflexivity].
      + rewrite <- !bpow_plus. apply bpow_le. lia. }
  rewrite LN in Er. rewrite four_u. split; [exact Fr|]. set (r := val (fold_left dadd (opts f (zrange N)) d_zero)) in *. split.
  - rewrite map_length, zrange_length, Z2Nat.id by lia. rewrite map_map.
    replace (combine (zrange N) (map a (zrange N))) with (map (fun k => (k, a k)) (zrange N)) by (generalize (zrange N); intros l; induction l as [|y l IHl]; cbn; congruence).
    rewrite map_map. cbn [fst snd].
    assert (E1 : Rabs (rsum (map (fun k => vopt (f k)) (zrange N)) - rsum (map (fun k => val (a k) * share (val dx) p k) (zrange N)))
                 <= rsum (map (fun k => (4 * blur delta (IZR N * val dx) / val (size p)) * Rabs (val (a k))) (zrange N))).
    { apply rsum_diff_le. intros k I. apply in_zrange in I. rewrite (Rmult_comm (4 * blur delta (IZR N * val dx) / val (size p))). exact (proj1 (proj2 (ctr_facts dx m N delta HM p Ip (a k) k (Oa k I) I))). }
    assert (E2 : rsum (map (fun k => Rabs (vopt (f k))) (zrange N)) <= rsum (map (fun k => 2 * Rabs (val (a k))) (zrange N))).
    { apply rsum_le. intros k I. apply in_zrange in I. exact (proj2 (proj2 (ctr_facts dx m N delta HM p Ip (a k) k (Oa k I) I))). }
    rewrite rsum_scale in E1, E2.
    match goal with |- Rabs (?a - ?c) <= _ => match type of E1 with Rabs (?b - _) <= _ => replace (a - c) with ((a - b) + (b - c)) by ring end end.
    eapply Rle_trans; [apply Rabs_triang|].
    assert (IZR N * (2 * u) * rsum (map (fun k => Rabs (vopt (f k))) (zrange N)) <= IZR N * (2 * u) * (2 * rsum (map (fun k => Rabs (val (a k))) (zrange N)))) by (apply Rmult_le_compat_l; [nra|exact E2]).
    lra.
  - intros c Hc. assert (Ea : forall k, (0 <= k < N)%Z -> a k = c) by (intros k Hk; apply Hc, in_map, in_zrange, Hk).
    assert (Oc : ordinary c) by (rewrite <- (Ea 0%Z ltac:(lia)); apply Oa; lia).
    assert (X1 : map (fun k => vopt (f k)) (zrange N) = map (fun k => vopt (ctr dx m N (position p) (size p) c k)) (zrange N)) by (apply map_ext_in; intros k I; apply in_zrange in I; unfold f; rewrite Ea by exact I; reflexivity).
    assert (X2 : map (fun k => Rabs (vopt (f k))) (zrange N) = map (fun k => Rabs (vopt (ctr dx m N (position p) (size p) c k))) (zrange N)) by (apply map_ext_in; intros k I; apply in_zrange in I; unfold f; rewrite Ea by exact I; reflexivity).
    rewrite X1, X2 in Er. destruct (ctr_total dx m N delta HM p Ip c Oc) as (T1 & T2 & T3). set (sp := 1 + 2 * IZR N * blur delta (IZR N * val dx) / val (size p)) in *.
    pose proof (Rabs_pos (val c)) as Vp. set (V := Rabs (val c)) in *. revert T1 T2 Er. generalize (IZR N * val dx / val (size p)). intros bs T1 T2 Er.
    match type of Er with Rabs (_ - ?b) <= _ => replace (r - val c) with ((r - b) + (b - val c)) by ring end.
    eapply Rle_trans; [apply Rabs_triang|].
    assert (E3 : IZR N * (2 * u) * rsum (map (fun k => Rabs (vopt (ctr dx m N (position p) (size p) c k))) (zrange N)) <= IZR N * (2 * u) * (2 * V * sp)) by (apply Rmult_le_compat_l; [nra|exact T2]).
    replace (4 * u * V * (bs + (IZR N + 2) * sp)) with (V * (4 * u * bs + 5 * u * sp) + IZR N * (2 * u) * (2 * V * sp) + 3 * (u * (V * sp))) by ring.
    assert (0 <= u * (V * sp)) by (apply Rmult_le_pos; [lra|]; apply Rmult_le_pos; lra). lra.
Qed.

Local Open Scope Z_scope.
(** Any doubles. *)
Lemma deposit_safe n h mesh pcoord psize src dest dx : deposit_fields n h mesh pcoord psize src dest ->
  (forall p, In p (particles64 h pcoord psize src) -> reached dx (contents h mesh) p) ->
  leaves (fun fuel => particle_to_cell64 fuel dx mesh pcoord psize src dest) h dest (fun cells => length cells = length (contents h mesh)).
Proof.
  intros (Lm & WM & Lc & Ls & Lv & W1 & W2 & DO & FG & Ld & WD & S0 & S1 & S2 & S3) IN.
  destruct (p2c_run n h mesh pcoord psize src dest dx Lm WM Lc Ls Lv W1 W2 DO FG Ld WD S0 S1 S2 S3 IN) as (K & H). exists K. intros fuel Hf.
  destruct (H fuel Hf) as (h' & R & C & D). exists h'. split; [exact R|]. split; [exact D|]. rewrite C, (proj1 (whole_contents h mesh Lm WM)), !map_length. reflexivity.
Qed.
Lemma collect_safe h mesh pcoord psize src dest dx : collect_fields h mesh pcoord psize src dest ->
  (forall p, In p (particles64 h pcoord psize pcoord) -> reached dx (contents h mesh) p) ->
  leaves (fun fuel => cell_to_particle64 fuel dx mesh pcoord psize src dest) h dest (fun out => length out = length (particles64 h pcoord psize pcoord)).
Proof.
  intros (Lm & WM & Lc & Ls & Lv & Ld & W1 & W2 & W3 & RO & S0 & S1 & S2 & S3) IN.
  destruct (c2p_run h mesh pcoord psize src dest dx Lm WM Lc Ls Lv Ld W1 W2 W3 RO S0 S1 S2 S3 IN) as (K & H). exists K. intros fuel Hf.
  destruct (H fuel Hf) as (h' & R & C & D). exists h'. split; [exact R|]. split; [exact D|]. rewrite C, !map_length. reflexivity.
Qed.

(** Constructors. *)
Lemma contents_nth {V} (h : heap V) f k : pos_dims (wext (fwin f)) -> 0 <= k < local_npts (fwin f) ->
  nth_error (contents h f) (Z.to_nat k) = Some (bdata (h (fbuf f)) (kcell (fwin f) k)).
Proof. intros P R. rewrite contents_kcell by exact P. apply (nth_zrange (fun k => bdata (h (fbuf f)) (kcell (fwin f) k))). exact R. Qed.
Lemma contents_length {V} (h : heap V) f : pos_dims (wext (fwin f)) -> Z.of_nat (length (contents h f)) = local_npts (fwin f).
Proof. intros P. rewrite contents_kcell by exact P. rewrite map_length, zrange_length. pose proof (npts_pos _ P). lia. Qed.
Lemma ctor64_run h mesh m0 m1 : live h mesh -> whole_block mesh -> nth_error (contents h mesh) 0 = Some m0 -> nth_error (contents h mesh) 1 = Some m1 ->
  let dx := dsub m1 m0 in
  exists N, forall fuel, (N <= fuel)%nat -> exists b : bool, run (particle_op64 fuel mesh) h = (if b then RDone h dx else RThrow) /\
    (b = true <-> even64 dx (contents h mesh)).
Proof.
  intros L W E0 E1 dx. pose proof L as (P & F & _). pose proof (contents_length h mesh P) as CL. set (np := local_npts (fwin mesh)) in *.
  assert (N2 : 2 <= np) by (assert (1 < length (contents h mesh))%nat by (apply nth_error_Some; congruence); lia).
  set (C := fun k => bdata (h (fbuf mesh)) (kcell (fwin mesh) k)).
  assert (CN : forall k, 0 <= k < np -> nth_error (contents h mesh) (Z.to_nat k) = Some (C k)) by (intros k K; apply contents_nth; assumption).
  exists (Z.to_nat np). intros fuel Hf.
  set (D := fun k : Z => dltb d_micro (ddiv (dabs (dsub dx (dsub (C (k + 1)%Z) (C k)))) dx)).
  assert (E : exists r, IterP.ends (let* ix2 := lift (field_cbegin mesh) in let* e := lift (field_cend mesh) in
     for_iter fuel (it_incr ix2) e (true, ix2)
       (fun i2 s => Load (fbuf mesh) (icur i2) (fun b => Load (fbuf mesh) (icur (snd s)) (fun a =>
       Ret ((if dltb d_micro (ddiv (dabs (dsub dx (dsub b a))) dx) then false else fst s, it_incr (snd s)), false))))) h
       (fun h' s => h' = h /\ s = r /\ (fst r = true <-> forall k, 0 <= k < np - 1 -> D k = false))).
  { rewrite cbegin_ok, cend_ok by exact P. cbn [lift pbind]. rewrite incr_ok by exact P.
    set (b := fold_left (fun b k => if D k then false else b) (zrange (np - 1)) true).
    exists (b, iter_at 0 (fwin mesh) (np - 1)).
    assert (FB : forall n, 0 <= n -> fold_left (fun b k => if D k then false else b) (zrange n) true = true <-> forall k, 0 <= k < n -> D k = false).
    { intros n Hn. pattern n. apply natlike_ind; [|intros m Hm IH|exact Hn].
      - cbn. split; [intros; lia|reflexivity].
      - replace (Z.succ m) with (m + 1) by lia. rewrite zrange_succ, fold_left_app by exact Hm. cbn [fold_left]. destruct (D m) eqn:Dm.
        + split; [discriminate|]. intros H. rewrite (H m) in Dm by lia. discriminate.
        + rewrite IH. split; intros H k K; [destruct (Z.eq_dec k m) as [->|]; [exact Dm|apply H; lia]|apply H; lia]. }
    apply (for_iter_rule dbl (fwin mesh) _ (fun k h' s => 1 <= k /\ h' = h /\ s = (fold_left (fun b k => if D k then false else b) (zrange (k - 1)) true, iter_at 0 (fwin mesh) (k - 1))))
      with (n := Z.to_nat (np - 1)); try lia; try apply P; try exact F.
    - intros k h' s K (K1 & -> & ->). cbn [fst snd]. rewrite !icur_at. apply ends_load; [apply live_cell; [exact L|exact K]|]. apply ends_load; [apply live_cell; [exact L|fold np; fold np in K; lia]|].
      apply ends_ret. cbn [fst snd]. split; [lia|]. split; [reflexivity|]. rewrite incr_ok by exact P.
      replace (k + 1 - 1) with (k - 1 + 1) by lia. rewrite zrange_succ, fold_left_app by lia. cbn [fold_left].
      replace (D (k - 1)) with (dltb d_micro (ddiv (dabs (dsub dx (dsub (C k) (C (k - 1)%Z)))) dx)) by (unfold D; replace (k - 1 + 1) with k by lia; reflexivity). reflexivity.
    - intros h' s (_ & -> & ->). split; [reflexivity|]. split; [reflexivity|]. cbn [fst]. apply FB. fold np. lia.
    - split; [lia|]. split; [reflexivity|]. reflexivity. }
  destruct E as (r & h' & s & E & -> & -> & B). exists (fst r). split.
  - unfold particle_op64. unfold get_elem. rewrite (run_bind _ _ _ h h m1); [|].
    2:{ cbn [run]. rewrite <- (kcell_whole mesh 1 W P) by lia. rewrite live_cell by (exact L || (fold np; lia)). fold (C 1). pose proof (CN 1 ltac:(lia)) as X. change (Z.to_nat 1) with 1%nat in X. congruence. }
    rewrite (run_bind _ _ _ h h m0); [|].
    2:{ cbn [run]. rewrite <- (kcell_whole mesh 0 W P) by lia. rewrite live_cell by (exact L || (fold np; lia)). fold (C 0). pose proof (CN 0 ltac:(lia)) as X. change (Z.to_nat 0) with 0%nat in X. congruence. }
    fold dx. rewrite cbegin_ok, cend_ok in * by exact P. cbn [lift pbind] in *. cbv zeta. rewrite (run_bind _ _ _ _ _ _ E). destruct (fst r); reflexivity.
  - rewrite B. split.
    + intros H k a c A A'. assert (LK : (S k < length (contents h mesh))%nat) by (apply nth_error_Some; congruence).
      rewrite <- (Nat2Z.id k) in A. rewrite <- (Nat2Z.id (S k)) in A'. rewrite CN in A, A' by lia. injection A as <-. injection A' as <-.
      specialize (H (Z.of_nat k) ltac:(lia)). unfold D in H. replace (Z.of_nat k + 1) with (Z.of_nat (S k)) in H by lia. exact H.
    + intros H k K. unfold D. apply (H (Z.to_nat k)); [apply CN; lia|]. replace (S (Z.to_nat k)) with (Z.to_nat (k + 1)) by lia. apply CN. lia.
Qed.
Local Open Scope R_scope.
(** An accepted mesh is even to one part in 2^19. *)
Lemma even_step dx a b : finite dx -> finite a -> finite b -> b2 (-400) <= val dx <= b2 400 -> Rabs (val a) <= b2 400 -> Rabs (val b) <= b2 400 ->
  dltb d_micro (ddiv (dabs (dsub dx (dsub b a))) dx) = false -> Rabs (val b - val a - val dx) <= powerRZ 2 (-19) * val dx.
Proof.
  intros Fd Fa Fb (Wl & Wu) Ba Bb T. assert (Wp : 0 < val dx) by (eapply Rlt_le_trans; [apply bpow_gt_0|exact Wl]).
  assert (Up : 0 < u < / 1000000) by (split; [apply u_pos|]; pose proof u_small; unfold u in *; cbn in *; lra).
  assert (P4 : 4 * b2 400 <= b2 1023) by (change (4 * b2 400) with (b2 2 * b2 400); rewrite <- bpow_plus; apply bpow_le; lia).
  destruct (sub_val b a Fb Fa) as (F1 & V1); [apply Rabs_le_inv in Ba, Bb; apply Rabs_le; lra|]. pose proof (minus_err (val b) (val a) (fmt_val _) (fmt_val _)) as E1. rewrite <- V1 in E1.
  set (d := dsub b a) in *. set (len := val b - val a) in *.
  assert (Ll : Rabs len <= 2 * b2 400) by (unfold len; apply Rabs_le_inv in Ba, Bb; apply Rabs_le; lra).
  assert (Dl : Rabs (val d) <= 3 * b2 400). { replace (val d) with ((val d - len) + len) by ring. eapply Rle_trans; [apply Rabs_triang|]. pose proof (Rabs_pos len). nra. }
  destruct (sub_val dx d Fd F1) as (F2 & V2); [apply Rabs_le_inv in Dl; apply Rabs_le; lra|]. pose proof (minus_err (val dx) (val d) (fmt_val _) (fmt_val _)) as E2. rewrite <- V2 in E2.
  set (t := dsub dx d) in *. set (gap := val dx - val d) in *.
  assert (Fm : finite d_micro /\ val d_micro <= 1001 / 1000000000) by (split; [reflexivity|]; unfold val; vm_compute B2R; unfold F2R; cbn; lra). destruct Fm as (Fm & Vm).
  assert (Ft : finite (dabs t) /\ val (dabs t) = Rabs (val t)) by (split; [unfold finite, dabs; rewrite is_finite_Babs; exact F2|apply B2R_Babs]). destruct Ft as (Ft & Vt).
  assert (Z : Rabs (val t) <= 102 / 100 * / 1000000 * val dx).
  { destruct (Rle_lt_dec (Rabs (val t)) (102 / 100 * / 1000000 * val dx)) as [|G]; [assumption|exfalso].
    set (z := Rabs (val t) / val dx). assert (Zp : 102 / 100 * / 1000000 < z).
    { apply (Rmult_lt_reg_r (val dx)); [exact Wp|]. unfold z, Rdiv. rewrite (Rmult_assoc (Rabs (val t))), Rinv_l by lra. lra. }
    assert (Rz : 101 / 100 * / 1000000 <= rnd z).
    { pose proof (abs_eps z) as Ez. rewrite (Rabs_pos_eq z) in Ez by lra. apply Rabs_le_inv in Ez. assert (b2 (-1075) <= b2 (-53)) by (apply bpow_le; lia). fold u in H.
      assert (u <= / 1000000000000). { unfold u. cbn. lra. } nra. }
    assert (NT : dltb d_micro (ddiv (dabs t) dx) = true); [|congruence].
    pose proof (ddiv_val (dabs t) dx Ft ltac:(lra)) as DV. rewrite Vt in DV. fold z in DV.
    destruct (Rlt_le_dec (Rabs (rnd z)) (b2 1024)) as [S|O].
    - destruct (DV S) as (F3 & V3). apply lt_val; [exact Fm|exact F3|]. rewrite V3. lra.
    - (* overflow: the quotient is infinite *)
      pose proof (Bdiv_correct 53 1024 d_prec d_emax mode_NE (dabs t) dx ltac:(change (B2R dx) with (val dx); lra)) as BC.
      change (B2R (dabs t)) with (val (dabs t)) in BC. change (B2R dx) with (val dx) in BC. rewrite Vt in BC. fold z in BC.
      change (round radix2 (SpecFloat.fexp 53 1024) (round_mode mode_NE) z) with (rnd z) in BC. rewrite Rlt_bool_false in BC by exact O.
      assert (Sg : xorb (Bsign (dabs t)) (Bsign dx) = false).
      { assert (Bsign (dabs t) = false) as -> by (unfold dabs; apply Bsign_Babs; exact Fm || (destruct t; reflexivity)).
        destruct (val_nz dx Fd ltac:(lra)) as (sg & mm & ex & Bd & Ed). rewrite Ed in Wp |- *. destruct sg; [|reflexivity]. exfalso. unfold val in Wp. cbn in Wp.
        assert (F2R (Defs.Float radix2 (Z.neg mm) ex) < 0) by (apply F2R_lt_0; reflexivity). cbn in H. lra. }
      rewrite Sg in BC. unfold ddiv. cbn in BC. destruct (Bdiv mode_NE (dabs t) dx) as [| [|] | |]; try discriminate BC. reflexivity. }
  assert (Gp : Rabs gap <= 103 / 100 * / 1000000 * val dx).
  { assert (Rabs gap <= Rabs (val t) + u * Rabs gap). { replace gap with ((gap - val t) + val t) at 1 by ring. eapply Rle_trans; [apply Rabs_triang|]. rewrite (Rabs_minus_sym gap). lra. }
    pose proof (Rabs_pos gap). nra. }
  assert (L2 : Rabs len <= 2 * val dx).
  { assert (Rabs len <= Rabs (val d) + u * Rabs len). { replace len with ((len - val d) + val d) at 1 by ring. eapply Rle_trans; [apply Rabs_triang|]. rewrite (Rabs_minus_sym len). lra. }
    assert (Rabs (val d) <= 11 / 10 * val dx) by (unfold gap in Gp; apply Rabs_le_inv in Gp; apply Rabs_le; lra). pose proof (Rabs_pos len). nra. }
  assert (E3 : Rabs (val d - len) <= u * (2 * val dx)) by (eapply Rle_trans; [exact E1|]; apply Rmult_le_compat_l; lra).
  assert (u <= / 1000000000000) by (unfold u; cbn; lra).
  unfold gap in Gp. apply Rabs_le_inv in Gp, E3. apply Rabs_le. rewrite p2. assert (/ 525000 < b2 (-19)) by (cbn; lra). nra.
Qed.
Lemma even_centred dx coords m0 : finite dx -> b2 (-400) <= val dx <= b2 400 -> (forall c, In c coords -> finite c /\ Rabs (val c) <= b2 400) ->
  nth_error coords 0 = Some m0 -> even64 dx coords ->
  centred (Rabs (val m0 + val dx / 2) + INR (length coords) * powerRZ 2 (-19) * val dx) (val dx) coords.
Proof.
  intros Fd Wb Ok E0 EV. assert (Wp : 0 < val dx) by (eapply Rlt_le_trans; [apply bpow_gt_0|apply Wb]).
  assert (G : forall k c, nth_error coords k = Some c -> Rabs (val c - val m0 - INR k * val dx) <= INR k * powerRZ 2 (-19) * val dx).
  { induction k as [|k IH]; intros c E.
    - replace c with m0 by congruence. cbn [INR]. replace (val m0 - val m0 - 0 * val dx) with 0 by ring. rewrite Rabs_R0. lra.
    - destruct (nth_error coords k) as [a|] eqn:Ea.
      2:{ apply nth_error_None in Ea. assert (S k < length coords)%nat by (apply nth_error_Some; congruence). lia. }
      specialize (IH a eq_refl). destruct (Ok a (nth_error_In _ _ Ea)) as (Fa & Ba). destruct (Ok c (nth_error_In _ _ E)) as (Fc & Bc).
      pose proof (even_step dx a c Fd Fa Fc Wb Ba Bc (EV k a c Ea E)) as St. rewrite S_INR.
      apply Rabs_le_inv in IH, St. apply Rabs_le. lra. }
  intros k c E. split; [exact (proj1 (Ok c (nth_error_In _ _ E)))|]. specialize (G k c E).
  assert (LK : (k < length coords)%nat) by (apply nth_error_Some; congruence). apply lt_INR in LK.
  replace (val c - (INR k - / 2) * val dx) with ((val c - val m0 - INR k * val dx) + (val m0 + val dx / 2)) by field.
  eapply Rle_trans; [apply Rabs_triang|]. rewrite Rplus_comm. apply Rplus_le_compat_l. eapply Rle_trans; [exact G|].
  apply Rmult_le_compat_r; [lra|]. apply Rmult_le_compat_r; [rewrite p2; apply bpow_ge_0|lra].
Qed.
