From Verif Require Import Prelude WindowM WindowS WindowP GhostM FieldM FieldS FieldP MaskM MaskS MaskP NeboM NeboS NeboP NeboQ NeboA NeboB NeboC.
#[local] Arguments has_extra : simpl never.

Lemma dec_before ex ey ez j k : 0 < ex -> 0 < ey -> 0 <= j < ex * ey * ez -> 0 <= k < ex * ey * ez -> j < k ->
  before (dec ex ey j) (dec ex ey k).
Proof.
  intros Hx Hy Hj Hk L.
  pose proof (dec_range ex ey ez j Hx Hy Hj) as (A1 & A2 & A3). pose proof (dec_range ex ey ez k Hx Hy Hk) as (B1 & B2 & B3).
  cbn in *. destruct (before_total (dec ex ey j) (dec ex ey k)) as [E|[E|E]]; [|exact E|]; exfalso.
  - pose proof (flat_decomp ex ey j Hx Hy). pose proof (flat_decomp ex ey k Hx Hy). unfold dec in E. injection E as E1 E2 E3. rewrite E1, E2, E3 in H. lia.
  - pose proof (flat_decomp ex ey j Hx Hy) as D1. pose proof (flat_decomp ex ey k Hx Hy) as D2.
    unfold dec in *. cbn in *. pose proof (flat_monotone ex ey _ _ _ _ _ _ B1 B2 A1 A2 E). lia.
Qed.

Lemma box_list lo ext : 0 < ix ext -> 0 < iy ext -> 0 < iz ext ->
  lists_in_order (in_region lo (box_hi lo ext)) (map (pt lo ext) (zrange (npts ext))).
Proof.
  intros Ex Ey Ez. split.
  - intros p. rewrite in_map_iff. rewrite (pt_region lo ext Ex Ey Ez). split.
    + intros (k & <- & I). apply in_zrange in I. eauto.
    + intros (k & I & ->). exists k. split; [reflexivity|]. apply in_zrange. exact I.
  - intros i j p q L Hi Hj.
    assert (Li : (i < length (zrange (npts ext)))%nat).
    { rewrite <- (map_length (pt lo ext)). apply nth_error_Some. congruence. }
    assert (Lj : (j < length (zrange (npts ext)))%nat).
    { rewrite <- (map_length (pt lo ext)). apply nth_error_Some. congruence. }
    rewrite zrange_length in Li, Lj.
    rewrite (map_nth_error _ _ _ (nth_error_zrange (npts ext) i ltac:(lia))) in Hi.
    rewrite (map_nth_error _ _ _ (nth_error_zrange (npts ext) j ltac:(lia))) in Hj.
    injection Hi as <-. injection Hj as <-. unfold pt.
    pose proof (dec_before (ix ext) (iy ext) (iz ext) (Z.of_nat i) (Z.of_nat j) Ex Ey) as B.
    unfold npts in *. specialize (B ltac:(lia) ltac:(lia) ltac:(lia)). unfold before in *; cbn in *. lia.
Qed.

Section NeboD.
Variable V : Type.
Variable vadd vmul : V -> V -> V.
Notation expr := (expr V). Notation heap := (heap V).
Notation denote := (denote V vadd vmul).
Notation reads := (reads V). Notation masks := (masks V). Notation singles := (singles V).
Notation demands := (demands V).
Notation possible_ghosts := (possible_ghosts V).
Notation expr_known := (expr_known V).
Notation operands_ok := (operands_ok V).
Notation wat := (NeboP.wat V vadd vmul).

Lemma known_box n h e pg : operands_ok n h e -> possible_ghosts e = Ok pg ->
  forall p, box_of n pg p <-> expr_known n e p.
Proof.
  intros O Ep.
  destruct (proj1 (possible_ghosts_all V) e iv_zero iv_zero (operands_fin V n h e _ _ O)) as (pg' & Ep' & Gp).
  assert (pg' = pg) by congruence. subst pg'. specialize (Gp iv_zero iv_zero).
  intros p.
  assert (RB : box_of n pg p <-> forall pr, is_proj pr -> - pr p <= pr (gminus pg) /\ pr p + 1 - pr n <= pr (gplus pg)).
  { unfold box_of, in_region. cbn. split.
    - intros H pr [->|[->| ->]]; lia.
    - intros H. pose proof (H ix ltac:(unfold is_proj; auto)). pose proof (H iy ltac:(unfold is_proj; auto)).
      pose proof (H iz ltac:(unfold is_proj; auto)). lia. }
  rewrite RB. split.
  - intros H l m u I q L U.
    assert (HH : forall pr, is_proj pr -> - pr (fst (layers l)) <= pr q < pr n + pr (snd (layers l))).
    { intros pr P. destruct (H pr P) as [H1 H2].
      pose proof (proj1 (proj1 (Gp pr P _)) H1 _ _ _ I) as H1'. pose proof (proj1 (proj2 (Gp pr P _)) H2 _ _ _ I) as H2'.
      rewrite pr_zero in H1', H2' by assumption.
      rewrite iv_le_pr in L, U. specialize (L pr P). specialize (U pr P).
      rewrite pr_sub in L by assumption. rewrite pr_add in U by assumption. lia. }
    pose proof (HH ix ltac:(unfold is_proj; auto)) as X1. pose proof (HH iy ltac:(unfold is_proj; auto)) as Y1.
    pose proof (HH iz ltac:(unfold is_proj; auto)) as Z1. unfold known, in_region; cbn. lia.
  - intros K pr P. split.
    + apply (proj1 (Gp pr P _)). intros l m u I. rewrite pr_zero by assumption.
      destruct (demands_nonneg V e l m u I) as [(? & ? & ?) (? & ? & ?)].
      destruct (K l m u I (iv_sub p m)) as (X & Y & Z); [unfold iv_le; cbn in *; lia..|].
      cbn in X, Y, Z. destruct P as [->|[->| ->]]; lia.
    + apply (proj2 (Gp pr P _)). intros l m u I. rewrite pr_zero by assumption.
      destruct (demands_nonneg V e l m u I) as [(? & ? & ?) (? & ? & ?)].
      destruct (K l m u I (iv_add p u)) as (X & Y & Z); [unfold iv_le; cbn in *; lia..|].
      cbn in X, Y, Z. destruct P as [->|[->| ->]]; lia.
Qed.

Section Red.
Variable n : ivec.
Variable h : heap.
Variable e : expr.
Variable g : ghost.
Hypothesis O : operands_ok n h e.
Hypothesis K : forall p, box_of n g p -> expr_known n e p.
Hypothesis Ex : 0 < ix (box_ext n g).
Hypothesis Ey : 0 < iy (box_ext n g).
Hypothesis Ez : 0 < iz (box_ext n g).
Hypothesis HL : has_leaf V e = true.
Let lo := box_lo g.
Let ext := box_ext n g.
Let nowr (b : nat) (i : Z) : Prop := False.

Lemma red_reads : forall f s p, In (f, s) (reads e iv_zero) -> in_region lo (box_hi lo ext) p -> valid_cell n f (iv_add p s).
Proof. intros f s p I P. eapply known_read; [apply K; apply box_of_eq; exact P|exact I]. Qed.
Lemma red_masks : forall f s p, In (f, s) (masks e iv_zero) -> in_region lo (box_hi lo ext) p -> valid_cell n (mgeo f) (iv_add p s).
Proof. intros f s p I P. eapply known_mask; [apply K; apply box_of_eq; exact P|exact I]. Qed.
Lemma red_rfits : forall f s, In (f, s) (reads e iv_zero) -> fits (leafwin lo ext f s).
Proof. intros f s I. apply (leaf_fits n); [apply (proj1 O f s I)|assumption..|]. intros p P. eapply red_reads; eassumption. Qed.
Lemma red_mfits : forall f s, In (f, s) (masks e iv_zero) -> fits (leafwin lo ext (mgeo f) s).
Proof. intros f s I. apply (leaf_fits n); [apply (proj1 (proj2 O) f s I)|assumption..|]. intros p P. eapply red_masks; eassumption. Qed.

Lemma red_eval k : 0 <= k < npts ext -> solo (rd_valid V n e) nowr (eval V (wat lo ext h true e iv_zero k)) h h (denote h e (pt lo ext k)).
Proof.
  intros Hk. rewrite <- (iv_add_0_r (pt lo ext k)). apply eval_wat_all; try assumption.
  - intros f s I. assert (VC : valid_cell n f (iv_add (pt lo ext k) s)).
    { eapply red_reads; [exact I|]. apply pt_region; eauto. }
    split; [left; exists f, s, (iv_add (pt lo ext k) s); auto|].
    split; [apply (proj1 O f s I); exact VC|reflexivity].
  - intros m s I. split; [apply red_mfits; exact I|]. apply (proj1 (proj2 O) m s I).
Qed.

Lemma red_init : solo (rd_valid V n e) nowr (init V vadd vmul true e (gminus g) (gplus g) iv_zero) h h (wat lo ext h true e iv_zero 0).
Proof.
  apply (proj1 (init_all V vadd vmul lo ext Ex Ey Ez h (rd_valid V n e) nowr (gminus g) (gplus g) true)).
  - intros f s I. apply (leaf_window n); [apply (proj1 O f s I)|reflexivity|reflexivity].
  - intros f s I. split; [apply (leaf_window n); [apply (proj1 (proj2 O) f s I)|reflexivity|reflexivity]|apply red_mfits; exact I].
  - intros f I. split; [apply (proj2 (proj2 O)); exact I|right; eauto].
Qed.

Definition steps (k : Z) (m : nat) : list ivec := map (fun j => pt lo ext (k + Z.of_nat j)) (seq 0 m).
Lemma steps_S k m : steps k (S m) = pt lo ext k :: steps (k + 1) m.
Proof.
  unfold steps. cbn [seq map]. rewrite Z.add_0_r. f_equal. rewrite <- seq_shift, map_map.
  apply map_ext. intros j. f_equal. lia.
Qed.
Lemma steps_all : steps 0 (Z.to_nat (npts ext)) = map (pt lo ext) (zrange (npts ext)).
Proof. unfold steps, zrange. rewrite map_map. reflexivity. Qed.

Lemma fold_loop_solo {R} (proc : R -> V -> R) m : forall fuel k acc,
  0 <= k -> k + Z.of_nat m = npts ext -> (m <= fuel)%nat ->
  solo (rd_valid V n e) nowr (fold_loop V fuel proc acc (wat lo ext h true e iv_zero k)) h h
    (fold_left (fun a p => proc a (denote h e p)) (steps k m) acc).
Proof.
  induction m as [|m IH]; intros fuel k acc Hk Hm Hf.
  - assert (A : at_end V (wat lo ext h true e iv_zero k) = true).
    { rewrite (proj1 (at_end_all V vadd vmul lo ext h Ex Ey Ez)); [rewrite HL; cbn; lia|lia|apply red_rfits|apply red_mfits]. }
    destruct fuel; cbn [fold_loop]; rewrite A; apply solo_ret.
  - assert (A : at_end V (wat lo ext h true e iv_zero k) = false).
    { rewrite (proj1 (at_end_all V vadd vmul lo ext h Ex Ey Ez)); [rewrite HL; cbn; lia|lia|apply red_rfits|apply red_mfits]. }
    destruct fuel as [|fuel]; [lia|]. cbn [fold_loop]. rewrite A. rewrite steps_S. cbn [fold_left].
    eapply solo_bind; [apply red_eval; lia|].
    rewrite (proj1 (next_wat_all V vadd vmul lo ext Ex Ey h true)); [|lia|apply red_mfits].
    apply IH; lia.
Qed.

Lemma fold_with_ok {R} (proc : R -> V -> R) a0 fuel : (Z.to_nat (npts ext) <= fuel)%nat ->
  solo (rd_valid V n e) nowr (fold_with V vadd vmul fuel g proc a0 e) h h
    (fold_left (fun a p => proc a (denote h e p)) (map (pt lo ext) (zrange (npts ext))) a0).
Proof.
  intros Hf. unfold fold_with. eapply solo_bind; [exact red_init|]. rewrite <- steps_all.
  assert (0 < npts ext) by (apply npts_pos; assumption). apply fold_loop_solo; lia.
Qed.
Lemma reduce_with_ok (proc : V -> V -> V) fuel : (Z.to_nat (npts ext) <= fuel)%nat ->
  exists p0 rest, map (pt lo ext) (zrange (npts ext)) = p0 :: rest /\
  solo (rd_valid V n e) nowr (reduce_with V vadd vmul fuel g proc e) h h
    (fold_left (fun a p => proc a (denote h e p)) rest (denote h e p0)).
Proof.
  intros Hf. assert (Np : 0 < npts ext) by (apply npts_pos; assumption).
  destruct (Z.to_nat (npts ext)) as [|m] eqn:E; [lia|].
  exists (pt lo ext 0), (steps 1 m). split; [rewrite <- steps_all, E; apply steps_S|].
  unfold reduce_with. eapply solo_bind; [exact red_init|]. eapply solo_bind; [apply red_eval; lia|].
  rewrite (proj1 (next_wat_all V vadd vmul lo ext Ex Ey h true)); [|lia|apply red_mfits].
  apply fold_loop_solo; lia.
Qed.
End Red.

Lemma lists_ext (R R' : ivec -> Prop) l : (forall p, R p <-> R' p) -> lists_in_order R l -> lists_in_order R' l.
Proof. intros E (A & B). split; [|exact B]. intros p. rewrite A. apply E. Qed.

Lemma reduction_ok n h e : operands_ok n h e -> has_leaf V e = true -> (exists p, expr_known n e p) ->
  exists N p0 rest, lists_in_order (expr_known n e) (p0 :: rest) /\
    (forall A (proc : A -> V -> A) a0 fuel, (N <= fuel)%nat ->
       run (nebo_fold V vadd vmul fuel proc a0 e) h
       = RDone h (fold_left (fun a p => proc a (denote h e p)) (p0 :: rest) a0)) /\
    (forall (proc : V -> V -> V) fuel, (N <= fuel)%nat ->
       run (nebo_reduce V vadd vmul fuel proc e) h
       = RDone h (fold_left (fun a p => proc a (denote h e p)) rest (denote h e p0))).
Proof.
  intros O HL (q & Q).
  destruct (proj1 (possible_ghosts_all V) e iv_zero iv_zero (operands_fin V n h e _ _ O)) as (g & Eg & _).
  pose proof (known_box n h e g O Eg) as B.
  destruct (box_nonempty n g q (proj2 (B q) Q)) as (Ex & Ey & Ez).
  exists (Z.to_nat (npts (box_ext n g))).
  assert (K : forall p, box_of n g p -> expr_known n e p) by (intros p; apply B).
  destruct (reduce_with_ok n h e g O K Ex Ey Ez HL vadd (Z.to_nat (npts (box_ext n g))) (le_n _)) as (p0 & rest & El & _).
  exists p0, rest. split; [|split].
  - rewrite <- El. eapply lists_ext; [|apply box_list; assumption]. intros p. rewrite <- box_of_eq. apply B.
  - intros A proc a0 fuel Hf. rewrite <- El. unfold nebo_fold. rewrite Eg. cbn [lift pbind].
    eapply solo_run. apply fold_with_ok; assumption.
  - intros proc fuel Hf. destruct (reduce_with_ok n h e g O K Ex Ey Ez HL proc fuel Hf) as (p0' & rest' & El' & S).
    rewrite El in El'. injection El' as <- <-. unfold nebo_reduce. rewrite Eg. cbn [lift pbind].
    eapply solo_run. exact S.
Qed.

Lemma reduction_interior_ok n h e : pos_dims n -> operands_ok n h e -> has_leaf V e = true ->
  (forall p, in_box n p -> expr_known n e p) ->
  exists N p0 rest, lists_in_order (in_box n) (p0 :: rest) /\
    (forall A (proc : A -> V -> A) a0 fuel, (N <= fuel)%nat ->
       run (nebo_fold_interior V vadd vmul fuel proc a0 e) h
       = RDone h (fold_left (fun a p => proc a (denote h e p)) (p0 :: rest) a0)) /\
    (forall (proc : V -> V -> V) fuel, (N <= fuel)%nat ->
       run (nebo_reduce_interior V vadd vmul fuel proc e) h
       = RDone h (fold_left (fun a p => proc a (denote h e p)) rest (denote h e p0))).
Proof.
  intros (Px & Py & Pz) O HL K0. set (g := ghost_n 0).
  assert (B : forall p, box_of n g p <-> in_box n p) by (intros p; unfold box_of, in_region, in_box; cbn; lia).
  assert (Ex : 0 < ix (box_ext n g)) by (cbn; lia). assert (Ey : 0 < iy (box_ext n g)) by (cbn; lia).
  assert (Ez : 0 < iz (box_ext n g)) by (cbn; lia).
  exists (Z.to_nat (npts (box_ext n g))).
  assert (K : forall p, box_of n g p -> expr_known n e p) by (intros p P; apply K0, B, P).
  destruct (reduce_with_ok n h e g O K Ex Ey Ez HL vadd (Z.to_nat (npts (box_ext n g))) (le_n _)) as (p0 & rest & El & _).
  exists p0, rest. split; [|split].
  - rewrite <- El. eapply lists_ext; [|apply box_list; assumption]. intros p. rewrite <- box_of_eq. apply B.
  - intros A proc a0 fuel Hf. rewrite <- El. unfold nebo_fold_interior.
    eapply solo_run. apply fold_with_ok; assumption.
  - intros proc fuel Hf. destruct (reduce_with_ok n h e g O K Ex Ey Ez HL proc fuel Hf) as (p0' & rest' & El' & S).
    rewrite El in El'. injection El' as <- <-. unfold nebo_reduce_interior.
    eapply solo_run. exact S.
Qed.

(** Maximum and minimum *)
Lemma fold_max ltb (v : ivec -> V) : strict_order V ltb -> forall l a,
  let r := fold_left (fun x p => std_max V ltb x (v p)) l a in
  (r = a \/ exists p, In p l /\ r = v p) /\ ltb r a = false /\ forall p, In p l -> ltb r (v p) = false.
Proof.
  intros (As & Tr). assert (Ir : forall a, ltb a a = false).
  { intros a. destruct (ltb a a) eqn:E; [|reflexivity]. rewrite (As a a E) in E. discriminate. }
  induction l as [|p l IH]; intros a; cbn [fold_left].
  - split; [left; reflexivity|]. split; [apply Ir|]. intros p [].
  - destruct (IH (std_max V ltb a (v p))) as (A & B & C). cbv zeta.
    set (r := fold_left _ l _) in *. unfold std_max in A, B.
    split; [|split].
    + destruct A as [A|(q & I & A)]; [|right; exists q; split; [right; exact I|exact A]].
      destruct (ltb a (v p)); [right; exists p; split; [left; reflexivity|exact A]|left; exact A].
    + destruct (ltb a (v p)) eqn:E; [|exact B]. apply As in E. eapply Tr; eassumption.
    + intros q [<-|I]; [|apply C; exact I]. destruct (ltb a (v p)) eqn:E; [exact B|]. eapply Tr; eassumption.
Qed.

Lemma strict_order_flip ltb : strict_order V ltb -> strict_order V (fun a b => ltb b a).
Proof. intros (A & B). split; [intros a b; apply A|]. intros a b c H1 H2. eapply B; eassumption. Qed.

Lemma max_min_ok ltb (v : ivec -> V) p0 rest : strict_order V ltb ->
  (let r := fold_left (fun x p => std_max V ltb x (v p)) rest (v p0) in
   (exists p, In p (p0 :: rest) /\ r = v p) /\ forall p, In p (p0 :: rest) -> ltb r (v p) = false) /\
  (let r := fold_left (fun x p => std_min V ltb x (v p)) rest (v p0) in
   (exists p, In p (p0 :: rest) /\ r = v p) /\ forall p, In p (p0 :: rest) -> ltb (v p) r = false).
Proof.
  assert (G : forall ltb, strict_order V ltb -> let r := fold_left (fun x p => std_max V ltb x (v p)) rest (v p0) in
   (exists p, In p (p0 :: rest) /\ r = v p) /\ forall p, In p (p0 :: rest) -> ltb r (v p) = false).
  { intros lt S. destruct (fold_max lt v S rest (v p0)) as (A & B & C). cbv zeta. split.
    - destruct A as [A|(p & I & A)]; [exists p0; split; [left; reflexivity|exact A]|exists p; split; [right; exact I|exact A]].
    - intros p [<-|I]; [exact B|apply C; exact I]. }
  intros S. split; [apply G; exact S|].
  exact (G (fun a b => ltb b a) (strict_order_flip ltb S)).
Qed.
End NeboD.
