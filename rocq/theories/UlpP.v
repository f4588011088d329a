(** Proofs about comparing doubles by their number. *)
From Coq Require Import Reals Lra Lia Psatz.
From Flocq Require Import Core.
From Verif Require Import Prelude WindowM WindowS WindowP WindowQ GhostM FieldM FieldS MaskM NeboM NeboS NeboF IterM IterS IterP RoundM RoundS CompareM CompareP UlpM UlpS.
Open Scope Z_scope.

(** ** Positions are in the order of the values *)
Lemma bounded_facts m e : SpecFloat.bounded 53 1024 m e = true ->
  -1074 <= e <= 971 /\ Zpos m < 2 ^ 53 /\ (-1074 < e -> 2 ^ 52 <= Zpos m).
Proof.
  intros B. unfold SpecFloat.bounded in B. apply andb_true_iff in B. destruct B as (C & E).
  unfold SpecFloat.canonical_mantissa in C. apply Zeq_bool_eq in C. apply Zle_bool_imp_le in E.
  unfold SpecFloat.fexp, SpecFloat.emin in C. rewrite Digits.Zpos_digits2_pos in C.
  pose proof (Digits.Zdigits_correct radix2 (Zpos m)) as D. cbn [Z.abs] in D. set (d := Digits.Zdigits radix2 (Zpos m)) in *.
  assert (Dp : 0 < d) by (apply Digits.Zdigits_gt_0; discriminate).
  change (radix2 : Z) with 2 in D.
  assert (H : d <= 53) by lia.
  split; [lia|]. split.
  - apply Z.lt_le_trans with (2 ^ d); [apply D|]. apply Z.pow_le_mono_r; lia.
  - intros L. assert (d = 53) by lia. rewrite H0 in D. apply D.
Qed.
Definition maxpos : Z := 2 ^ 53 - 1 + 2045 * 2 ^ 52.
Lemma position_range x : - maxpos <= position x <= maxpos.
Proof.
  destruct x as [s|s| |s m e B]; cbn [position]; try (unfold maxpos; lia).
  destruct (bounded_facts m e B) as (E & M & _). unfold maxpos. destruct s; lia.
Qed.
Lemma position_pos m e : SpecFloat.bounded 53 1024 m e = true -> 0 < Zpos m + (e + 1074) * 2 ^ 52.
Proof. intros B. destruct (bounded_facts m e B) as (E & M & _). lia. Qed.
(** magnitudes *)
Lemma magnitude_lt m e m' e' : SpecFloat.bounded 53 1024 m e = true -> SpecFloat.bounded 53 1024 m' e' = true ->
  (Zpos m + (e + 1074) * 2 ^ 52 ?= Zpos m' + (e' + 1074) * 2 ^ 52) = match e ?= e' with Eq => (Zpos m ?= Zpos m') | c => c end.
Proof.
  intros B B'. destruct (bounded_facts m e B) as (E & M & L), (bounded_facts m' e' B') as (E' & M' & L').
  destruct (Z.compare_spec e e') as [->|H|H].
  - destruct (Z.compare_spec (Zpos m) (Zpos m')) as [->|K|K]; [apply Z.compare_refl|apply Z.compare_lt_iff; lia|apply Z.compare_gt_iff; lia].
  - apply Z.compare_lt_iff. specialize (L' ltac:(lia)). lia.
  - apply Z.compare_gt_iff. specialize (L ltac:(lia)). lia.
Qed.
Lemma position_compare x y : finite x -> finite y -> Rcompare (val x) (val y) = (position x ?= position y).
Proof.
  intros Fx Fy. pose proof (Bcompare_correct 53 1024 x y Fx Fy) as C. unfold val in *.
  assert (D : Bcompare x y = Some (position x ?= position y)); [|rewrite D in C; congruence].
  destruct x as [s|s| |s m e B], y as [s'|s'| |s' m' e' B']; try discriminate Fx; try discriminate Fy; cbn [position]; unfold Bcompare; cbn [B2SF].
  - reflexivity.
  - pose proof (position_pos m' e' B'). destruct s'; cbn [SpecFloat.SFcompare]; cbv zeta; f_equal; symmetry; [apply Z.compare_gt_iff|apply Z.compare_lt_iff]; lia.
  - pose proof (position_pos m e B). destruct s; cbn [SpecFloat.SFcompare]; cbv zeta; f_equal; symmetry; [apply Z.compare_lt_iff|apply Z.compare_gt_iff]; lia.
  - pose proof (position_pos m e B). pose proof (position_pos m' e' B'). pose proof (magnitude_lt m e m' e' B B') as K.
    destruct s, s'; cbn [SpecFloat.SFcompare].
    + f_equal. cbv zeta. rewrite Z.compare_opp, (Z.compare_antisym (Zpos m + _)), K. destruct (e ?= e'); reflexivity.
    + f_equal. symmetry. cbv zeta. apply Z.compare_lt_iff. lia.
    + f_equal. symmetry. cbv zeta. apply Z.compare_gt_iff. lia.
    + f_equal. cbv zeta. rewrite K. destruct (e ?= e'); reflexivity.
Qed.
Lemma position_lt x y : finite x -> finite y -> ((val x < val y)%R <-> position x < position y).
Proof.
  intros Fx Fy. pose proof (position_compare x y Fx Fy) as C. rewrite <- Z.compare_lt_iff, <- C.
  split; [apply Rcompare_Lt|apply Rcompare_Lt_inv].
Qed.
Lemma position_eq x y : finite x -> finite y -> (val x = val y <-> position x = position y).
Proof.
  intros Fx Fy. pose proof (position_compare x y Fx Fy) as C. rewrite <- Z.compare_eq_iff, <- C.
  split; [apply Rcompare_Eq|apply Rcompare_Eq_inv].
Qed.
Lemma position_le x y : finite x -> finite y -> ((val x <= val y)%R <-> position x <= position y).
Proof. intros Fx Fy. pose proof (position_lt y x Fy Fx). split; intros H1; [destruct (Z.le_gt_cases (position x) (position y)); [assumption|]; assert (val y < val x)%R by (apply H; lia); lra|]. destruct (Rle_or_lt (val x) (val y)); [assumption|]. assert (position y < position x) by tauto. lia. Qed.

(** ** Every position up to the largest double is taken *)
Lemma make_bounded m e : 0 < m < 2 ^ 53 -> -1074 <= e <= 971 -> (-1074 < e -> 2 ^ 52 <= m) ->
  SpecFloat.bounded 53 1024 (Z.to_pos m) e = true.
Proof.
  intros M E N. unfold SpecFloat.bounded. apply andb_true_iff. split; [|apply Zle_imp_le_bool; change (1024 - 53) with 971; lia].
  unfold SpecFloat.canonical_mantissa. apply Zeq_is_eq_bool. unfold SpecFloat.fexp, SpecFloat.emin.
  rewrite Digits.Zpos_digits2_pos, Z2Pos.id by lia.
  pose proof (Digits.Zdigits_correct radix2 m) as D. change (radix2 : Z) with 2 in D. rewrite Z.abs_eq in D by lia. set (d := Digits.Zdigits radix2 m) in *.
  assert (Dp : 0 < d) by (apply Digits.Zdigits_gt_0; lia).
  assert (d <= 53).
  { apply Z.nlt_ge. intros K. assert (2 ^ 53 <= 2 ^ (d - 1)) by (apply Z.pow_le_mono_r; lia). lia. }
  destruct (Z.eq_dec e (-1074)) as [->|Ne]; [lia|].
  assert (53 <= d); [|lia]. apply Z.nlt_ge. intros K. assert (2 ^ d <= 2 ^ 52) by (apply Z.pow_le_mono_r; lia). specialize (N ltac:(lia)). lia.
Qed.
Lemma position_onto_pos p : 0 < p <= maxpos -> exists m e (B : SpecFloat.bounded 53 1024 m e = true), Zpos m + (e + 1074) * 2 ^ 52 = p.
Proof.
  intros P. unfold maxpos in P. destruct (Z_lt_le_dec p (2 ^ 53)) as [L|L].
  - exists (Z.to_pos p), (-1074). exists (make_bounded p (-1074) ltac:(lia) ltac:(lia) ltac:(lia)). rewrite Z2Pos.id by lia. lia.
  - set (q := p / 2 ^ 52). pose proof (Z.div_mod p (2 ^ 52) ltac:(lia)) as Dv. pose proof (Z.mod_pos_bound p (2 ^ 52) ltac:(lia)) as Mb. fold q in Dv.
    assert (Q : 2 <= q <= 2046) by lia.
    exists (Z.to_pos (p - (q - 1) * 2 ^ 52)), (q - 1 - 1074). exists (make_bounded (p - (q - 1) * 2 ^ 52) (q - 1 - 1074) ltac:(lia) ltac:(lia) ltac:(lia)). rewrite Z2Pos.id by lia. lia.
Qed.
Lemma position_onto p : - maxpos <= p <= maxpos -> exists z : dbl, finite z /\ position z = p.
Proof.
  intros P. destruct (Z.lt_trichotomy p 0) as [L|[->|L]].
  - destruct (position_onto_pos (- p) ltac:(lia)) as (m & e & B & E). exists (B754_finite true m e B). split; [reflexivity|]. cbn [position]. lia.
  - exists (B754_zero false). split; reflexivity.
  - destruct (position_onto_pos p ltac:(lia)) as (m & e & B & E). exists (B754_finite false m e B). split; [reflexivity|exact E].
Qed.

(** ** Counting *)
Lemma doubles_list x y : finite x -> finite y -> (val x <= val y)%R ->
  exists l, length l = Z.to_nat (position y - position x) /\ doubles_from_to (val x) (val y) l.
Proof.
  intros Fx Fy L. apply (position_le x y Fx Fy) in L.
  assert (H : forall n, Z.of_nat n <= position y - position x ->
    exists l, length l = n /\ NoDup l /\ forall r, In r l <-> exists z, finite z /\ val z = r /\ position x < position z <= position x + Z.of_nat n).
  { induction n as [|n IH]; intros Hn.
    - exists []. split; [reflexivity|]. split; [constructor|]. intros r. split; [intros []|]. intros (z & _ & _ & ?). lia.
    - destruct (IH ltac:(lia)) as (l & Ln & ND & I).
      pose proof (position_range x). pose proof (position_range y).
      destruct (position_onto (position x + Z.of_nat (S n)) ltac:(lia)) as (z & Fz & Pz).
      exists (val z :: l). split; [cbn; congruence|]. split.
      + constructor; [|exact ND]. rewrite I. intros (z' & Fz' & E & P'). apply (position_eq z' z Fz' Fz) in E. lia.
      + intros r. cbn [In]. rewrite I. split.
        * intros [<-|(z' & A & B & C)]; [exists z; split; [exact Fz|]; split; [reflexivity|lia]|exists z'; split; [exact A|]; split; [exact B|lia]].
        * intros (z' & A & B & C). destruct (Z.eq_dec (position z') (position z)) as [E|E].
          -- left. apply (position_eq z' z A Fz) in E. congruence.
          -- right. exists z'. split; [exact A|]. split; [exact B|lia]. }
  destruct (H (Z.to_nat (position y - position x)) ltac:(lia)) as (l & Ln & ND & I). exists l. split; [exact Ln|]. split; [exact ND|].
  intros r. rewrite I. split.
  - intros (z & A & B & C). split; [exists z; auto|]. subst r. split; [apply (position_lt x z Fx A); lia|apply (position_le z y A Fy); lia].
  - intros ((z & A & B) & C & D). exists z. split; [exact A|]. split; [exact B|]. subst r. apply (position_lt x z Fx A) in C. apply (position_le z y A Fy) in D. lia.
Qed.
Lemma lists_same_length a b l l' : doubles_from_to a b l -> doubles_from_to a b l' -> length l = length l'.
Proof.
  intros (N & I) (N' & I'). apply Nat.le_antisymm; apply NoDup_incl_length; try assumption; intros r Hr; [apply I', I, Hr|apply I, I', Hr].
Qed.
Lemma apart_position n x y : doubles_apart n x y <-> finite x /\ finite y /\ Z.of_nat n = Z.abs (position y - position x).
Proof.
  split.
  - intros (Fx & Fy & l & <- & [(L & D)|(L & D)]); split; try assumption; split; try assumption.
    + destruct (doubles_list x y Fx Fy L) as (l' & E & D'). rewrite (lists_same_length _ _ _ _ D D'), E. apply (position_le x y Fx Fy) in L. lia.
    + destruct (doubles_list y x Fy Fx L) as (l' & E & D'). rewrite (lists_same_length _ _ _ _ D D'), E. apply (position_le y x Fy Fx) in L. lia.
  - intros (Fx & Fy & E). split; [exact Fx|]. split; [exact Fy|]. destruct (Rle_or_lt (val x) (val y)) as [L|L].
    + destruct (doubles_list x y Fx Fy L) as (l & E' & D). exists l. apply (position_le x y Fx Fy) in L as L'. split; [lia|]. left. auto.
    + apply Rlt_le in L. destruct (doubles_list y x Fy Fx L) as (l & E' & D). exists l. apply (position_le y x Fy Fx) in L as L'. split; [lia|]. right. auto.
Qed.
Lemma close_position ulps x y : 0 <= ulps -> (ulp_close ulps x y <-> finite x /\ finite y /\ Z.abs (position y - position x) <= ulps).
Proof.
  intros U. split.
  - intros (n & A & B). apply apart_position in A. destruct A as (A & C & D). rewrite <- D. auto.
  - intros (A & C & D). exists (Z.to_nat (Z.abs (position y - position x))). split; [apply apart_position; split; [exact A|]; split; [exact C|lia]|lia].
Qed.

(** ** The loops *)
Lemma run_bind_throw {V A B} (p : prog V A) (f : A -> prog V B) h : run p h = RThrow -> run (pbind p f) h = RThrow.
Proof.
  revert h. induction p; cbn; intros h E; try discriminate; [reflexivity| |].
  - destruct (bcells (h b) i); [|discriminate]. apply H. exact E.
  - destruct (bcells (h b) i); [|discriminate]. apply IHp. exact E.
Qed.
Lemma differ_cases ulps x y : 0 <= ulps ->
  (ulp_close ulps x y -> differ_ulp64 ulps x y = Ok false) /\
  (finite x -> finite y -> ~ ulp_close ulps x y -> differ_ulp64 ulps x y = Ok true) /\
  (~ (finite x /\ finite y) -> differ_ulp64 ulps x y = Throw).
Proof.
  intros U. unfold differ_ulp64, float_distance. rewrite close_position by exact U. split; [|split].
  - intros (A & B & C). unfold finite in *. rewrite A, B. cbn [andb obind]. destruct (Z.eqb_spec ulps 0) as [E|E]; f_equal.
    + replace (position y - position x =? 0) with true by lia. reflexivity.
    + lia.
  - intros A B C. assert (N : ~ Z.abs (position y - position x) <= ulps) by tauto. unfold finite in *. rewrite A, B. cbn [andb obind].
    destruct (Z.eqb_spec ulps 0) as [E|E]; f_equal.
    + replace (position y - position x =? 0) with false by lia. reflexivity.
    + lia.
  - intros N. replace (is_finite x && is_finite y)%bool with false; [destruct (ulps =? 0); reflexivity|].
    unfold finite in N. destruct (is_finite x), (is_finite y); try reflexivity. tauto.
Qed.
Lemma close_finite ulps x y : ulp_close ulps x y -> finite x /\ finite y.
Proof. intros (n & (A & B & _) & _). auto. Qed.
Lemma close_dec ulps x y : 0 <= ulps -> ulp_close ulps x y \/ ~ ulp_close ulps x y.
Proof.
  intros U. rewrite close_position by exact U. unfold finite. destruct (is_finite x), (is_finite y); try (right; intros (A & B & _); discriminate).
  destruct (Z_le_dec (Z.abs (position y - position x)) ulps); [left; auto|right; tauto].
Qed.
Lemma verdict_total ulps l1 l2 : 0 <= ulps -> length l1 = length l2 -> exists r, verdict (ulp_close ulps) l1 l2 r.
Proof.
  intros U. revert l2. induction l1 as [|x l1 IH]; intros [|y l2] L; try discriminate L; [exists (Some true); constructor|].
  destruct (IH l2 ltac:(cbn in L; lia)) as (r & R). destruct (close_dec ulps x y U) as [C|C]; [exists r; constructor; assumption|].
  destruct (is_finite x) eqn:Fx; [destruct (is_finite y) eqn:Fy|].
  - exists (Some false). apply v_far; assumption.
  - exists None. apply v_bad. intros (_ & K). unfold finite in K. congruence.
  - exists None. apply v_bad. intros (K & _). unfold finite in K. congruence.
Qed.
Lemma verdict_unique (close : dbl -> dbl -> Prop) l1 l2 r r' : (forall x y, close x y -> finite x /\ finite y) ->
  verdict close l1 l2 r -> verdict close l1 l2 r' -> r = r'.
Proof.
  intros C V. revert r'. induction V; intros r' W; inversion W; subst; try reflexivity; try tauto; auto;
    match goal with H : close _ _ |- _ => apply C in H end; tauto.
Qed.
Lemma loop_steps ulps (h : heap dbl) w b1 b2 : 0 <= ulps -> pos_dims (wext w) -> fits w ->
  (forall k, 0 <= k < local_npts w -> bcells (h b1) (kcell w k) = true /\ bcells (h b2) (kcell w k) = true) ->
  forall n k fuel r, 0 <= k -> k + Z.of_nat n = local_npts w -> (n <= fuel)%nat ->
  verdict (ulp_close ulps) (map (fun j => bdata (h b1) (kcell w (k + Z.of_nat j))) (seq 0 n)) (map (fun j => bdata (h b2) (kcell w (k + Z.of_nat j))) (seq 0 n)) r ->
  run (let* s := for_iter fuel (iter_at 0 w k) (iter_at 0 w (local_npts w)) (true, iter_at 0 w k)
    (fun it s => Load b1 (icur it) (fun x => Load b2 (icur (snd s)) (fun y =>
         let* d := lift (differ_ulp64 ulps x y) in
         Ret (if d then ((false, snd s), true) else ((fst s, it_incr (snd s)), false))))) in Ret (fst s)) h
  = match r with Some b => RDone h b | None => RThrow end.
Proof.
  intros U (Ex & Ey & Ez) F C. induction n as [|n IH]; intros k fuel r Hk Hn Hf V.
  - cbn in V. inversion V; subst. assert (k = local_npts w) as -> by lia.
    destruct fuel; cbn [for_iter]; rewrite iter_at_eqb by (assumption || lia); rewrite Z.eqb_refl; reflexivity.
  - destruct fuel as [|fuel]; [lia|]. cbn [for_iter]. rewrite iter_at_eqb by (assumption || lia). destruct (Z.eqb_spec k (local_npts w)); [lia|].
    cbn [pbind snd fst]. rewrite !icur_at. destruct (C k ltac:(lia)) as (C1 & C2).
    assert (S1 : forall b, map (fun j => bdata (h b) (kcell w (k + Z.of_nat j))) (seq 0 (S n))
                 = bdata (h b) (kcell w k) :: map (fun j => bdata (h b) (kcell w ((k + 1) + Z.of_nat j))) (seq 0 n)).
    { intros b. cbn [seq map]. rewrite Z.add_0_r. f_equal. rewrite <- seq_shift, map_map. apply map_ext. intros j. do 2 f_equal. lia. }
    rewrite !S1 in V. set (x := bdata (h b1) (kcell w k)) in *. set (y := bdata (h b2) (kcell w k)) in *.
    cbn [run]. rewrite C1. fold x. cbn [run]. rewrite C2. fold y.
    destruct (differ_cases ulps x y U) as (D1 & D2 & D3).
    inversion V as [|x' y' l1 l2 r' Cl V' E1 E2|x' y' l1 l2 Fx Fy Nc E1 E2|x' y' l1 l2 Nf E1 E2]; subst.
    + rewrite (D1 Cl). cbn [lift pbind snd fst]. rewrite iter_at_incr by (assumption || lia). apply IH; try lia; assumption.
    + rewrite (D2 Fx Fy Nc). reflexivity.
    + rewrite (D3 Nf). reflexivity.
Qed.
Lemma contents_seq (h : heap dbl) f : pos_dims (wext (fwin f)) ->
  contents h f = map (fun j => bdata (h (fbuf f)) (kcell (fwin f) (0 + Z.of_nat j))) (seq 0 (Z.to_nat (local_npts (fwin f)))).
Proof. intros P. rewrite contents_kcell by exact P. unfold zrange. rewrite map_map. apply map_ext. intros j. reflexivity. Qed.
Lemma contents_length (h : heap dbl) f : pos_dims (wext (fwin f)) -> length (contents h f) = Z.to_nat (local_npts (fwin f)).
Proof. intros P. rewrite contents_seq by exact P. rewrite map_length, seq_length. reflexivity. Qed.

Lemma equal_ulp_ok h f1 f2 ulps : live h f1 -> live h f2 -> fwin f1 = fwin f2 -> 0 <= ulps ->
  exists r, verdict (ulp_close ulps) (contents h f1) (contents h f2) r /\
    ends_with (fun fuel => equal_ulp64 fuel f1 f2 ulps) h r /\ ends_with (fun fuel => not_equal_ulp64 fuel f1 f2 ulps) h (option_map negb r).
Proof.
  intros L1 L2 W U. pose proof L1 as (P1 & F1 & _). pose proof L2 as (P2 & _). pose proof (npts_pos _ P1) as NP.
  destruct (verdict_total ulps (contents h f1) (contents h f2) U) as (r & V).
  { rewrite !contents_length by assumption. rewrite W. reflexivity. }
  exists r. split; [exact V|].
  assert (E : forall fuel, (Z.to_nat (local_npts (fwin f1)) <= fuel)%nat -> run (equal_ulp64 fuel f1 f2 ulps) h = match r with Some b => RDone h b | None => RThrow end).
  { intros fuel Hf. unfold equal_ulp64. rewrite (proj2 (win_eqb_iff _ _) W). cbn [negb].
    rewrite cbegin_ok, cend_ok by exact P1. rewrite cbegin_ok by exact P2. cbn [lift]. rewrite <- W. cbn [pbind].
    apply loop_steps with (n := Z.to_nat (local_npts (fwin f1))); try assumption; try lia.
    - intros k Hk. split; [apply live_cell; assumption|]. rewrite W. apply live_cell; [assumption|]. rewrite <- W. exact Hk.
    - rewrite !contents_seq in V by assumption. rewrite <- W in V. exact V. }
  split; exists (Z.to_nat (local_npts (fwin f1))); intros fuel Hf; [apply E, Hf|].
  specialize (E fuel Hf). unfold not_equal_ulp64. destruct r as [b|]; cbn [option_map].
  - apply negated_ok. exact E.
  - apply run_bind_throw. exact E.
Qed.
Lemma equal_ulp_throws h f1 f2 ulps fuel : fwin f1 <> fwin f2 -> run (equal_ulp64 fuel f1 f2 ulps) h = RThrow.
Proof.
  intros N. unfold equal_ulp64. destruct (win_eqb (fwin f1) (fwin f2)) eqn:E; [|reflexivity]. destruct N. apply win_eqb_iff, E.
Qed.
Lemma scalar_steps ulps (h : heap dbl) w b1 d : 0 <= ulps -> pos_dims (wext w) -> fits w ->
  (forall k, 0 <= k < local_npts w -> bcells (h b1) (kcell w k) = true) ->
  forall n k fuel r, 0 <= k -> k + Z.of_nat n = local_npts w -> (n <= fuel)%nat ->
  verdict (ulp_close ulps) (repeat d n) (map (fun j => bdata (h b1) (kcell w (k + Z.of_nat j))) (seq 0 n)) r ->
  run (for_iter fuel (iter_at 0 w k) (iter_at 0 w (local_npts w)) true
    (fun it s => Load b1 (icur it) (fun x =>
       let* b := lift (differ_ulp64 ulps d x) in Ret (if b then (false, true) else (s, false))))) h
  = match r with Some b => RDone h b | None => RThrow end.
Proof.
  intros U (Ex & Ey & Ez) F C. induction n as [|n IH]; intros k fuel r Hk Hn Hf V.
  - cbn in V. inversion V; subst. assert (k = local_npts w) as -> by lia.
    destruct fuel; cbn [for_iter]; rewrite iter_at_eqb by (assumption || lia); rewrite Z.eqb_refl; reflexivity.
  - destruct fuel as [|fuel]; [lia|]. cbn [for_iter]. rewrite iter_at_eqb by (assumption || lia). destruct (Z.eqb_spec k (local_npts w)); [lia|].
    cbn [pbind]. rewrite !icur_at. pose proof (C k ltac:(lia)) as C1.
    assert (S1 : map (fun j => bdata (h b1) (kcell w (k + Z.of_nat j))) (seq 0 (S n))
                 = bdata (h b1) (kcell w k) :: map (fun j => bdata (h b1) (kcell w ((k + 1) + Z.of_nat j))) (seq 0 n)).
    { cbn [seq map]. rewrite Z.add_0_r. f_equal. rewrite <- seq_shift, map_map. apply map_ext. intros j. do 2 f_equal. lia. }
    rewrite S1 in V. cbn [repeat] in V. set (x := bdata (h b1) (kcell w k)) in *.
    cbn [run]. rewrite C1. fold x.
    destruct (differ_cases ulps d x U) as (D1 & D2 & D3).
    inversion V as [|x' y' l1 l2 r' Cl V' E1 E2|x' y' l1 l2 Fx Fy Nc E1 E2|x' y' l1 l2 Nf E1 E2]; subst.
    + rewrite (D1 Cl). cbn [lift pbind snd fst]. rewrite iter_at_incr by (assumption || lia). apply IH; try lia; assumption.
    + rewrite (D2 Fx Fy Nc). reflexivity.
    + rewrite (D3 Nf). reflexivity.
Qed.
Lemma scalar_ulp_ok h d f1 ulps : live h f1 -> 0 <= ulps ->
  exists r, verdict (ulp_close ulps) (repeat d (length (contents h f1))) (contents h f1) r /\
    ends_with (fun fuel => scalar_equal_ulp64 fuel d f1 ulps) h r /\ ends_with (fun fuel => scalar_not_equal_ulp64 fuel d f1 ulps) h (option_map negb r).
Proof.
  intros L1 U. pose proof L1 as (P1 & F1 & _). pose proof (npts_pos _ P1) as NP.
  destruct (verdict_total ulps (repeat d (length (contents h f1))) (contents h f1) U) as (r & V).
  { apply repeat_length. }
  exists r. split; [exact V|].
  assert (E : forall fuel, (Z.to_nat (local_npts (fwin f1)) <= fuel)%nat -> run (scalar_equal_ulp64 fuel d f1 ulps) h = match r with Some b => RDone h b | None => RThrow end).
  { intros fuel Hf. unfold scalar_equal_ulp64. rewrite cbegin_ok, cend_ok by exact P1. cbn [lift pbind].
    apply scalar_steps with (n := Z.to_nat (local_npts (fwin f1))); try assumption; try lia.
    - intros k Hk. apply live_cell; assumption.
    - rewrite contents_length, contents_seq in V by assumption. exact V. }
  split; exists (Z.to_nat (local_npts (fwin f1))); intros fuel Hf; [apply E, Hf|].
  specialize (E fuel Hf). unfold scalar_not_equal_ulp64. destruct r as [b|]; cbn [option_map].
  - apply negated_ok. exact E.
  - apply run_bind_throw. exact E.
Qed.

(** ** Consequences *)
Lemma close_sym ulps x y : 0 <= ulps -> ulp_close ulps x y -> ulp_close ulps y x.
Proof. intros U. rewrite !close_position by exact U. intros (A & B & C). split; [exact B|]. split; [exact A|lia]. Qed.
Lemma verdict_sym (close : dbl -> dbl -> Prop) l1 l2 r : (forall x y, close x y -> close y x) -> verdict close l1 l2 r -> verdict close l2 l1 r.
Proof.
  intros S V. induction V; [constructor|apply v_close; auto|apply v_far; auto|apply v_bad; tauto].
Qed.
Lemma symmetric_ulp h f1 f2 ulps : live h f1 -> live h f2 -> fwin f1 = fwin f2 -> 0 <= ulps -> exists r,
  ends_with (fun fuel => equal_ulp64 fuel f1 f2 ulps) h r /\ ends_with (fun fuel => equal_ulp64 fuel f2 f1 ulps) h r.
Proof.
  intros L1 L2 W U. destruct (equal_ulp_ok h f1 f2 ulps L1 L2 W U) as (r & V & E & _). exists r. split; [exact E|].
  destruct (equal_ulp_ok h f2 f1 ulps L2 L1 (eq_sym W) U) as (r' & V' & E' & _).
  rewrite (verdict_unique (ulp_close ulps) _ _ r r' (close_finite ulps) (verdict_sym _ _ _ _ (fun x y => close_sym ulps x y U) V) V'). exact E'.
Qed.
Lemma zero_ulps x y : ulp_close 0 x y <-> finite x /\ finite y /\ val x = val y.
Proof.
  rewrite close_position by lia. split.
  - intros (A & B & C). split; [exact A|]. split; [exact B|]. apply position_eq; try assumption. lia.
  - intros (A & B & C). split; [exact A|]. split; [exact B|]. apply position_eq in C; try assumption. lia.
Qed.
Lemma one_ulp x y : finite x -> finite y -> (val x < val y)%R -> (ulp_close 1 x y <-> forall z, finite z -> ~ (val x < val z < val y)%R).
Proof.
  intros A B L. rewrite close_position by lia. apply (position_lt x y A B) in L. split.
  - intros (_ & _ & C) z Fz (D & E). apply (position_lt x z A Fz) in D. apply (position_lt z y Fz B) in E. lia.
  - intros H. split; [exact A|]. split; [exact B|]. destruct (Z_le_dec (position y - position x) 1) as [K|K]; [lia|exfalso].
    pose proof (position_range x). pose proof (position_range y). destruct (position_onto (position x + 1) ltac:(lia)) as (z & Fz & Pz).
    apply (H z Fz). split; [apply (position_lt x z A Fz)|apply (position_lt z y Fz B)]; lia.
Qed.
(** The whole answer, read off the lists. *)
Lemma verdict_true (close : dbl -> dbl -> Prop) l1 l2 : (forall x y, close x y -> finite x /\ finite y) ->
  (verdict close l1 l2 (Some true) <-> Forall2 close l1 l2).
Proof.
  intros C. split.
  - intros V. remember (Some true) as r eqn:E. induction V; try discriminate E; constructor; auto.
  - intros F. induction F; constructor; auto.
Qed.
Lemma verdict_throw ulps l1 l2 : 0 <= ulps -> (verdict (ulp_close ulps) l1 l2 None ->
  exists p1 x q1 p2 y q2, l1 = p1 ++ x :: q1 /\ l2 = p2 ++ y :: q2 /\ Forall2 (ulp_close ulps) p1 p2 /\ ~ (finite x /\ finite y)).
Proof.
  intros U V. remember None as r eqn:E. induction V; try discriminate E.
  - destruct (IHV E) as (p1 & x' & q1 & p2 & y' & q2 & -> & -> & F & N). exists (x :: p1), x', q1, (y :: p2), y', q2. repeat split; auto.
  - exists [], x, l1, [], y, l2. repeat split; auto.
Qed.
Lemma distance_unique x y : finite x -> finite y -> exists n, doubles_apart n x y /\
  (forall m, doubles_apart m x y -> m = n) /\ doubles_apart n y x.
Proof.
  intros A B. exists (Z.to_nat (Z.abs (position y - position x))). split; [apply apart_position; split; [exact A|]; split; [exact B|lia]|].
  split; [|apply apart_position; split; [exact B|]; split; [exact A|lia]].
  intros m M. apply apart_position in M. destruct M as (_ & _ & M). lia.
Qed.
