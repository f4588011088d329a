(** Proofs about write_matlab: the numbers. *)
From Coq Require Import String Ascii Reals Lra Lia Psatz.
From Flocq Require Import Core.
From Verif Require Import Prelude WindowM WindowS WindowP GhostM FieldM FieldS MaskM NeboM NeboS IterM IterS IterP RoundM RoundS RoundP RoundQ RoundR RoundT MatlabM MatlabS MatlabP.
Open Scope R_scope.

Notation pw := (powerRZ 10).
Lemma pw_pos k : 0 < pw k. Proof. apply powerRZ_lt. lra. Qed.
Lemma pw_add a b : pw (a + b) = pw a * pw b. Proof. apply powerRZ_add. lra. Qed.
Lemma pw_opp k : pw (- k) = / pw k.
Proof.
  pose proof (pw_pos k). apply (Rmult_eq_reg_l (pw k)); [|lra]. rewrite Rinv_r by lra. rewrite <- pw_add. replace (k + - k)%Z with 0%Z by ring. reflexivity.
Qed.
Lemma pw_nat k : (0 <= k)%Z -> pw k = IZR (10 ^ k).
Proof.
  intros H. rewrite <- (Z2Nat.id k H). generalize (Z.to_nat k). clear. induction n as [|n IH]; [reflexivity|].
  rewrite Nat2Z.inj_succ. unfold Z.succ. rewrite pw_add, IH. rewrite Z.pow_add_r by lia. rewrite mult_IZR. f_equal. change (10 ^ 1)%Z with 10%Z. change (pw 1) with (10 ^ 1)%R. lra.
Qed.
Lemma pw_neg k : (k < 0)%Z -> pw k * IZR (10 ^ (- k)) = 1.
Proof. intros H. rewrite <- pw_nat by lia. rewrite <- pw_add. replace (k + - k)%Z with 0%Z by ring. reflexivity. Qed.
Lemma ten15 : IZR (10 ^ 15) = 10 * IZR (10 ^ 14).
Proof. rewrite <- mult_IZR. reflexivity. Qed.
Lemma pw_lt a b : pw a < pw b -> (a < b)%Z.
Proof.
  intros H. destruct (Z_lt_le_dec a b) as [|L]; [assumption|]. exfalso. replace a with (b + (a - b))%Z in H by ring. rewrite pw_add in H.
  rewrite (pw_nat (a - b)) in H by lia. assert (1 <= IZR (10 ^ (a - b))) by (apply IZR_le; pose proof (Z.pow_pos_nonneg 10 (a - b)); lia).
  pose proof (pw_pos b). nra.
Qed.
Lemma pw_le a b : (a <= b)%Z -> pw a <= pw b.
Proof. intros H. apply Rnot_lt_le. intros L. apply pw_lt in L. lia. Qed.

(** ** The nearest integer *)
Lemma nearest_Z N D : (0 < D)%Z -> (2 * Z.abs (nearest_int N D * D - N) <= D)%Z.
Proof.
  intros P. unfold nearest_int. pose proof (Z.div_mod N D ltac:(lia)) as E. pose proof (Z.mod_pos_bound N D P) as B.
  destruct (Z.ltb_spec (2 * (N mod D)) D); [|destruct (Z.ltb_spec D (2 * (N mod D))); [|destruct (Z.even (N / D))]]; nia.
Qed.
Lemma nearest_R N D : (0 < D)%Z -> Rabs (IZR (nearest_int N D) - IZR N / IZR D) <= / 2.
Proof.
  intros P. pose proof (nearest_Z N D P) as H. apply IZR_le in H. rewrite mult_IZR, abs_IZR, minus_IZR, mult_IZR in H.
  assert (PD : 0 < IZR D) by (apply (IZR_lt 0); exact P).
  replace (IZR (nearest_int N D) - IZR N / IZR D) with ((IZR (nearest_int N D) * IZR D - IZR N) / IZR D) by (field; lra).
  unfold Rdiv. rewrite Rabs_mult, (Rabs_pos_eq (/ IZR D)) by (apply Rlt_le, Rinv_0_lt_compat, PD).
  apply (Rmult_le_reg_r (IZR D)); [exact PD|]. rewrite Rmult_assoc, Rinv_l by lra. lra.
Qed.

(** ** The first digit *)
Lemma reaches_R N D k : (0 < D)%Z -> reaches N D k = true <-> pw k <= IZR N / IZR D.
Proof.
  intros P. assert (PD : 0 < IZR D) by (apply (IZR_lt 0); exact P).
  assert (E : pw k <= IZR N / IZR D <-> pw k * IZR D <= IZR N).
  { split; intros H.
    - apply (Rmult_le_compat_r (IZR D)) in H; [|lra]. unfold Rdiv in H. rewrite Rmult_assoc, Rinv_l, Rmult_1_r in H by lra. exact H.
    - apply (Rmult_le_reg_r (IZR D)); [exact PD|]. unfold Rdiv. rewrite Rmult_assoc, Rinv_l, Rmult_1_r by lra. exact H. }
  rewrite E. clear E. unfold reaches. destruct (Z.leb_spec 0 k) as [K|K].
  - rewrite Z.leb_le. rewrite pw_nat by exact K. rewrite <- mult_IZR. split; [apply IZR_le|apply le_IZR].
  - rewrite Z.leb_le. pose proof (pw_neg k K) as X. pose proof (pw_pos k).
    assert (PT : 0 < IZR (10 ^ (- k))) by (apply (IZR_lt 0); apply Z.pow_pos_nonneg; lia). split; intros H0.
    + apply IZR_le in H0. rewrite mult_IZR in H0. apply (Rmult_le_compat_l (pw k)) in H0; [|lra].
      replace (pw k * (IZR N * IZR (10 ^ (- k)))) with (IZR N * (pw k * IZR (10 ^ (- k)))) in H0 by ring. rewrite X in H0. lra.
    + apply le_IZR. rewrite mult_IZR. apply (Rmult_le_compat_r (IZR (10 ^ (- k)))) in H0; [|lra].
      replace (pw k * IZR D * IZR (10 ^ (- k))) with (IZR D * (pw k * IZR (10 ^ (- k)))) in H0 by ring. rewrite X in H0. lra.
Qed.
Lemma lead_ok N D : forall n k, reaches N D k = true -> reaches N D (k + Z.of_nat n) = false ->
  let k' := lead n k N D in reaches N D k' = true /\ reaches N D (k' + 1) = false /\ (k <= k' < k + Z.of_nat n)%Z.
Proof.
  induction n as [|n IH]; intros k A B.
  - rewrite Z.add_0_r in B. congruence.
  - cbn [lead]. destruct (reaches N D (k + 1)) eqn:R.
    + destruct (IH (k + 1)%Z R) as (X & Y & Z); [rewrite <- B; f_equal; lia|]. repeat split; auto; lia.
    + repeat split; auto; lia.
Qed.

(** ** To 15 digits *)
Lemma to_decimal_ok N D X : (0 < N)%Z -> (0 < D)%Z -> X = IZR N / IZR D -> pw (-330) <= X < pw 370 ->
  exists k q0 q k', to_decimal N D = (q, k') /\ pw k <= X < pw (k + 1) /\ Rabs (IZR q0 - X / pw (k - 14)) <= / 2 /\
    (10 ^ 14 <= q < 10 ^ 15)%Z /\ (-330 <= k' <= 370)%Z /\
    ((q = q0 /\ k' = k) \/ (q0 = 10 ^ 15 /\ q = 10 ^ 14 /\ k' = k + 1))%Z.
Proof.
  intros PN PD EX (L & U). assert (PDR : 0 < IZR D) by (apply (IZR_lt 0); exact PD).
  destruct (lead_ok N D 700 (-330)) as (A & B & C).
  { apply reaches_R; [exact PD|]. rewrite <- EX. exact L. }
  { change (-330 + Z.of_nat 700)%Z with 370%Z. destruct (reaches N D 370) eqn:R; [|reflexivity]. apply reaches_R in R; [|exact PD]. rewrite <- EX in R. lra. }
  set (k := lead 700 (-330) N D) in *. change (Z.of_nat 700) with 700%Z in C.
  apply reaches_R in A; [|exact PD]. assert (B' : X < pw (k + 1)).
  { apply Rnot_le_lt. intros H. rewrite EX in H. apply reaches_R in H; [congruence|exact PD]. }
  rewrite <- EX in A.
  set (q0 := if (0 <=? k - 14)%Z then nearest_int N (D * 10 ^ (k - 14)) else nearest_int (N * 10 ^ (- (k - 14))) D).
  assert (Q : Rabs (IZR q0 - X / pw (k - 14)) <= / 2).
  { unfold q0. pose proof (pw_pos (k - 14)). destruct (Z.leb_spec 0 (k - 14)) as [J|J].
    - assert (PT : (0 < 10 ^ (k - 14))%Z) by (apply Z.pow_pos_nonneg; lia). 
      replace (X / pw (k - 14)) with (IZR N / IZR (D * 10 ^ (k - 14))); [apply nearest_R; nia|].
      rewrite EX, mult_IZR, <- pw_nat by exact J. field. lra.
    - replace (X / pw (k - 14)) with (IZR (N * 10 ^ (- (k - 14))) / IZR D); [apply nearest_R; exact PD|].
      rewrite EX, mult_IZR, <- pw_nat by lia. rewrite pw_opp. field. lra. }
  assert (S : IZR (10 ^ 14) <= X / pw (k - 14) < IZR (10 ^ 15)).
  { pose proof (pw_pos (k - 14)). assert (E1 : pw k = IZR (10 ^ 14) * pw (k - 14)) by (rewrite <- pw_nat by lia; rewrite <- pw_add; f_equal; ring).
    assert (E2 : pw (k + 1) = IZR (10 ^ 15) * pw (k - 14)) by (rewrite <- pw_nat by lia; rewrite <- pw_add; f_equal; ring).
    split; [apply (Rmult_le_reg_r (pw (k - 14)))|apply (Rmult_lt_reg_r (pw (k - 14)))]; try assumption; unfold Rdiv; rewrite Rmult_assoc, Rinv_l, Rmult_1_r by lra; lra. }
  assert (R : (10 ^ 14 <= q0 <= 10 ^ 15)%Z).
  { apply Rabs_le_inv in Q. split.
    - assert (H : IZR (10 ^ 14 - 1) < IZR q0) by (rewrite minus_IZR; lra). apply lt_IZR in H. lia.
    - assert (H : IZR q0 < IZR (10 ^ 15 + 1)) by (rewrite plus_IZR; lra). apply lt_IZR in H. lia. }
  assert (TD : to_decimal N D = if (q0 =? 10 ^ 15)%Z then (10 ^ 14, k + 1)%Z else (q0, k)) by reflexivity.
  destruct (Z.eqb_spec q0 (10 ^ 15)) as [E|E].
  - exists k, q0, (10 ^ 14)%Z, (k + 1)%Z. split; [exact TD|]. split; [split; assumption|]. split; [exact Q|]. split; [lia|]. split; [lia|]. right. auto.
  - exists k, q0, q0, k. split; [exact TD|]. split; [split; assumption|]. split; [exact Q|]. split; [lia|]. split; [lia|]. left. auto.
Qed.
Lemma to_decimal_err N D X : (0 < N)%Z -> (0 < D)%Z -> X = IZR N / IZR D -> pw (-330) <= X < pw 370 ->
  exists q k', to_decimal N D = (q, k') /\ (10 ^ 14 <= q < 10 ^ 15)%Z /\ (-330 <= k' <= 370)%Z /\
    Rabs (IZR q * pw (k' - 14) - X) <= 5 / 10 ^ 15 * X.
Proof.
  intros PN PD EX B. destruct (to_decimal_ok N D X PN PD EX B) as (k & q0 & q & k' & E & (A1 & A2) & Q & R & K & C).
  exists q, k'. split; [exact E|]. split; [exact R|]. split; [exact K|]. pose proof (pw_pos (k - 14)) as P.
  assert (V : IZR q * pw (k' - 14) = IZR q0 * pw (k - 14)).
  { destruct C as [(-> & ->)|(-> & -> & ->)]; [reflexivity|]. replace (k + 1 - 14)%Z with (1 + (k - 14))%Z by ring. rewrite pw_add.
    change (10 ^ 15)%Z with (10 ^ 14 * 10)%Z. rewrite mult_IZR. change (pw 1) with (10 * 1). ring. }
  rewrite V. replace (IZR q0 * pw (k - 14) - X) with ((IZR q0 - X / pw (k - 14)) * pw (k - 14)) by (field; lra).
  rewrite Rabs_mult, (Rabs_pos_eq (pw (k - 14))) by lra.
  apply Rle_trans with (/ 2 * pw (k - 14)); [apply Rmult_le_compat_r; lra|].
  assert (E1 : pw k = IZR (10 ^ 14) * pw (k - 14)) by (rewrite <- pw_nat by lia; rewrite <- pw_add; f_equal; ring).
  apply Rle_trans with (5 / 10 ^ 15 * pw k); [rewrite E1|apply Rmult_le_compat_l; lra]. 
  change (IZR (10 ^ 14)) with 100000000000000. lra.
Qed.
(** A decimal of 15 digits that is close enough is found again. *)
Lemma to_decimal_exact N D X d j : (0 < N)%Z -> (0 < D)%Z -> X = IZR N / IZR D -> pw (-330) <= X < pw 370 ->
  (10 ^ 14 <= d < 10 ^ 15)%Z -> Rabs (X - IZR d * pw j) <= u * (IZR d * pw j) -> to_decimal N D = (d, j + 14)%Z.
Proof.
  intros PN PD EX B Hd HX. destruct (to_decimal_ok N D X PN PD EX B) as (k & q0 & q & k' & E & (A1 & A2) & Q & R & K & C).
  rewrite E. assert (UB : u * IZR (10 ^ 15) <= 12 / 100). { unfold u. change (IZR (10 ^ 15)) with 1000000000000000. cbn. lra. }
  pose proof u_pos as UP. pose proof (pw_pos j) as PJ.
  assert (D1 : IZR (10 ^ 14) <= IZR d /\ IZR d + 1 <= IZR (10 ^ 15)) by (rewrite <- plus_IZR; split; apply IZR_le; lia).
  assert (Y : Rabs (X / pw j - IZR d) <= u * IZR d).
  { replace (X / pw j - IZR d) with ((X - IZR d * pw j) / pw j) by (field; lra). unfold Rdiv. rewrite Rabs_mult, (Rabs_pos_eq (/ pw j)) by (apply Rlt_le, Rinv_0_lt_compat, PJ).
    apply (Rmult_le_reg_r (pw j)); [exact PJ|]. rewrite Rmult_assoc, Rinv_l by lra. lra. }
  assert (Y12 : Rabs (X / pw j - IZR d) <= 12 / 100) by nra. apply Rabs_le_inv in Y12.
  assert (XJ : X = X / pw j * pw j) by (field; lra).
  assert (U15 : X < pw (j + 15)). { replace (j + 15)%Z with (15 + j)%Z by ring. rewrite pw_add, (pw_nat 15) by lia. rewrite XJ. apply Rmult_lt_compat_r; lra. }
  assert (L13 : pw (j + 13) < X).
  { replace (j + 13)%Z with (13 + j)%Z by ring. rewrite pw_add, (pw_nat 13) by lia. rewrite XJ. apply Rmult_lt_compat_r; [lra|].
    change (IZR (10 ^ 13)) with 10000000000000. change (IZR (10 ^ 14)) with 100000000000000 in D1. lra. }
  assert (KJ : (k = j + 14 \/ k = j + 13)%Z).
  { assert ((k < j + 15)%Z) by (apply pw_lt; lra). assert ((j + 13 < k + 1)%Z) by (apply pw_lt; lra). lia. }
  apply Rabs_le_inv in Q. destruct KJ as [->| ->].
  - replace (j + 14 - 14)%Z with j in Q by ring.
    assert (q0 = d) as ->.
    { assert (H1 : IZR (d - 1) < IZR q0) by (rewrite minus_IZR; lra). assert (H2 : IZR q0 < IZR (d + 1)) by (rewrite plus_IZR; lra). apply lt_IZR in H1, H2. lia. }
    destruct C as [(-> & ->)|(C & _)]; [reflexivity|lia].
  - replace (j + 13 - 14)%Z with (-1 + j)%Z in Q by ring. rewrite pw_add in Q.
    replace (X / (pw (-1) * pw j)) with (10 * (X / pw j)) in Q by (change (pw (-1)) with (/ (10 * 1)); field; lra).
    replace (j + 13 + 1)%Z with (14 + j)%Z in A2 by ring. rewrite pw_add, (pw_nat 14) in A2 by lia.
    assert (X14 : X / pw j < IZR (10 ^ 14)). { apply (Rmult_lt_reg_r (pw j)); [exact PJ|]. rewrite <- XJ. exact A2. }
    assert (d = 10 ^ 14)%Z as ->. { assert (H : IZR d < IZR (10 ^ 14 + 1)) by (rewrite plus_IZR; lra). apply lt_IZR in H. lia. }
    assert (Y14 : Rabs (X / pw j - IZR (10 ^ 14)) <= 12 / 1000).
    { eapply Rle_trans; [exact Y|]. unfold u. change (IZR (10 ^ 14)) with 100000000000000. cbn. lra. }
    apply Rabs_le_inv in Y14.
    assert (q0 = 10 ^ 15)%Z as ->.
    { assert (H1 : IZR (10 ^ 15 - 1) < IZR q0) by (rewrite minus_IZR; rewrite ten15; lra).
      assert (H2 : IZR q0 < IZR (10 ^ 15 + 1)) by (rewrite plus_IZR; rewrite ten15; lra). apply lt_IZR in H1, H2. lia. }
    destruct C as [(-> & _)|(_ & -> & ->)]; [lia|]. f_equal. ring.
Qed.

(** ** Doubles *)
Lemma dbl_ratio s m e B : let x := B754_finite s m e B : dbl in
  exists N D, (0 < N)%Z /\ (0 < D)%Z /\ Rabs (val x) = IZR N / IZR D /\ pw (-330) <= Rabs (val x) < pw 370 /\
    val x = (if s then -1 else 1) * Rabs (val x) /\
    show x = let '(q, k) := to_decimal N D in (minus_sign s ++ scientific q k)%string.
Proof.
  intros x. assert (A : Rabs (val x) = IZR (Zpos m) * bpow radix2 e).
  { unfold val, x. cbn [B2R]. rewrite <- F2R_Zabs. unfold F2R. cbn [Fnum Fexp]. f_equal. f_equal. destruct s; reflexivity. }
  assert (V : val x = (if s then -1 else 1) * Rabs (val x)).
  { rewrite A. unfold val, x. cbn [B2R]. unfold F2R. cbn [Fnum Fexp]. destruct s; cbn [cond_Zopp]; [change (Z.neg m) with (- Z.pos m)%Z; rewrite opp_IZR|]; ring. }
  assert (R : pw (-330) <= Rabs (val x) < pw 370).
  { split.
    - apply Rle_trans with (bpow radix2 (-1074)).
      + change (-330)%Z with (- (330))%Z. rewrite pw_opp. rewrite pw_nat by lia. change (-1074)%Z with (- (1074))%Z. rewrite bpow_opp.
        apply Rinv_le; [apply bpow_gt_0|]. rewrite <- (IZR_Zpower radix2) by lia. apply IZR_le. vm_compute. discriminate.
      + rewrite A. assert (E : (-1074 <= e)%Z).
        { clear x A V. unfold SpecFloat.bounded, SpecFloat.canonical_mantissa in B. apply andb_prop in B. destruct B as (B & _). apply Zeq_bool_eq in B.
          unfold SpecFloat.fexp, SpecFloat.emin in B. lia. }
        apply (bpow_le radix2) in E. assert (1 <= IZR (Z.pos m)) by (apply IZR_le; lia). pose proof (bpow_gt_0 radix2 e). nra.
    - eapply Rlt_le_trans; [apply val_lt|]. rewrite pw_nat by lia. rewrite <- (IZR_Zpower radix2) by lia. apply IZR_le. vm_compute. discriminate. }
  assert (SH : show x = let '(q, k) := if (0 <=? e)%Z then to_decimal (Zpos m * 2 ^ e) 1 else to_decimal (Zpos m) (2 ^ (- e)) in (minus_sign s ++ scientific q k)%string) by reflexivity.
  revert SH. destruct (Z.leb_spec 0 e) as [E|E]; intros SH.
  - exists (Z.pos m * 2 ^ e)%Z, 1%Z. split; [apply Z.mul_pos_pos; [lia|apply Z.pow_pos_nonneg; lia]|]. split; [lia|]. split; [|split; [exact R|split; [exact V|exact SH]]].
    rewrite A, mult_IZR, (IZR_Zpower radix2) by exact E. field.
  - exists (Z.pos m), (2 ^ (- e))%Z. split; [lia|]. split; [apply Z.pow_pos_nonneg; lia|]. split; [|split; [exact R|split; [exact V|exact SH]]].
    rewrite A, (IZR_Zpower radix2) by lia. rewrite bpow_opp. unfold Rdiv. rewrite Rinv_inv. reflexivity.
Qed.

Lemma show_reads x s : no_digit s -> exists l, read_literal (show x ++ s)%string = Some (l, s) /\ starts (show x ++ s)%string /\ shows l x.
Proof.
  intros N. destruct x as [b|b| |b m e B].
  - destruct (read_signed 0 0 s b) as (R & S); [lia|lia|exact N|]. exists (Dec b 0 (0 - 14)). split; [exact R|]. split; [exact S|]. exists (0 - 14)%Z. reflexivity.
  - exists (Infinite b). split; [destruct b; reflexivity|]. split; [destruct b; split; reflexivity|reflexivity].
  - exists NotANumber. split; [reflexivity|]. split; [split; reflexivity|reflexivity].
  - destruct (dbl_ratio b m e B) as (Nu & D & PN & PD & E & R & V & S). set (x := B754_finite b m e B : dbl) in *.
    destruct (to_decimal_err Nu D _ PN PD E R) as (q & k & T & Q & K & Er). rewrite T in S.
    destruct (read_signed q k s b) as (RL & ST); [lia|lia|exact N|]. exists (Dec b q (k - 14)). rewrite S. split; [exact RL|]. split; [exact ST|].
    unfold x at 1. cbn [shows]. fold x. exists q, (k - 14)%Z. split; [reflexivity|]. split; [exact Q|].
    unfold dec_value. rewrite V at 1. replace ((if b then -1 else 1) * IZR q * pw (k - 14) - (if b then -1 else 1) * Rabs (val x))
      with ((if b then -1 else 1) * (IZR q * pw (k - 14) - Rabs (val x))) by ring.
    rewrite Rabs_mult. replace (Rabs (if b then -1 else 1)) with 1 by (destruct b; [rewrite Rabs_left|rewrite Rabs_pos_eq]; lra). rewrite Rmult_1_l. exact Er.
Qed.
Lemma show_exact x d j : finite x -> (10 ^ 14 <= Z.abs d < 10 ^ 15)%Z -> (-290 <= j <= 290)%Z -> val x = rnd (IZR d * pw j) ->
  forall s, no_digit s -> exists l, read_literal (show x ++ s)%string = Some (l, s) /\ l = Dec (d <? 0)%Z (Z.abs d) j.
Proof.
  intros F Hd Hj E s N. pose proof (pw_pos j) as PJ.
  assert (AD : IZR (10 ^ 14) <= IZR (Z.abs d)) by (apply IZR_le; lia).
  assert (TA : Rabs (IZR d * pw j) = IZR (Z.abs d) * pw j) by (rewrite Rabs_mult, <- abs_IZR, (Rabs_pos_eq (pw j)) by lra; reflexivity).
  assert (BIG : bpow radix2 (-1022) <= Rabs (IZR d * pw j)).
  { rewrite TA. apply Rle_trans with (1 * pw (-290)).
    - rewrite Rmult_1_l. change (-290)%Z with (- (290))%Z. rewrite pw_opp. rewrite pw_nat by lia. change (-1022)%Z with (- (1022))%Z. rewrite bpow_opp.
      apply Rinv_le; [apply (IZR_lt 0); lia|]. rewrite <- (IZR_Zpower radix2) by lia. apply IZR_le. vm_compute. discriminate.
    - apply Rmult_le_compat; [lra|apply Rlt_le, pw_pos| |apply pw_le; lia]. apply Rle_trans with (2 := AD). apply IZR_le. lia. }
  destruct (rel_eps _ BIG) as (ep & He & Er). rewrite Er in E. pose proof u_pos. pose proof u_small. apply Rabs_le_inv in He.
  assert (NZ : val x <> 0). { rewrite E. pose proof (bpow_gt_0 radix2 (-1022)). intros Z. apply Rmult_integral in Z. destruct Z as [Z|Z]; [rewrite Z, Rabs_R0 in BIG; lra|lra]. }
  destruct (val_nz x F NZ) as (b & m & e & B & ->). destruct (dbl_ratio b m e B) as (Nu & D & PN & PD & EX & R & V & S). set (x := B754_finite b m e B : dbl) in *.
  assert (AX : Rabs (val x) = IZR (Z.abs d) * pw j * (1 + ep)) by (rewrite E, Rabs_mult, TA, (Rabs_pos_eq (1 + ep)) by lra; reflexivity).
  assert (PT : 0 < IZR (Z.abs d) * pw j) by (apply Rmult_lt_0_compat; [apply Rlt_le_trans with (2 := AD); apply IZR_lt; lia|exact PJ]).
  pose proof (to_decimal_exact Nu D _ (Z.abs d) j PN PD EX R Hd) as T. rewrite T in S.
  2:{ rewrite AX. replace (IZR (Z.abs d) * pw j * (1 + ep) - IZR (Z.abs d) * pw j) with (ep * (IZR (Z.abs d) * pw j)) by ring.
      rewrite Rabs_mult, (Rabs_pos_eq (IZR (Z.abs d) * pw j)) by lra. apply Rmult_le_compat_r; [lra|]. apply Rabs_le. lra. }
  assert (SG : b = (d <? 0)%Z).
  { assert (val x <> 0 /\ 0 <= Rabs (val x)) by (split; [exact NZ|apply Rabs_pos]). assert (PX : 0 < Rabs (val x)) by (apply Rabs_pos_lt, NZ).
    destruct b, (Z.ltb_spec d 0) as [L|L]; try reflexivity; exfalso.
    - apply IZR_le in L. assert (0 <= val x) by (rewrite E; apply Rmult_le_pos; [apply Rmult_le_pos|]; lra). lra.
    - apply IZR_lt in L. assert (IZR d * pw j < 0) by nra. assert (val x < 0) by (rewrite E; nra). lra. }
  destruct (read_signed (Z.abs d) (j + 14) s b) as (RL & _); [lia|lia|exact N|]. rewrite S. eexists. split; [exact RL|]. rewrite SG. f_equal. ring.
Qed.
Lemma show_written x s : no_digit s -> exists l, read_literal (show x ++ s)%string = Some (l, s) /\ starts (show x ++ s)%string /\ written l x.
Proof.
  intros N. destruct (show_reads x s N) as (l & R & S & W). exists l. split; [exact R|]. split; [exact S|]. split; [exact W|].
  intros d j F D J E. destruct (show_exact x d j F D J E s N) as (l' & R' & E'). rewrite R in R'. injection R' as ->. exact E'.
Qed.
