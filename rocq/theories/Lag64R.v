(** Proofs about Lagrange interpolation in double precision: the coefficients and
    the values. *)
From Coq Require Import Reals Lra Lia Psatz.
From Flocq Require Import Core.
From Verif Require Import Prelude StencilM RoundM RoundS RoundP RoundQ RoundT RedM HeatM Cmp64M Cmp64S Cmp64P Part64Q Lag64M Lag64S Lag64A Lag64P Lag64Q.
Open Scope R_scope.

(** ** Products *)
Lemma g8 : g ^ 8 <= 2.
Proof. apply g_two. cbn. lra. Qed.
Lemma g_double m j q : (m <= 8)%nat -> 0 <= q -> g ^ (m * j) * q ^ j <= (2 * q) ^ j.
Proof.
  intros M Q. rewrite pow_mult, <- Rpow_mult_distr. pose proof (g_pow m). pose proof (g_mono m 8 M). pose proof g8.
  apply pow_incr. split; [nra|]. apply Rmult_le_compat_r; lra.
Qed.
Lemma g_half m j p : (m <= 8)%nat -> 0 <= p -> (p / 2) ^ j <= p ^ j / g ^ (m * j).
Proof.
  intros M P. rewrite pow_mult. unfold Rdiv. rewrite <- pow_inv, <- Rpow_mult_distr. pose proof (g_pow m). pose proof (g_mono m 8 M). pose proof g8.
  apply pow_incr. split; [nra|]. apply Rmult_le_compat_l; [exact P|]. apply Rinv_le_contravar; lra.
Qed.
Lemma prod_near m p q N F f : (m <= 7)%nat -> 0 < p -> 0 <= q ->
  (forall j, (j <= N)%nat -> b2 (-1022) <= (p / 2) ^ j) -> (forall j, (j <= N)%nat -> (2 * q) ^ j <= b2 1023) ->
  forall l c e j, (j + length l <= N)%nat ->
  (forall xi, In xi l -> finite (F xi) /\ near m (val (F xi)) (f (val xi)) /\ (f (val xi) = 0 \/ p <= Rabs (f (val xi))) /\ Rabs (f (val xi)) <= q) ->
  finite c -> near (S m * j) (val c) e -> (e = 0 \/ p ^ j <= Rabs e) -> Rabs e <= q ^ j ->
  let r := fold_left (fun c xi => dmul c (F xi)) l c in let E := e * prodl f (map val l) in
  finite r /\ near (S m * (j + length l)) (val r) E /\ (E = 0 \/ p ^ (j + length l) <= Rabs E) /\ Rabs E <= q ^ (j + length l).
Proof.
  intros M P Q Lo Hi. induction l as [|xi l IH]; intros c e j L H Fc Nc Le Ue; cbn [fold_left map prodl length].
  - rewrite Nat.add_0_r, Rmult_1_r. auto.
  - cbn [length] in L. destruct (H xi (or_introl eq_refl)) as (Fi & Ni & Li & Ui).
    assert (NE := near_mul _ _ _ _ _ _ Nc Ni).
    assert (UE : Rabs (e * f (val xi)) <= q ^ S j).
    { rewrite Rabs_mult. cbn [pow]. rewrite (Rmult_comm q). apply Rmult_le_compat; try apply Rabs_pos; assumption. }
    assert (LE : e * f (val xi) = 0 \/ p ^ S j <= Rabs (e * f (val xi))).
    { destruct Le as [->|Le]; [left; ring|]. destruct Li as [->|Li]; [left; ring|]. right. rewrite Rabs_mult. cbn [pow]. rewrite (Rmult_comm p).
      apply Rmult_le_compat; try assumption; [apply pow_le|]; lra. }
    assert (NE' : near (S m * S j) (val c * val (F xi)) (e * f (val xi))) by (eapply near_mono; [|exact NE]; nia).
    destruct (near_abs _ _ _ NE') as (AL & AU).
    assert (AU' : Rabs (val c * val (F xi)) <= b2 1023).
    { eapply Rle_trans; [exact AU|]. apply Rle_trans with (g ^ (S m * S j) * q ^ S j); [apply Rmult_le_compat_l; [pose proof (g_pow (S m * S j)); lra|exact UE]|].
      eapply Rle_trans; [apply g_double; [lia|exact Q]|]. apply Hi. lia. }
    destruct (mul_val c (F xi) Fc Fi AU') as (Fm & Vm).
    replace (j + S (length l))%nat with (S j + length l)%nat by lia. rewrite <- Rmult_assoc.
    apply IH; [lia|intros z Iz; apply H; right; exact Iz|exact Fm| |exact LE|exact UE].
    rewrite Vm. apply (near_mono (S (S m * j + m))); [lia|]. apply near_rnd; [exact NE|].
    destruct LE as [Z|LE]; [left|right].
    + destruct NE as (t & _ & E). rewrite E, Z. ring.
    + eapply Rle_trans; [|exact AL]. eapply Rle_trans; [apply (Lo (S j)); lia|]. eapply Rle_trans; [apply (g_half (S m) (S j) p); [lia|lra]|].
      apply Rmult_le_compat_r; [left; apply ginv|exact LE].
Qed.

(** ** Sums *)
Fixpoint tsum {T} (f : T -> R) (l : list T) : R := match l with [] => 0 | a :: l => f a + tsum f l end.
Lemma tsum_pos {T} (f : T -> R) l : (forall a, In a l -> 0 <= f a) -> 0 <= tsum f l.
Proof. induction l as [|a l IH]; intros H; cbn; [lra|]. pose proof (H a (or_introl eq_refl)). pose proof (IH (fun b I => H b (or_intror I))). lra. Qed.
Lemma sum_close {T} (t : T -> dbl) (e A : T -> R) : forall l s E B k, INR (k + length l) <= 10000 ->
  (forall a, In a l -> finite (t a) /\ close k (val (t a)) (e a) (A a)) -> finite s -> close k (val s) E B ->
  B + tsum A l <= b2 1022 ->
  let r := fold_left (fun s a => dadd s (t a)) l s in
  finite r /\ close (k + length l) (val r) (E + tsum e l) (B + tsum A l).
Proof.
  induction l as [|a l IH]; intros s E B k K H Fs Cs L; cbn [fold_left tsum length].
  - rewrite Nat.add_0_r, !Rplus_0_r. auto.
  - cbn [tsum length] in *. destruct (H a (or_introl eq_refl)) as (Fa & Ca).
    assert (P : 0 <= tsum A l).
    { apply tsum_pos. intros b I. destruct (H b (or_intror I)) as (_ & _ & Q). pose proof (Rabs_pos (e b)). lra. }
    assert (C := close_add k _ _ _ _ _ _ (fmt_val s) (fmt_val (t a)) Cs Ca).
    assert (AB : Rabs (val s + val (t a)) <= b2 1023).
    { pose proof (close_abs _ _ _ _ Cs) as B1. pose proof (close_abs _ _ _ _ Ca) as B2.
      assert (INR k <= 10000) by (eapply Rle_trans; [|exact K]; apply le_INR; lia).
      destruct (g_two k H0) as (_ & G2). pose proof (g_pow k).
      destruct Cs as (_ & PB). destruct Ca as (_ & PA). pose proof (Rabs_pos E). pose proof (Rabs_pos (e a)).
      change (b2 1023) with (b2 (1 + 1022)). rewrite bpow_plus. change (b2 1) with 2.
      eapply Rle_trans; [apply Rabs_triang|]. nra. }
    destruct (add_val s (t a) Fs Fa AB) as (Fd & Vd).
    replace (k + S (length l))%nat with (S k + length l)%nat by lia. rewrite <- !Rplus_assoc. apply IH.
    + replace (S k + length l)%nat with (k + S (length l))%nat by lia. exact K.
    + intros b I. destruct (H b (or_intror I)) as (Fb & Cb). split; [exact Fb|]. apply (close_mono k); [lia|exact Cb].
    + exact Fd.
    + rewrite Vd. exact C.
    + lra.
Qed.

(** ** Ranges *)
Lemma pow_between q j n : 0 <= q -> (j <= n)%nat -> q ^ j <= 1 \/ q ^ j <= q ^ n.
Proof.
  intros Q L. destruct (Rle_or_lt 1 q) as [H|H]; [right; apply Rle_pow; assumption|left].
  rewrite <- (pow1 j). apply pow_incr. lra.
Qed.
Lemma pow_between_lo q j n : 0 < q -> (j <= n)%nat -> 1 <= q ^ j \/ q ^ n <= q ^ j.
Proof.
  intros Q L. destruct (Rle_or_lt 1 q) as [H|H]; [left; apply pow_R1_Rle; exact H|right].
  replace n with (j + (n - j))%nat by lia. rewrite pow_add. rewrite <- (Rmult_1_r (q ^ j)) at 2.
  apply Rmult_le_compat_l; [apply pow_le; lra|]. rewrite <- (pow1 (n - j)). apply pow_incr. lra.
Qed.
Lemma two_pow_le n k : 2 ^ n <= b2 (Z.of_nat k) -> (n <= k)%nat.
Proof.
  intros H. replace 2 with (b2 1) in H by reflexivity. assert (E : forall m, b2 1 ^ m = b2 (Z.of_nat m)).
  { induction m as [|m IH]; [reflexivity|]. cbn [pow]. rewrite IH, <- bpow_plus. f_equal. lia. }
  rewrite E in H. apply le_bpow in H. lia.
Qed.

(** ** Interpolation coefficients *)
Lemma one_is : finite d_one /\ val d_one = 1.
Proof. split; [reflexivity|apply one_val]. Qed.
Lemma zero_is : finite d_zero /\ val d_zero = 0.
Proof. split; reflexivity. Qed.
Lemma prodl_div f h l : (forall r, In r l -> h r <> 0) -> prodl (fun r => f r / h r) l = prodl f l / prodl h l.
Proof.
  intros H. induction l as [|r l IH]; cbn; [field|]. rewrite IH by (intros s I; apply H; right; exact I).
  field. split; [apply prodl_nonzero; intros s I; apply H; right; exact I|apply H; left; reflexivity].
Qed.
Lemma b2_400 : b2 (-400) * b2 400 = 1.
Proof. rewrite <- bpow_plus. reflexivity. Qed.

Section Interp.
Context (x : dbl) (w : list dbl) (n : nat) (Fx : finite x) (Fw : Forall finite w) (ND : NoDup (map val w)) (Len : length w = S n) (N1 : (1 <= n)%nat).
Context (a b : R) (Sp : spaced a b (val x :: map val w)) (RO : ratios_ok a b n).

Lemma a_pos : b2 (-400) <= a /\ 0 < a /\ a <= b /\ b <= b2 400 /\ 0 < b.
Proof. destruct RO as (A & B & C & _). rewrite p2 in *. pose proof (bpow_gt_0 radix2 (-400)). lra. Qed.
Lemma ratio_ge : 1 <= b / a.
Proof. destruct a_pos as (_ & A & B & _). apply (Rmult_le_reg_r a); [exact A|]. unfold Rdiv. rewrite Rmult_assoc, Rinv_l by lra. lra. Qed.
Lemma ratio_hi j : (j <= n)%nat -> (2 * (b / a)) ^ j <= b2 900.
Proof.
  intros L. destruct RO as (_ & _ & _ & D). rewrite p2 in D. eapply Rle_trans; [|exact D]. apply Rle_pow; [pose proof ratio_ge; lra|exact L].
Qed.
Lemma ratio_lo j : (j <= n)%nat -> b2 (-900) <= (a / b / 2) ^ j.
Proof.
  intros L. destruct a_pos as (_ & A & B & _ & C). replace (a / b / 2) with (/ (2 * (b / a))) by (field; lra). rewrite pow_inv.
  change (-900)%Z with (- (900))%Z. rewrite bpow_opp. apply Rinv_le_contravar; [apply pow_lt; pose proof ratio_ge; lra|apply ratio_hi, L].
Qed.
Lemma n_le : (n <= 900)%nat.
Proof.
  apply two_pow_le. change (Z.of_nat 900) with 900%Z. eapply Rle_trans; [|apply (ratio_hi n); lia]. apply pow_incr. pose proof ratio_ge. lra.
Qed.
Lemma n_inr : INR n <= 900.
Proof. pose proof (le_INR _ _ n_le) as H. rewrite (INR_IZR_INZ 900) in H. exact H. Qed.
Lemma diff_ok p q : finite p -> finite q -> In (val p) (val x :: map val w) -> In (val q) (val x :: map val w) ->
  finite (dsub p q) /\ near 1 (val (dsub p q)) (val p - val q) /\ (val p = val q \/ a <= Rabs (val p - val q)) /\ Rabs (val p - val q) <= b.
Proof.
  intros Fp Fq Ip Iq. destruct a_pos as (_ & A & B & C & _).
  assert (D : (val p = val q \/ a <= Rabs (val p - val q)) /\ Rabs (val p - val q) <= b).
  { destruct (Sp _ _ Ip Iq) as [E|(L & U)]; [|split; [right; exact L|exact U]]. split; [left; exact E|]. rewrite E.
    replace (val q - val q) with 0 by ring. rewrite Rabs_R0. lra. }
  destruct D as (D1 & D2). assert (b2 400 <= b2 1023) by (apply bpow_le; lia).
  destruct (sub_val p q Fp Fq) as (F & V); [lra|]. split; [exact F|]. split; [|split; assumption].
  rewrite V. apply near_minus; apply fmt_val.
Qed.
Lemma factor_ok xk xi : In xk w -> In xi (oth xk w) ->
  let F := ddiv (dsub x xi) (dsub xk xi) in let f := (val x - val xi) / (val xk - val xi) in
  finite F /\ near 3 (val F) f /\ (f = 0 \/ a / b <= Rabs f) /\ Rabs f <= b / a.
Proof.
  intros Ik Ii. cbv zeta. pose proof (proj1 (Forall_forall _ _) Fw xk Ik) as Fk. apply (oth_in w Fw xk xi Fk) in Ii. destruct Ii as (Ii & Ne).
  pose proof (proj1 (Forall_forall _ _) Fw xi Ii) as Fi. destruct a_pos as (A0 & A & B & C & Bp).
  assert (Jk : In (val xk) (val x :: map val w)) by (right; apply in_map, Ik).
  assert (Ji : In (val xi) (val x :: map val w)) by (right; apply in_map, Ii).
  destruct (diff_ok x xi Fx Fi (or_introl eq_refl) Ji) as (F1 & E1 & L1 & U1).
  destruct (diff_ok xk xi Fk Fi Jk Ji) as (F2 & E2 & L2 & U2). destruct L2 as [L2|L2]; [congruence|].
  assert (Nz : val xk - val xi <> 0) by lra. set (P := val x - val xi) in *. set (Q := val xk - val xi) in *.
  destruct (near_inv _ _ _ Nz E2) as (Nd & Ei). assert (E3 := near_mul _ _ _ _ _ _ E1 Ei). change (1 + 1)%nat with 2%nat in E3.
  assert (U : Rabs (P / Q) <= b / a).
  { unfold Rdiv. rewrite Rabs_mult, Rabs_inv. apply Rmult_le_compat; [apply Rabs_pos|left; apply Rinv_0_lt_compat, Rabs_pos_lt, Nz|exact U1|apply Rinv_le_contravar; lra]. }
  assert (L : P / Q = 0 \/ a / b <= Rabs (P / Q)).
  { destruct L1 as [E|L1]; [left; replace P with 0 by (unfold P; lra); unfold Rdiv; ring|right].
    unfold Rdiv. rewrite Rabs_mult, Rabs_inv. apply Rmult_le_compat; [lra|left; apply Rinv_0_lt_compat; lra|exact L1|apply Rinv_le_contravar; [apply Rabs_pos_lt, Nz|exact U2]]. }
  destruct (near_abs _ _ _ E3) as (AL & AU). fold (P / Q) in AL, AU, E3.
  assert (G2 : 1 <= g ^ 2 <= 2) by (split; [apply g_pow|pose proof (g_mono 2 8 ltac:(lia)); pose proof g8; lra]).
  assert (R800 : b / a <= b2 800).
  { change 800%Z with (400 - -400)%Z. unfold Zminus. rewrite bpow_plus, bpow_opp. unfold Rdiv.
    apply Rmult_le_compat; [lra|left; apply Rinv_0_lt_compat, A|exact C|]. apply Rinv_le_contravar; [apply bpow_gt_0|exact A0]. }
  destruct (div_val (dsub x xi) (dsub xk xi) F1 Nd) as (Fd & Vd).
  { unfold Rdiv. eapply Rle_trans; [exact AU|]. apply Rle_trans with (2 * b2 800); [pose proof (Rabs_pos (P / Q)); nra|].
    change 2 with (b2 1). rewrite <- bpow_plus. apply bpow_le. lia. }
  split; [exact Fd|]. split; [|split; [exact L|exact U]]. rewrite Vd. apply near_rnd; [exact E3|].
  destruct L as [Z|L]; [left; destruct E3 as (t & _ & E); unfold Rdiv in *; rewrite E, Z; ring|right].
  unfold Rdiv at 1. eapply Rle_trans; [|exact AL]. apply Rle_trans with (b2 (-800) * / 2).
  - replace (/ 2) with (b2 (-1)) by reflexivity. rewrite <- bpow_plus. apply bpow_le. lia.
  - unfold Rdiv at 1. apply Rmult_le_compat; [apply bpow_ge_0|lra| |apply Rinv_le_contravar; lra].
    eapply Rle_trans; [|exact L]. replace (a / b) with (/ (b / a)) by (field; lra). change (-800)%Z with (- (800))%Z. rewrite bpow_opp.
    apply Rinv_le_contravar; [pose proof ratio_ge; lra|exact R800].
Qed.
Lemma icoef_ok xk : In xk w ->
  finite (icoef x w xk) /\ near (4 * n) (val (icoef x w xk)) (weight (map val w) (val x) (val xk)) /\
  (weight (map val w) (val x) (val xk) = 0 \/ b2 (-900) <= Rabs (weight (map val w) (val x) (val xk))) /\
  Rabs (weight (map val w) (val x) (val xk)) <= b2 900.
Proof.
  intros Ik. pose proof (proj1 (Forall_forall _ _) Fw xk Ik) as Fk. destruct a_pos as (A0 & A & B & C & Bp). pose proof ratio_ge as Rg.
  assert (P : 0 < a / b) by (apply Rdiv_lt_0_compat; assumption).
  pose proof (oth_length w n Fw ND Len N1 xk Ik) as LO.
  assert (K := prod_near 3 (a / b) (b / a) n (fun xi => ddiv (dsub x xi) (dsub xk xi)) (fun r => (val x - r) / (val xk - r))
    ltac:(lia) P ltac:(lra)
    ltac:(intros j J; eapply Rle_trans; [|apply (ratio_lo j J)]; apply bpow_le; lia)
    ltac:(intros j J; eapply Rle_trans; [apply (ratio_hi j J)|]; apply bpow_le; lia)
    (oth xk w) d_one 1 0%nat ltac:(rewrite LO; lia) (fun xi Ii => factor_ok xk xi Ik Ii) (proj1 one_is)
    ltac:(rewrite (proj2 one_is); apply near_refl) ltac:(right; rewrite Rabs_R1; cbn; lra) ltac:(rewrite Rabs_R1; cbn; lra)).
  cbv zeta in K. rewrite Rmult_1_l, LO, oth_vals in K by assumption.
  assert (E : prodl (fun r => (val x - r) / (val xk - r)) (others (val xk) (map val w)) = weight (map val w) (val x) (val xk)).
  { unfold weight. apply prodl_div. intros r I. apply in_others in I. lra. }
  rewrite E in K. cbn [Nat.add] in K. destruct K as (K1 & K2 & K3 & K4). split; [exact K1|]. split; [exact K2|].
  assert (B2 : 0 <= 2) by lra. split.
  - destruct K3 as [Z|K3]; [left; exact Z|right]. eapply Rle_trans; [apply (ratio_lo n); lia|]. eapply Rle_trans; [|exact K3]. apply pow_incr. lra.
  - eapply Rle_trans; [exact K4|]. eapply Rle_trans; [|apply (ratio_hi n); lia]. apply pow_incr. lra.
Qed.
End Interp.

(** ** Weighted sums *)
Lemma wfold_is (c : dbl -> dbl) ys w acc : wfold acc ys (map c w) = fold_left (fun s p => dadd s (dmul (fst p) (c (snd p)))) (combine ys w) acc.
Proof. revert w acc. induction ys as [|y ys IH]; intros [|xk w] acc; cbn; auto. Qed.
Lemma blend_is (h : R -> R) f ys w : blend f (map val w) (map h (map val ys)) = tsum (fun p => h (val (fst p)) * f (val (snd p))) (combine ys w).
Proof. revert w. induction ys as [|y ys IH]; intros [|xk w]; cbn; auto. rewrite IH. reflexivity. Qed.
Lemma tsum_le {T} (f : T -> R) l B : (forall a, In a l -> f a <= B) -> tsum f l <= INR (length l) * B.
Proof.
  induction l as [|a l IH]; intros H; cbn [tsum length]; [cbn; lra|]. rewrite S_INR. pose proof (H a (or_introl eq_refl)).
  pose proof (IH (fun b I => H b (or_intror I))). lra.
Qed.
Lemma value_close c e A k n w ys : Forall finite w -> Forall plain ys -> length w = S n -> length ys = S n -> INR n <= 900 -> INR k <= 8000 ->
  (forall xk, In xk w -> finite (c xk) /\ close k (val (c xk)) (e (val xk)) (A (val xk)) /\
     (A (val xk) = 0 \/ b2 (-900) <= A (val xk)) /\ A (val xk) <= b2 900) ->
  finite (wfold d_zero ys (map c w)) /\
  close (k + 1 + S n) (val (wfold d_zero ys (map c w))) (blend e (map val w) (map val ys)) (blend A (map val w) (map Rabs (map val ys))).
Proof.
  intros Fw Py Lw Ly Hn Hk H. rewrite wfold_is.
  rewrite blend_is. assert (BI := blend_is (fun r => r) e ys w). rewrite map_id in BI. rewrite BI.
  assert (T : forall p, In p (combine ys w) -> finite (dmul (fst p) (c (snd p))) /\
      close (k + 1) (val (dmul (fst p) (c (snd p)))) (val (fst p) * e (val (snd p))) (Rabs (val (fst p)) * A (val (snd p))) /\
      Rabs (val (fst p)) * A (val (snd p)) <= b2 1000).
  { intros (y & xk) I. cbn [fst snd]. pose proof (in_combine_l _ _ _ _ I) as Iy. pose proof (in_combine_r _ _ _ _ I) as Ix.
    destruct (H xk Ix) as (Fc & Cc & Lc & Uc). destruct (proj1 (Forall_forall _ _) Py y Iy) as (Fy & LY & UY). rewrite p2 in LY, UY.
    assert (AP : 0 <= A (val xk)) by (destruct Cc as (_ & Q); pose proof (Rabs_pos (e (val xk))); lra).
    assert (U : Rabs (val y) * A (val xk) <= b2 1000).
    { change 1000%Z with (100 + 900)%Z. rewrite bpow_plus. apply Rmult_le_compat; try assumption. apply Rabs_pos. }
    assert (C' := close_scale k _ _ _ (val y) Cc).
    assert (U' : Rabs (val y * val (c xk)) <= b2 1023).
    { pose proof (close_abs _ _ _ _ C') as CA. destruct (g_two k) as (_ & G2); [lra|]. pose proof (g_pow k).
      eapply Rle_trans; [exact CA|]. apply Rle_trans with (2 * b2 1000); [apply Rmult_le_compat; try lra; apply Rmult_le_pos; [apply Rabs_pos|exact AP]|].
      change 2 with (b2 1). rewrite <- bpow_plus. apply bpow_le. lia. }
    destruct (mul_val y (c xk) Fy Fc U') as (Fm & Vm). split; [exact Fm|]. split; [|exact U]. rewrite Vm, Nat.add_1_r. apply close_rnd; [exact C'|].
    destruct LY as [Z|LY]; [left; rewrite Z, Rabs_R0; ring|]. destruct Lc as [Z|Lc]; [left; rewrite Z; ring|right].
    apply Rle_trans with (b2 (-100 + -900)); [apply bpow_le; lia|]. rewrite bpow_plus. apply Rmult_le_compat; try assumption; apply bpow_ge_0. }
  assert (LC : length (combine ys w) = S n) by (rewrite combine_length; lia).
  assert (K := sum_close (fun p => dmul (fst p) (c (snd p))) (fun p => val (fst p) * e (val (snd p))) (fun p => Rabs (val (fst p)) * A (val (snd p)))
    (combine ys w) d_zero 0 0 (k + 1)).
  rewrite LC, !Rplus_0_l in K. apply K.
  - rewrite !plus_INR, (S_INR n). cbn. lra.
  - intros p I. destruct (T p I) as (T1 & T2 & _). split; assumption.
  - apply zero_is.
  - rewrite (proj2 zero_is). split; [|rewrite Rabs_R0; lra]. replace (0 - 0) with 0 by ring. rewrite Rabs_R0. lra.
  - apply Rle_trans with (INR (S n) * b2 1000); [rewrite <- LC; apply tsum_le; intros p I; apply (T p I)|].
    change 1022%Z with (22 + 1000)%Z. rewrite bpow_plus. apply Rmult_le_compat_r; [apply bpow_ge_0|]. rewrite S_INR.
    replace (b2 22) with 4194304 by (cbn; lra). lra.
Qed.
Lemma blend_pos A ws ys : (forall r, In r ws -> 0 <= A r) -> 0 <= blend A ws (map Rabs ys).
Proof.
  revert ys. induction ws as [|r ws IH]; intros [|y ys] H; cbn; try lra. pose proof (Rabs_pos y). pose proof (H r (or_introl eq_refl)).
  pose proof (IH ys (fun s I => H s (or_intror I))). nra.
Qed.

(** ** Interpolated values *)
Lemma part_forall {T} (P : T -> Prop) lo n l : Forall P l -> Forall P (part lo n l).
Proof.
  intros F. rewrite Forall_forall in *. intros a I. apply F. unfold part in I.
  rewrite <- (firstn_skipn lo l), <- (firstn_skipn n (skipn lo l)), !in_app_iff. tauto.
Qed.
Lemma interp_accurate w ys x n a b : Forall finite w -> NoDup (map val w) -> length w = S n -> (1 <= n)%nat -> finite x ->
  Forall plain ys -> length ys = S n -> spaced a b (val x :: map val w) -> ratios_ok a b n ->
  let r := wfold d_zero ys (map (icoef x w) w) in
  finite r /\ Rabs (val r - blend (weight (map val w) (val x)) (map val w) (map val ys)) <=
    powerRZ 2 (-48) * INR n * blend (fun xk => Rabs (weight (map val w) (val x) xk)) (map val w) (map Rabs (map val ys)).
Proof.
  intros Fw ND Len N1 Fx Py Ly Sp RO. cbv zeta. pose proof (n_inr w n Len N1 a b RO) as Hn.
  assert (K4 : INR (4 * n) <= 8000) by (rewrite mult_INR; cbn; lra).
  assert (V := value_close (icoef x w) (weight (map val w) (val x)) (fun xk => Rabs (weight (map val w) (val x) xk)) (4 * n) n w ys Fw Py Len Ly Hn K4).
  destruct V as (V1 & V2 & V3).
  { intros xk Ik. destruct (icoef_ok x w n Fx Fw ND Len N1 a b Sp RO xk Ik) as (I1 & I2 & I3 & I4).
    split; [exact I1|]. split; [apply near_close, I2|]. split; [|exact I4]. destruct I3 as [Z|I3]; [left; rewrite Z; apply Rabs_R0|right; exact I3]. }
  split; [exact V1|]. eapply Rle_trans; [exact V2|]. apply Rmult_le_compat_r; [apply blend_pos; intros; apply Rabs_pos|].
  destruct (g_two (4 * n + 1 + S n)) as (G & _).
  { rewrite !plus_INR, mult_INR, (S_INR n). cbn. lra. }
  rewrite !plus_INR, mult_INR, (S_INR n) in G. cbn [INR] in G. assert (1 <= INR n) by (apply (le_INR 1); exact N1).
  rewrite p2. change (-48)%Z with (5 + -53)%Z. rewrite bpow_plus. fold u. change (b2 5) with 32. pose proof u_pos. nra.
Qed.
