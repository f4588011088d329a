(** Rounding error of the heat equation program (C65). *)
From Coq Require Import Reals Lra Lia Psatz.
From Flocq Require Import Core.
From Verif Require Import Prelude WindowM WindowS GhostM FieldM FieldS MaskM NeboM NeboS StencilM StencilS RoundM RoundS RoundP RoundQ RoundT StoreM StoreS ThinS HeatM HeatS HeatD Cmp64P Part64Q BCM BCS BC64S BC64R FuncS Func64M Func64S Func64R Func64Q Heat64S.
Open Scope R_scope.
Local Notation step := StencilS.step.

(** ** x is r, of magnitude at most M, up to k rounding errors of M *)
Definition off_by (x r M k : R) : Prop := Rabs (x - r) <= k * u * M /\ Rabs r <= M.
Lemma near_pos x r M k : off_by x r M k -> 0 <= M.
Proof. intros [_ B]. pose proof (Rabs_pos r). lra. Qed.
Lemma near_abs x r M k : off_by x r M k -> Rabs x <= M * (1 + k * u).
Proof.
  intros [A B]. pose proof (Rabs_triang r (x - r)) as T. replace (r + (x - r)) with x in T by ring. lra.
Qed.
Lemma near_same x M : Rabs x <= M -> off_by x x M 0.
Proof. intros A. split; [|exact A]. replace (x - x) with 0 by ring. rewrite Rabs_R0. lra. Qed.
Lemma near_weak x r M k N l : off_by x r M k -> M <= N -> 0 <= k <= l -> off_by x r N l.
Proof.
  intros H L Kl. pose proof (near_pos _ _ _ _ H) as P. destruct H as [A B]. pose proof u_pos as U. split; [|lra].
  apply Rle_trans with (1 := A). apply Rmult_le_compat; [apply Rmult_le_pos; lra|exact P| |exact L]. apply Rmult_le_compat_r; lra.
Qed.
Lemma near_opp x r M k : off_by x r M k -> off_by (- x) (- r) M k.
Proof. intros [A B]. split; [|rewrite Rabs_Ropp; exact B]. replace (- x - - r) with (- (x - r)) by ring. rewrite Rabs_Ropp. exact A. Qed.
Lemma near_add x r M k y s N : off_by x r M k -> off_by y s N k -> off_by (x + y) (r + s) (M + N) k.
Proof.
  intros [A B] [C D]. split.
  - replace (x + y - (r + s)) with ((x - r) + (y - s)) by ring. pose proof (Rabs_triang (x - r) (y - s)). lra.
  - pose proof (Rabs_triang r s). lra.
Qed.
Lemma near_sub x r M k y s N : off_by x r M k -> off_by y s N k -> off_by (x - y) (r - s) (M + N) k.
Proof. intros A B. apply near_add; [exact A|apply near_opp, B]. Qed.
Lemma near_eps x r M k e : off_by x r M k -> Rabs e <= u -> 0 <= k <= 1000 -> off_by (x * (1 + e)) r M (k + 101 / 100).
Proof.
  intros H E Kb. pose proof (near_pos _ _ _ _ H) as P. pose proof (near_abs _ _ _ _ H) as Q. destruct H as [A B]. split; [|exact B].
  replace (x * (1 + e) - r) with ((x - r) + x * e) by ring. apply Rle_trans with (1 := Rabs_triang _ _). rewrite Rabs_mult.
  pose proof u_pos as U. pose proof u_small as V. assert (X : Rabs x * Rabs e <= M * (1 + k * u) * u).
  { apply Rmult_le_compat; try apply Rabs_pos; assumption. }
  assert (Y : M * (1 + k * u) * u <= 101 / 100 * u * M).
  { replace (M * (1 + k * u) * u) with ((1 + k * u) * (u * M)) by ring. replace (101 / 100 * u * M) with (101 / 100 * (u * M)) by ring.
    apply Rmult_le_compat_r; [apply Rmult_le_pos; lra|]. assert (k * u <= 1000 * / 1000000) by (apply Rmult_le_compat; lra). lra. }
  lra.
Qed.
Lemma near_mul x r M k y s N l : off_by x r M k -> off_by y s N l -> 0 <= k <= 100 -> 0 <= l <= 100 -> off_by (x * y) (r * s) (M * N) (k + l + / 100).
Proof.
  intros H1 H2 Kb Lb. pose proof (near_pos _ _ _ _ H1) as P1. pose proof (near_pos _ _ _ _ H2) as P2. destruct H1 as [A B], H2 as [C D].
  pose proof u_pos as U. pose proof u_small as V. split.
  - replace (x * y - r * s) with ((x - r) * (y - s) + (x - r) * s + r * (y - s)) by ring.
    assert (T1 : Rabs ((x - r) * (y - s) + (x - r) * s + r * (y - s)) <= Rabs (x - r) * Rabs (y - s) + Rabs (x - r) * Rabs s + Rabs r * Rabs (y - s)).
    { rewrite <- !Rabs_mult. apply Rle_trans with (1 := Rabs_triang _ _). pose proof (Rabs_triang ((x - r) * (y - s)) ((x - r) * s)). lra. }
    apply Rle_trans with (1 := T1).
    assert (X1 : Rabs (x - r) * Rabs (y - s) <= (k * u * M) * (l * u * N)) by (apply Rmult_le_compat; try apply Rabs_pos; assumption).
    assert (X2 : Rabs (x - r) * Rabs s <= (k * u * M) * N) by (apply Rmult_le_compat; try apply Rabs_pos; assumption).
    assert (X3 : Rabs r * Rabs (y - s) <= M * (l * u * N)) by (apply Rmult_le_compat; try apply Rabs_pos; assumption).
    assert (X4 : (k * u * M) * (l * u * N) <= / 100 * u * (M * N)).
    { replace ((k * u * M) * (l * u * N)) with (k * l * u * (u * (M * N))) by ring. rewrite (Rmult_assoc (/ 100)). apply Rmult_le_compat_r.
      - apply Rmult_le_pos; [lra|apply Rmult_le_pos; assumption].
      - assert (k * l <= 10000) by (replace 10000 with (100 * 100) by ring; apply Rmult_le_compat; lra).
        assert (0 <= k * l) by (apply Rmult_le_pos; lra).
        apply Rle_trans with (10000 * / 1000000); [apply Rmult_le_compat; lra|lra]. }
    lra.
  - rewrite Rabs_mult. apply Rmult_le_compat; try apply Rabs_pos; assumption.
Qed.

(** ** Sums *)
Lemma sz_sum a b i j : fmt a -> fmt b -> sz i j a -> sz i j b -> sz (i - 53) (j + 1) (a + b).
Proof.
  intros Fa Fb Sa Sb.
  assert (Za : a = 0 \/ b2 i <= Rabs a) by (destruct Sa as [|[]]; auto). assert (Zb : b = 0 \/ b2 i <= Rabs b) by (destruct Sb as [|[]]; auto).
  destruct (fmt_multiple _ _ Fa Za) as (m & Em), (fmt_multiple _ _ Fb Zb) as (k & Ek).
  assert (E : a + b = IZR (m + k) * b2 (i - 53)) by (rewrite Em, Ek, plus_IZR; ring).
  destruct (Z.eq_dec (m + k) 0) as [Z|N]; [left; rewrite E, Z; ring|right]. split; [rewrite E; apply multiple_ge, N|].
  rewrite <- double_b2. pose proof (Rabs_triang a b). pose proof (sz_le _ _ _ Sa). pose proof (sz_le _ _ _ Sb). lra.
Qed.
Lemma sz_opp i j a : sz i j a -> sz i j (- a).
Proof. intros [->|H]; [left; ring|right; rewrite Rabs_Ropp; exact H]. Qed.
Lemma add_step x y i j : finite x -> finite y -> sz i j (val x) -> sz i j (val y) -> (-1021 <= i)%Z -> (j <= 1022)%Z ->
  finite (dadd x y) /\ sz (i - 53) (j + 1) (val (dadd x y)) /\ exists e, Rabs e <= u /\ val (dadd x y) = (val x + val y) * (1 + e).
Proof.
  intros Fx Fy Sx Sy Hi Hj. pose proof (sz_sum _ _ _ _ (fmt_val x) (fmt_val y) Sx Sy) as S.
  destruct (add_val x y Fx Fy) as [F V]; [eapply le_b2; [exact (sz_le _ _ _ S)|lia]|].
  split; [exact F|]. rewrite V. split; [apply sz_rnd; [lia|lia|exact S]|]. apply plus_eps; apply fmt_val.
Qed.
Lemma fmt_opp a : fmt a -> fmt (- a). Proof. apply generic_format_opp. Qed.
Lemma dsub_step x y i j : finite x -> finite y -> sz i j (val x) -> sz i j (val y) -> (-1021 <= i)%Z -> (j <= 1022)%Z ->
  finite (dsub x y) /\ sz (i - 53) (j + 1) (val (dsub x y)) /\ exists e, Rabs e <= u /\ val (dsub x y) = (val x - val y) * (1 + e).
Proof.
  intros Fx Fy Sx Sy Hi Hj. pose proof (sz_sum _ _ _ _ (fmt_val x) (fmt_opp _ (fmt_val y)) Sx (sz_opp _ _ _ Sy)) as S.
  destruct (sub_val x y Fx Fy) as [F V]; [eapply le_b2; [exact (sz_le _ _ _ S)|lia]|].
  split; [exact F|]. rewrite V. split; [apply sz_rnd; [lia|lia|exact S]|]. unfold Rminus. apply plus_eps; [apply fmt_val|apply fmt_opp, fmt_val].
Qed.

(** ** The reciprocal of the spacing *)
Lemma moderate_sz x : moderate x -> finite x /\ sz (-100) 100 (val x).
Proof. intros [F H]. split; [exact F|]. unfold sz. rewrite <- !p2. exact H. Qed.
Lemma inv_eps e : Rabs e <= u -> exists f, Rabs f <= 11 / 10 * u /\ / (1 + e) = 1 + f.
Proof.
  intros E. pose proof u_pos as U. pose proof u_small as V. apply Rabs_le_inv in E. exists (/ (1 + e) - 1). split; [|ring].
  replace (/ (1 + e) - 1) with (- e * / (1 + e)) by (field; lra). rewrite Rabs_mult, Rabs_Ropp.
  assert (I : Rabs (/ (1 + e)) <= 11 / 10). { rewrite Rabs_pos_eq by (apply Rlt_le, Rinv_0_lt_compat; lra). replace (11 / 10) with (/ (10 / 11)) by field. apply Rinv_le_contravar; lra. }
  assert (Rabs e <= u) by (apply Rabs_le; lra). replace (11 / 10 * u) with (u * (11 / 10)) by ring. apply Rmult_le_compat; try apply Rabs_pos; assumption.
Qed.
Lemma count_exact k : (1 <= k < 2 ^ 32)%Z -> finite (dlit k 0) /\ val (dlit k 0) = IZR k.
Proof.
  intros H. pose proof (binary_normalize_correct 53 1024 d_prec d_emax mode_NE k 0 false) as C. cbv zeta in C.
  fold (dlit k 0) in C. change (SpecFloat.fexp 53 1024) with fexp in *. change (round_mode mode_NE) with ZnearestE in *.
  assert (E : F2R (Float radix2 k 0) = IZR k) by (unfold F2R; cbn; lra). rewrite E in C.
  assert (F : fmt (IZR k)) by (apply fmt_int; lia). rewrite (rnd_fmt _ F) in C.
  assert (L1 : 1 <= IZR k) by (apply IZR_le; lia).
  assert (L2 : IZR k <= bpow radix2 32) by (change (bpow radix2 32) with (IZR (2 ^ 32)); apply IZR_le; lia).
  assert (L3 : Rabs (IZR k) < bpow radix2 1024). { rewrite Rabs_pos_eq by lra. apply Rle_lt_trans with (1 := L2). apply bpow_lt. lia. }
  rewrite (Rlt_bool_true _ _ L3) in C. destruct C as (A & B & _). split; assumption.
Qed.
(** L over k, and one over that *)
Lemma recip_step L k : moderate L -> val L <> 0 -> (1 <= k < 2 ^ 32)%Z ->
  finite (ddiv d_one (ddiv L (dlit k 0))) /\ sz (-101) 133 (val (ddiv d_one (ddiv L (dlit k 0)))) /\
  off_by (val (ddiv d_one (ddiv L (dlit k 0)))) (/ (val L / IZR k)) (/ Rabs (val L / IZR k)) (213 / 100).
Proof.
  intros ML NL Hk. destruct (moderate_sz L ML) as [FL SL]. destruct (count_exact k Hk) as [Fk Vk].
  assert (L1 : 1 <= IZR k) by (apply IZR_le; lia).
  assert (L2 : IZR k <= b2 32) by (change (b2 32) with (IZR (2 ^ 32)); apply IZR_le; lia).
  assert (Sk : sz 0 32 (IZR k)) by (right; rewrite Rabs_pos_eq by lra; split; [exact L1|exact L2]).
  assert (NK : IZR k <> 0) by (intros Z0; lra).
  assert (S1 : sz (-132) 100 (val L / IZR k)) by exact (sz_mul _ _ _ _ _ _ SL (sz_inv _ _ _ NK Sk)).
  assert (ND : val L / IZR k <> 0). { unfold Rdiv. apply Rmult_integral_contrapositive. split; [exact NL|apply Rinv_neq_0_compat, NK]. }
  destruct (div_step L (dlit k 0) (-132) 100 FL) as (F1 & S2 & _ & e1 & E1 & V1); [rewrite Vk; exact NK|rewrite Vk; exact S1|lia|lia|]. rewrite Vk in V1.
  assert (U1 : 1 + e1 <> 0). { pose proof u_small. apply Rabs_le_inv in E1. lra. }
  assert (N2 : val (ddiv L (dlit k 0)) <> 0). { rewrite V1. apply Rmult_integral_contrapositive. split; assumption. }
  destruct one_val as (O1 & O2).
  destruct (div_step d_one (ddiv L (dlit k 0)) (-100) 132 O1 N2) as (F2 & S3 & _ & e2 & E2 & V2); [|lia|lia|].
  { rewrite O2. unfold Rdiv. rewrite Rmult_1_l. exact (sz_inv _ _ _ N2 S2). }
  split; [exact F2|]. split; [eapply sz_weaken; [exact S3|lia|lia]|]. rewrite V2, O2, V1.
  destruct (inv_eps e1 E1) as (f & Ef & Vf). set (D := val L / IZR k) in *.
  replace (1 / (D * (1 + e1)) * (1 + e2)) with (/ D * / (1 + e1) * (1 + e2)) by (field; split; assumption). rewrite Vf.
  assert (H : off_by (/ D * (1 + f)) (/ D) (/ Rabs D) (11 / 10)).
  { split; rewrite <- Rabs_inv; [|lra]. replace (/ D * (1 + f) - / D) with (f * / D) by ring. rewrite Rabs_mult. apply Rmult_le_compat_r; [apply Rabs_pos|exact Ef]. }
  eapply near_weak; [apply (near_eps _ _ _ _ e2 H E2); lra|lra|lra].
Qed.

(** ** A difference, a flux, a loss *)
Section Err.
Variable n : ivec.
Variable Lx Ly Lz : dbl.
Hypothesis Cn : counts_ok n.
Notation dx64 := (spacing64 n Lx Ly Lz). Notation D := (spacingR n Lx Ly Lz).
Notation len := (Heat64S.len Lx Ly Lz).
Lemma recip_dir d : moderate (len d) -> val (len d) <> 0 ->
  finite (ddiv d_one (dx64 d)) /\ sz (-101) 133 (val (ddiv d_one (dx64 d))) /\ off_by (val (ddiv d_one (dx64 d))) (/ D d) (/ Rabs (D d)) (213 / 100).
Proof. intros M N. pose proof (Cn d) as H. destruct d; apply recip_step; assumption. Qed.
(** The rounded difference of a and b over the spacing. *)
Lemma diff_near d a b ra rb M k i j : moderate (len d) -> val (len d) <> 0 -> finite a -> finite b -> sz i j (val a) -> sz i j (val b) ->
  (-700 <= i)%Z -> (j <= 700)%Z -> off_by (val a) ra M k -> off_by (val b) rb M k -> 0 <= k <= 50 ->
  finite (diff64 dx64 d a b) /\ sz (i - 154) (j + 134) (val (diff64 dx64 d a b)) /\
  off_by (val (diff64 dx64 d a b)) ((rb - ra) / D d) (2 * M / Rabs (D d)) (k + 417 / 100).
Proof.
  intros ML NL Fa Fb Sa Sb Hi Hj Na Nb Hk. destruct (recip_dir d ML NL) as (Fr & Sr & Nr).
  unfold diff64. destruct one_val as (O1 & O2). rewrite ddiv_opp_l by (try exact O1; rewrite O2; lra). rewrite dmul_opp_r.
  set (r := ddiv d_one (dx64 d)) in *.
  destruct (mul_step a r (i + -101) (j + 133) Fa Fr (sz_mul _ _ _ _ _ _ Sa Sr) ltac:(lia) ltac:(lia)) as (F1 & S1 & _ & e1 & E1 & V1).
  destruct (mul_step b r (i + -101) (j + 133) Fb Fr (sz_mul _ _ _ _ _ _ Sb Sr) ltac:(lia) ltac:(lia)) as (F2 & S2 & _ & e2 & E2 & V2).
  destruct (add_step (dopp (dmul a r)) (dmul b r) (i + -101) (j + 133)) as (F3 & S3 & e3 & E3 & V3); [apply fin_opp, F1|exact F2|rewrite val_opp; apply sz_opp, S1|exact S2|lia|lia|].
  split; [exact F3|]. split; [eapply sz_weaken; [exact S3|lia|lia]|]. rewrite V3, val_opp.
  assert (A1 : off_by (val (dmul a r)) (ra * / D d) (M * / Rabs (D d)) (k + 316 / 100)).
  { rewrite V1. eapply near_weak; [apply near_eps; [apply near_mul; [exact Na|exact Nr|lra|lra]|exact E1|lra]|lra|lra]. }
  assert (A2 : off_by (val (dmul b r)) (rb * / D d) (M * / Rabs (D d)) (k + 316 / 100)).
  { rewrite V2. eapply near_weak; [apply near_eps; [apply near_mul; [exact Nb|exact Nr|lra|lra]|exact E2|lra]|lra|lra]. }
  pose proof (near_eps _ _ _ _ e3 (near_add _ _ _ _ _ _ _ (near_opp _ _ _ _ A1) A2) E3 ltac:(lra)) as Q.
  replace ((rb - ra) / D d) with (- (ra * / D d) + rb * / D d) by (unfold Rdiv; ring).
  eapply near_weak; [exact Q| |lra]. unfold Rdiv. lra.
Qed.
Variable T K C : ivec -> dbl.
Notation Q64 := (heat_flux64 dx64 T K). Notation QR := (heat_fluxR D T K).
Lemma flux_near d p MT MK : moderate (len d) -> val (len d) <> 0 ->
  (forall k, (-1 <= k <= 0)%Z -> moderate (T (step d k p)) /\ Rabs (val (T (step d k p))) <= MT /\ moderate (K (step d k p)) /\ Rabs (val (K (step d k p))) <= MK) ->
  finite (Q64 d p) /\ sz (-410) 340 (val (Q64 d p)) /\ off_by (val (Q64 d p)) (QR d p) (2 * (MT * MK) / Rabs (D d)) (63 / 10).
Proof.
  intros ML NL H. destruct (H (-1)%Z ltac:(lia)) as (T1 & T2 & K1 & K2). pose proof (H 0%Z ltac:(lia)) as H0.
  assert (S0 : step d 0 p = p) by (destruct p, d; cbn; f_equal; lia). rewrite S0 in H0. destruct H0 as (T3 & T4 & K3 & K4).
  set (q := step d (-1) p) in *. unfold heat_flux64, heat_fluxR. fold q.
  destruct (moderate_sz _ T1) as (FT1 & ST1), (moderate_sz _ T3) as (FT3 & ST3), (moderate_sz _ K1) as (FK1 & SK1), (moderate_sz _ K3) as (FK3 & SK3).
  destruct (diff_near d (T q) (T p) (val (T q)) (val (T p)) MT 0 (-100) 100 ML NL FT1 FT3 ST1 ST3 ltac:(lia) ltac:(lia) (near_same _ _ T2) (near_same _ _ T4) ltac:(lra)) as (F1 & S1 & N1).
  destruct half_val as (Fh & Vh).
  assert (Sh : sz (-1) (-1) (val d_half)) by (right; rewrite Vh, Rabs_pos_eq by apply bpow_ge_0; lra).
  assert (X : forall x, moderate x -> finite (dmul x d_half) /\ sz (-101) 99 (val (dmul x d_half)) /\ val (dmul x d_half) = val x / 2).
  { intros x Hx. destruct (moderate_sz _ Hx) as (Fx & Sx).
    destruct (mul_step x d_half (-100 + -1) (100 + -1) Fx Fh (sz_mul _ _ _ _ _ _ Sx Sh) ltac:(lia) ltac:(lia)) as (A & B & V & _).
    split; [exact A|]. split; [exact B|]. rewrite V, Vh. change (b2 (-1)) with (/ 2).
    assert (NT : not_tiny (val x)). { destruct Sx as [Z|[L _]]; [left; exact Z|right]. rewrite p2. eapply ge_b2; [exact L|lia]. }
    pose proof (scale_fmt _ (-1) (fmt_val x) NT ltac:(lia)) as Fm. change (b2 (-1)) with (/ 2) in Fm. rewrite (rnd_fmt _ Fm). reflexivity. }
  destruct (X _ K1) as (Fa & Sa & Va), (X _ K3) as (Fb & Sb & Vb).
  destruct (add_step _ _ (-101) 99 Fa Fb Sa Sb ltac:(lia) ltac:(lia)) as (F2 & S2 & e2 & E2 & V2). rewrite Va, Vb in V2.
  set (kk := dadd (dmul (K q) d_half) (dmul (K p) d_half)) in *. set (df := diff64 dx64 d (T q) (T p)) in *.
  assert (N2 : off_by (val kk) ((val (K q) + val (K p)) / 2) MK (101 / 100)).
  { rewrite V2. replace ((val (K q) + val (K p)) / 2) with (val (K q) / 2 + val (K p) / 2) by field.
    eapply near_weak; [apply near_eps; [apply near_same|exact E2|lra]|right; reflexivity|lra].
    replace (val (K q) / 2 + val (K p) / 2) with ((val (K q) + val (K p)) / 2) by field. pose proof (Rabs_triang (val (K q)) (val (K p))).
    unfold Rdiv. rewrite Rabs_mult, (Rabs_pos_eq (/ 2)) by lra. lra. }
  destruct (mul_step (dopp df) kk (-254 + -154) (234 + 100)) as (F3 & S3 & _ & e3 & E3 & V3);
    [apply fin_opp, F1|exact F2|rewrite val_opp; apply sz_mul; [apply sz_opp; exact S1|exact S2]|lia|lia|].
  split; [exact F3|]. split; [eapply sz_weaken; [exact S3|lia|lia]|]. rewrite V3, val_opp.
  pose proof (near_eps _ _ _ _ e3 (near_mul _ _ _ _ _ _ _ _ (near_opp _ _ _ _ N1) N2 ltac:(lra) ltac:(lra)) E3 ltac:(lra)) as Q.
  replace (- ((val (K q) + val (K p)) / 2) * ((val (T p) - val (T q)) / D d)) with (- ((val (T p) - val (T q)) / D d) * ((val (K q) + val (K p)) / 2)) by ring.
  eapply near_weak; [exact Q| |lra]. unfold Rdiv. lra.
Qed.
Notation loss p d := (ddiv (diff64 dx64 d (Q64 d p) (Q64 d (step d 1 p))) (C p)).
Definition lossR (p : ivec) (d : dir) : R := (QR d (step d 1 p) - QR d p) / D d / val (C p).
Lemma loss_near p d MT MK : moderate (len d) -> val (len d) <> 0 -> moderate (C p) -> val (C p) <> 0 ->
  (forall k, (-1 <= k <= 1)%Z -> moderate (T (step d k p)) /\ Rabs (val (T (step d k p))) <= MT /\ moderate (K (step d k p)) /\ Rabs (val (K (step d k p))) <= MK) ->
  finite (loss p d) /\ sz (-670) 580 (val (loss p d)) /\ off_by (val (loss p d)) (lossR p d) (4 * (MT * MK) / (D d * D d) / Rabs (val (C p))) (116 / 10).
Proof.
  intros ML NL MC NC H.
  destruct (flux_near d p MT MK ML NL) as (F1 & S1 & N1); [intros k Hk; apply H; lia|].
  assert (SS : forall k, step d k (step d 1 p) = step d (k + 1) p) by (intros k; destruct p, d; cbn; f_equal; lia).
  destruct (flux_near d (step d 1 p) MT MK ML NL) as (F2 & S2 & N2); [intros k Hk; rewrite SS; apply H; lia|].
  destruct (diff_near d _ _ _ _ _ _ _ _ ML NL F1 F2 S1 S2 ltac:(lia) ltac:(lia) N1 N2 ltac:(lra)) as (F3 & S3 & N3).
  destruct (moderate_sz _ MC) as (FC & SC).
  destruct (div_step (diff64 dx64 d (Q64 d p) (Q64 d (step d 1 p))) (C p) (-410 - 154 + - (100)) (340 + 134 + - -100) F3 NC) as (F4 & S4 & _ & e4 & E4 & V4);
    [unfold Rdiv; apply sz_mul; [exact S3|exact (sz_inv _ _ _ NC SC)]|lia|lia|].
  split; [exact F4|]. split; [eapply sz_weaken; [exact S4|lia|lia]|]. rewrite V4. unfold lossR.
  assert (NI : off_by (/ val (C p)) (/ val (C p)) (/ Rabs (val (C p))) 0) by (apply near_same; rewrite Rabs_inv; lra).
  pose proof (near_eps _ _ _ _ e4 (near_mul _ _ _ _ _ _ _ _ N3 NI ltac:(lra) ltac:(lra)) E4 ltac:(lra)) as Q.
  eapply near_weak; [exact Q| |lra].
  replace (D d * D d) with (Rabs (D d) * Rabs (D d)) by (rewrite <- Rabs_mult; apply Rabs_pos_eq; apply Rle_0_sqr).
  unfold Rdiv. rewrite Rinv_mult. lra.
Qed.
Definition sumR (f : dir -> R) (l : list dir) : R := rsum (map f l).
Lemma fold_near p (B : dir -> R) l : (forall d, In d l -> finite (loss p d) /\ sz (-670) 580 (val (loss p d)) /\ off_by (val (loss p d)) (lossR p d) (B d) (116 / 10)) ->
  forall r rr M k i j, finite r -> sz i j (val r) -> off_by (val r) rr M k ->
  (i <= -670)%Z -> (580 <= j)%Z -> (-1000 <= i - 53 * Z.of_nat (length l))%Z -> (j + Z.of_nat (length l) <= 1000)%Z -> 116 / 10 <= k -> k + 101 / 100 * INR (length l) <= 100 ->
  finite (fold_left (fun r d => dsub r (loss p d)) l r) /\
  off_by (val (fold_left (fun r d => dsub r (loss p d)) l r)) (rr - sumR (lossR p) l) (M + sumR B l) (k + 101 / 100 * INR (length l)).
Proof.
  induction l as [|d l IH]; intros H r rr M k i j Fr Sr Nr Hi Hj Hi' Hj' Hk Hk'.
  - cbn [fold_left sumR map rsum length INR]. split; [exact Fr|]. unfold sumR. cbn [map rsum]. rewrite Rminus_0_r, Rplus_0_r.
    eapply near_weak; [exact Nr|lra|lra].
  - change (length (d :: l)) with (S (length l)) in *. rewrite S_INR in *. pose proof (pos_INR (length l)) as PL. cbn [fold_left].
    destruct (H d (or_introl eq_refl)) as (F1 & S1 & N1).
    destruct (dsub_step r (loss p d) i j Fr F1 Sr) as (F2 & S2 & e & E & V); [eapply sz_weaken; [exact S1|lia|lia]|lia|lia|].
    assert (N2 : off_by (val (dsub r (loss p d))) (rr - lossR p d) (M + B d) (k + 101 / 100)).
    { rewrite V. apply near_eps; [|exact E|lra]. apply near_sub; [exact Nr|]. eapply near_weak; [exact N1|lra|lra]. }
    destruct (IH (fun d' I => H d' (or_intror I)) _ _ _ _ _ _ F2 S2 N2 ltac:(lia) ltac:(lia) ltac:(lia) ltac:(lia) ltac:(lra) ltac:(lra)) as (F3 & N3).
    split; [exact F3|]. unfold sumR in *. cbn [map rsum].
    replace (rr - (lossR p d + rsum (map (lossR p) l))) with (rr - lossR p d - rsum (map (lossR p) l)) by ring.
    eapply near_weak; [exact N3|lra|lra].
Qed.
Lemma wide_dirs_in d : In d (wide_dirs n) <-> wide n d.
Proof.
  unfold wide_dirs, wide, dirs. rewrite filter_In, Z.ltb_lt. split; [intros [_ H]; exact H|intros H; split; [|exact H]]. destruct d; cbn; auto.
Qed.
Lemma wide_dirs_length : (length (wide_dirs n) <= 3)%nat.
Proof. unfold wide_dirs, dirs. cbn [filter]. destruct (1 <? _)%Z, (1 <? _)%Z, (1 <? _)%Z; cbn; lia. Qed.
Lemma sumR_scale f c l : sumR (fun d => c * f d) l = c * sumR f l.
Proof. unfold sumR. induction l as [|d l IH]; cbn [map rsum]; [ring|]. rewrite IH. ring. Qed.
Lemma sumR_ext f g l : (forall d, f d = g d) -> sumR f l = sumR g l.
Proof. intros E. unfold sumR. induction l as [|d l IH]; cbn [map rsum]; [reflexivity|]. rewrite IH, E. reflexivity. Qed.
Lemma heatingR_losses p : val (C p) <> 0 -> heatingR D T K C n p = 0 - sumR (lossR p) (wide_dirs n).
Proof.
  intros NC. unfold heatingR, lossR. fold (sumR (fun d => (QR d p - QR d (step d 1 p)) / D d) (wide_dirs n)).
  rewrite (sumR_ext (fun d => (QR d (step d 1 p) - QR d p) / D d / val (C p)) (fun d => (- / val (C p)) * ((QR d p - QR d (step d 1 p)) / D d))).
  - rewrite sumR_scale. unfold Rdiv. ring.
  - intros d. unfold Rdiv. ring.
Qed.
Lemma p47 : powerRZ 2 (-47) = 64 * u. Proof. rewrite p2. unfold u. change (-47)%Z with (6 + -53)%Z. rewrite bpow_plus. cbn. lra. Qed.
Lemma p49 : powerRZ 2 (-49) = 16 * u. Proof. rewrite p2. unfold u. change (-49)%Z with (4 + -53)%Z. rewrite bpow_plus. cbn. lra. Qed.
Lemma flux_error d p MT MK : moderate (len d) -> val (len d) <> 0 ->
  (forall k, (-1 <= k <= 0)%Z -> moderate (T (step d k p)) /\ Rabs (val (T (step d k p))) <= MT /\ moderate (K (step d k p)) /\ Rabs (val (K (step d k p))) <= MK) ->
  finite (Q64 d p) /\ Rabs (val (Q64 d p) - QR d p) <= powerRZ 2 (-49) * (MT * MK / Rabs (D d)).
Proof.
  intros A B H. destruct (flux_near d p MT MK A B H) as (F & _ & N). split; [exact F|]. pose proof (near_pos _ _ _ _ N) as P. destruct N as [N _].
  apply Rle_trans with (1 := N). rewrite p49. pose proof u_pos. unfold Rdiv in *. rewrite !Rmult_assoc in *. nra.
Qed.
Lemma heating_error p MT MK : (forall d, wide n d -> moderate (len d) /\ val (len d) <> 0) -> moderate (C p) -> val (C p) <> 0 ->
  (forall d k, wide n d -> (-1 <= k <= 1)%Z -> moderate (T (step d k p)) /\ Rabs (val (T (step d k p))) <= MT /\ moderate (K (step d k p)) /\ Rabs (val (K (step d k p))) <= MK) ->
  finite (heating64 dx64 T K C n p) /\
  Rabs (val (heating64 dx64 T K C n p) - heatingR D T K C n p) <= powerRZ 2 (-47) * (MT * MK / Rabs (val (C p))) * sumR (fun d => / (D d * D d)) (wide_dirs n).
Proof.
  intros HL MC NC H. rewrite (heatingR_losses p NC). unfold heating64.
  pose proof wide_dirs_length as WL.
  assert (WR : INR (length (wide_dirs n)) <= 3). { replace 3 with (INR 3) by (cbn; ring). apply le_INR, WL. }
  pose proof (pos_INR (length (wide_dirs n))) as PL.
  destruct (fold_near p (fun d => 4 * (MT * MK) / (D d * D d) / Rabs (val (C p))) (wide_dirs n)) with (r := zero) (rr := 0) (M := 0) (k := 116 / 10) (i := (-670)%Z) (j := 580%Z)
    as (F & N); [|reflexivity|left; reflexivity| |lia|lia|lia|lia|lra|lra|].
  - intros d I. apply wide_dirs_in in I. destruct (HL d I). apply loss_near; try assumption. intros k Hk. apply H; assumption.
  - split; [|rewrite Rabs_R0; lra]. change (val zero) with 0. replace (0 - 0) with 0 by ring. rewrite Rabs_R0. lra.
  - split; [exact F|]. pose proof (near_pos _ _ _ _ N) as P. destruct N as [N _]. apply Rle_trans with (1 := N). rewrite p47.
    rewrite (sumR_ext _ (fun d => (4 * (MT * MK / Rabs (val (C p)))) * / (D d * D d))) in * by (intros d; unfold Rdiv; ring).
    rewrite sumR_scale in *. set (S := sumR (fun d => / (D d * D d)) (wide_dirs n)) in *. set (Y := MT * MK / Rabs (val (C p))) in *.
    set (m := INR (length (wide_dirs n))) in *. pose proof u_pos as U.
    replace (64 * u * Y * S) with ((16 * u) * (0 + 4 * Y * S)) by ring. apply Rmult_le_compat_r; [exact P|]. apply Rmult_le_compat_r; lra.
Qed.
End Err.

(** ** The program *)
Lemma error_run n Lx Ly Lz : counts_ok n -> (forall d, wide n d -> moderate (len Lx Ly Lz d) /\ val (len Lx Ly Lz d) <> 0) ->
  forall bx by_ bz g h P scr,
  heat_setup dbl n bx by_ bz g (build_stencils64 n Lx Ly Lz) h P -> (forall s, In s scr -> scratch_ok dbl n bx by_ bz g h P s) -> scr <> [] ->
  let T := value dbl h (temperature P) in let K := value dbl h (thermCond P) in let C := value dbl h (rhoCp P) in
  let D := spacingR n Lx Ly Lz in
  exists h', ends_with dbl (fun fuel => heat_loop64 fuel n P scr) h h' /\
  (forall p MT MK, in_patch n p -> moderate (C p) -> val (C p) <> 0 ->
   (forall d k, wide n d -> (-1 <= k <= 1)%Z -> bounded_by (T (step d k p)) MT /\ bounded_by (K (step d k p)) MK) ->
   finite (value dbl h' (rhs P) p) /\
   Rabs (val (value dbl h' (rhs P) p) - heatingR D T K C n p) <= powerRZ 2 (-47) * (MT * MK / Rabs (val (C p))) * rsum (map (fun d => / (D d * D d)) (wide_dirs n))) /\
  (forall d p MT MK, wide n d -> on_face n d p ->
   (forall k, (-1 <= k <= 0)%Z -> bounded_by (T (step d k p)) MT /\ bounded_by (K (step d k p)) MK) ->
   finite (value dbl h' (flux P d) p) /\
   Rabs (val (value dbl h' (flux P d) p) - heat_fluxR D T K d p) <= powerRZ 2 (-49) * (MT * MK / Rabs (D d))).
Proof.
  intros Cn HL bx by_ bz g h P scr S1 S2 NE T K C D.
  destruct (loop_double n Lx Ly Lz bx by_ bz g h P scr S1 S2 NE) as (h' & E & R & F & _ & W). exists h'. split; [exact E|]. split.
  - intros p MT MK IP MC NC H. rewrite (R p IP). apply heating_error; try assumption. intros d k Wd Hk. destruct (H d k Wd Hk) as ((A & B) & A' & B'). auto.
  - intros d p MT MK Wd IP H. rewrite (F d p Wd IP). destruct (HL d Wd). apply flux_error; try assumption. intros k Hk. destruct (H k Hk) as ((A & B) & A' & B'). auto.
Qed.
