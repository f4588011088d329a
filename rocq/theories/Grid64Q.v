(** Proofs about grid coordinates in double precision: the numbers. *)
From Coq Require Import Reals Lra Lia Psatz.
From Flocq Require Import Core.
From Verif Require Import Prelude WindowM WindowS WindowP GhostM FieldM FieldS MaskM NeboM NeboS StencilM StencilS LagrangeM IterM IterS IterP CompareP PointP NeboC GridM RoundM RoundS RoundP RoundQ RoundT RedM RedS RedP HeatM Cmp64M Cmp64S Cmp64P Part64M Part64S Part64P Part64Q Part64R Part64T Grid64M Grid64S Grid64P.
Open Scope R_scope.

Lemma int_val k : (Z.abs k <= 2 ^ 31)%Z -> finite (dlit k 0) /\ val (dlit k 0) = IZR k.
Proof.
  intros H. pose proof (binary_normalize_correct 53 1024 d_prec d_emax mode_NE k 0 false) as C. cbv zeta in C.
  fold (dlit k 0) in C. change (SpecFloat.fexp 53 1024) with fexp in *. change (round_mode mode_NE) with ZnearestE in *.
  assert (E : F2R (Float radix2 k 0) = IZR k) by (unfold F2R; cbn; lra). rewrite E in C.
  assert (F : fmt (IZR k)).
  { apply generic_format_FLT. exists (Float radix2 k 0); [symmetry; exact E| |cbn; lia]. cbn [Fnum]. eapply Z.le_lt_trans; [exact H|reflexivity]. }
  rewrite (rnd_fmt _ F) in C. rewrite Rlt_bool_true in C.
  - destruct C as (V & Fi & _). split; [exact Fi|exact V].
  - rewrite <- abs_IZR. apply IZR_le in H. eapply Rle_lt_trans; [exact H|]. change (IZR (2 ^ 31)) with (b2 31). apply bpow_lt. lia.
Qed.

(** One coordinate: spacing * k + shift * spacing. *)
Definition at_index (s : dbl) (centre : bool) (k : Z) : dbl :=
  dadd (dmul s (dlit k 0)) (dmul (if centre then dlit 1 (-1) else dlit 0 0) s).
Definition half_of (centre : bool) : R := if centre then / 2 else 0.

Section Index.
Variable s : dbl.
Hypothesis Fs : finite s.
Hypothesis Ls : b2 (-400) <= val s.
Hypothesis Us : val s <= b2 301.
Notation W := (val s).
Lemma W_pos : 0 < W. Proof. eapply Rlt_le_trans; [apply bpow_gt_0|exact Ls]. Qed.
Lemma u_bound : u * IZR (2 ^ 31) <= / 1000000.
Proof. unfold u. cbn. lra. Qed.
Lemma big : b2 301 * b2 40 <= b2 1023.
Proof. rewrite <- bpow_plus. apply bpow_le. lia. Qed.

Lemma product_val k : (Z.abs k <= 2 ^ 31)%Z -> finite (dmul s (dlit k 0)) /\ val (dmul s (dlit k 0)) = rnd (W * IZR k) /\
  Rabs (rnd (W * IZR k) - W * IZR k) <= u * (IZR (Z.abs k) * W).
Proof.
  intros K. pose proof W_pos as Wp. destruct (int_val k K) as (Fk & Vk).
  assert (Ak : Rabs (W * IZR k) = IZR (Z.abs k) * W) by (rewrite Rabs_mult, (Rabs_pos_eq W), <- abs_IZR by lra; ring).
  assert (Kb : IZR (Z.abs k) <= b2 31) by (apply (IZR_le _ (2 ^ 31)), K).
  assert (K0 : 0 <= IZR (Z.abs k)) by (apply (IZR_le 0); lia).
  assert (Bd : IZR (Z.abs k) * W <= b2 1023).
  { apply Rle_trans with (b2 31 * b2 301); [apply Rmult_le_compat; lra|]. rewrite <- bpow_plus. apply bpow_le. lia. }
  destruct (mul_val s (dlit k 0) Fs Fk) as (A & B); [rewrite Vk, Ak; exact Bd|]. rewrite Vk in B.
  split; [exact A|]. split; [exact B|].
  destruct (Z.eq_dec k 0) as [->|N].
  - rewrite Rmult_0_r, round_0 by auto with typeclass_instances. rewrite Rminus_0_r, Rabs_R0. cbn. lra.
  - destruct (rel_eps (W * IZR k)) as (e & He & ->).
    + rewrite Ak. assert (1 <= IZR (Z.abs k)) by (apply (IZR_le 1); lia). apply Rle_trans with (b2 (-400)); [apply bpow_le; lia|]. nra.
    + replace (W * IZR k * (1 + e) - W * IZR k) with (e * (W * IZR k)) by ring. rewrite Rabs_mult, Ak. apply Rmult_le_compat_r; [|exact He].
      apply Rmult_le_pos; lra.
Qed.
Lemma shift_val (c : bool) : finite (dmul (if c then dlit 1 (-1) else dlit 0 0) s) /\ val (dmul (if c then dlit 1 (-1) else dlit 0 0) s) = half_of c * W.
Proof.
  pose proof W_pos as Wp. assert (U : W <= b2 1000) by (eapply Rle_trans; [exact Us|apply bpow_le; lia]). destruct c; cbn [half_of].
  - destruct (half_exact s Fs Ls U) as (A & B & C). change (dlit 1 (-1)) with d_half. rewrite C. split; [exact A|]. rewrite B. lra.
  - destruct (int_val 0 ltac:(lia)) as (F0 & V0). destruct (mul_val (dlit 0 0) s F0 Fs) as (A & B); [rewrite V0, Rmult_0_l, Rabs_R0; apply bpow_ge_0|].
    split; [exact A|]. rewrite B, V0, Rmult_0_l. apply round_0. auto with typeclass_instances.
Qed.
Lemma index_val c k : (Z.abs k <= 2 ^ 31)%Z -> finite (at_index s c k) /\
  val (at_index s c k) = rnd (rnd (W * IZR k) + half_of c * W) /\
  Rabs (val (at_index s c k) - (IZR k + half_of c) * W) <= u * W * (2 * IZR (Z.abs k) + 2).
Proof.
  intros K. pose proof W_pos as Wp. destruct (product_val k K) as (F1 & V1 & E1). destruct (shift_val c) as (F2 & V2).
  set (P := dmul s (dlit k 0)) in *. set (O := dmul (if c then dlit 1 (-1) else dlit 0 0) s) in *.
  assert (Hc : 0 <= half_of c <= / 2) by (destruct c; cbn; lra).
  assert (K0 : 0 <= IZR (Z.abs k)) by (apply (IZR_le 0); lia).
  assert (Kb : IZR (Z.abs k) <= IZR (2 ^ 31)) by (apply IZR_le, K).
  assert (UK : 0 <= u * IZR (Z.abs k) <= / 1000000).
  { pose proof u_pos. pose proof u_bound. split; [apply Rmult_le_pos; lra|]. apply Rle_trans with (u * IZR (2 ^ 31)); [apply Rmult_le_compat_l; lra|exact u_bound]. }
  assert (Ak : Rabs (W * IZR k) = IZR (Z.abs k) * W) by (rewrite Rabs_mult, (Rabs_pos_eq W), <- abs_IZR by lra; ring).
  assert (Sum : Rabs (val P + val O) <= (IZR (Z.abs k) + / 1000000 + / 2) * W).
  { rewrite V1, V2. replace (rnd (W * IZR k) + half_of c * W) with ((rnd (W * IZR k) - W * IZR k) + W * IZR k + half_of c * W) by ring.
    eapply Rle_trans; [apply Rabs_triang|]. rewrite (Rabs_pos_eq (half_of c * W)) by (apply Rmult_le_pos; lra).
    eapply Rle_trans; [apply Rplus_le_compat_r, Rabs_triang|]. rewrite Ak. nra. }
  destruct (add_val P O F1 F2) as (F3 & V3).
  { eapply Rle_trans; [exact Sum|]. eapply Rle_trans; [|exact big]. rewrite Rmult_comm. pose proof (bpow_gt_0 radix2 301). pose proof (bpow_gt_0 radix2 40).
    apply Rmult_le_compat; try lra. change (b2 40) with (IZR (2 ^ 40)). apply Rle_trans with (IZR (2 ^ 31) + 1); [lra|]. rewrite <- plus_IZR. apply IZR_le. lia. }
  change (dadd P O) with (at_index s c k) in *. split; [exact F3|]. rewrite <- V2, <- V1. split; [exact V3|].
  pose proof (plus_err (val P) (val O) (fmt_val _) (fmt_val _)) as E3. rewrite <- V3 in E3.
  replace (val (at_index s c k) - (IZR k + half_of c) * W) with ((val (at_index s c k) - (val P + val O)) + (rnd (W * IZR k) - W * IZR k)) by (rewrite V1, V2; ring).
  eapply Rle_trans; [apply Rabs_triang|]. pose proof u_pos. assert (u * Rabs (val P + val O) <= u * ((IZR (Z.abs k) + / 1000000 + / 2) * W)) by (apply Rmult_le_compat_l; lra).
  assert (0 <= u * W) by (apply Rmult_le_pos; lra). nra.
Qed.
Lemma index_order c c' k k' : (Z.abs k <= 2 ^ 31)%Z -> (Z.abs k' <= 2 ^ 31)%Z -> IZR k + half_of c < IZR k' + half_of c' -> val (at_index s c k) < val (at_index s c' k').
Proof.
  intros K K' L. pose proof W_pos as Wp. destruct (index_val c k K) as (_ & _ & E). destruct (index_val c' k' K') as (_ & _ & E').
  assert (D : IZR k + half_of c + / 2 <= IZR k' + half_of c').
  { destruct c, c'; cbn [half_of] in *.
    - assert (IZR k < IZR k') as Q by lra. apply lt_IZR in Q. assert (IZR (k + 1) <= IZR k') by (apply IZR_le; lia). rewrite plus_IZR in H. lra.
    - assert (IZR k < IZR k') as Q by lra. apply lt_IZR in Q. assert (IZR (k + 1) <= IZR k') by (apply IZR_le; lia). rewrite plus_IZR in H. lra.
    - destruct (Z_lt_le_dec k' k) as [Q|Q]; [|apply IZR_le in Q; lra]. assert (IZR (k' + 1) <= IZR k) by (apply IZR_le; lia). rewrite plus_IZR in H. lra.
    - assert (IZR k < IZR k') as Q by lra. apply lt_IZR in Q. assert (IZR (k + 1) <= IZR k') by (apply IZR_le; lia). rewrite plus_IZR in H. lra. }
  assert (B : forall j, (Z.abs j <= 2 ^ 31)%Z -> u * W * (2 * IZR (Z.abs j) + 2) <= / 100 * W).
  { intros j J. apply IZR_le in J. pose proof u_bound. pose proof u_small. pose proof u_pos. assert (u * IZR (Z.abs j) <= u * IZR (2 ^ 31)) by (apply Rmult_le_compat_l; lra).
    replace (u * W * (2 * IZR (Z.abs j) + 2)) with ((2 * (u * IZR (Z.abs j)) + 2 * u) * W) by ring. apply Rmult_le_compat_r; lra. }
  pose proof (B k K). pose proof (B k' K'). apply Rabs_le_inv in E, E'. nra.
Qed.
(** The first two centres and faces are exact. *)
Lemma index_exact : at_index s false 0 = zero /\ val (at_index s true 0) = W / 2 /\ val (at_index s true (-1)) = - (W / 2).
Proof.
  pose proof W_pos as Wp. assert (FM : fmt (W / 2)).
  { destruct (shift_val true) as (_ & V). cbn [half_of] in V. replace (W / 2) with (/ 2 * W) by lra. rewrite <- V. apply fmt_val. }
  split; [|split].
  - unfold at_index. destruct s as [[|]|[|]| |[|] m e B]; try discriminate Fs; try reflexivity; try (exfalso; unfold val in Wp; cbn in Wp; lra).
    exfalso. unfold val in Wp. cbn in Wp. assert (F2R (Float radix2 (Z.neg m) e) < 0) by (apply F2R_lt_0; reflexivity). cbn in H. lra.
  - destruct (index_val true 0 ltac:(lia)) as (_ & -> & _). rewrite Rmult_0_r, (rnd_fmt 0) by apply generic_format_0. cbn [half_of]. rewrite rnd_fmt; [lra|].
    replace (0 + / 2 * W) with (W / 2) by lra. exact FM.
  - destruct (index_val true (-1) ltac:(lia)) as (_ & -> & _). assert (rnd (W * IZR (-1)) = - W) as ->.
    { replace (W * IZR (-1)) with (- W) by lra. apply rnd_fmt. apply generic_format_opp, fmt_val. }
    cbn [half_of]. replace (- W + / 2 * W) with (- (W / 2)) by lra. apply rnd_fmt, generic_format_opp, FM.
Qed.
Lemma first_difference : dsub (at_index s true 0) (at_index s true (-1)) = s.
Proof.
  pose proof W_pos as Wp. destruct index_exact as (_ & V0 & V1). destruct (index_val true 0 ltac:(lia)) as (F0 & _ & _). destruct (index_val true (-1) ltac:(lia)) as (F1 & _ & _).
  assert (E : val (at_index s true 0) - val (at_index s true (-1)) = W) by (rewrite V0, V1; lra).
  destruct (sub_val _ _ F0 F1) as (A & B); [rewrite E, Rabs_pos_eq by lra; eapply Rle_trans; [exact Us|apply bpow_le; lia]|].
  rewrite E, (rnd_fmt _ (fmt_val s)) in B. apply val_inj; [exact A|exact Fs|exact B|lra].
Qed.
(** Neighbouring centres pass the test for even spacing. *)
Lemma index_even k : (Z.abs k <= 2 ^ 31)%Z -> (Z.abs (k + 1) <= 2 ^ 31)%Z ->
  dltb d_micro (ddiv (dabs (dsub s (dsub (at_index s true (k + 1)) (at_index s true k)))) s) = false.
Proof.
  intros K K'. pose proof W_pos as Wp. destruct (index_val true k K) as (Fa & _ & Ea). destruct (index_val true (k + 1) K') as (Fb & _ & Eb).
  set (a := at_index s true k) in *. set (b := at_index s true (k + 1)) in *. cbn [half_of] in *. rewrite plus_IZR in Eb.
  assert (UU : u * IZR (2 ^ 31) = / 4194304) by (unfold u; cbn; lra).
  assert (Us0 : 0 < u <= / 1000000000000) by (split; [apply u_pos|unfold u; cbn; lra]).
  assert (B : forall j, (Z.abs j <= 2 ^ 31)%Z -> u * W * (2 * IZR (Z.abs j) + 2) <= (/ 2097152 + / 100000000000) * W).
  { intros j J. apply IZR_le in J. assert (u * IZR (Z.abs j) <= u * IZR (2 ^ 31)) by (apply Rmult_le_compat_l; lra).
    replace (u * W * (2 * IZR (Z.abs j) + 2)) with ((2 * (u * IZR (Z.abs j)) + 2 * u) * W) by ring. apply Rmult_le_compat_r; lra. }
  pose proof (B k K) as B1. pose proof (B (k + 1)%Z K') as B2. apply Rabs_le_inv in Ea, Eb.
  set (x := val b - val a - W). assert (X : Rabs x <= (/ 1048576 + / 50000000000) * W) by (unfold x; apply Rabs_le; lra).
  assert (Wu : 2 * W <= b2 1023) by (apply Rle_trans with (b2 301 * b2 40); [|exact big]; rewrite Rmult_comm; apply Rmult_le_compat; try lra; change 2 with (b2 1); apply bpow_le; lia).
  apply Rabs_le_inv in X.
  destruct (sub_val b a Fb Fa) as (F1 & V1); [apply Rabs_le; unfold x in X; lra|].
  pose proof (minus_err (val b) (val a) (fmt_val _) (fmt_val _)) as E1. rewrite <- V1 in E1. set (d := dsub b a) in *.
  assert (E1' : Rabs (val d - (val b - val a)) <= / 100000000000 * W).
  { eapply Rle_trans; [exact E1|]. assert (Rabs (val b - val a) <= 2 * W) by (apply Rabs_le; unfold x in X; lra). apply Rle_trans with (u * (2 * W)); [apply Rmult_le_compat_l; lra|]. nra. }
  apply Rabs_le_inv in E1'. assert (G : Rabs (W - val d) <= (/ 1048576 + / 30000000000) * W) by (apply Rabs_le; unfold x in X; lra).
  destruct (sub_val s d Fs F1) as (F2 & V2); [apply Rabs_le; apply Rabs_le_inv in G; lra|].
  pose proof (minus_err W (val d) (fmt_val _) (fmt_val _)) as E2. rewrite <- V2 in E2. set (t := dsub s d) in *.
  assert (T : Rabs (val t) <= (/ 1048576 + / 20000000000) * W).
  { replace (val t) with ((val t - (W - val d)) + (W - val d)) by ring. eapply Rle_trans; [apply Rabs_triang|]. pose proof (Rabs_pos (W - val d)). nra. }
  assert (Ft : finite (dabs t) /\ val (dabs t) = Rabs (val t)) by (split; [unfold finite, dabs; rewrite is_finite_Babs; exact F2|apply B2R_Babs]). destruct Ft as (Ft & Vt).
  assert (Q : 0 <= val (dabs t) / W <= / 1048576 + / 20000000000).
  { rewrite Vt. split; [apply Rmult_le_pos; [apply Rabs_pos|apply Rlt_le, Rinv_0_lt_compat, Wp]|]. apply (Rmult_le_reg_r W); [exact Wp|]. unfold Rdiv. rewrite Rmult_assoc, Rinv_l by lra. lra. }
  destruct (div_val (dabs t) s Ft ltac:(lra)) as (F3 & V3); [rewrite Rabs_pos_eq by apply Q; apply Rle_trans with (b2 0); [cbn; lra|apply bpow_le; lia]|].
  pose proof (abs_eps (val (dabs t) / W)) as Ez. rewrite <- V3, (Rabs_pos_eq _ (proj1 Q)) in Ez. apply Rabs_le_inv in Ez.
  assert (b2 (-1075) <= b2 (-53)) by (apply bpow_le; lia). fold u in H.
  assert (Fm : finite d_micro /\ / 1000000 - / 1000000000000 <= val d_micro) by (split; [reflexivity|]; unfold val; vm_compute B2R; unfold F2R; cbn; lra). destruct Fm as (Fm & Vm).
  apply lt_val_f; [exact Fm|exact F3|]. nra.
Qed.
End Index.
