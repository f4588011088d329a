(** Proofs about Lagrange interpolation in double precision: values at the points
    of the table, and derivatives. *)
From Coq Require Import Reals Lra Lia Psatz.
From Flocq Require Import Core.
From Verif Require Import Prelude StencilM RoundM RoundS RoundP RoundQ RoundT RedM HeatM Cmp64M Cmp64S Cmp64P Part64Q Lag64M Lag64S Lag64A Lag64P Lag64Q Lag64R.
Open Scope R_scope.

(** ** Table points *)
Lemma val_lt x : Rabs (val x) < b2 1024.
Proof. apply abs_B2R_lt_emax. Qed.
Lemma mul_zero y c : finite y -> finite c -> val c = 0 -> finite (dmul y c) /\ val (dmul y c) = 0.
Proof.
  intros Fy Fc Z. destruct (mul_val y c Fy Fc) as (F & V); [rewrite Z, Rmult_0_r, Rabs_R0; apply bpow_ge_0|].
  split; [exact F|]. rewrite V, Z, Rmult_0_r. apply round_0. typeclasses eauto.
Qed.
Lemma mul_one y c : finite y -> finite c -> val c = 1 -> finite (dmul y c) /\ val (dmul y c) = val y.
Proof.
  intros Fy Fc Z. destruct (dmul_val y c Fy Fc) as (F & V); rewrite Z, Rmult_1_r, (rnd_fmt _ (fmt_val y)) in *; [apply val_lt|]. split; assumption.
Qed.
Lemma add_exact s p : finite s -> finite p -> fmt (val s + val p) -> Rabs (val s + val p) < b2 1024 ->
  finite (dadd s p) /\ val (dadd s p) = val s + val p.
Proof. intros Fs Fp F L. destruct (dadd_val s p Fs Fp) as (A & B); rewrite (rnd_fmt _ F) in *; [exact L|]. split; assumption. Qed.
Lemma wfold_zero (c : dbl -> dbl) w : forall ys acc, Forall finite ys -> finite acc -> (forall xk, In xk w -> finite (c xk) /\ val (c xk) = 0) ->
  finite (wfold acc ys (map c w)) /\ val (wfold acc ys (map c w)) = val acc.
Proof.
  induction w as [|xk w IH]; intros [|y ys] acc Fy Fa H; cbn [wfold map]; auto.
  inversion Fy as [|? ? Fy0 Fys]; subst. destruct (H xk (or_introl eq_refl)) as (Fc & Zc). destruct (mul_zero y (c xk) Fy0 Fc Zc) as (Fm & Vm).
  destruct (add_exact acc (dmul y (c xk)) Fa Fm) as (Fd & Vd); [rewrite Vm, Rplus_0_r; apply fmt_val|rewrite Vm, Rplus_0_r; apply val_lt|].
  rewrite Vm, Rplus_0_r in Vd. rewrite <- Vd. apply IH; [exact Fys|exact Fd|intros z I; apply H; right; exact I].
Qed.
Lemma wfold_node (c : dbl -> dbl) : forall w ys j xj yj acc, Forall finite ys -> finite acc -> val acc = 0 ->
  nth_error w j = Some xj -> nth_error ys j = Some yj -> finite (c xj) -> val (c xj) = 1 ->
  (forall i xk, nth_error w i = Some xk -> i <> j -> finite (c xk) /\ val (c xk) = 0) ->
  finite (wfold acc ys (map c w)) /\ val (wfold acc ys (map c w)) = val yj.
Proof.
  induction w as [|xk w IH]; intros [|y ys] j xj yj acc Fy Fa Za X Y Fc Oc H; try (destruct j; discriminate). cbn [wfold map].
  inversion Fy as [|? ? Fy0 Fys]; subst. destruct j as [|j].
  - injection X as ->. injection Y as ->. destruct (mul_one yj (c xj) Fy0 Fc Oc) as (Fm & Vm).
    destruct (add_exact acc (dmul yj (c xj)) Fa Fm) as (Fd & Vd); [rewrite Za, Vm, Rplus_0_l; apply fmt_val|rewrite Za, Vm, Rplus_0_l; apply val_lt|].
    rewrite Za, Vm, Rplus_0_l in Vd. rewrite <- Vd. apply wfold_zero; [exact Fys|exact Fd|].
    intros z I. apply In_nth_error in I. destruct I as (i & I). apply (H (S i) z I). lia.
  - destruct (H 0%nat xk eq_refl ltac:(lia)) as (F0 & Z0). destruct (mul_zero y (c xk) Fy0 F0 Z0) as (Fm & Vm).
    destruct (add_exact acc (dmul y (c xk)) Fa Fm) as (Fd & Vd); [rewrite Vm, Rplus_0_r; apply fmt_val|rewrite Vm, Rplus_0_r; apply val_lt|].
    apply (IH ys j xj yj); try assumption; [rewrite Vd, Za, Vm; ring|].
    intros i z I Ne. apply (H (S i) z I). lia.
Qed.
Lemma ones F : forall (l : list dbl) c, (forall xi, In xi l -> finite (F xi) /\ val (F xi) = 1) -> finite c -> val c = 1 ->
  finite (fold_left (fun c xi => dmul c (F xi)) l c) /\ val (fold_left (fun c xi => dmul c (F xi)) l c) = 1.
Proof.
  induction l as [|xi l IH]; intros c H Fc Oc; cbn [fold_left]; [auto|]. destruct (H xi (or_introl eq_refl)) as (Fi & Oi).
  destruct (mul_one c (F xi) Fc Fi Oi) as (Fm & Vm). apply IH; [intros z I; apply H; right; exact I|exact Fm|congruence].
Qed.
Lemma interp_node w ys x n a b j xj yj : Forall finite w -> NoDup (map val w) -> length w = S n -> (1 <= n)%nat -> finite x ->
  Forall finite ys -> spaced a b (val x :: map val w) -> ratios_ok a b n ->
  nth_error w j = Some xj -> nth_error ys j = Some yj -> val x = val xj ->
  let r := wfold d_zero ys (map (icoef x w) w) in finite r /\ val r = val yj.
Proof.
  intros Fw ND Len N1 Fx Fy Sp RO X Y E. cbv zeta. pose proof (nth_error_In _ _ X) as Ij. pose proof (proj1 (Forall_forall _ _) Fw xj Ij) as Fj.
  apply (wfold_node (icoef x w) w ys j xj yj d_zero Fy (proj1 zero_is) (proj2 zero_is) X Y).
  - apply (icoef_ok x w n Fx Fw ND Len N1 a b Sp RO xj Ij).
  - apply (ones (fun xi => ddiv (dsub x xi) (dsub xj xi))); [|apply one_is|apply one_is]. intros xi Ii.
    destruct (factor_ok x w n Fx Fw Len N1 a b Sp RO xj xi Ij Ii) as (F & _). split; [exact F|].
    apply (oth_in w Fw xj xi Fj) in Ii. destruct Ii as (Ii & Ne). pose proof (proj1 (Forall_forall _ _) Fw xi Ii) as Fi.
    assert (Jj : In (val xj) (val x :: map val w)) by (right; apply in_map, Ij).
    assert (Ji : In (val xi) (val x :: map val w)) by (right; apply in_map, Ii).
    destruct (diff_ok x w n Len N1 a b Sp RO xj xi Fj Fi Jj Ji) as (F2 & N2 & L2 & U2).
    destruct (near_inv _ _ _ (ltac:(lra) : val xj - val xi <> 0) N2) as (Nz & _).
    destruct (a_pos n a b RO) as (_ & _ & _ & HB & _). assert (b2 400 <= b2 1023) by (apply bpow_le; lia).
    destruct (sub_val xj xi Fj Fi) as (_ & V2); [lra|]. destruct (sub_val x xi Fx Fi) as (F1 & V1); [rewrite E; lra|]. rewrite E, <- V2 in V1.
    assert (V : val (dsub x xi) / val (dsub xj xi) = 1) by (rewrite V1; field; exact Nz).
    destruct (div_val (dsub x xi) (dsub xj xi) F1 Nz) as (_ & VV); [rewrite V, Rabs_R1; change 1 with (b2 0); apply bpow_le; lia|].
    rewrite VV, V. apply rnd_fmt. apply (fmt_bpow 0). lia.
  - intros i xk I Ne. pose proof (nth_error_In _ _ I) as Ik. destruct (icoef_ok x w n Fx Fw ND Len N1 a b Sp RO xk Ik) as (F & (t & T & V) & _).
    split; [exact F|]. rewrite V, E, weight_other; [ring|apply in_map, Ij|]. intros Q. apply Ne.
    apply (proj1 (NoDup_nth_error (map val w)) ND); [rewrite map_length; apply nth_error_Some; congruence|].
    rewrite !nth_error_map, I, X. cbn. congruence.
Qed.

(** ** Derivatives *)
Lemma suml_map f l : suml f (map val l) = tsum (fun a => f (val a)) l.
Proof. induction l as [|a l IH]; cbn; [reflexivity|]. rewrite IH. reflexivity. Qed.
Lemma tsum_ext {T} (f h : T -> R) l : (forall a, In a l -> f a = h a) -> tsum f l = tsum h l.
Proof. intros H. induction l as [|a l IH]; cbn; [reflexivity|]. rewrite H by (left; reflexivity). rewrite IH; [reflexivity|]. intros; apply H; right; assumption. Qed.
Lemma tsum_ge {T} (f : T -> R) l a : (forall b, In b l -> 0 <= f b) -> In a l -> f a <= tsum f l.
Proof.
  induction l as [|c l IH]; intros H []; cbn [tsum].
  - subst. pose proof (tsum_pos f l (fun b I => H b (or_intror I))). lra.
  - pose proof (H c (or_introl eq_refl)). pose proof (IH (fun b I => H b (or_intror I)) H0). lra.
Qed.

Section Deriv.
Context (x : dbl) (w : list dbl) (n : nat) (Fx : finite x) (Fw : Forall finite w) (ND : NoDup (map val w)) (Len : length w = S n) (N1 : (1 <= n)%nat).
Context (a b : R) (Sp : spaced a b (val x :: map val w)) (PO : products_ok a b n).

Lemma pr_lo j : (j <= n)%nat -> b2 (-400) <= (a / 2) ^ j.
Proof.
  intros L. destruct PO as (A & _ & C & _). rewrite p2 in C. destruct (pow_between_lo (a / 2) j n ltac:(lra) L) as [H|H]; [|lra].
  eapply Rle_trans; [|exact H]. change 1 with (b2 0). apply bpow_le. lia.
Qed.
Lemma pr_hi j : (j <= n)%nat -> (2 * b) ^ j <= b2 400.
Proof.
  intros L. destruct PO as (A & B & _ & C). rewrite p2 in C. destruct (pow_between (2 * b) j n ltac:(lra) L) as [H|H]; [|lra].
  eapply Rle_trans; [exact H|]. change 1 with (b2 0). apply bpow_le. lia.
Qed.
Lemma b_hi : b <= b2 400.
Proof. pose proof (pr_hi 1 N1) as H. destruct PO as (A & B & _). rewrite pow_1 in H. lra. Qed.
Lemma n_small : INR n <= 800.
Proof.
  assert (K : (n <= 800)%nat).
  { apply two_pow_le. change (Z.of_nat 800) with 800%Z. destruct PO as (A & B & C & D). rewrite p2 in C, D.
    apply Rle_trans with ((2 * b / (a / 2)) ^ n).
    - apply pow_incr. split; [lra|]. apply (Rmult_le_reg_r (a / 2)); [lra|]. unfold Rdiv at 2. rewrite Rmult_assoc, Rinv_l by lra. lra.
    - unfold Rdiv at 1. rewrite Rpow_mult_distr, pow_inv. change 800%Z with (400 - -400)%Z. unfold Zminus. rewrite bpow_plus, bpow_opp.
      apply Rmult_le_compat; [apply pow_le; lra|left; apply Rinv_0_lt_compat, pow_lt; lra|exact D|]. apply Rinv_le_contravar; [apply bpow_gt_0|exact C]. }
  apply le_INR in K. rewrite (INR_IZR_INZ 800) in K. exact K.
Qed.
Lemma ddiff_ok p q : finite p -> finite q -> In (val p) (val x :: map val w) -> In (val q) (val x :: map val w) ->
  finite (dsub p q) /\ near 1 (val (dsub p q)) (val p - val q) /\ (val p - val q = 0 \/ a <= Rabs (val p - val q)) /\ Rabs (val p - val q) <= b.
Proof.
  intros Fp Fq Ip Iq. pose proof b_hi as C. destruct PO as (A & B & _).
  assert (D : (val p - val q = 0 \/ a <= Rabs (val p - val q)) /\ Rabs (val p - val q) <= b).
  { destruct (Sp _ _ Ip Iq) as [E|(L & U)]; [|split; [right; exact L|exact U]]. rewrite E.
    replace (val q - val q) with 0 by ring. rewrite Rabs_R0. split; [left; reflexivity|lra]. }
  destruct D as (D1 & D2). assert (b2 400 <= b2 1023) by (apply bpow_le; lia).
  destruct (sub_val p q Fp Fq) as (F & V); [lra|]. split; [exact F|]. split; [|split; assumption].
  rewrite V. apply near_minus; apply fmt_val.
Qed.
(** The product of the distances of z from some points. *)
Lemma dprod_ok z l : finite z -> In (val z) (val x :: map val w) -> (forall xi, In xi l -> In xi w) -> (length l <= n)%nat ->
  let r := fold_left (fun c xi => dmul c (dsub z xi)) l d_one in let E := prodl (fun s => val z - s) (map val l) in
  finite r /\ near (2 * length l) (val r) E /\ (E = 0 \/ b2 (-400) <= Rabs E) /\ Rabs E <= b2 400.
Proof.
  intros Fz Iz Sl Ll. cbv zeta. destruct PO as (A & B & _).
  assert (K := prod_near 1 a b n (fun xi => dsub z xi) (fun s => val z - s)
    ltac:(lia) A ltac:(lra)
    ltac:(intros j J; eapply Rle_trans; [|apply (pr_lo j J)]; apply bpow_le; lia)
    ltac:(intros j J; eapply Rle_trans; [apply (pr_hi j J)|]; apply bpow_le; lia)
    l d_one 1 0%nat ltac:(lia)
    ltac:(intros xi Ii; apply ddiff_ok; [exact Fz|exact (proj1 (Forall_forall _ _) Fw xi (Sl xi Ii))|exact Iz|right; apply in_map, Sl, Ii]) (proj1 one_is)
    ltac:(rewrite (proj2 one_is); apply near_refl) ltac:(right; rewrite Rabs_R1; cbn; lra) ltac:(rewrite Rabs_R1; cbn; lra)).
  cbv zeta in K. rewrite Rmult_1_l in K. cbn [Nat.add] in K. destruct K as (K1 & K2 & K3 & K4). split; [exact K1|]. split; [exact K2|]. split.
  - destruct K3 as [Z|K3]; [left; exact Z|right]. eapply Rle_trans; [apply (pr_lo _ Ll)|]. eapply Rle_trans; [|exact K3]. apply pow_incr. lra.
  - eapply Rle_trans; [exact K4|]. eapply Rle_trans; [|apply (pr_hi _ Ll)]. apply pow_incr. lra.
Qed.
Lemma oth_sub xk xi : In xi (oth xk w) -> In xi w.
Proof. intros I. apply filter_In in I. apply I. Qed.
Lemma dden_ok xk : In xk w -> let D := prodl (fun s => val xk - s) (others (val xk) (map val w)) in
  finite (dden w xk) /\ near (2 * n) (val (dden w xk)) D /\ D <> 0 /\ b2 (-400) <= Rabs D /\ Rabs D <= b2 400.
Proof.
  intros Ik. cbv zeta. pose proof (proj1 (Forall_forall _ _) Fw xk Ik) as Fk. pose proof (oth_length w n Fw ND Len N1 xk Ik) as LO.
  destruct (dprod_ok xk (oth xk w) Fk (or_intror (in_map val w xk Ik)) (oth_sub xk) ltac:(lia)) as (K1 & K2 & K3 & K4).
  rewrite oth_vals in K2, K3, K4 by assumption. rewrite LO in K2. pose proof (basis_den (map val w) (val xk)) as Nz.
  split; [exact K1|]. split; [exact K2|]. split; [exact Nz|]. split; [|exact K4]. destruct K3; [congruence|assumption].
Qed.
Lemma dterm_ok xk xj : In xk w -> In xj (oth xk w) ->
  let T := prodl (fun s => val x - s) (others (val xj) (others (val xk) (map val w))) in
  finite (dterm x (oth xk w) xj) /\ near (2 * (n - 1)) (val (dterm x (oth xk w) xj)) T /\ (T = 0 \/ b2 (-400) <= Rabs T) /\ Rabs T <= b2 400.
Proof.
  intros Ik Ij. cbv zeta. pose proof (proj1 (Forall_forall _ _) Fw xk Ik) as Fk. pose proof (oth2_length w n Fw ND Len N1 xk xj Ik Ij) as LO.
  assert (Fo := oth_finite xk w Fw). pose proof (proj1 (Forall_forall _ _) Fo xj Ij) as Fj.
  destruct (dprod_ok x (oth xj (oth xk w)) Fx (or_introl eq_refl)) as (K1 & K2 & K3 & K4).
  - intros xi Ii. apply (oth_sub xk). unfold oth at 1 in Ii. apply filter_In in Ii. apply Ii.
  - lia.
  - rewrite oth_vals, oth_vals in K2, K3, K4 by assumption. rewrite LO in K2. auto.
Qed.
(** Some term of the numerator is not zero. *)
Lemma term_nonzero xk : In xk w -> exists xj, In xj (oth xk w) /\
  prodl (fun s => val x - s) (others (val xj) (others (val xk) (map val w))) <> 0.
Proof.
  intros Ik. pose proof (proj1 (Forall_forall _ _) Fw xk Ik) as Fk. pose proof (oth_length w n Fw ND Len N1 xk Ik) as LO.
  destruct (in_dec Req_EM_T (val x) (others (val xk) (map val w))) as [I|I].
  - pose proof I as I'. rewrite <- oth_vals in I' by assumption. apply in_map_iff in I'. destruct I' as (xj & E & Ij). exists xj. split; [exact Ij|].
    apply prodl_nonzero. intros s Is. apply in_others in Is. rewrite E in Is. lra.
  - destruct (oth xk w) as [|xj o] eqn:Eo; [cbn in LO; lia|]. exists xj. split; [left; reflexivity|].
    apply prodl_nonzero. intros s Is. apply in_others in Is. intros Z. apply I. replace (val x) with s by lra. apply Is.
Qed.
Lemma dnum_ok xk : In xk w ->
  let S := suml (fun xj => prodl (fun s => val x - s) (others xj (others (val xk) (map val w)))) (others (val xk) (map val w)) in
  let A := suml (fun xj => Rabs (prodl (fun s => val x - s) (others xj (others (val xk) (map val w))))) (others (val xk) (map val w)) in
  finite (dnum x w xk) /\ close (3 * n) (val (dnum x w xk)) S A /\ b2 (-400) <= A /\ A <= b2 410.
Proof.
  intros Ik. cbv zeta. pose proof (proj1 (Forall_forall _ _) Fw xk Ik) as Fk. pose proof (oth_length w n Fw ND Len N1 xk Ik) as LO.
  assert (OV : forall f, suml f (others (val xk) (map val w)) = tsum (fun a => f (val a)) (oth xk w))
    by (intros f; rewrite <- (oth_vals xk w Fk Fw); apply suml_map). rewrite !OV.
  set (t := fun xj => prodl (fun s => val x - s) (others (val xj) (others (val xk) (map val w)))).
  change (tsum (fun a0 => prodl (fun s => val x - s) (others (val a0) (others (val xk) (map val w)))) (oth xk w)) with (tsum t (oth xk w)).
  change (tsum (fun a0 => Rabs (prodl (fun s => val x - s) (others (val a0) (others (val xk) (map val w))))) (oth xk w)) with (tsum (fun xj => Rabs (t xj)) (oth xk w)).
  assert (LA : b2 (-400) <= tsum (fun xj => Rabs (t xj)) (oth xk w)).
  { destruct (term_nonzero xk Ik) as (xj & Ij & Nz). destruct (dterm_ok xk xj Ik Ij) as (_ & _ & [Z|L] & _); [congruence|].
    eapply Rle_trans; [exact L|]. apply (tsum_ge (fun xj => Rabs (t xj)) (oth xk w) xj); [intros; apply Rabs_pos|exact Ij]. }
  pose proof n_small as Hn.
  assert (UA : tsum (fun xj => Rabs (t xj)) (oth xk w) <= b2 410).
  { eapply Rle_trans; [apply (tsum_le _ _ (b2 400)); intros xj Ij; apply (dterm_ok xk xj Ik Ij)|]. rewrite LO.
    change 410%Z with (10 + 400)%Z. rewrite bpow_plus. apply Rmult_le_compat_r; [apply bpow_ge_0|]. change (b2 10) with 1024. lra. }
  assert (Q : finite (dnum x w xk) /\ close (3 * n) (val (dnum x w xk)) (tsum t (oth xk w)) (tsum (fun xj => Rabs (t xj)) (oth xk w))).
  2:{ split; [apply Q|]. split; [apply Q|]. split; assumption. }
  destruct (Nat.eq_dec n 1) as [E1|E1].
  - assert (exists z, oth xk w = [z]) as (z & Ez) by (destruct (oth xk w) as [|z [|z' o]]; cbn in LO; try lia; eauto).
    unfold dnum. rewrite Ez. cbn [tsum]. assert (Tz : t z = 1).
    { unfold t. rewrite <- (oth_vals xk w Fk Fw), Ez. cbn [map]. unfold others. cbn [filter]. rewrite reqb_refl. reflexivity. }
    rewrite Tz, Rabs_R1, (proj2 one_is). split; [apply one_is|]. split; [|rewrite !Rplus_0_r, Rabs_R1; lra].
    replace (1 - (1 + 0)) with 0 by ring. rewrite Rabs_R0. pose proof (g_pow (3 * n)). nra.
  - assert (E : dnum x w xk = fold_left (fun s xj => dadd s (dterm x (oth xk w) xj)) (oth xk w) d_zero)
      by (unfold dnum; destruct (oth xk w) as [|z [|z' o]]; cbn in LO; try lia; reflexivity). rewrite E.
    assert (K := sum_close (dterm x (oth xk w)) t (fun xj => Rabs (t xj)) (oth xk w) d_zero 0 0 (2 * (n - 1))). rewrite LO, !Rplus_0_l in K.
    destruct K as (K1 & K2).
    + eapply Rle_trans; [apply (le_INR _ (3 * n)); lia|]. rewrite mult_INR. cbn. lra.
    + intros xj Ij. destruct (dterm_ok xk xj Ik Ij) as (T1 & T2 & _). split; [exact T1|apply near_close, T2].
    + apply zero_is.
    + rewrite (proj2 zero_is). split; [|rewrite Rabs_R0; lra]. replace (0 - 0) with 0 by ring. rewrite Rabs_R0. lra.
    + eapply Rle_trans; [exact UA|apply bpow_le; lia].
    + split; [exact K1|apply (close_mono (2 * (n - 1) + n)); [lia|exact K2]].
Qed.
Lemma dcoef_ok xk : In xk w ->
  finite (dcoef x w xk) /\ close (5 * n + 1) (val (dcoef x w xk)) (dweight (map val w) (val x) (val xk)) (dsize (map val w) (val x) (val xk)) /\
  b2 (-900) <= dsize (map val w) (val x) (val xk) /\ dsize (map val w) (val x) (val xk) <= b2 900.
Proof.
  intros Ik. destruct (dnum_ok xk Ik) as (N & C & LA & UA). destruct (dden_ok xk Ik) as (Fd & Nd & Dz & LD & UD). cbv zeta in *.
  assert (Q := close_div _ _ _ _ _ _ _ C Nd Dz). replace (3 * n + 2 * n)%nat with (5 * n)%nat in Q by lia.
  fold (dweight (map val w) (val x) (val xk)) in Q. fold (dsize (map val w) (val x) (val xk)) in Q.
  assert (L : b2 (-800) <= dsize (map val w) (val x) (val xk)).
  { unfold dsize, Rdiv. change (-800)%Z with (-400 + - (400))%Z. rewrite bpow_plus, bpow_opp. apply Rmult_le_compat; [apply bpow_ge_0|left; apply Rinv_0_lt_compat, bpow_gt_0|exact LA|].
    apply Rinv_le_contravar; [apply Rabs_pos_lt, Dz|exact UD]. }
  assert (U : dsize (map val w) (val x) (val xk) <= b2 810).
  { unfold dsize, Rdiv. change 810%Z with (410 + - (-400))%Z. rewrite bpow_plus, bpow_opp. apply Rmult_le_compat.
    - pose proof (bpow_ge_0 radix2 (-400)). lra.
    - left. apply Rinv_0_lt_compat, Rabs_pos_lt, Dz.
    - exact UA.
    - apply Rinv_le_contravar; [apply bpow_gt_0|exact LD]. }
  destruct (near_inv _ _ _ Dz Nd) as (Nz & _). pose proof n_small as Hn.
  destruct (div_val (dnum x w xk) (dden w xk) N Nz) as (F & V).
  { eapply Rle_trans; [exact (close_abs _ _ _ _ Q)|]. destruct (g_two (5 * n)) as (_ & G2); [rewrite mult_INR; cbn; lra|]. pose proof (g_pow (5 * n)).
    pose proof (bpow_ge_0 radix2 (-800)). apply Rle_trans with (2 * b2 810); [apply Rmult_le_compat; lra|]. change 2 with (b2 1). rewrite <- bpow_plus. apply bpow_le. lia. }
  split; [exact F|]. split; [|split].
  - unfold dcoef. rewrite V, Nat.add_1_r. apply close_rnd; [exact Q|]. right. eapply Rle_trans; [|exact L]. apply bpow_le. lia.
  - eapply Rle_trans; [|exact L]. apply bpow_le. lia.
  - eapply Rle_trans; [exact U|]. apply bpow_le. lia.
Qed.
Lemma deriv_accurate ys : Forall plain ys -> length ys = S n ->
  let r := wfold d_zero ys (map (dcoef x w) w) in
  finite r /\ Rabs (val r - blend (dweight (map val w) (val x)) (map val w) (map val ys)) <=
    powerRZ 2 (-47) * INR n * blend (dsize (map val w) (val x)) (map val w) (map Rabs (map val ys)).
Proof.
  intros Py Ly. cbv zeta. pose proof n_small as Hn.
  assert (K4 : INR (5 * n + 1) <= 8000) by (rewrite plus_INR, mult_INR; cbn; lra).
  assert (V := value_close (dcoef x w) (dweight (map val w) (val x)) (dsize (map val w) (val x)) (5 * n + 1) n w ys Fw Py Len Ly ltac:(lra) K4).
  destruct V as (V1 & V2 & V3).
  { intros xk Ik. destruct (dcoef_ok xk Ik) as (I1 & I2 & I3 & I4). split; [exact I1|]. split; [exact I2|]. split; [right; exact I3|exact I4]. }
  split; [exact V1|]. eapply Rle_trans; [exact V2|]. apply Rmult_le_compat_r.
  - apply blend_pos. intros r I. apply in_map_iff in I. destruct I as (xk & <- & Ik). destruct (dcoef_ok xk Ik) as (_ & _ & I3 & _).
    pose proof (bpow_ge_0 radix2 (-900)). lra.
  - destruct (g_two (5 * n + 1 + 1 + S n)) as (G & _).
    { rewrite !plus_INR, mult_INR, (S_INR n). cbn. lra. }
    rewrite !plus_INR, mult_INR, (S_INR n) in G. cbn [INR] in G. assert (1 <= INR n) by (apply (le_INR 1); exact N1).
    rewrite p2. change (-47)%Z with (6 + -53)%Z. rewrite bpow_plus. fold u. change (b2 6) with 64. pose proof u_pos. nra.
Qed.
End Deriv.
