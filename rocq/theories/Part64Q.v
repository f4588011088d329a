(** Proofs about the particle operators in double precision: the numbers. *)
From Coq Require Import Reals Lra Lia Psatz.
From Flocq Require Import Core.
From Verif Require Import Prelude WindowM WindowS GhostM FieldM FieldS MaskM NeboM NeboS StencilM StencilS IterM IterS RoundM RoundS RoundP RoundQ RoundT RedM RedS RedP HeatM Cmp64M Cmp64S Cmp64P Part64M Part64S Part64P.
Open Scope R_scope.

Notation b2 := (bpow radix2).
Lemma eight_u : powerRZ 2 (-50) = 8 * u.
Proof. rewrite p2. unfold u. change (-50)%Z with (3 + -53)%Z. rewrite bpow_plus. cbn. lra. Qed.
Lemma sub_val x y : finite x -> finite y -> Rabs (val x - val y) <= b2 1023 -> finite (dsub x y) /\ val (dsub x y) = rnd (val x - val y).
Proof.
  intros Fx Fy L. apply (rnd_abs_le _ _ (fmt_bpow 1023 ltac:(lia))) in L. destruct (sub_cases x y Fx Fy) as [(A & C & _)|(sg & _ & C)]; [auto|].
  exfalso. assert (b2 1023 < b2 1024) by (apply bpow_lt; lia). lra.
Qed.
Lemma add_val x y : finite x -> finite y -> Rabs (val x + val y) <= b2 1023 -> finite (dadd x y) /\ val (dadd x y) = rnd (val x + val y).
Proof.
  intros Fx Fy L. apply (rnd_abs_le _ _ (fmt_bpow 1023 ltac:(lia))) in L. apply dadd_val; [assumption..|].
  eapply Rle_lt_trans; [exact L|apply bpow_lt; lia].
Qed.
Lemma mul_val x y : finite x -> finite y -> Rabs (val x * val y) <= b2 1023 -> finite (dmul x y) /\ val (dmul x y) = rnd (val x * val y).
Proof.
  intros Fx Fy L. apply (rnd_abs_le _ _ (fmt_bpow 1023 ltac:(lia))) in L. apply dmul_val; [assumption..|].
  eapply Rle_lt_trans; [exact L|apply bpow_lt; lia].
Qed.
Lemma div_val x y : finite x -> val y <> 0 -> Rabs (val x / val y) <= b2 1023 -> finite (ddiv x y) /\ val (ddiv x y) = rnd (val x / val y).
Proof.
  intros Fx Ny L. apply (rnd_abs_le _ _ (fmt_bpow 1023 ltac:(lia))) in L. apply ddiv_val; [assumption..|].
  eapply Rle_lt_trans; [exact L|apply bpow_lt; lia].
Qed.
Lemma two_val : finite d_two /\ val d_two = 2.
Proof. split; [reflexivity|]. unfold val. vm_compute B2R. unfold F2R. cbn. lra. Qed.
Lemma plus_err x y : fmt x -> fmt y -> Rabs (rnd (x + y) - (x + y)) <= u * Rabs (x + y).
Proof.
  intros Fx Fy. destruct (plus_eps x y Fx Fy) as (e & He & ->). replace ((x + y) * (1 + e) - (x + y)) with (e * (x + y)) by ring.
  rewrite Rabs_mult. apply Rmult_le_compat_r; [apply Rabs_pos|exact He].
Qed.
Lemma minus_err x y : fmt x -> fmt y -> Rabs (rnd (x - y) - (x - y)) <= u * Rabs (x - y).
Proof. intros Fx Fy. apply (plus_err x (- y) Fx). apply generic_format_opp. exact Fy. Qed.

(** Halves are exact. *)
Lemma half_exact s : finite s -> b2 (-400) <= val s -> val s <= b2 1000 ->
  finite (ddiv s d_two) /\ val (ddiv s d_two) = val s / 2 /\ dmul d_half s = ddiv s d_two.
Proof.
  intros F L U. assert (P : 0 < val s) by (eapply Rlt_le_trans; [apply bpow_gt_0|exact L]).
  assert (Q : b2 1000 <= b2 1023) by (apply bpow_le; lia).
  assert (FM : fmt (val s / 2)).
  { replace (val s / 2) with (val s * b2 (-1)) by (cbn; lra). apply scale_fmt; [apply fmt_val| |lia].
    right. rewrite p2, Rabs_pos_eq by lra. eapply Rle_trans; [|exact L]. apply bpow_le. lia. }
  destruct two_val as (F2 & V2). destruct half_val as (Fh & Vh). change (b2 (-1)) with (/ 2) in Vh.
  destruct (div_val s d_two F) as (A & C); [lra|rewrite V2, Rabs_pos_eq by lra; lra|].
  rewrite V2, (rnd_fmt _ FM) in C. split; [exact A|]. split; [exact C|].
  destruct (mul_val d_half s Fh F) as (A' & C'); [rewrite Vh, Rabs_pos_eq by lra; lra|].
  apply val_inj; [exact A'|exact A| |rewrite C'].
  - rewrite C, C', Vh. replace (/ 2 * val s) with (val s / 2) by lra. apply rnd_fmt, FM.
  - rewrite Vh. replace (/ 2 * val s) with (val s / 2) by lra. rewrite rnd_fmt by exact FM. lra.
Qed.

Lemma trunc_nonneg q : 0 <= val q -> IZR (Btrunc q) <= val q < IZR (Btrunc q) + 1 /\ (0 <= Btrunc q)%Z.
Proof.
  intros P. pose proof (Btrunc_correct 53 1024 d_emax q) as C. unfold round, F2R, scaled_mantissa, cexp, FIX_exp in C. cbn in C.
  rewrite !Rmult_1_r in C. apply eq_IZR in C. change (B2R q) with (val q) in C. rewrite C, Ztrunc_floor by exact P.
  pose proof (Zfloor_lb (val q)). pose proof (Zfloor_ub (val q)). split; [lra|]. apply Zfloor_lub. exact P.
Qed.

(** Shortening an interval to [A,C]. *)
Definition cl (A C t : R) : R := Rmin C (Rmax A t).
Lemma common_cl A C c d : A <= C -> c <= d -> common A C c d = cl A C d - cl A C c.
Proof. intros H H'. unfold common, cl, Rmin, Rmax. repeat destruct (Rle_dec _ _); lra. Qed.
Lemma cl_mono A C s t : s <= t -> cl A C s <= cl A C t.
Proof. intros H. unfold cl, Rmin, Rmax. repeat destruct (Rle_dec _ _); lra. Qed.
Lemma cl_between A C t : A <= C -> A <= cl A C t <= C.
Proof. intros H. unfold cl, Rmin, Rmax. repeat destruct (Rle_dec _ _); lra. Qed.

(** Sums. *)
Lemma rsum_app a b : rsum (a ++ b) = rsum a + rsum b.
Proof. induction a as [|x a IH]; cbn; [ring|]. rewrite IH. ring. Qed.
Lemma rsum_plus {T} (f g : T -> R) l : rsum (map (fun t => f t + g t) l) = rsum (map f l) + rsum (map g l).
Proof. induction l as [|x l IH]; cbn; [ring|]. rewrite IH. ring. Qed.
Lemma rsum_minus {T} (f g : T -> R) l : rsum (map (fun t => f t - g t) l) = rsum (map f l) - rsum (map g l).
Proof. induction l as [|x l IH]; cbn; [ring|]. rewrite IH. ring. Qed.
Lemma rsum_scale {T} c (f : T -> R) l : rsum (map (fun t => c * f t) l) = c * rsum (map f l).
Proof. induction l as [|x l IH]; cbn; [ring|]. rewrite IH. ring. Qed.
Lemma rsum_le {T} (f g : T -> R) l : (forall t, In t l -> f t <= g t) -> rsum (map f l) <= rsum (map g l).
Proof. induction l as [|x l IH]; intros H; cbn; [lra|]. pose proof (H x (or_introl eq_refl)). pose proof (IH (fun t I => H t (or_intror I))). lra. Qed.
Lemma rsum_le_abs {T} (f g : T -> R) l : (forall t, In t l -> Rabs (f t) <= g t) -> Rabs (rsum (map f l)) <= rsum (map g l).
Proof.
  induction l as [|x l IH]; intros H; cbn; [rewrite Rabs_R0; lra|]. pose proof (H x (or_introl eq_refl)). pose proof (IH (fun t I => H t (or_intror I))).
  eapply Rle_trans; [apply Rabs_triang|]. lra.
Qed.
Lemma rsum_diff_le {T} (f g e : T -> R) l : (forall t, In t l -> Rabs (f t - g t) <= e t) -> Rabs (rsum (map f l) - rsum (map g l)) <= rsum (map e l).
Proof. intros H. rewrite <- rsum_minus. apply rsum_le_abs, H. Qed.
Lemma rsum_swap {S T} (f : S -> T -> R) a b : rsum (map (fun s => rsum (map (f s) b)) a) = rsum (map (fun t => rsum (map (fun s => f s t) a)) b).
Proof.
  induction a as [|x a IH]; cbn.
  - induction b as [|y b IH]; cbn; [reflexivity|]. rewrite <- IH. ring.
  - rewrite IH, <- rsum_plus. reflexivity.
Qed.
Lemma rsum_zero {T} (f : T -> R) l : (forall t, In t l -> f t = 0) -> rsum (map f l) = 0.
Proof. induction l as [|x l IH]; intros H; cbn; [reflexivity|]. rewrite (H x (or_introl eq_refl)), IH by (intros t I; apply H; right; exact I). ring. Qed.
Lemma rsum_same {T} c (l : list T) : rsum (map (fun _ => c) l) = INR (length l) * c.
Proof. induction l as [|x l IH]; [cbn; ring|]. cbn [map rsum length]. rewrite IH, S_INR. ring. Qed.
(** Adding up some of the values. *)
Definition opts {T} (f : T -> option dbl) (l : list T) : list dbl := flat_map (fun t => match f t with Some x => [x] | None => [] end) l.
Definition vopt (o : option dbl) : R := match o with Some x => val x | None => 0 end.
Lemma opts_fold {T} (f : T -> option dbl) l : forall acc, fold_left (fun a t => plus_opt a (f t)) l acc = fold_left dadd (opts f l) acc.
Proof. induction l as [|x l IH]; intros acc; cbn; [reflexivity|]. rewrite IH, fold_left_app. destruct (f x); reflexivity. Qed.
Lemma opts_length {T} (f : T -> option dbl) l : (length (opts f l) <= length l)%nat.
Proof. induction l as [|x l IH]; cbn; [lia|]. rewrite app_length. destruct (f x); cbn; unfold opts in IH; lia. Qed.
Lemma opts_sum {T} (f : T -> option dbl) l : rsum (map val (opts f l)) = rsum (map (fun t => vopt (f t)) l).
Proof. induction l as [|x l IH]; cbn; [reflexivity|]. rewrite map_app, rsum_app. unfold opts in IH. rewrite IH. destruct (f x); cbn; ring. Qed.
Lemma rabs_app a b : rabs_sum (a ++ b) = rabs_sum a + rabs_sum b.
Proof. induction a as [|x a IH]; cbn; [ring|]. rewrite IH. ring. Qed.
Lemma opts_abs {T} (f : T -> option dbl) l : rabs_sum (opts f l) = rsum (map (fun t => Rabs (vopt (f t))) l).
Proof. induction l as [|x l IH]; cbn; [reflexivity|]. rewrite rabs_app. unfold opts in IH. rewrite IH. destruct (f x); cbn; rewrite ?Rabs_R0; ring. Qed.
Lemma opts_finite {T} (f : T -> option dbl) l : (forall t, In t l -> match f t with Some x => finite x | None => True end) -> Forall finite (opts f l).
Proof.
  induction l as [|x l IH]; intros H; cbn; [constructor|]. apply Forall_app. split.
  - specialize (H x (or_introl eq_refl)). destruct (f x); repeat constructor. exact H.
  - apply IH. intros t I. apply H. right. exact I.
Qed.
Lemma fold_err l : Forall finite l -> INR (length l) <= powerRZ 2 52 -> rabs_sum l <= powerRZ 2 1022 ->
  finite (fold_left dadd l d_zero) /\ Rabs (val (fold_left dadd l d_zero) - rsum (map val l)) <= INR (length l) * (2 * u) * rabs_sum l.
Proof.
  intros F L H. apply count_u in L. rewrite p2 in H. pose proof u_pos as Up. pose proof (pow_u_lin _ L) as P. pose proof (pow_u_ge (length l)) as G. pose proof (rabs_sum_pos l) as SP.
  assert (Z : val d_zero = 0) by reflexivity. pose proof (pos_INR (length l)) as Pl.
  destruct (sum_error l d_zero eq_refl F) as [Fs Er].
  - rewrite Z, Rabs_R0, Rplus_0_l. apply Rle_trans with (2 * b2 1022); [apply Rmult_le_compat; lra|]. change 1023%Z with (1 + 1022)%Z. rewrite bpow_plus. right. reflexivity.
  - split; [exact Fs|]. rewrite Z, Rabs_R0, !Rplus_0_l in Er. eapply Rle_trans; [exact Er|]. apply Rmult_le_compat_r; nra.
Qed.
Lemma opts_err {T} (f : T -> option dbl) l (c : T -> R) : (forall t, In t l -> match f t with Some x => finite x | None => True end) ->
  (forall t, In t l -> Rabs (vopt (f t)) <= c t) -> INR (length l) <= powerRZ 2 52 -> rsum (map c l) <= powerRZ 2 1022 ->
  finite (fold_left dadd (opts f l) d_zero) /\
  Rabs (val (fold_left dadd (opts f l) d_zero) - rsum (map (fun t => vopt (f t)) l)) <= INR (length l) * (2 * u) * rsum (map (fun t => Rabs (vopt (f t))) l).
Proof.
  intros F Hc L H. pose proof (rsum_le (fun t => Rabs (vopt (f t))) c l Hc) as Q. rewrite <- opts_abs in Q.
  pose proof (le_INR _ _ (opts_length f l)) as Ll.
  destruct (fold_err (opts f l)) as (A & E); [apply opts_finite, F|lra|lra|]. split; [exact A|]. rewrite opts_sum in E. eapply Rle_trans; [exact E|].
  rewrite <- opts_abs. pose proof u_pos. apply Rmult_le_compat_r; [apply rabs_sum_pos|]. apply Rmult_le_compat_r; lra.
Qed.
(** i, i+1, ... *)
Fixpoint zup (i : Z) (n : nat) : list Z := match n with O => [] | S n => i :: zup (i + 1) n end.
Lemma zup_seq n : forall i j, (i = Z.of_nat j)%Z -> zup i n = map Z.of_nat (seq j n).
Proof. induction n as [|n IH]; intros i j E; cbn; [reflexivity|]. rewrite (IH (i + 1)%Z (S j)) by lia. rewrite E. reflexivity. Qed.
Lemma zup_zrange n : zrange n = zup 0 (Z.to_nat n).
Proof. unfold zrange. symmetry. apply zup_seq. reflexivity. Qed.
Lemma zup_app a : forall i b, zup i (a + b) = zup i a ++ zup (i + Z.of_nat a) b.
Proof. induction a as [|a IH]; intros i b; cbn -[Z.of_nat]; [f_equal; lia|]. rewrite IH. do 3 f_equal. lia. Qed.
Lemma in_zup n : forall i k, In k (zup i n) <-> (i <= k < i + Z.of_nat n)%Z.
Proof. induction n as [|n IH]; intros i k; cbn -[Z.of_nat]; [lia|]. rewrite IH. lia. Qed.
Lemma zup_length n : forall i, length (zup i n) = n.
Proof. induction n as [|n IH]; intros i; cbn; [reflexivity|]. rewrite IH. reflexivity. Qed.
Lemma rsum_tele (g : Z -> R) n : forall i, rsum (map (fun k => g k - g (k - 1)%Z) (zup i n)) = g (i + Z.of_nat n - 1)%Z - g (i - 1)%Z.
Proof.
  induction n as [|n IH]; intros i; cbn -[Z.of_nat].
  - replace (i + Z.of_nat 0 - 1)%Z with (i - 1)%Z by lia. ring.
  - rewrite IH. replace (i + 1 - 1)%Z with i by lia. replace (i + 1 + Z.of_nat n - 1)%Z with (i + Z.of_nat (S n) - 1)%Z by lia. ring.
Qed.
(** The pieces in order. *)
Lemma gathered_opts m a dx r s n : forall i l, gathered n m a dx i l r s = opts (fun k => option_map (fun p => part_of (a k) p s) (piece n m dx i l r k)) (zup i n).
Proof.
  induction n as [|n IH]; intros i l; cbn [gathered zup opts flat_map].
  - destruct (dltb l r); reflexivity.
  - cbn [piece]. destruct (dltb l r).
    + rewrite Z.eqb_refl. cbn [option_map app]. f_equal. rewrite IH. unfold opts. rewrite !flat_map_concat_map. f_equal. apply map_ext_in. intros k I. apply in_zup in I.
      destruct (Z.eqb_spec k i); [lia|reflexivity].
    + cbn [option_map app]. symmetry. generalize (zup (i + 1) n). intros q. induction q as [|x q IHq]; [reflexivity|exact IHq].
Qed.

Section Mesh.
Variables (dx : dbl) (m : Z -> dbl) (N : Z) (delta : R).
Notation W := (val dx).
Notation B := (IZR N * val dx).
Notation eps := (delta + 8 * u * (IZR N * val dx)).
Hypothesis Fd : finite dx.
Hypothesis Wl : b2 (-400) <= W.
Hypothesis Bu : B <= b2 400.
Hypothesis Nb : (2 <= N < 2 ^ 31)%Z.
Hypothesis Dp : 0 <= delta.
Hypothesis Mc : forall k, (0 <= k < N)%Z -> finite (m k) /\ Rabs (val (m k) - (IZR k - / 2) * W) <= delta.

Lemma mesh_base : 0 < W /\ 2 * W <= B /\ IZR (N - 1) * W = B - W /\ 0 < u < / 1000000.
Proof.
  assert (0 < W) by (eapply Rlt_le_trans; [apply bpow_gt_0|exact Wl]). assert (2 <= IZR N) by (apply IZR_le; lia).
  split; [assumption|]. split; [nra|]. split; [rewrite minus_IZR; ring|]. split; [apply u_pos|]. pose proof u_small. pose proof u_pos. unfold u in *. cbn in *. lra.
Qed.
Lemma big_400 c : c <= 2 -> c * B <= b2 402.
Proof.
  intros Hc. destruct mesh_base as (Wp & WB & _). apply Rle_trans with (4 * b2 400); [|change (b2 402) with (b2 (2 + 400)); rewrite bpow_plus; cbn -[bpow]; change (b2 2) with 4; lra]. nra.
Qed.
Lemma half_dx : finite (ddiv dx d_two) /\ val (ddiv dx d_two) = W / 2.
Proof.
  destruct mesh_base as (Wp & WB & _). assert (b2 400 <= b2 1000) by (apply bpow_le; lia).
  destruct (half_exact dx Fd Wl ltac:(lra)) as (A & C & _). auto.
Qed.

Section Particle.
Variables (x s : dbl).
Notation S := (val s).
Notation A := (val x - val s / 2).
Notation C := (val x + val s / 2).
Hypothesis Fx : finite x.
Hypothesis Fs : finite s.
Hypothesis Sl : b2 (-400) <= S.
Hypothesis Se : 4 * eps <= S.
Hypothesis Al : 0 <= A.
Hypothesis Cu : C <= val (m (N - 1)) + W / 2.
Definition lft : dbl := dsub x (ddiv s d_two).
Definition rgt : dbl := dadd x (ddiv s d_two).

Lemma part_base : 0 < S /\ 3 * delta <= B /\ C <= B - W + delta /\ C <= 4 / 3 * B /\ A <= B - W - 3 * eps /\ S <= 4 / 3 * B.
Proof.
  destruct mesh_base as (Wp & WB & NW & Up). assert (0 < S) by (eapply Rlt_le_trans; [apply bpow_gt_0|exact Sl]).
  destruct (Mc (N - 1) ltac:(lia)) as (_ & Ml). apply Rabs_le_inv in Ml.
  replace ((IZR (N - 1) - / 2) * W) with (B - W - W / 2) in Ml by (rewrite <- NW; field).
  assert (0 <= u * B) by nra. repeat split; lra.
Qed.
Lemma half_s : finite (ddiv s d_two) /\ val (ddiv s d_two) = S / 2 /\ dmul d_half s = ddiv s d_two.
Proof.
  destruct part_base as (Sp & _ & _ & _ & _ & SB). pose proof (big_400 (4 / 3) ltac:(lra)).
  assert (b2 402 <= b2 1000) by (apply bpow_le; lia). apply half_exact; [exact Fs|exact Sl|lra].
Qed.
Lemma ends_val : finite lft /\ val lft = rnd A /\ Rabs (val lft - A) <= u * B /\ finite rgt /\ val rgt = rnd C /\ Rabs (val rgt - C) <= 2 * u * B.
Proof.
  destruct part_base as (Sp & _ & _ & CB & AB & SB). destruct mesh_base as (Wp & WB & NW & Up). destruct half_s as (Fh & Vh & _).
  pose proof (big_400 (4 / 3) ltac:(lra)). assert (b2 402 <= b2 1023) by (apply bpow_le; lia). assert (0 <= u * B) by nra.
  destruct (sub_val x (ddiv s d_two) Fx Fh) as (F1 & V1); [rewrite Vh, Rabs_pos_eq; lra|].
  destruct (add_val x (ddiv s d_two) Fx Fh) as (F2 & V2); [rewrite Vh, Rabs_pos_eq; lra|].
  pose proof (minus_err (val x) (val (ddiv s d_two)) (fmt_val _) (fmt_val _)) as E1. pose proof (plus_err (val x) (val (ddiv s d_two)) (fmt_val _) (fmt_val _)) as E2.
  rewrite Vh in *. split; [exact F1|]. split; [exact V1|]. split.
  - unfold lft. rewrite V1. eapply Rle_trans; [exact E1|]. rewrite Rabs_pos_eq by lra. apply Rmult_le_compat_l; lra.
  - split; [exact F2|]. split; [exact V2|]. unfold rgt. rewrite V2. eapply Rle_trans; [exact E2|]. rewrite Rabs_pos_eq by lra. nra.
Qed.
Lemma edge_val k : (0 <= k < N)%Z -> finite (dadd (m k) (ddiv dx d_two)) /\ val (dadd (m k) (ddiv dx d_two)) = rnd (val (m k) + W / 2) /\
  Rabs (val (dadd (m k) (ddiv dx d_two)) - IZR k * W) <= delta + 2 * u * B.
Proof.
  intros Hk. destruct (Mc k Hk) as (Fm & Vm). destruct half_dx as (Fh & Vh). destruct part_base as (Sp & DB & _ & CB & AB & SB). destruct mesh_base as (Wp & WB & NW & Up).
  assert (T : Rabs (val (m k) + W / 2 - IZR k * W) <= delta) by (replace (val (m k) + W / 2 - IZR k * W) with (val (m k) - (IZR k - / 2) * W) by field; exact Vm).
  assert (0 <= IZR k * W <= B). { assert (0 <= IZR k) by (apply IZR_le; lia). assert (IZR k <= IZR N) by (apply IZR_le; lia). split; nra. }
  assert (G : Rabs (val (m k) + W / 2) <= 4 / 3 * B) by (apply Rabs_le; apply Rabs_le_inv in T; lra).
  pose proof (big_400 (4 / 3) ltac:(lra)). assert (b2 402 <= b2 1023) by (apply bpow_le; lia).
  destruct (add_val (m k) (ddiv dx d_two) Fm Fh) as (F1 & V1); [rewrite Vh; lra|].
  pose proof (plus_err (val (m k)) (val (ddiv dx d_two)) (fmt_val _) (fmt_val _)) as E. rewrite Vh in *.
  split; [exact F1|]. split; [exact V1|]. rewrite V1. assert (u * Rabs (val (m k) + W / 2) <= 2 * u * B) by nra.
  apply Rabs_le. apply Rabs_le_inv in T. apply Rabs_le_inv in E. lra.
Qed.
Lemma last_stops : stops m dx rgt (N - 1).
Proof.
  destruct (edge_val (N - 1) ltac:(lia)) as (F & V & _). destruct ends_val as (_ & _ & _ & F' & V' & _).
  unfold stops. apply lt_val_f; [exact F|exact F'|]. rewrite V, V'. apply rnd_mono. exact Cu.
Qed.
Lemma start_val : let q := ddiv lft dx in let i := (Btrunc q + 1)%Z in finite q /\ (1 <= i < N)%Z /\
  IZR (i - 1) * W <= A + 4 * u * B /\ A - 4 * u * B <= IZR i * W /\ forall d, (d = lft) -> first_cell64 d dx = Ret i.
Proof.
  intros q i. destruct part_base as (Sp & DB & _ & CB & AB & SB). destruct mesh_base as (Wp & WB & NW & Up). destruct ends_val as (FL & VL & EL & _).
  assert (UB : 0 <= u * B) by nra. apply Rabs_le_inv in EL.
  assert (L0 : 0 <= val lft) by (rewrite VL; apply rnd_ge_fmt; [apply generic_format_0|exact Al]).
  assert (LN : val lft <= IZR (N - 1) * W) by lra.
  assert (T0 : 0 <= val lft / W) by (apply Rmult_le_pos; [exact L0|left; apply Rinv_0_lt_compat; exact Wp]).
  assert (TN : val lft / W <= IZR (N - 1)) by (apply (Rmult_le_reg_r W); [exact Wp|]; unfold Rdiv; rewrite Rmult_assoc, Rinv_l by lra; lra).
  assert (FN : fmt (IZR (N - 1))) by (apply fmt_int; lia).
  assert (N31 : IZR (N - 1) <= b2 31) by (apply Rle_trans with (IZR (2 ^ 31)); [apply IZR_le; lia|right; reflexivity]).
  assert (b2 31 <= b2 1023) by (apply bpow_le; lia).
  destruct (div_val lft dx FL) as (Fq & Vq); [lra|rewrite Rabs_pos_eq; lra|]. fold q in Fq, Vq.
  assert (q0 : 0 <= val q) by (rewrite Vq; apply rnd_ge_fmt; [apply generic_format_0|exact T0]).
  assert (qN : val q <= IZR (N - 1)) by (rewrite Vq; apply rnd_le_fmt; assumption).
  pose proof (abs_eps (val lft / W)) as Ea. rewrite <- Vq, (Rabs_pos_eq _ T0) in Ea.
  assert (tiny : b2 (-1075) <= u) by (unfold u; apply bpow_le; lia).
  assert (qW : Rabs (val q * W - val lft) <= 2 * u * B).
  { replace (val q * W - val lft) with ((val q - val lft / W) * W) by (field; lra). rewrite Rabs_mult, (Rabs_pos_eq W) by lra.
    apply Rle_trans with ((u * (val lft / W) + u) * W); [apply Rmult_le_compat_r; lra|].
    replace ((u * (val lft / W) + u) * W) with (u * val lft + u * W) by (field; lra).
    assert (u * val lft <= u * B) by (apply Rmult_le_compat_l; lra). assert (u * W <= u * B) by (apply Rmult_le_compat_l; lra). lra. }
  apply Rabs_le_inv in qW. destruct (trunc_nonneg q q0) as ((T1 & T2) & T3).
  assert (I0 : (0 <= Btrunc q)%Z) by exact T3.
  assert (W1 : IZR (Btrunc q) * W <= val q * W) by (apply Rmult_le_compat_r; lra).
  assert (W2 : val q * W <= IZR i * W) by (apply Rmult_le_compat_r; [lra|]; unfold i; rewrite plus_IZR; lra).
  assert (iN : (i < N)%Z).
  { assert (Btrunc q < N - 1)%Z; [|unfold i; lia]. apply lt_IZR. apply (Rmult_lt_reg_r W); [exact Wp|]. assert (0 < u * B) by (apply Rmult_lt_0_compat; lra). lra. }
  split; [exact Fq|]. split; [unfold i; lia|]. split; [unfold i; replace (Btrunc q + 1 - 1)%Z with (Btrunc q) by lia; lra|]. split; [lra|].
  intros d ->. unfold first_cell64, to_int. fold q. unfold finite in Fq. rewrite Fq. cbn [andb].
  assert (- 2 ^ 31 <=? Btrunc q = true)%Z as -> by (apply Z.leb_le; lia). assert (Btrunc q <? 2 ^ 31 = true)%Z as -> by (apply Z.ltb_lt; unfold i in iN; lia).
  cbn [andb pbind]. fold i. assert (i <? 2 ^ 31 = true)%Z as -> by (apply Z.ltb_lt; lia). reflexivity.
Qed.
Notation cla := (cl A C).

(** Ends of the pieces. *)
Lemma bound_val i : (0 <= i < N)%Z -> A - 4 * u * B <= IZR i * W ->
  let rb := right_bound64 (m i) dx rgt in finite rb /\ Rabs (val rb - cla (IZR i * W)) <= eps /\ val rb <= val rgt.
Proof.
  intros Hi HA rb. destruct (edge_val i Hi) as (Fe & _ & Ee). destruct ends_val as (_ & _ & _ & Fr & _ & Er). destruct part_base as (Sp & DB & _ & CB & AB & SB). destruct mesh_base as (Wp & WB & NW & Up).
  assert (UB : 0 <= u * B) by nra.
  apply Rabs_le_inv in Ee, Er. subst rb. unfold right_bound64. set (e := dadd (m i) (ddiv dx d_two)) in *.
  destruct (dltb rgt e) eqn:LT.
  - apply (lt_val _ _ Fr Fe) in LT. split; [exact Fr|]. split; [|lra]. apply Rabs_le. unfold cl, Rmin, Rmax. repeat destruct (Rle_dec _ _); lra.
  - apply (lt_val_f _ _ Fr Fe) in LT. split; [exact Fe|]. split; [|lra]. apply Rabs_le. unfold cl, Rmin, Rmax. repeat destruct (Rle_dec _ _); lra.
Qed.
Lemma piece_val n : forall i l, finite l -> Rabs (val l - cla (IZR (i - 1) * W)) <= eps -> A - 4 * u * B <= IZR i * W -> (0 <= i)%Z ->
  n = Z.to_nat (N - i) -> (i <= N)%Z -> forall k, (i <= k < N)%Z ->
  match piece n m dx i l rgt k with
  | Some (a, b) => finite a /\ finite b /\ Rabs (val a - cla (IZR (k - 1) * W)) <= eps /\ Rabs (val b - cla (IZR k * W)) <= eps
  | None => cla (IZR k * W) - cla (IZR (k - 1) * W) <= 2 * eps
  end.
Proof.
  destruct ends_val as (_ & _ & _ & Fr & _ & Er). destruct part_base as (Sp & DB & _ & CB & AB & SB). destruct mesh_base as (Wp & WB & NW & Up).
  assert (UB : 0 <= u * B) by nra.
  induction n as [|n IH]; intros i l Fl El HA Hi En Hn k Hk; [lia|].
  cbn [piece]. destruct (dltb l rgt) eqn:LT.
  - assert (i < N)%Z by lia. destruct (bound_val i ltac:(lia) HA) as (Fb & Eb & _).
    destruct (Z.eqb_spec k i) as [->|NE]; [auto|]. apply IH; try lia.
    + exact Fb.
    + replace (i + 1 - 1)%Z with i by lia. exact Eb.
    + rewrite plus_IZR. nra.
  - apply (lt_val_f _ _ Fl Fr) in LT. apply Rabs_le_inv in El, Er.
    pose proof (proj2 (cl_between A C (IZR k * W) ltac:(lra))) as K1.
    assert (K2 : cla (IZR (i - 1) * W) <= cla (IZR (k - 1) * W)) by (apply cl_mono, Rmult_le_compat_r; [lra|apply IZR_le; lia]). lra.
Qed.
(** From the first cell. *)
Definition i0 : Z := (Btrunc (ddiv lft dx) + 1)%Z.
Definition pc (k : Z) : option (dbl * dbl) := piece (Z.to_nat (N - i0)) m dx i0 lft rgt k.
Lemma left_cl : Rabs (val lft - cla (IZR (i0 - 1) * W)) <= eps.
Proof.
  destruct part_base as (Sp & DB & _ & CB & AB & SB). destruct mesh_base as (Wp & WB & NW & Up). destruct ends_val as (FL & VL & EL & _).
  destruct start_val as (_ & _ & S1 & S2 & _). fold i0 in S1, S2. assert (UB : 0 <= u * B) by nra. apply Rabs_le_inv in EL.
  apply Rabs_le. unfold cl, Rmin, Rmax. repeat destruct (Rle_dec _ _); lra.
Qed.
Lemma pc_val k : (0 <= k < N)%Z ->
  match pc k with
  | Some (a, b) => finite a /\ finite b /\ Rabs (val a - cla (IZR (k - 1) * W)) <= eps /\ Rabs (val b - cla (IZR k * W)) <= eps
  | None => cla (IZR k * W) - cla (IZR (k - 1) * W) <= 2 * eps
  end.
Proof.
  intros Hk. destruct part_base as (Sp & DB & _ & CB & AB & SB). destruct mesh_base as (Wp & WB & NW & Up). destruct ends_val as (FL & VL & EL & _).
  destruct start_val as (_ & S0 & S1 & S2 & _). fold i0 in S0, S1, S2. assert (UB : 0 <= u * B) by nra.
  destruct (Z_lt_ge_dec k i0) as [K|K].
  - unfold pc. rewrite piece_before by exact K. 
    assert (K2 : cla (IZR k * W) <= cla (IZR (i0 - 1) * W)) by (apply cl_mono, Rmult_le_compat_r; [lra|apply IZR_le; lia]).
    pose proof (proj1 (cl_between A C (IZR (k - 1) * W) ltac:(lra))) as K1. pose proof left_cl as Lc. apply Rabs_le_inv in Lc, EL. lra.
  - apply piece_val; try lia; [exact FL|exact left_cl|exact S2].
Qed.
(** One contribution. *)
Lemma part_err v a b : ordinary v -> finite a -> finite b -> Rabs (val b - val a) <= 2 * S ->
  finite (part_of v (a, b) s) /\
  Rabs (val (part_of v (a, b) s) - val v * (val b - val a) / S) <= Rabs (val v) * (4 * u * Rabs (val b - val a) / S + b2 (-270)).
Proof.
  intros (Fv & Vl & Vu) Fa Fb Ll. destruct part_base as (Sp & _ & _ & _ & _ & SB). destruct mesh_base as (Wp & WB & NW & Up).
  pose proof (big_400 (4 / 3) ltac:(lra)) as B4. assert (S402 : S <= b2 402) by lra. clear B4. rewrite p2 in Vu. set (len := val b - val a) in *.
  assert (P403 : 2 * S <= b2 403) by (change (b2 403) with (b2 (1 + 402)); rewrite bpow_plus; change (b2 1) with 2; lra).
  assert (b2 403 <= b2 1023) by (apply bpow_le; lia).
  destruct (sub_val b a Fb Fa) as (F1 & V1); [unfold len in Ll; lra|]. pose proof (minus_err (val b) (val a) (fmt_val _) (fmt_val _)) as E1. rewrite <- V1 in E1. fold len in E1.
  set (d := dsub b a) in *. assert (D1 : Rabs (val d) <= (1 + u) * Rabs len).
  { replace (val d) with ((val d - len) + len) by ring. eapply Rle_trans; [apply Rabs_triang|]. lra. }
  pose proof (Rabs_pos len) as Lp. pose proof (Rabs_pos (val v)) as Vp. pose proof (Rabs_pos (val d)) as Dp'.
  assert (D2 : Rabs (val d) <= b2 404) by (change (b2 404) with (b2 (1 + 403)); rewrite bpow_plus; change (b2 1) with 2; nra).
  assert (Pv : Rabs (val v * val d) <= b2 804). { rewrite Rabs_mult. change 804%Z with (400 + 404)%Z. rewrite bpow_plus. apply Rmult_le_compat; assumption. }
  assert (b2 804 <= b2 1023) by (apply bpow_le; lia).
  destruct (mul_val v d Fv F1) as (F2 & V2); [lra|]. set (p := dmul v d) in *.
  pose proof (abs_eps (val v * val d)) as E2. rewrite <- V2 in E2.
  assert (R : fmt (b2 804)) by (apply fmt_bpow; lia). pose proof (rnd_abs_le _ _ R Pv) as Rp. rewrite <- V2 in Rp.
  assert (Si : 0 < / S) by (apply Rinv_0_lt_compat; exact Sp).
  assert (Si2 : / S <= b2 400). { replace (b2 400) with (/ b2 (-400)) by (symmetry; apply (bpow_opp radix2 (-400))). apply Rinv_le; [apply bpow_gt_0|exact Sl]. }
  (* the quotient is small *)
  assert (Ps : Rabs (val p / S) <= b2 1023).
  { (* |p| <= (1+u)|v d| + eta, |d| <= 3 S *)
    assert (Q1 : Rabs (val p) <= 2 * (Rabs (val v) * Rabs (val d)) + b2 (-1075)).
    { replace (val p) with ((val p - val v * val d) + val v * val d) by ring. eapply Rle_trans; [apply Rabs_triang|]. rewrite (Rabs_mult (val v)) in *.
      assert (0 <= Rabs (val v) * Rabs (val d)) by (apply Rmult_le_pos; assumption). assert (u * (Rabs (val v) * Rabs (val d)) <= 1 * (Rabs (val v) * Rabs (val d))) by (apply Rmult_le_compat_r; lra). lra. }
    assert (Q2 : Rabs (val d) <= 3 * S) by nra.
    unfold Rdiv. rewrite Rabs_mult, (Rabs_pos_eq (/ S)) by lra.
    apply Rle_trans with ((2 * (Rabs (val v) * (3 * S)) + b2 (-1075)) * / S).
    { apply Rmult_le_compat_r; [lra|]. eapply Rle_trans; [exact Q1|]. assert (Rabs (val v) * Rabs (val d) <= Rabs (val v) * (3 * S)) by (apply Rmult_le_compat_l; lra). lra. }
    replace ((2 * (Rabs (val v) * (3 * S)) + b2 (-1075)) * / S) with (6 * Rabs (val v) + b2 (-1075) * / S) by (field; lra).
    assert (b2 (-1075) * / S <= b2 (-1075) * b2 400) by (apply Rmult_le_compat_l; [apply bpow_ge_0|exact Si2]).
    rewrite <- bpow_plus in H1. assert (b2 (-1075 + 400) <= b2 400) by (apply bpow_le; lia). assert (8 * b2 400 = b2 403) by (change (b2 403) with (b2 (3 + 400)); rewrite bpow_plus; change (b2 3) with 8; ring). lra. }
  destruct (div_val p s F2) as (F3 & V3); [lra|exact Ps|]. unfold part_of. cbn [fst snd]. fold d. fold p. split; [exact F3|].
  destruct Vl as [V0|Vl].
  - (* v = 0 *)
    assert (P0 : val p = 0) by (rewrite V2, V0, Rmult_0_l; apply rnd_fmt, generic_format_0).
    assert (Q0 : val (ddiv p s) = 0) by (rewrite V3, P0; unfold Rdiv; rewrite Rmult_0_l; apply rnd_fmt, generic_format_0).
    rewrite Q0, V0. unfold Rdiv. rewrite !Rmult_0_l. replace (0 - 0) with 0 by ring. rewrite Rabs_R0. lra.
  - rewrite p2 in Vl. pose proof (abs_eps (val p / S)) as E3. rewrite <- V3 in E3. set (Q := val (ddiv p s)) in *.
    set (eta := b2 (-1075)) in *. assert (e0 : 0 < eta) by apply bpow_gt_0.
    assert (e1 : eta <= Rabs (val v) * b2 (-675)). { apply Rle_trans with (b2 (-400) * b2 (-675)); [rewrite <- bpow_plus; right; reflexivity|]. apply Rmult_le_compat_r; [apply bpow_ge_0|exact Vl]. }
    assert (e2 : eta * / S <= Rabs (val v) * b2 (-275)).
    { apply Rle_trans with (eta * b2 400); [apply Rmult_le_compat_l; lra|]. unfold eta. rewrite <- bpow_plus. apply Rle_trans with (b2 (-400) * b2 (-275)); [rewrite <- bpow_plus; right; reflexivity|]. apply Rmult_le_compat_r; [apply bpow_ge_0|exact Vl]. }
    assert (x1 : Rabs (val p - val v * val d) <= u * (Rabs (val v) * Rabs (val d)) + eta) by (rewrite <- Rabs_mult; exact E2).
    assert (x2 : Rabs (val p) <= (1 + u) * (Rabs (val v) * Rabs (val d)) + eta).
    { replace (val p) with ((val p - val v * val d) + val v * val d) by ring. eapply Rle_trans; [apply Rabs_triang|]. rewrite (Rabs_mult (val v)) in *. lra. }
    set (V := Rabs (val v)) in *. set (Ln := Rabs len) in *.
    assert (VL : V * Rabs (val d) <= (1 + u) * (V * Ln)) by nra.
    assert (y1 : Rabs (Q - val p / S) <= u * (Rabs (val p) * / S) + eta) by (eapply Rle_trans; [exact E3|]; unfold Rdiv; rewrite Rabs_mult, (Rabs_pos_eq (/ S)) by lra; lra).
    assert (y2 : Rabs ((val p - val v * val d) * / S) <= (u * (V * Rabs (val d)) + eta) * / S) by (rewrite Rabs_mult, (Rabs_pos_eq (/ S)) by lra; apply Rmult_le_compat_r; lra).
    assert (y3 : Rabs (val v * (val d - len) * / S) <= V * (u * Ln) * / S).
    { rewrite !Rabs_mult, (Rabs_pos_eq (/ S)) by lra. apply Rmult_le_compat_r; [lra|]. apply Rmult_le_compat_l; [exact Vp|exact E1]. }
    replace (Q - val v * len / S) with ((Q - val p / S) + ((val p - val v * val d) * / S + val v * (val d - len) * / S)) by (field; lra).
    eapply Rle_trans; [apply Rabs_triang|]. eapply Rle_trans; [apply Rplus_le_compat_l, Rabs_triang|].
    set (t := V * Ln * / S). assert (T0 : 0 <= t) by (unfold t; apply Rmult_le_pos; [apply Rmult_le_pos; assumption|lra]).
    assert (z2 : (u * (V * Rabs (val d)) + eta) * / S <= u * (1 + u) * t + V * b2 (-275)).
    { assert (u * (V * Rabs (val d)) * / S <= u * ((1 + u) * (V * Ln)) * / S) by (apply Rmult_le_compat_r; [lra|]; apply Rmult_le_compat_l; lra). unfold t. lra. }
    assert (z1 : Rabs (val p) * / S <= (1 + u) * (1 + u) * t + V * b2 (-275)).
    { apply Rle_trans with (((1 + u) * ((1 + u) * (V * Ln)) + eta) * / S); [|unfold t; lra]. apply Rmult_le_compat_r; [lra|].
      assert ((1 + u) * (V * Rabs (val d)) <= (1 + u) * ((1 + u) * (V * Ln))) by (apply Rmult_le_compat_l; lra). lra. }
    assert (c1 : b2 (-275) <= b2 (-270) / 32) by (replace (b2 (-270)) with (b2 (5 + -275)) by reflexivity; rewrite bpow_plus; change (b2 5) with 32; lra).
    assert (c2 : b2 (-675) <= b2 (-275)) by (apply bpow_le; lia).
    assert (w1 : V * b2 (-675) <= V * (b2 (-270) / 32)) by (apply Rmult_le_compat_l; lra).
    assert (w2 : V * b2 (-275) <= V * (b2 (-270) / 32)) by (apply Rmult_le_compat_l; lra).
    assert (w3 : u * (Rabs (val p) * / S) <= u * ((1 + u) * (1 + u) * t + V * b2 (-275))) by (apply Rmult_le_compat_l; lra).
    assert (w4 : 0 <= V * b2 (-275)) by (apply Rmult_le_pos; [exact Vp|apply bpow_ge_0]).
    assert (w5 : u * (V * b2 (-275)) <= V * b2 (-275)) by nra.
    assert (w6 : u * ((1 + u) * (1 + u) * t) <= 11 / 10 * u * t). { assert ((1 + u) * (1 + u) <= 11 / 10) by nra. assert ((1 + u) * (1 + u) * t <= 11 / 10 * t) by (apply Rmult_le_compat_r; lra). nra. }
    assert (w7 : u * (1 + u) * t <= 11 / 10 * u * t) by nra.
    replace (V * (4 * u * Ln / S + b2 (-270))) with (4 * u * t + V * b2 (-270)) by (unfold t; field; lra).
    assert (0 <= u * t) by nra. replace (V * (u * Ln) * / S) with (u * t) in y3 by (unfold t; ring). lra.
Qed.
Definition ctr (v : dbl) (k : Z) : option dbl := option_map (fun p => part_of v p s) (pc k).
Definition len (k : Z) : R := match pc k with Some (a, b) => val b - val a | None => 0 end.
Notation clk := (fun k => cla (IZR k * W)).
Lemma clk_mono k : cla (IZR (k - 1) * W) <= cla (IZR k * W) <= cla (IZR (k - 1) * W) + S.
Proof.
  destruct mesh_base as (Wp & _). destruct part_base as (Sp & _). split; [apply cl_mono, Rmult_le_compat_r; [lra|apply IZR_le; lia]|].
  pose proof (cl_between A C (IZR k * W) ltac:(lra)). pose proof (cl_between A C (IZR (k - 1) * W) ltac:(lra)). lra.
Qed.
Lemma eps_pos : 0 <= eps /\ 6 * u <= eps / S.
Proof.
  destruct part_base as (Sp & _ & _ & _ & _ & SB). destruct mesh_base as (Wp & WB & NW & Up). assert (0 <= u * B) by nra. split; [lra|].
  apply (Rmult_le_reg_r S); [exact Sp|]. replace (eps / S * S) with eps by (field; lra). assert (u * S <= u * (4 / 3 * B)) by (apply Rmult_le_compat_l; lra). lra.
Qed.
Lemma len_err k : (0 <= k < N)%Z -> Rabs (len k - (cla (IZR k * W) - cla (IZR (k - 1) * W))) <= 2 * eps /\ Rabs (len k) <= 2 * S.
Proof.
  intros Hk. pose proof (pc_val k Hk) as P. destruct (clk_mono k) as (M1 & M2). destruct eps_pos as (Ep & _). destruct part_base as (Sp & _).
  assert (G : Rabs (len k - (cla (IZR k * W) - cla (IZR (k - 1) * W))) <= 2 * eps).
  { unfold len. destruct (pc k) as [[a b]|]; [|apply Rabs_le; lra]. destruct P as (_ & _ & P1 & P2). apply Rabs_le_inv in P1, P2. apply Rabs_le. lra. }
  split; [exact G|]. apply Rabs_le_inv in G. apply Rabs_le. lra.
Qed.
Lemma ctr_err v k : ordinary v -> (0 <= k < N)%Z ->
  match ctr v k with Some x => finite x | None => True end /\
  Rabs (vopt (ctr v k) - val v * len k / S) <= Rabs (val v) * (4 * u * Rabs (len k) / S + b2 (-270)).
Proof.
  intros Ov Hk. pose proof (pc_val k Hk) as P. destruct (len_err k Hk) as (_ & Ll). unfold ctr, len in *. destruct (pc k) as [[a b]|]; cbn [option_map vopt].
  - destruct P as (Fa & Fb & _). destruct (part_err v a b Ov Fa Fb Ll). auto.
  - split; [exact I|]. unfold Rdiv. rewrite Rmult_0_r, Rmult_0_l, Rminus_0_r, Rabs_R0, Rmult_0_r, Rmult_0_l. apply Rmult_le_pos; [apply Rabs_pos|]. pose proof (bpow_ge_0 radix2 (-270)). lra.
Qed.
Lemma share_cl k v : share W (x, s, v) k = (cla (IZR k * W) - cla (IZR (k - 1) * W)) / S.
Proof.
  destruct mesh_base as (Wp & _). destruct part_base as (Sp & _). unfold share, lower_end, upper_end, position, size. cbn [fst snd].
  rewrite common_cl; [reflexivity|lra|]. apply Rmult_le_compat_r; [lra|apply IZR_le; lia].
Qed.
Lemma small_270 : b2 (-270) <= u / 1000.
Proof. unfold u. apply Rle_trans with (b2 (-100 + -53)); [apply bpow_le; lia|]. rewrite bpow_plus. assert (b2 (-100) <= / 1000) by (cbn; lra). pose proof (bpow_gt_0 radix2 (-53)). nra. Qed.
Lemma ctr_share v w k : ordinary v -> (0 <= k < N)%Z ->
  Rabs (vopt (ctr v k) - val v * share W (x, s, w) k) <= Rabs (val v) * (4 * eps / S) /\ Rabs (vopt (ctr v k)) <= 2 * Rabs (val v).
Proof.
  intros Ov Hk. destruct (ctr_err v k Ov Hk) as (_ & E). destruct (len_err k Hk) as (Le & Ll). destruct part_base as (Sp & _). destruct eps_pos as (Ep & E6). destruct mesh_base as (_ & _ & _ & Up).
  rewrite share_cl. destruct (clk_mono k) as (M1 & M2). set (g := cla (IZR k * W) - cla (IZR (k - 1) * W)) in *. set (V := Rabs (val v)) in *. pose proof (Rabs_pos (val v)) as Vp. fold V in Vp.
  assert (Si : 0 < / S) by (apply Rinv_0_lt_compat; exact Sp).
  assert (Lr : Rabs (len k) / S <= 3 / 2).
  { apply (Rmult_le_reg_r S); [exact Sp|]. unfold Rdiv. rewrite Rmult_assoc, Rinv_l by lra. apply Rabs_le_inv in Le. assert (Rabs (len k) <= 3 / 2 * S) by (apply Rabs_le; unfold g in *; lra). lra. }
  assert (E' : Rabs (vopt (ctr v k) - val v * len k / S) <= V * (7 * u)).
  { eapply Rle_trans; [exact E|]. apply Rmult_le_compat_l; [exact Vp|]. replace (4 * u * Rabs (len k) / S) with (4 * u * (Rabs (len k) / S)) by (field; lra). pose proof small_270. nra. }
  assert (D : Rabs (val v * len k / S - val v * (g / S)) <= V * (2 * eps / S)).
  { replace (val v * len k / S - val v * (g / S)) with (val v * ((len k - g) * / S)) by (field; lra). rewrite Rabs_mult. apply Rmult_le_compat_l; [exact Vp|].
    rewrite Rabs_mult, (Rabs_pos_eq (/ S)) by lra. apply Rmult_le_compat_r; lra. }
  split.
  - replace (vopt (ctr v k) - val v * (g / S)) with ((vopt (ctr v k) - val v * len k / S) + (val v * len k / S - val v * (g / S))) by ring.
    eapply Rle_trans; [apply Rabs_triang|]. eapply Rle_trans; [apply Rplus_le_compat; eassumption|]. rewrite <- Rmult_plus_distr_l. apply Rmult_le_compat_l; [exact Vp|].
    replace (4 * eps / S) with (4 * (eps / S)) by (field; lra). replace (2 * eps / S) with (2 * (eps / S)) by (field; lra). lra.
  - replace (vopt (ctr v k)) with ((vopt (ctr v k) - val v * len k / S) + val v * len k / S) by ring. eapply Rle_trans; [apply Rabs_triang|].
    assert (Rabs (val v * len k / S) <= V * (3 / 2)). { replace (val v * len k / S) with (val v * (len k * / S)) by (field; lra). rewrite Rabs_mult. apply Rmult_le_compat_l; [exact Vp|]. rewrite Rabs_mult, (Rabs_pos_eq (/ S)) by lra. exact Lr. }
    assert (V * (7 * u) <= V * (/ 2)) by (apply Rmult_le_compat_l; lra). lra.
Qed.
(** The pieces follow each other. *)
Lemma piece_sum n : forall i l, finite l -> A - 4 * u * B <= IZR i * W -> (0 <= i)%Z -> n = Z.to_nat (N - i) -> (i <= N)%Z -> (i = N -> dltb l rgt = false) ->
  rsum (map (fun k => match piece n m dx i l rgt k with Some (a, b) => val b - val a | None => 0 end) (zup i n)) = if dltb l rgt then val rgt - val l else 0.
Proof.
  destruct mesh_base as (Wp & WB & NW & Up). destruct ends_val as (_ & _ & _ & Fr & _ & Er).
  induction n as [|n IH]; intros i l Fl HA Hi En Hn Hs.
  - rewrite Hs by lia. reflexivity.
  - cbn [piece]. destruct (dltb l rgt) eqn:LT.
    + destruct (bound_val i ltac:(lia) HA) as (Fb & _ & Lb). set (rb := right_bound64 (m i) dx rgt) in *. cbn [zup map rsum]. rewrite Z.eqb_refl.
      rewrite (map_ext_in _ (fun k => match piece n m dx (i + 1) rb rgt k with Some (a, b) => val b - val a | None => 0 end)).
      2:{ intros k I. apply in_zup in I. destruct (Z.eqb_spec k i); [lia|reflexivity]. }
      rewrite IH; try lia; try exact Fb.
      * destruct (dltb rb rgt) eqn:LT2; [ring|]. apply (lt_val_f _ _ Fb Fr) in LT2. lra.
      * rewrite plus_IZR. nra.
      * intros E. apply bound_stops. replace i with (N - 1)%Z by lia. apply last_stops.
    + apply rsum_zero. reflexivity.
Qed.
Lemma len_sum : rsum (map len (zrange N)) = val rgt - val lft.
Proof.
  destruct mesh_base as (Wp & WB & NW & Up). destruct ends_val as (FL & _ & EL & Fr & _ & Er). destruct start_val as (_ & S0 & S1 & S2 & _). fold i0 in S0, S1, S2.
  assert (UB : 0 < u * B) by (apply Rmult_lt_0_compat; lra). destruct part_base as (Sp & _).
  rewrite zup_zrange. replace (Z.to_nat N) with (Z.to_nat i0 + Z.to_nat (N - i0))%nat by lia. rewrite zup_app, map_app, rsum_app. replace (0 + Z.of_nat (Z.to_nat i0))%Z with i0 by lia.
  rewrite (rsum_zero len (zup 0 (Z.to_nat i0))), Rplus_0_l.
  2:{ intros k I. apply in_zup in I. unfold len, pc. rewrite piece_before by lia. reflexivity. }
  assert (LT : dltb lft rgt = true) by (apply lt_val; [exact FL|exact Fr|]; apply Rabs_le_inv in EL, Er; lra).
  pose proof (piece_sum (Z.to_nat (N - i0)) i0 lft FL S2 ltac:(lia) eq_refl ltac:(lia) ltac:(lia)) as P. rewrite LT in P. exact P.
Qed.
Lemma len_abs_sum : rsum (map (fun k => Rabs (len k)) (zrange N)) <= S + 2 * IZR N * eps.
Proof.
  destruct part_base as (Sp & _). apply Rle_trans with (rsum (map (fun k => (cla (IZR k * W) - cla (IZR (k - 1) * W)) + 2 * eps) (zrange N))).
  - apply rsum_le. intros k I. apply in_zrange in I. destruct (len_err k I) as (E & _). destruct (clk_mono k) as (M1 & M2). apply Rabs_le_inv in E. apply Rabs_le. lra.
  - rewrite rsum_plus, rsum_same, zrange_length, INR_IZR_INZ, Z2Nat.id by lia. rewrite zup_zrange, (rsum_tele (fun k => cla (IZR k * W))).
    pose proof (cl_between A C (IZR (0 + Z.of_nat (Z.to_nat N) - 1) * W) ltac:(lra)). pose proof (cl_between A C (IZR (0 - 1) * W) ltac:(lra)). lra.
Qed.
Definition spread : R := 1 + 2 * IZR N * eps / S.
Lemma ctr_sum v : ordinary v ->
  Rabs (rsum (map (fun k => vopt (ctr v k)) (zrange N)) - val v) <= Rabs (val v) * (4 * u * (B / S) + 5 * u * spread) /\
  rsum (map (fun k => Rabs (vopt (ctr v k))) (zrange N)) <= 2 * Rabs (val v) * spread.
Proof.
  intros Ov. destruct part_base as (Sp & _). destruct eps_pos as (Ep & _). destruct mesh_base as (Wp & WB & _ & Up). assert (Si : 0 < / S) by (apply Rinv_0_lt_compat; exact Sp).
  destruct ends_val as (_ & _ & EL & _ & _ & ER). set (V := Rabs (val v)). pose proof (Rabs_pos (val v)) as Vp. fold V in Vp.
  assert (LA : rsum (map (fun k => Rabs (len k)) (zrange N)) * / S <= spread).
  { apply Rle_trans with ((S + 2 * IZR N * eps) * / S); [apply Rmult_le_compat_r; [lra|apply len_abs_sum]|]. unfold spread. right. field. lra. }
  assert (Np : 2 <= IZR N) by (apply IZR_le; lia). assert (Sp1 : 1 <= spread). { unfold spread. assert (0 <= 2 * IZR N * eps / S); [|lra]. apply Rmult_le_pos; [nra|lra]. }
  assert (Nn : IZR N * b2 (-270) <= u / 2).
  { apply Rle_trans with (b2 31 * b2 (-270)). { apply Rmult_le_compat_r; [apply bpow_ge_0|]. apply Rle_trans with (IZR (2 ^ 31)); [apply IZR_le; lia|right; reflexivity]. }
    rewrite <- bpow_plus. unfold u. apply Rle_trans with (b2 (-1 + -53)); [apply bpow_le; lia|]. rewrite bpow_plus. change (b2 (-1)) with (/ 2). lra. }
  set (er := fun k : Z => V * (4 * u * Rabs (len k) / S + b2 (-270))).
  assert (SE : rsum (map er (zrange N)) <= V * (4 * u * spread + u / 2)).
  { unfold er. rewrite rsum_scale. apply Rmult_le_compat_l; [exact Vp|]. rewrite rsum_plus, rsum_same, zrange_length, INR_IZR_INZ, Z2Nat.id by lia.
    rewrite (map_ext _ (fun k => (4 * u * / S) * Rabs (len k))) by (intros k; field; lra). rewrite rsum_scale. nra. }
  split.
  - assert (E1 : Rabs (rsum (map (fun k => vopt (ctr v k)) (zrange N)) - rsum (map (fun k => val v * len k / S) (zrange N))) <= rsum (map er (zrange N))).
    { apply rsum_diff_le. intros k I. apply in_zrange in I. exact (proj2 (ctr_err v k Ov I)). }
    rewrite (map_ext (fun k => val v * len k / S) (fun k => (val v * / S) * len k)) in E1 by (intros k; field; lra). rewrite rsum_scale, len_sum in E1.
    assert (E2 : Rabs (val v * / S * (val rgt - val lft) - val v) <= V * (3 * u * (B / S))).
    { replace (val v * / S * (val rgt - val lft) - val v) with (val v * (((val rgt - val lft) - S) * / S)) by (field; lra). rewrite Rabs_mult. apply Rmult_le_compat_l; [exact Vp|].
      rewrite Rabs_mult, (Rabs_pos_eq (/ S)) by lra. replace (3 * u * (B / S)) with (3 * u * B * / S) by (field; lra). apply Rmult_le_compat_r; [lra|]. apply Rabs_le_inv in EL, ER. apply Rabs_le. lra. }
    match goal with |- Rabs (?s - _) <= _ => replace (s - val v) with ((s - val v * / S * (val rgt - val lft)) + (val v * / S * (val rgt - val lft) - val v)) by ring end.
    eapply Rle_trans; [apply Rabs_triang|]. eapply Rle_trans; [apply Rplus_le_compat; [eapply Rle_trans; [exact E1|exact SE]|exact E2]|].
    assert (BS : 0 <= B / S) by (apply Rmult_le_pos; lra). rewrite <- Rmult_plus_distr_l. apply Rmult_le_compat_l; [exact Vp|]. nra.
  - apply Rle_trans with (rsum (map (fun k => V * / S * Rabs (len k) + er k) (zrange N))).
    + apply rsum_le. intros k I. apply in_zrange in I. pose proof (proj2 (ctr_err v k Ov I)) as E. fold V in E. fold (er k) in E.
      replace (vopt (ctr v k)) with ((vopt (ctr v k) - val v * len k / S) + val v * len k / S) by ring. eapply Rle_trans; [apply Rabs_triang|].
      assert (Rabs (val v * len k / S) = V * / S * Rabs (len k)) by (unfold Rdiv; rewrite !Rabs_mult, (Rabs_pos_eq (/ S)) by lra; unfold V; ring). lra.
    + rewrite rsum_plus, rsum_scale. replace (2 * V * spread) with (V * spread + V * spread) by ring. apply Rplus_le_compat.
      * rewrite Rmult_assoc. apply Rmult_le_compat_l; [exact Vp|]. lra.
      * eapply Rle_trans; [exact SE|]. apply Rmult_le_compat_l; [exact Vp|]. nra.
Qed.
End Particle.
End Mesh.
