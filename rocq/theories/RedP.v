(** Proofs about reductions of doubles: sums, largest and smallest values. *)
From Coq Require Import Reals Lra Lia Psatz Permutation.
From Flocq Require Import Core.
From Verif Require Import Prelude WindowM WindowS GhostM FieldM FieldS MaskM NeboM NeboS NeboD NeboF IterP RoundM RoundS RoundP RoundQ RoundT RoundU RoundV RedM RedS.
Open Scope R_scope.

(** ** The list a reduction folds over *)
Definition reduce64 (i : bool) (fuel : nat) (proc : dbl -> dbl -> dbl) (e : expr dbl) : prog dbl dbl :=
  if i then nebo_reduce_interior dbl dadd dmul fuel proc e else nebo_reduce dbl dadd dmul fuel proc e.
Lemma reduce_list i n h e : reducible i n h e -> exists N p0 rest, lists_in_order (covered i n e) (p0 :: rest) /\
  forall proc fuel, (N <= fuel)%nat ->
    run (reduce64 i fuel proc e) h = RDone h (fold_left proc (map (fun p => den64 h e p) rest) (den64 h e p0)).
Proof.
  intros (O & L & K). destruct i; cbn [covered reduce64] in *.
  - destruct K as [Pn K]. destruct (reduction_interior_ok dbl dadd dmul n h e Pn O L K) as (N & p0 & rest & Ls & _ & R).
    exists N, p0, rest. split; [exact Ls|]. intros proc fuel Hf. rewrite (R proc fuel Hf). f_equal. apply (NeboF.fold_map proc (fun p => den64 h e p)).
  - destruct (reduction_ok dbl dadd dmul n h e O L K) as (N & p0 & rest & Ls & _ & R).
    exists N, p0, rest. split; [exact Ls|]. intros proc fuel Hf. rewrite (R proc fuel Hf). f_equal. apply (NeboF.fold_map proc (fun p => den64 h e p)).
Qed.
Lemma before_irrefl p : ~ before p p.
Proof. unfold before. lia. Qed.
Lemma in_order_once P l : lists_in_order P l -> each_once P l.
Proof.
  intros [I O]. split; [|exact I]. apply NoDup_nth_error. intros i j Hi E.
  destruct (nth_error l i) as [p|] eqn:Ei; [|apply nth_error_None in Ei; lia]. symmetry in E.
  destruct (lt_eq_lt_dec i j) as [[L|L]|L]; [|exact L|].
  - destruct (before_irrefl p). exact (O i j p p L Ei E).
  - destruct (before_irrefl p). exact (O j i p p L E Ei).
Qed.
Lemma in_order_first P p0 rest : lists_in_order P (p0 :: rest) -> first_cell P p0.
Proof.
  intros [I O]. split; [apply I; left; reflexivity|]. intros q Q. apply I in Q. destruct Q as [->|Q]; [left; reflexivity|right].
  apply In_nth_error in Q. destruct Q as [j Q]. apply (O 0%nat (S j) p0 q); [lia|reflexivity|exact Q].
Qed.
Lemma first_unique P p q : first_cell P p -> first_cell P q -> p = q.
Proof.
  intros [A B] [C D]. destruct (B q C) as [->|E]; [reflexivity|]. destruct (D p A) as [->|F]; [reflexivity|].
  exfalso. unfold before in *. lia.
Qed.
Lemma once_perm P l l' : each_once P l -> each_once P l' -> Permutation l l'.
Proof. intros [A B] [C D]. apply NoDup_Permutation; [exact A|exact C|]. intros p. rewrite B, D. reflexivity. Qed.

(** ** Sums *)
Lemma rabs_rsum (f : ivec -> dbl) l : rabs_sum (map f l) = rsum (map (fun p => Rabs (val (f p))) l).
Proof. induction l as [|p l IH]; cbn; [reflexivity|]. rewrite IH. reflexivity. Qed.
Lemma pow_u_lin k : INR k * u <= / 2 -> (1 + u) ^ k - 1 <= 3 / 2 * (INR k * u).
Proof.
  intros H. pose proof u_pos. assert (0 <= INR k) by apply pos_INR. assert (0 <= INR k * u) by nra.
  pose proof (pow_u_le k ltac:(lra)). nra.
Qed.
Lemma two52 : powerRZ 2 (-52) = 2 * u.
Proof. rewrite p2. unfold u. change (-52)%Z with (1 + -53)%Z. rewrite bpow_plus. reflexivity. Qed.
Lemma count_u k : INR k <= powerRZ 2 52 -> INR k * u <= / 2.
Proof.
  intros H. rewrite p2 in H. apply Rle_trans with (bpow radix2 52 * u); [apply Rmult_le_compat_r; [left; apply u_pos|exact H]|].
  unfold u. rewrite <- bpow_plus. cbn. lra.
Qed.

Lemma sum_list x l : Forall finite (x :: l) -> INR (length (x :: l)) <= powerRZ 2 52 -> rabs_sum (x :: l) <= powerRZ 2 1022 ->
  finite (fold_left dadd l x) /\
  Rabs (val (fold_left dadd l x) - rsum (map val (x :: l))) <= INR (length (x :: l)) * powerRZ 2 (-52) * rabs_sum (x :: l).
Proof.
  intros F L B. inversion F as [|? ? Fx Fl]; subst. apply count_u in L. rewrite two52. rewrite p2 in B. cbn [length rabs_sum map rsum] in *.
  rewrite S_INR in *. pose proof u_pos as Up. pose proof (pos_INR (length l)) as Pl. assert (Lu : INR (length l) * u <= / 2) by nra.
  pose proof (pow_u_lin _ Lu) as P. pose proof (pow_u_ge (length l)) as G. pose proof (rabs_sum_pos l) as SP. pose proof (Rabs_pos (val x)) as XP.
  set (A := Rabs (val x) + rabs_sum l) in *. assert (0 <= A) by (unfold A; lra).
  destruct (sum_error l x Fx Fl) as [Fs Er].
  - fold A. apply Rle_trans with (2 * bpow radix2 1022); [apply Rmult_le_compat; lra|].
    change 1023%Z with (1 + 1022)%Z. rewrite bpow_plus. right. reflexivity.
  - split; [exact Fs|]. fold A in Er. eapply Rle_trans; [exact Er|]. apply Rmult_le_compat_r; nra.
Qed.

Lemma sum_correct i n h e l : reducible i n h e -> each_once (covered i n e) l ->
  (forall p, covered i n e p -> finite (den64 h e p)) -> INR (length l) <= powerRZ 2 52 ->
  rsum (map (fun p => Rabs (val (den64 h e p))) l) <= powerRZ 2 1022 ->
  exists r, returns (fun fuel => sum64 i fuel e) h r /\ finite r /\
    Rabs (val r - rsum (map (fun p => val (den64 h e p)) l))
      <= INR (length l) * powerRZ 2 (-52) * rsum (map (fun p => Rabs (val (den64 h e p))) l).
Proof.
  intros R Ol F L B. destruct (reduce_list i n h e R) as (N & p0 & rest & Ls & Rn).
  pose proof (once_perm _ _ _ (in_order_once _ _ Ls) Ol) as Pm.
  rewrite <- (rsum_perm _ _ (Permutation_map (fun p => Rabs (val (den64 h e p))) Pm)) in *.
  rewrite <- (rsum_perm _ _ (Permutation_map (fun p => val (den64 h e p)) Pm)). rewrite <- (Permutation_length Pm) in *.
  rewrite <- (rabs_rsum (fun p => den64 h e p)) in *. rewrite <- (map_map (fun p => den64 h e p) val).
  rewrite <- (map_length (fun p => den64 h e p)) in *. cbn [map] in *.
  exists (fold_left dadd (map (fun p => den64 h e p) rest) (den64 h e p0)). split.
  - exists N. intros fuel Hf. specialize (Rn dadd fuel Hf). destruct i; exact Rn.
  - apply sum_list; [|exact L|exact B]. change (den64 h e p0 :: map (fun p => den64 h e p) rest) with (map (fun p => den64 h e p) (p0 :: rest)).
    apply Forall_map, Forall_forall. intros p I. apply F, (proj1 Ls), I.
Qed.

(** Whole numbers *)
Lemma fmt_int z : (Z.abs z <= 2 ^ 53)%Z -> fmt (IZR z).
Proof.
  intros H. destruct (Z.eq_dec (Z.abs z) (2 ^ 53)) as [E|N].
  - assert (IZR z = bpow radix2 53 \/ IZR z = - bpow radix2 53) as [-> | ->].
    { replace (bpow radix2 53) with (IZR (2 ^ 53)) by reflexivity. destruct (Z.abs_spec z) as [[_ A]|[_ A]].
      - left. f_equal. lia.
      - right. rewrite <- opp_IZR. f_equal. lia. }
    + apply fmt_bpow. lia.
    + apply generic_format_opp, fmt_bpow. lia.
  - apply generic_format_FLT. exists (Float radix2 z 0); [unfold F2R; cbn; lra|cbn; lia|cbn; lia].
Qed.
Lemma sum_int : forall l acc za zl, finite acc -> val acc = IZR za -> Forall2 (fun x z => finite x /\ val x = IZR z) l zl ->
  (Z.abs za + fold_right (fun z s => Z.abs z + s) 0 zl <= 2 ^ 53)%Z ->
  finite (fold_left dadd l acc) /\ val (fold_left dadd l acc) = IZR (za + fold_right Z.add 0 zl)%Z.
Proof.
  induction l as [|x l IH]; intros acc za zl Fa Va F B; inversion F as [|? z ? zl' [Fx Vx] F']; subst; cbn [fold_left fold_right] in *.
  - rewrite Z.add_0_r. auto.
  - assert (Sp : (0 <= fold_right (fun z s => Z.abs z + s) 0 zl')%Z) by (clear; induction zl'; cbn; lia).
    assert (Q : fmt (val acc + val x)). { rewrite Va, Vx, <- plus_IZR. apply fmt_int. lia. }
    destruct (dadd_val acc x Fa Fx) as [F1 V1].
    { rewrite rnd_fmt by exact Q. rewrite Va, Vx, <- plus_IZR, <- abs_IZR. apply Rle_lt_trans with (bpow radix2 53).
      - replace (bpow radix2 53) with (IZR (2 ^ 53)) by reflexivity. apply IZR_le. lia.
      - apply bpow_lt. lia. }
    rewrite rnd_fmt in V1 by exact Q. rewrite Va, Vx, <- plus_IZR in V1. rewrite Z.add_assoc. apply IH; [exact F1|exact V1|exact F'|lia].
Qed.
Lemma sum_exact i n h e l (z : ivec -> Z) : reducible i n h e -> each_once (covered i n e) l ->
  (forall p, covered i n e p -> finite (den64 h e p) /\ val (den64 h e p) = IZR (z p)) ->
  (fold_right (fun p s => Z.abs (z p) + s) 0 l <= 2 ^ 53)%Z ->
  exists r, returns (fun fuel => sum64 i fuel e) h r /\ finite r /\ val r = IZR (fold_right (fun p s => z p + s) 0 l)%Z.
Proof.
  intros R Ol F B. destruct (reduce_list i n h e R) as (N & p0 & rest & Ls & Rn).
  pose proof (once_perm _ _ _ (in_order_once _ _ Ls) Ol) as Pm.
  assert (E1 : forall g : ivec -> Z, fold_right (fun p s => g p + s)%Z 0%Z l = fold_right (fun p s => g p + s)%Z 0%Z (p0 :: rest)).
  { intros g. clear - Pm. symmetry. revert Pm. generalize (p0 :: rest). intros l0 Pm. induction Pm; cbn; lia. }
  rewrite (E1 z). rewrite (E1 (fun p => Z.abs (z p))) in B. cbn [fold_right] in *.
  exists (fold_left dadd (map (fun p => den64 h e p) rest) (den64 h e p0)). split.
  - exists N. intros fuel Hf. specialize (Rn dadd fuel Hf). destruct i; exact Rn.
  - assert (In0 : forall p, In p (p0 :: rest) -> covered i n e p) by apply Ls.
    destruct (F p0 (In0 p0 (or_introl eq_refl))) as [F0 V0].
    assert (E2 : fold_right Z.add 0%Z (map z rest) = fold_right (fun p s => z p + s)%Z 0%Z rest) by (clear; induction rest; cbn; congruence).
    assert (E3 : fold_right (fun z s => Z.abs z + s)%Z 0%Z (map z rest) = fold_right (fun p s => Z.abs (z p) + s)%Z 0%Z rest) by (clear; induction rest; cbn; congruence).
    rewrite <- E2. apply sum_int; [exact F0|exact V0| |rewrite E3; exact B].
    assert (Rr : forall p, In p rest -> covered i n e p) by (intros p I; apply In0; right; exact I).
    clear - F Rr. induction rest as [|p rest IH]; cbn [map]; constructor.
    + apply F, Rr. left. reflexivity.
    + apply IH. intros q I. apply Rr. right. exact I.
Qed.

(** NaN *)
Lemma fold_nan l : forall acc, (acc = NaN \/ In NaN l) -> fold_left dadd l acc = NaN.
Proof.
  induction l as [|x l IH]; intros acc [->|I]; cbn [fold_left]; try reflexivity; try contradiction.
  - apply IH. left. apply nan_add_l.
  - destruct I as [->|I]; apply IH; [left; apply nan_add_r|right; exact I].
Qed.
Lemma sum_nan i n h e p : reducible i n h e -> covered i n e p -> den64 h e p = NaN -> returns (fun fuel => sum64 i fuel e) h NaN.
Proof.
  intros R C E. destruct (reduce_list i n h e R) as (N & p0 & rest & Ls & Rn). exists N. intros fuel Hf.
  specialize (Rn dadd fuel Hf). rewrite fold_nan in Rn.
  - destruct i; exact Rn.
  - apply (proj1 Ls) in C. destruct C as [->|C]; [left; exact E|right]. rewrite <- E. apply (in_map (fun p => den64 h e p)). exact C.
Qed.

(** ** Largest and smallest *)
Definition ord (x : dbl) : R :=
  match x with B754_infinity false => bpow radix2 1024 | B754_infinity true => - bpow radix2 1024 | _ => val x end.
Lemma ord_lt x y : x <> NaN -> y <> NaN -> (dltb x y = true <-> ord x < ord y).
Proof.
  intros Nx Ny. pose proof (bpow_gt_0 radix2 1024) as P.
  assert (B : forall z : dbl, - bpow radix2 1024 < val z < bpow radix2 1024) by (intros z; apply Rabs_lt_inv, val_lt).
  assert (C : finite x -> finite y -> (dltb x y = true <-> val x < val y)).
  { intros Fx Fy. unfold dltb. rewrite (Bltb_correct 53 1024 x y Fx Fy). fold (val x) (val y). destruct (Rlt_bool_spec (val x) (val y)); split; intros H'; try lra; try discriminate; try reflexivity. }
  pose proof (B x) as Bx. pose proof (B y) as By.
  destruct x as [sx|[]| |sx mx ex Hx], y as [sy|[]| |sy my ey Hy]; try (destruct Nx; reflexivity); try (destruct Ny; reflexivity);
    try (apply C; reflexivity); cbn [ord] in *; unfold val in *; cbn [B2R] in *; split; intros H; try lra; try discriminate H; try reflexivity;
    try (destruct sx; discriminate H); try (destruct sy; discriminate H).
Qed.
Lemma ord_le x y : x <> NaN -> y <> NaN -> (dle x y <-> ord x <= ord y).
Proof.
  intros Nx Ny. pose proof (bpow_gt_0 radix2 1024) as P.
  assert (B : forall z : dbl, - bpow radix2 1024 < val z < bpow radix2 1024) by (intros z; apply Rabs_lt_inv, val_lt).
  assert (C : finite x -> finite y -> (dle x y <-> val x <= val y)).
  { intros Fx Fy. unfold dle. rewrite (Bleb_correct 53 1024 x y Fx Fy). fold (val x) (val y). destruct (Rle_bool_spec (val x) (val y)); split; intros H'; try lra; try discriminate; try reflexivity. }
  pose proof (B x) as Bx. pose proof (B y) as By.
  destruct x as [sx|[]| |sx mx ex Hx], y as [sy|[]| |sy my ey Hy]; try (destruct Nx; reflexivity); try (destruct Ny; reflexivity);
    try (apply C; reflexivity); cbn [ord] in *; unfold val in *; cbn [B2R] in *; split; intros H; try lra; try discriminate H; try reflexivity;
    try (destruct sx; discriminate H); try (destruct sy; discriminate H).
Qed.
Lemma nan_dec x : {x = NaN} + {x <> NaN}.
Proof. destruct x; try (right; discriminate). left. reflexivity. Qed.
Lemma ltb_nan x : dltb x NaN = false /\ dltb NaN x = false.
Proof. destruct x as [| [] | |]; split; reflexivity. Qed.

Lemma fold_max_nan l : fold_left (std_max dbl dltb) l NaN = NaN /\ fold_left (std_min dbl dltb) l NaN = NaN.
Proof.
  induction l as [|x l IH]; cbn [fold_left]; [split; reflexivity|]. unfold std_max at 2, std_min at 2.
  rewrite (proj2 (ltb_nan x)), (proj1 (ltb_nan x)). exact IH.
Qed.
Lemma fold_max l : forall acc, acc <> NaN -> let r := fold_left (std_max dbl dltb) l acc in
  r <> NaN /\ In r (acc :: l) /\ forall x, In x (acc :: l) -> x <> NaN -> dle x r.
Proof.
  induction l as [|y l IH]; intros acc Na; cbn [fold_left].
  - split; [exact Na|]. split; [left; reflexivity|]. intros x [<-|[]] Nx. apply ord_le; [exact Nx|exact Nx|lra].
  - unfold std_max at 2 4 6. destruct (dltb acc y) eqn:E.
    + assert (Ny : y <> NaN) by (intros ->; rewrite (proj1 (ltb_nan acc)) in E; discriminate).
      destruct (IH y Ny) as (A & B & C). split; [exact A|]. split; [right; exact B|]. intros x [<-|I] Nx; [|apply C; assumption].
      apply ord_le; [exact Nx|exact A|]. apply ord_lt in E; [|exact Na|exact Ny].
      pose proof (proj1 (ord_le _ _ Ny A) (C y (or_introl eq_refl) Ny)). lra.
    + destruct (IH acc Na) as (A & B & C). split; [exact A|]. split; [destruct B as [B|B]; [left; exact B|right; right; exact B]|].
      intros x [<-|[<-|I]] Nx; [apply C; [left; reflexivity|exact Nx]| |apply C; [right; exact I|exact Nx]].
      apply ord_le; [exact Nx|exact A|]. pose proof (proj1 (ord_le _ _ Na A) (C acc (or_introl eq_refl) Na)).
      destruct (Rlt_le_dec (ord acc) (ord y)) as [L|L]; [|lra]. apply (ord_lt acc y Na Nx) in L. congruence.
Qed.
Lemma fold_min l : forall acc, acc <> NaN -> let r := fold_left (std_min dbl dltb) l acc in
  r <> NaN /\ In r (acc :: l) /\ forall x, In x (acc :: l) -> x <> NaN -> dle r x.
Proof.
  induction l as [|y l IH]; intros acc Na; cbn [fold_left].
  - split; [exact Na|]. split; [left; reflexivity|]. intros x [<-|[]] Nx. apply ord_le; [exact Nx|exact Nx|lra].
  - unfold std_min at 2 4 6. destruct (dltb y acc) eqn:E.
    + assert (Ny : y <> NaN) by (intros ->; rewrite (proj2 (ltb_nan acc)) in E; discriminate).
      destruct (IH y Ny) as (A & B & C). split; [exact A|]. split; [right; exact B|]. intros x [<-|I] Nx; [|apply C; assumption].
      apply ord_le; [exact A|exact Nx|]. apply ord_lt in E; [|exact Ny|exact Na].
      pose proof (proj1 (ord_le _ _ A Ny) (C y (or_introl eq_refl) Ny)). lra.
    + destruct (IH acc Na) as (A & B & C). split; [exact A|]. split; [destruct B as [B|B]; [left; exact B|right; right; exact B]|].
      intros x [<-|[<-|I]] Nx; [apply C; [left; reflexivity|exact Nx]| |apply C; [right; exact I|exact Nx]].
      apply ord_le; [exact A|exact Nx|]. pose proof (proj1 (ord_le _ _ A Na) (C acc (or_introl eq_refl) Na)).
      destruct (Rlt_le_dec (ord y) (ord acc)) as [L|L]; [|lra]. apply (ord_lt y acc Nx Na) in L. congruence.
Qed.

Lemma max_min_nan i n h e p : reducible i n h e -> first_cell (covered i n e) p -> den64 h e p = NaN ->
  returns (fun fuel => max64 i fuel e) h NaN /\ returns (fun fuel => min64 i fuel e) h NaN.
Proof.
  intros R Fp E. destruct (reduce_list i n h e R) as (N & p0 & rest & Ls & Rn).
  rewrite <- (first_unique _ _ _ (in_order_first _ _ _ Ls) Fp) in E. rewrite E in Rn.
  split; exists N; intros fuel Hf.
  - specialize (Rn (std_max dbl dltb) fuel Hf). rewrite (proj1 (fold_max_nan _)) in Rn. destruct i; exact Rn.
  - specialize (Rn (std_min dbl dltb) fuel Hf). rewrite (proj2 (fold_max_nan _)) in Rn. destruct i; exact Rn.
Qed.
Lemma max_min_first i n h e p : reducible i n h e -> first_cell (covered i n e) p -> den64 h e p <> NaN ->
  exists hi lo, returns (fun fuel => max64 i fuel e) h hi /\ returns (fun fuel => min64 i fuel e) h lo /\
    (exists q, covered i n e q /\ den64 h e q = hi) /\ (exists q, covered i n e q /\ den64 h e q = lo) /\ hi <> NaN /\ lo <> NaN /\
    forall q, covered i n e q -> den64 h e q <> NaN -> dle lo (den64 h e q) /\ dle (den64 h e q) hi.
Proof.
  intros R Fp E. destruct (reduce_list i n h e R) as (N & p0 & rest & Ls & Rn).
  rewrite <- (first_unique _ _ _ (in_order_first _ _ _ Ls) Fp) in E. clear Fp p.
  destruct (fold_max (map (fun p => den64 h e p) rest) _ E) as (A1 & A2 & A3).
  destruct (fold_min (map (fun p => den64 h e p) rest) _ E) as (B1 & B2 & B3).
  change (den64 h e p0 :: map (fun p => den64 h e p) rest) with (map (fun p => den64 h e p) (p0 :: rest)) in *.
  eexists _, _. split; [|split; [|split; [|split; [|split; [exact A1|split; [exact B1|]]]]]].
  - exists N. intros fuel Hf. specialize (Rn (std_max dbl dltb) fuel Hf). destruct i; exact Rn.
  - exists N. intros fuel Hf. specialize (Rn (std_min dbl dltb) fuel Hf). destruct i; exact Rn.
  - apply in_map_iff in A2. destruct A2 as (q & Eq & I). exists q. split; [apply Ls; exact I|exact Eq].
  - apply in_map_iff in B2. destruct B2 as (q & Eq & I). exists q. split; [apply Ls; exact I|exact Eq].
  - intros q C Nq. apply (proj1 Ls) in C. split; [apply B3|apply A3]; try exact Nq; apply (in_map (fun p => den64 h e p)); exact C.
Qed.
