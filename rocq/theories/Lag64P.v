(** Proofs about Lagrange interpolation in double precision: the entries used.
    The argument is that of LagrangeQ. *)
From Coq Require Import Reals Lra.
From Flocq Require Import Core.
From Verif Require Import Prelude StencilM RoundM RoundS RedM HeatM Cmp64M Cmp64S Cmp64P Lag64M Lag64S Lag64A.
Local Open Scope Z_scope.

(** ** Tables *)
Lemma lt_chain c a x : finite c -> finite a -> (val c < val a)%R -> dltb a x = true -> dltb c x = true.
Proof.
  intros Fc Fa L H. destruct x as [s|s| |s m e B].
  - apply lt_val; [exact Fc|reflexivity|]. apply lt_val in H; [lra|exact Fa|reflexivity].
  - destruct s; [destruct a as [[]|[]| |[] ? ? ?]; discriminate|]. apply lt_inf. exact Fc.
  - destruct a as [[]|[]| |[] ? ? ?]; discriminate.
  - apply lt_val; [exact Fc|reflexivity|]. apply lt_val in H; [lra|exact Fa|reflexivity].
Qed.
Lemma nth_finite v i a : Forall finite v -> nth_error v i = Some a -> finite a.
Proof. intros F E. rewrite Forall_forall in F. apply F. eapply nth_error_In. exact E. Qed.

Lemma vat_nth v i a : vat64 v i = Ok a <-> 0 <= i /\ nth_error v (Z.to_nat i) = Some a.
Proof.
  unfold vat64. destruct (Z.ltb_spec i 0); [split; [discriminate|lia]|].
  destruct (nth_error v (Z.to_nat i)); split; try congruence; intros E; [split; [lia|congruence]|destruct E; congruence|destruct E; congruence].
Qed.
Lemma vat_in v i : 0 <= i < Z.of_nat (length v) -> exists a, vat64 v i = Ok a.
Proof.
  intros R. destruct (nth_error v (Z.to_nat i)) eqn:E; [exists d; apply vat_nth; split; [lia|exact E]|].
  apply nth_error_None in E. lia.
Qed.
Lemma vat_out v i : i < 0 \/ Z.of_nat (length v) <= i -> vat64 v i = UB.
Proof.
  intros R. unfold vat64. destruct (Z.ltb_spec i 0); [reflexivity|]. destruct (nth_error v (Z.to_nat i)) eqn:E; [|reflexivity].
  assert (Z.to_nat i < length v)%nat by (apply nth_error_Some; congruence). lia.
Qed.
Lemma lower_bound_range v x : 0 <= lower_bound64 v x <= Z.of_nat (length v).
Proof. induction v as [|a v IH]; cbn [lower_bound64 length]; [lia|]. destruct (dltb a x); lia. Qed.
Lemma lower_bound_below v x i a : Z.of_nat i < lower_bound64 v x -> nth_error v i = Some a -> dltb a x = true.
Proof.
  revert i. induction v as [|b v IH]; intros i L E; cbn [lower_bound64] in L; [lia|]. destruct (dltb b x) eqn:B; [|lia].
  destruct i; cbn in E; [injection E as <-; exact B|]. apply (IH i); [lia|exact E].
Qed.
Lemma lower_bound_at v x a : nth_error v (Z.to_nat (lower_bound64 v x)) = Some a -> dltb a x = false.
Proof.
  induction v as [|b v IH]; cbn [lower_bound64]; [discriminate|]. destruct (dltb b x) eqn:B.
  - pose proof (lower_bound_range v x). replace (Z.to_nat (1 + lower_bound64 v x)) with (S (Z.to_nat (lower_bound64 v x))) by lia. exact IH.
  - cbn. intros E. injection E as <-. exact B.
Qed.

(** ** The window of entries *)
Definition sub (v : list dbl) (lo : Z) (n : nat) : list dbl := firstn n (skipn (Z.to_nat lo) v).
Lemma sub_cons v lo n a : 0 <= lo -> vat64 v lo = Ok a -> sub v lo (S n) = a :: sub v (lo + 1) n.
Proof.
  intros L E. apply vat_nth in E. destruct E as (_ & E). unfold sub. replace (Z.to_nat (lo + 1)) with (S (Z.to_nat lo)) by lia.
  revert E. generalize (Z.to_nat lo). clear. intros k. revert v. induction k as [|k IH]; intros v E; destruct v as [|b v]; try discriminate; cbn in E |- *.
  - injection E as ->. reflexivity.
  - apply IH. exact E.
Qed.
Lemma sub_length v lo n : 0 <= lo -> lo + Z.of_nat n <= Z.of_nat (length v) -> length (sub v lo n) = n.
Proof. intros L H. unfold sub. rewrite firstn_length, skipn_length. lia. Qed.
Lemma sub_in v lo n i a : 0 <= lo -> lo <= i < lo + Z.of_nat n -> vat64 v i = Ok a -> In a (sub v lo n).
Proof.
  revert lo. induction n as [|n IH]; intros lo L R E; [lia|].
  destruct (proj1 (vat_nth v i a) E) as (_ & E').
  assert (Li : (Z.to_nat i < length v)%nat) by (apply nth_error_Some; congruence).
  destruct (vat_in v lo) as (b & B); [lia|]. rewrite (sub_cons v lo n b L B).
  destruct (Z.eq_dec lo i) as [<-|N]; [left; congruence|]. right. apply IH; [lia|lia|exact E].
Qed.

Lemma read_entries_ok v lo n : 0 <= lo -> lo + Z.of_nat n <= Z.of_nat (length v) -> read_entries64 v lo n = Ok (sub v lo n).
Proof.
  revert lo. induction n as [|n IH]; intros lo L H; cbn [read_entries64]; [reflexivity|].
  destruct (vat_in v lo) as (a & A); [lia|]. rewrite A. cbn [obind]. rewrite IH by lia. cbn [obind].
  rewrite (sub_cons v lo n a L A). reflexivity.
Qed.
Lemma window_ok v lo hi : 0 <= lo -> lo <= hi -> hi <= Z.of_nat (length v) -> window_entries64 v lo hi = Ok (sub v lo (Z.to_nat (hi - lo))).
Proof. intros A B C. unfold window_entries64. destruct (Z.ltb_spec hi lo); [lia|]. apply read_entries_ok; lia. Qed.

Fixpoint idx (lo : Z) (n : nat) : list Z := match n with O => [] | S n => lo :: idx (lo + 1) n end.
Lemma coef_loop_ok one g v lo hi n k : 0 <= lo -> lo <= hi -> hi <= Z.of_nat (length v) ->
  (forall xk, In xk (sub v lo (Z.to_nat (hi - lo))) -> one xk (sub v lo (Z.to_nat (hi - lo))) = (g xk, true)) ->
  lo <= k -> k + Z.of_nat n <= hi ->
  coef_loop64 one v lo hi k n = Ok (map g (sub v k n), idx k n).
Proof.
  intros A B C G. revert k. induction n as [|n IH]; intros k K H; cbn [coef_loop64]; [reflexivity|].
  destruct (vat_in v k) as (a & E); [lia|]. rewrite E. cbn [obind]. rewrite window_ok by assumption. cbn [obind].
  rewrite G by (apply (sub_in v lo _ k); [lia|lia|exact E]). rewrite IH by lia. cbn [obind].
  rewrite (sub_cons v k n a) by (lia || exact E). reflexivity.
Qed.

Lemma bounds_ok v x order : 1 <= order -> order + 1 <= Z.of_nat (length v) ->
  exists ilo nlo nhi, get_bounds64 v x order = Ok (ilo, nlo, nhi) /\ nlo + nhi = order + 1 /\
    ilo = (if lower_bound64 v x =? 0 then 0 else lower_bound64 v x - 1) /\
    0 <= ilo - nlo + 1 /\ ilo + nhi + 1 <= Z.of_nat (length v) /\ 1 <= nlo /\ 0 <= nhi /\ (ilo + 1 < Z.of_nat (length v) -> 1 <= nhi).
Proof.
  intros O L. pose proof (lower_bound_range v x) as R. unfold get_bounds64. cbv zeta.
  set (ilo := if lower_bound64 v x - 1 <? 0 then lower_bound64 v x - 1 - (lower_bound64 v x - 1) else lower_bound64 v x - 1).
  assert (I : ilo = (if lower_bound64 v x =? 0 then 0 else lower_bound64 v x - 1) /\ 0 <= ilo < Z.of_nat (length v)).
  { unfold ilo. destruct (Z.ltb_spec (lower_bound64 v x - 1) 0), (Z.eqb_spec (lower_bound64 v x) 0); lia. }
  destruct I as (I0 & I). unfold cdiv, cmod. change (2 =? 0) with false. cbn [obind].
  pose proof (Z.quot_rem (order + 1) 2 ltac:(lia)) as QR. pose proof (Z.rem_bound_pos (order + 1) 2 ltac:(lia) ltac:(lia)) as RB.
  set (q := Z.quot (order + 1) 2) in *. set (r := Z.rem (order + 1) 2) in *.
  assert (N : exists nlo nhi, nlo + nhi = order + 1 /\ 1 <= nlo /\ 1 <= nhi /\
    (if negb (r =? 0) then
       if Z.of_nat (length v) <=? ilo + 1 then Ok (q + 1, q)
       else do a <- vat64 v ilo; do b <- vat64 v (ilo + 1); Ok (if dltb (dabs (dsub b x)) (dabs (dsub a x)) then (q, q + 1) else (q + 1, q))
     else Ok (q, q)) = Ok (nlo, nhi)).
  { destruct (Z.eqb_spec r 0); cbn [negb]; [exists q, q; repeat split; lia|].
    destruct (Z.leb_spec (Z.of_nat (length v)) (ilo + 1)); [exists (q + 1), q; repeat split; lia|].
    destruct (vat_in v ilo) as (a & A); [lia|]. destruct (vat_in v (ilo + 1)) as (b & B); [lia|]. rewrite A, B. cbn [obind].
    destruct (dltb _ _); [exists q, (q + 1)|exists (q + 1), q]; repeat split; lia. }
  destruct N as (nlo & nhi & N1 & N2 & N3 & ->). cbn [obind].
  destruct (Z.ltb_spec (ilo - nlo + 1) 0);
  [destruct (Z.ltb_spec (Z.of_nat (length v) - (ilo + (nhi - (ilo - nlo + 1)) + 1)) 0)|destruct (Z.ltb_spec (Z.of_nat (length v) - (ilo + nhi + 1)) 0)];
  do 3 eexists; (split; [reflexivity|]); repeat split; try lia; exact I0.
Qed.

Lemma idx_spec lo n : idx lo n = map (fun i => lo + Z.of_nat i) (seq 0 n).
Proof.
  revert lo. induction n as [|n IH]; intros lo; cbn [idx seq map]; [reflexivity|]. f_equal; [lia|]. rewrite IH, <- seq_shift, map_map.
  apply map_ext. intros i. lia.
Qed.

Lemma lb_char xs x j a b : increasing64 xs -> nth_error xs j = Some a -> nth_error xs (S j) = Some b -> dltb a x = true -> dltb b x = false ->
  lower_bound64 xs x = Z.of_nat j + 1.
Proof.
  intros (F & I) A B Ha Hb. pose proof (lower_bound_range xs x) as R.
  destruct (Z.lt_trichotomy (lower_bound64 xs x) (Z.of_nat j + 1)) as [H|[H|H]]; [|exact H|].
  - exfalso. set (k := Z.to_nat (lower_bound64 xs x)). assert (Lk : (k <= j)%nat) by lia.
    assert (Lj : (j < length xs)%nat) by (apply nth_error_Some; congruence).
    destruct (nth_error xs k) as [c|] eqn:C; [|apply nth_error_None in C; lia].
    pose proof (lower_bound_at xs x c C) as NC.
    destruct (Nat.eq_dec k j) as [E|E]; [rewrite E in C; congruence|].
    rewrite (lt_chain c a x) in NC; [discriminate|exact (nth_finite _ _ _ F C)|exact (nth_finite _ _ _ F A)| |exact Ha].
    apply (I k j); [lia|exact C|exact A].
  - exfalso. pose proof (lower_bound_below xs x (S j) b ltac:(lia) B) as H'. congruence.
Qed.
Lemma lb_low xs x a : nth_error xs 0 = Some a -> dltb a x = false -> lower_bound64 xs x = 0.
Proof.
  intros A Hx. pose proof (lower_bound_range xs x). destruct (Z.eq_dec (lower_bound64 xs x) 0); [assumption|].
  pose proof (lower_bound_below xs x 0%nat a ltac:(lia) A) as H'. congruence.
Qed.
Lemma lb_high xs x a : increasing64 xs -> nth_error xs (length xs - 1) = Some a -> dltb a x = true -> lower_bound64 xs x = Z.of_nat (length xs).
Proof.
  intros (F & I) A Hx. pose proof (lower_bound_range xs x). destruct (Z.eq_dec (lower_bound64 xs x) (Z.of_nat (length xs))) as [E|E]; [exact E|].
  exfalso. set (k := Z.to_nat (lower_bound64 xs x)). destruct (nth_error xs k) as [c|] eqn:C; [|apply nth_error_None in C; lia].
  pose proof (lower_bound_at xs x c C) as NC. assert (k <= length xs - 1)%nat by lia.
  destruct (Nat.eq_dec k (length xs - 1)) as [E'|E']; [rewrite E' in C; congruence|].
  rewrite (lt_chain c a x) in NC; [discriminate|exact (nth_finite _ _ _ F C)|exact (nth_finite _ _ _ F A)| |exact Hx].
  apply (I k (length xs - 1)%nat); [lia|exact C|exact A].
Qed.

(** ** Outside the precondition *)
Lemma bounds_any v x order : 0 <= order ->
  exists ilo nlo nhi, get_bounds64 v x order = Ok (ilo, nlo, nhi) /\ nlo + nhi = order + 1 /\ ilo + nhi + 1 <= Z.of_nat (length v) \/
    get_bounds64 v x order = UB.
Proof.
  intros O. pose proof (lower_bound_range v x) as R. unfold get_bounds64. cbv zeta.
  set (ilo := if lower_bound64 v x - 1 <? 0 then lower_bound64 v x - 1 - (lower_bound64 v x - 1) else lower_bound64 v x - 1).
  unfold cdiv, cmod. change (2 =? 0) with false. cbn [obind].
  pose proof (Z.quot_rem (order + 1) 2 ltac:(lia)) as QR. pose proof (Z.rem_bound_pos (order + 1) 2 ltac:(lia) ltac:(lia)) as RB.
  set (q := Z.quot (order + 1) 2) in *. set (r := Z.rem (order + 1) 2) in *.
  match goal with |- context [obind ?e _] => destruct e as [[nlo nhi]| |] eqn:E end; cbn [obind].
  - assert (N1 : nlo + nhi = order + 1).
    { destruct (Z.eqb_spec r 0); cbn [negb] in E; [injection E as <- <-; lia|].
      destruct (Z.leb_spec (Z.of_nat (length v)) (ilo + 1)); [injection E as <- <-; lia|].
      destruct (vat64 v ilo); try discriminate; destruct (vat64 v (ilo + 1)); try discriminate; cbn [obind] in E.
      destruct (dltb _ _); injection E as <- <-; lia. }
    destruct (Z.ltb_spec (ilo - nlo + 1) 0);
    [destruct (Z.ltb_spec (Z.of_nat (length v) - (ilo + (nhi - (ilo - nlo + 1)) + 1)) 0)|destruct (Z.ltb_spec (Z.of_nat (length v) - (ilo + nhi + 1)) 0)];
    do 3 eexists; left; (split; [reflexivity|]); split; lia.
  - exfalso. destruct (negb _); [|discriminate]. destruct (_ <=? _); [discriminate|]. unfold vat64 in E.
    repeat (match type of E with context [if ?c then _ else _] => destruct c | context [match nth_error ?a ?b with _ => _ end] => destruct (nth_error a b) end; try discriminate; cbn [obind] in E).
  - exists 0, 0, 0. right. reflexivity.
Qed.

(** Too few table entries: both functions read before the start of the table. *)
Lemma short_table v x order : 0 <= order -> Z.of_nat (length v) <= order -> interp_coefs64 v x order = UB /\ deriv_coefs64 v x order = UB.
Proof.
  intros O L. unfold interp_coefs64, deriv_coefs64.
  destruct (bounds_any v x order O) as (ilo & nlo & nhi & [(E & N & H)|E]); rewrite E; cbn [obind]; [|split; reflexivity].
  replace (Z.to_nat (order + 1)) with (S (Z.to_nat order)) by lia. cbn [coef_loop64]. rewrite vat_out by lia. split; reflexivity.
Qed.


(** ** The loops over the other points *)
Lemma deqb_val a b : finite a -> finite b -> deqb a b = reqb (val a) (val b).
Proof.
  intros Fa Fb. unfold deqb. rewrite (Beqb_correct 53 1024 a b Fa Fb). fold (val a) (val b). unfold reqb.
  destruct (Req_bool_spec (val a) (val b)), (Req_EM_T (val a) (val b)); congruence.
Qed.
Lemma deqb_sym a b : deqb a b = deqb b a.
Proof.
  destruct (deqb a b) eqn:A, (deqb b a) eqn:B; auto.
  - apply eq_same in A. assert (K : same b a) by (unfold same in *; intuition). apply eq_same in K. congruence.
  - apply eq_same in B. assert (K : same a b) by (unfold same in *; intuition). apply eq_same in K. congruence.
Qed.
Definition oth (xk : dbl) (w : list dbl) : list dbl := filter (fun xi => negb (deqb xi xk)) w.
Lemma oth_vals xk w : finite xk -> Forall finite w -> map val (oth xk w) = others (val xk) (map val w).
Proof.
  intros Fk F. induction F as [|a w Fa F IH]; [reflexivity|]. unfold oth, others in *. cbn [filter map].
  rewrite deqb_val by assumption. destruct (reqb (val a) (val xk)); cbn [negb map]; [exact IH|]. f_equal. exact IH.
Qed.
Lemma oth_finite xk w : Forall finite w -> Forall finite (oth xk w).
Proof. intros F. rewrite Forall_forall in *. intros a I. apply filter_In in I. apply F, I. Qed.

Lemma interp_fold x xk l c b :
  fold_left (fun '(coef, have) xi => if deqb xk xi then (coef, have) else (dmul coef (ddiv (dsub x xi) (dsub xk xi)), true)) l (c, b) =
  (fold_left (fun c xi => dmul c (ddiv (dsub x xi) (dsub xk xi))) (oth xk l) c, b || negb (Nat.eqb (length (oth xk l)) 0)).
Proof.
  revert c b. induction l as [|a l IH]; intros c b; cbn [fold_left]; [cbn; rewrite orb_false_r; reflexivity|].
  unfold oth. cbn [filter]. rewrite (deqb_sym a xk). destruct (deqb xk a); cbn [negb]; [apply IH|].
  rewrite IH. fold (oth xk l). cbn [length Nat.eqb negb fold_left]. rewrite orb_true_r. reflexivity.
Qed.
Lemma den_fold xk l c b :
  fold_left (fun '(den, have) xi => if deqb xi xk then (den, have) else (dmul den (dsub xk xi), true)) l (c, b) =
  (fold_left (fun c xi => dmul c (dsub xk xi)) (oth xk l) c, b || negb (Nat.eqb (length (oth xk l)) 0)).
Proof.
  revert c b. induction l as [|a l IH]; intros c b; cbn [fold_left]; [cbn; rewrite orb_false_r; reflexivity|].
  unfold oth. cbn [filter]. destruct (deqb a xk); cbn [negb]; [apply IH|].
  rewrite IH. fold (oth xk l). cbn [length Nat.eqb negb fold_left]. rewrite orb_true_r. reflexivity.
Qed.
Lemma tmp_fold x xk xj l c b :
  fold_left (fun '(tmp, have) xi => if deqb xi xk || deqb xi xj then (tmp, have) else (dmul tmp (dsub x xi), true)) l (c, b) =
  (fold_left (fun c xi => dmul c (dsub x xi)) (oth xj (oth xk l)) c, b || negb (Nat.eqb (length (oth xj (oth xk l))) 0)).
Proof.
  revert c b. induction l as [|a l IH]; intros c b; cbn [fold_left]; [cbn; rewrite orb_false_r; reflexivity|].
  unfold oth at 1 3. unfold oth at 1 2. cbn [filter]. destruct (deqb a xk); cbn [negb orb]; [apply IH|].
  cbn [filter]. destruct (deqb a xj); cbn [negb]; [apply IH|].
  rewrite IH. fold (oth xk l). fold (oth xj (oth xk l)). cbn [length Nat.eqb negb fold_left]. rewrite orb_true_r. reflexivity.
Qed.
(** The coefficients, without the flags. *)
Definition icoef (x : dbl) (w : list dbl) (xk : dbl) : dbl :=
  fold_left (fun c xi => dmul c (ddiv (dsub x xi) (dsub xk xi))) (oth xk w) d_one.
Definition dterm (x : dbl) (o : list dbl) (xj : dbl) : dbl := fold_left (fun c xi => dmul c (dsub x xi)) (oth xj o) d_one.
Definition dnum (x : dbl) (w : list dbl) (xk : dbl) : dbl :=
  match oth xk w with [_] => d_one | o => fold_left (fun s xj => dadd s (dterm x o xj)) o d_zero end.
Definition dden (w : list dbl) (xk : dbl) : dbl := fold_left (fun c xi => dmul c (dsub xk xi)) (oth xk w) d_one.
Definition dcoef (x : dbl) (w : list dbl) (xk : dbl) : dbl := ddiv (dnum x w xk) (dden w xk).

Lemma vals_nodup v lo n : increasing64 v -> NoDup (map val (part lo n v)).
Proof.
  intros (F & I). assert (ND : NoDup (map val v)).
  { apply NoDup_nth_error. intros i j L E. rewrite map_length in L. rewrite !nth_error_map in E.
    destruct (nth_error v i) as [a|] eqn:Ei; [|apply nth_error_None in Ei; lia]. destruct (nth_error v j) as [b|] eqn:Ej; [|discriminate].
    cbn in E. injection E as E. destruct (Nat.lt_trichotomy i j) as [H|[H|H]]; [|exact H|].
    - pose proof (I i j a b H Ei Ej). lra.
    - pose proof (I j i b a H Ej Ei). lra. }
  unfold part. rewrite <- firstn_map, <- skipn_map. revert ND. generalize (map val v). clear.
  intros l ND. assert (ND' : NoDup (skipn lo l)).
  { revert l ND. induction lo as [|k IH]; intros l ND; [exact ND|]. destruct l; [constructor|]. inversion ND; subst. apply IH. assumption. }
  revert ND'. generalize (skipn lo l). clear. induction n as [|n IH]; intros l ND; [constructor|]. destruct l as [|a l]; [constructor|].
  inversion ND as [|? ? NI ND']; subst. cbn. constructor; [|apply IH, ND']. intros J. apply NI. clear -J. revert l J.
  induction n as [|n IH]; intros l J; [destruct J|]. destruct l as [|c l]; [destruct J|]. destruct J as [->|J]; [left; reflexivity|right; apply IH, J].
Qed.
Lemma part_finite v lo n : Forall finite v -> Forall finite (part lo n v).
Proof.
  intros F. rewrite Forall_forall in *. intros a I. apply F. unfold part in I.
  rewrite <- (firstn_skipn lo v), <- (firstn_skipn n (skipn lo v)), !in_app_iff. tauto.
Qed.
Lemma part_length {T} (v : list T) lo n : (lo + n <= length v)%nat -> length (part lo n v) = n.
Proof. intros L. unfold part. rewrite firstn_length, skipn_length. lia. Qed.

Section Window.
Context (x : dbl) (w : list dbl) (n : nat) (Fw : Forall finite w) (ND : NoDup (map val w)) (Len : length w = S n) (N1 : (1 <= n)%nat).

Lemma oth_length xk : In xk w -> length (oth xk w) = n.
Proof.
  intros I. pose proof (proj1 (Forall_forall _ _) Fw xk I) as Fk.
  assert (K := others_length (val xk) (map val w) ND (in_map val w xk I)). rewrite <- oth_vals, !map_length in K by assumption. lia.
Qed.
Lemma oth_in xk xj : finite xk -> (In xj (oth xk w) <-> In xj w /\ val xj <> val xk).
Proof.
  intros Fk. unfold oth. rewrite filter_In. split; intros (I & E); (split; [exact I|]);
    pose proof (proj1 (Forall_forall _ _) Fw xj I) as Fj; rewrite deqb_val in * by assumption; unfold reqb in *; destruct (Req_EM_T (val xj) (val xk)); cbn in *; congruence.
Qed.
Lemma oth2_length xk xj : In xk w -> In xj (oth xk w) -> length (oth xj (oth xk w)) = (n - 1)%nat.
Proof.
  intros I J. pose proof (proj1 (Forall_forall _ _) Fw xk I) as Fk.
  pose proof (proj1 (Forall_forall _ _) (oth_finite xk w Fw) xj J) as Fj.
  assert (NO : NoDup (map val (oth xk w))) by (rewrite oth_vals by assumption; apply others_nodup, ND).
  assert (K := others_length (val xj) (map val (oth xk w)) NO (in_map val _ xj J)).
  rewrite <- oth_vals, !map_length, oth_length in K by (assumption || apply oth_finite, Fw). lia.
Qed.
Lemma interp_is xk : In xk w -> interp_coef64 x xk w = (icoef x w xk, true).
Proof. intros I. unfold interp_coef64. rewrite interp_fold, (oth_length xk I). destruct n; [lia|]. reflexivity. Qed.
Lemma num_is xk : In xk w -> deriv_num64 x xk (Z.of_nat n) w = dnum x w xk.
Proof.
  intros I. pose proof (proj1 (Forall_forall _ _) Fw xk I) as Fk. pose proof (oth_length xk I) as LO. unfold deriv_num64, dnum.
  assert (K : forall l acc, (forall j, In j l -> In j w) -> fold_left (fun num xj => if deqb xj xk then num
        else let '(tmp, have) := deriv_tmp64 x xk xj w in if have then dadd num tmp else num) l acc =
        if Nat.eqb n 1 then acc else fold_left (fun s xj => dadd s (dterm x (oth xk w) xj)) (oth xk l) acc).
  { induction l as [|j l IH]; intros acc S; [cbn; destruct (Nat.eqb n 1); reflexivity|]. cbn [fold_left]. unfold oth at 2. cbn [filter].
    destruct (deqb j xk) eqn:Ej; cbn [negb]; [apply IH; intros; apply S; right; assumption|]. fold (oth xk l).
    unfold deriv_tmp64. rewrite tmp_fold. rewrite oth2_length; [|exact I|].
    - destruct (Nat.eqb_spec n 1) as [->|N]; [cbn; apply (IH acc); intros; apply S; right; assumption|].
      destruct (n - 1)%nat eqn:E; [lia|]. cbn [Nat.eqb negb orb fold_left]. apply IH. intros; apply S; right; assumption.
    - unfold oth. apply filter_In. split; [apply S; left; reflexivity|]. rewrite Ej. reflexivity. }
  rewrite K by auto. destruct (Z.eqb_spec (Z.of_nat n) 1) as [E|E], (Nat.eqb_spec n 1) as [E'|E']; try lia.
  - destruct (oth xk w) as [|a [|b o]]; cbn in LO; try lia. reflexivity.
  - destruct (oth xk w) as [|a [|b o]]; cbn in LO; try lia. reflexivity.
Qed.
Lemma deriv_is xk : In xk w -> deriv_coef64 x xk (Z.of_nat n) w = (dcoef x w xk, true).
Proof.
  intros I. unfold deriv_coef64, deriv_den64. rewrite den_fold, (oth_length xk I), (num_is xk I). destruct n; [lia|]. reflexivity.
Qed.
End Window.

(** ** The window *)
Lemma idx_seq lo n : idx (Z.of_nat lo) n = map Z.of_nat (seq lo n).
Proof. revert lo. induction n as [|n IH]; intros lo; cbn; [reflexivity|]. f_equal. rewrite <- IH. f_equal. lia. Qed.
Lemma coefs_ok v x n : increasing64 v -> (1 <= n)%nat -> (n < length v)%nat ->
  exists lo, (lo + n < length v)%nat /\
    (let w := part lo (S n) v in
     interp_coefs64 v x (Z.of_nat n) = Ok (map (icoef x w) w, map Z.of_nat (seq lo (S n))) /\
     deriv_coefs64 v x (Z.of_nat n) = Ok (map (dcoef x w) w, map Z.of_nat (seq lo (S n)))) /\
    (let ilo := if lower_bound64 v x =? 0 then 0 else lower_bound64 v x - 1 in
     Z.of_nat lo <= ilo <= Z.of_nat (lo + n) /\ (ilo + 1 < Z.of_nat (length v) -> ilo + 1 <= Z.of_nat (lo + n))).
Proof.
  intros Inc O L. destruct (bounds_ok v x (Z.of_nat n) ltac:(lia) ltac:(lia)) as (ilo & nlo & nhi & B & S & I & A1 & A2 & A3 & A5 & A4).
  exists (Z.to_nat (ilo - nlo + 1)). set (lo := Z.to_nat (ilo - nlo + 1)). assert (ELo : ilo - nlo + 1 = Z.of_nat lo) by lia.
  cbv zeta. set (w := part lo (Datatypes.S n) v).
  assert (SW : sub v (Z.of_nat lo) (Datatypes.S n) = w) by (unfold sub, w, part; rewrite Nat2Z.id; reflexivity).
  assert (Len : length w = Datatypes.S n) by (apply part_length; lia).
  assert (ND := vals_nodup v lo (Datatypes.S n) Inc). fold w in ND.
  assert (Fw := part_finite v lo (Datatypes.S n) (proj1 Inc)). fold w in Fw.
  assert (HI : Z.to_nat (ilo + nhi + 1 - Z.of_nat lo) = Datatypes.S n) by lia.
  assert (HN : Z.to_nat (Z.of_nat n + 1) = Datatypes.S n) by lia.
  split; [lia|]. split; [split|].
  - unfold interp_coefs64. rewrite B. cbn [obind]. rewrite ELo, HN, <- idx_seq.
    rewrite (coef_loop_ok (interp_coef64 x) (icoef x w)); [rewrite SW; reflexivity|lia..| |lia|lia].
    rewrite HI, SW. intros xk Ik. apply (interp_is x w n Fw ND Len O). exact Ik.
  - unfold deriv_coefs64. rewrite B. cbn [obind]. rewrite ELo, HN, <- idx_seq.
    rewrite (coef_loop_ok (fun xk => deriv_coef64 x xk (Z.of_nat n)) (dcoef x w)); [rewrite SW; reflexivity|lia..| |lia|lia].
    rewrite HI, SW. intros xk Ik. apply (deriv_is x w n Fw ND Len O). exact Ik.
  - rewrite <- I. split; [lia|]. intros H. specialize (A4 H). lia.
Qed.

Lemma window_spec xs x n : increasing64 xs -> (1 <= n)%nat -> (n < length xs)%nat ->
  exists lo cs ds,
    interp_coefs64 xs x (Z.of_nat n) = Ok (cs, map Z.of_nat (seq lo (S n))) /\
    deriv_coefs64 xs x (Z.of_nat n) = Ok (ds, map Z.of_nat (seq lo (S n))) /\
    length cs = S n /\ length ds = S n /\ (lo + n < length xs)%nat /\
    (forall j a b, nth_error xs j = Some a -> nth_error xs (S j) = Some b -> dltb a x = true -> dltb b x = false ->
       (lo <= j)%nat /\ (j + 1 <= lo + n)%nat) /\
    (forall a, nth_error xs 0 = Some a -> dltb a x = false -> lo = 0%nat) /\
    (forall a, nth_error xs (length xs - 1) = Some a -> dltb a x = true -> (lo + n = length xs - 1)%nat).
Proof.
  intros I O L. destruct (coefs_ok xs x n I O L) as (lo & A2 & (A3 & A4) & A7 & A8).
  exists lo. do 2 eexists. split; [exact A3|]. split; [exact A4|]. rewrite !map_length, part_length by lia.
  split; [reflexivity|]. split; [reflexivity|]. split; [exact A2|]. split; [|split].
  - intros j a b A B Ha Hb. pose proof (lb_char xs x j a b I A B Ha Hb) as E. rewrite E in A7, A8.
    assert (S j < length xs)%nat by (apply nth_error_Some; congruence).
    destruct (Z.eqb_spec (Z.of_nat j + 1) 0); lia.
  - intros a A Hx. rewrite (lb_low xs x a A Hx) in A7. cbn in A7. lia.
  - intros a A Hx. rewrite (lb_high xs x a I A Hx) in A7. destruct (Z.eqb_spec (Z.of_nat (length xs)) 0); lia.
Qed.
Lemma order_zero v ys x : Forall finite v -> interp_value64 v ys x 0 = UB /\ deriv_value64 v ys x 0 = UB.
Proof.
  intros F. unfold interp_value64, deriv_value64, interp_coefs64, deriv_coefs64.
  destruct (bounds_any v x 0 ltac:(lia)) as (ilo & nlo & nhi & [(E & N & H)|E]); rewrite E; cbn [obind]; [|split; reflexivity].
  change (Z.to_nat (0 + 1)) with 1%nat. cbn [coef_loop64]. destruct (vat64 v (ilo - nlo + 1)) as [a| |] eqn:A.
  2:{ unfold vat64 in A. destruct (_ <? 0); [discriminate|]. destruct (nth_error _ _); discriminate. }
  2:{ cbn. split; reflexivity. }
  assert (0 <= ilo - nlo + 1) by (apply vat_nth in A; lia).
  assert (Fa : finite a) by (apply vat_nth in A; exact (nth_finite _ _ _ F (proj2 A))).
  cbn [obind]. rewrite window_ok by lia. replace (Z.to_nat (ilo + nhi + 1 - (ilo - nlo + 1))) with 1%nat by lia. rewrite (sub_cons v _ 0 a) by (lia || exact A).
  unfold sub. cbn [firstn obind]. unfold interp_coef64, deriv_coef64, deriv_den64. cbn [fold_left].
  rewrite deqb_val by assumption. unfold reqb. destruct (Req_EM_T (val a) (val a)); [|congruence].
  cbn. split; reflexivity.
Qed.

(** ** The weighted sum *)
Fixpoint wfold (acc : dbl) (ys cs : list dbl) : dbl :=
  match ys, cs with y :: ys, c :: cs => wfold (dadd acc (dmul y c)) ys cs | _, _ => acc end.
Lemma weigh_is ys lo cs acc : (lo + length cs <= length ys)%nat -> weigh64 ys (Z.of_nat lo) cs acc = Ok (wfold acc (part lo (length cs) ys) cs).
Proof.
  revert lo acc. induction cs as [|c cs IH]; intros lo acc L; cbn [weigh64 length] in *; [reflexivity|].
  destruct (vat_in ys (Z.of_nat lo)) as (y & Y); [lia|]. rewrite Y. cbn [obind].
  replace (part lo (S (length cs)) ys) with (y :: part (S lo) (length cs) ys).
  2:{ pose proof (sub_cons ys (Z.of_nat lo) (length cs) y ltac:(lia) Y) as K. unfold sub in K. unfold part.
      replace (Z.to_nat (Z.of_nat lo + 1)) with (S lo) in K by lia. rewrite Nat2Z.id in K. symmetry. exact K. }
  cbn [wfold]. rewrite <- IH by lia. f_equal. lia.
Qed.
Lemma values_are xs ys x n : increasing64 xs -> length ys = length xs -> (1 <= n)%nat -> (n < length xs)%nat ->
  exists lo cs ds, (lo + n < length xs)%nat /\
    interp_coefs64 xs x (Z.of_nat n) = Ok (cs, map Z.of_nat (seq lo (S n))) /\
    deriv_coefs64 xs x (Z.of_nat n) = Ok (ds, map Z.of_nat (seq lo (S n))) /\
    (let w := part lo (S n) xs in cs = map (icoef x w) w /\ ds = map (dcoef x w) w) /\
    interp_value64 xs ys x (Z.of_nat n) = Ok (wfold d_zero (part lo (S n) ys) cs) /\
    deriv_value64 xs ys x (Z.of_nat n) = Ok (wfold d_zero (part lo (S n) ys) ds).
Proof.
  intros I Ly O L. destruct (coefs_ok xs x n I O L) as (lo & A2 & (A3 & A4) & _).
  exists lo. do 2 eexists. split; [exact A2|]. split; [exact A3|]. split; [exact A4|]. split; [split; reflexivity|].
  unfold interp_value64, deriv_value64. rewrite A3, A4. cbn [obind weighted64 fst snd seq map].
  split; rewrite weigh_is; rewrite map_length, part_length by lia; (reflexivity || lia).
Qed.
