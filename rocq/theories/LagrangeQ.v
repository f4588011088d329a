(** Proofs about Lagrange interpolation: table bounds and the public calls. *)
From Verif Require Import Prelude StencilM StencilP LagrangeM LagrangeS LagrangeP.
Local Open Scope Z_scope.

(** ** Tables *)
Lemma qc_ltb_lt a b : qc_ltb a b = true <-> (a < b)%Qc.
Proof. unfold qc_ltb. destruct (Qclt_le_dec a b) as [L|L]; split; try congruence. intros H. destruct (Qclt_not_le _ _ H L). Qed.
Lemma vat_nth v i a : vat v i = Ok a <-> 0 <= i /\ nth_error v (Z.to_nat i) = Some a.
Proof.
  unfold vat. destruct (Z.ltb_spec i 0); [split; [discriminate|lia]|].
  destruct (nth_error v (Z.to_nat i)); split; try congruence; intros E; [split; [lia|congruence]|destruct E; congruence|destruct E; congruence].
Qed.
Lemma vat_in v i : 0 <= i < Z.of_nat (length v) -> exists a, vat v i = Ok a.
Proof.
  intros R. destruct (nth_error v (Z.to_nat i)) eqn:E; [exists q; apply vat_nth; split; [lia|exact E]|].
  apply nth_error_None in E. lia.
Qed.
Lemma vat_out v i : i < 0 \/ Z.of_nat (length v) <= i -> vat v i = UB.
Proof.
  intros R. unfold vat. destruct (Z.ltb_spec i 0); [reflexivity|]. destruct (nth_error v (Z.to_nat i)) eqn:E; [|reflexivity].
  assert (Z.to_nat i < length v)%nat by (apply nth_error_Some; congruence). lia.
Qed.
Lemma increasing_nodup v : increasing v -> NoDup v.
Proof.
  intros I. apply NoDup_nth_error. intros i j L E. destruct (nth_error v i) as [a|] eqn:Ei; [|apply nth_error_None in Ei; lia]. symmetry in E.
  destruct (Nat.lt_trichotomy i j) as [H|[H|H]]; [|exact H|].
  - destruct (Qclt_not_eq _ _ (I i j a a H Ei E) eq_refl).
  - destruct (Qclt_not_eq _ _ (I j i a a H E Ei) eq_refl).
Qed.

Lemma lower_bound_range v x : 0 <= lower_bound v x <= Z.of_nat (length v).
Proof. induction v as [|a v IH]; cbn [lower_bound length]; [lia|]. destruct (qc_ltb a x); lia. Qed.
Lemma lower_bound_below v x i a : Z.of_nat i < lower_bound v x -> nth_error v i = Some a -> (a < x)%Qc.
Proof.
  revert i. induction v as [|b v IH]; intros i L E; cbn [lower_bound] in L; [lia|]. destruct (qc_ltb b x) eqn:B; [|lia].
  destruct i; cbn in E; [injection E as <-; apply qc_ltb_lt; exact B|]. apply (IH i); [lia|exact E].
Qed.
Lemma lower_bound_at v x a : nth_error v (Z.to_nat (lower_bound v x)) = Some a -> ~ (a < x)%Qc.
Proof.
  induction v as [|b v IH]; cbn [lower_bound]; [discriminate|]. destruct (qc_ltb b x) eqn:B.
  - pose proof (lower_bound_range v x). replace (Z.to_nat (1 + lower_bound v x)) with (S (Z.to_nat (lower_bound v x))) by lia. exact IH.
  - cbn. intros E L. injection E as <-. apply qc_ltb_lt in L. congruence.
Qed.

(** ** The window of entries *)
Definition sub (v : list Qc) (lo : Z) (n : nat) : list Qc := firstn n (skipn (Z.to_nat lo) v).
Lemma sub_cons v lo n a : 0 <= lo -> vat v lo = Ok a -> sub v lo (S n) = a :: sub v (lo + 1) n.
Proof.
  intros L E. apply vat_nth in E. destruct E as (_ & E). unfold sub. replace (Z.to_nat (lo + 1)) with (S (Z.to_nat lo)) by lia.
  revert E. generalize (Z.to_nat lo). clear. intros k. revert v. induction k as [|k IH]; intros v E; destruct v as [|b v]; try discriminate; cbn in E |- *.
  - injection E as ->. reflexivity.
  - apply IH. exact E.
Qed.
Lemma sub_length v lo n : 0 <= lo -> lo + Z.of_nat n <= Z.of_nat (length v) -> length (sub v lo n) = n.
Proof. intros L H. unfold sub. rewrite firstn_length, skipn_length. lia. Qed.
Lemma sub_nodup v lo n : NoDup v -> NoDup (sub v lo n).
Proof.
  intros ND. unfold sub. assert (A : forall k (l : list Qc), NoDup l -> NoDup (skipn k l)).
  { induction k; intros [|b l] H; cbn; auto. inversion H; auto. }
  assert (B : forall k (l : list Qc), NoDup l -> NoDup (firstn k l)).
  { induction k; intros [|b l] H; cbn; try constructor; inversion H; subst; auto. intros I. apply firstn_subset in I || (apply H2; revert I; clear; revert l; induction k; intros [|c l] I; cbn in *; tauto || (destruct I; auto)). }
  auto.
Qed.
Lemma sub_in v lo n i a : 0 <= lo -> lo <= i < lo + Z.of_nat n -> vat v i = Ok a -> In a (sub v lo n).
Proof.
  revert lo. induction n as [|n IH]; intros lo L R E; [lia|].
  destruct (proj1 (vat_nth v i a) E) as (_ & E').
  assert (Li : (Z.to_nat i < length v)%nat) by (apply nth_error_Some; congruence).
  destruct (vat_in v lo) as (b & B); [lia|]. rewrite (sub_cons v lo n b L B).
  destruct (Z.eq_dec lo i) as [<-|N]; [left; congruence|]. right. apply IH; [lia|lia|exact E].
Qed.

Lemma read_entries_ok v lo n : 0 <= lo -> lo + Z.of_nat n <= Z.of_nat (length v) -> read_entries v lo n = Ok (sub v lo n).
Proof.
  revert lo. induction n as [|n IH]; intros lo L H; cbn [read_entries]; [reflexivity|].
  destruct (vat_in v lo) as (a & A); [lia|]. rewrite A. cbn [obind]. rewrite IH by lia. cbn [obind].
  rewrite (sub_cons v lo n a L A). reflexivity.
Qed.
Lemma window_ok v lo hi : 0 <= lo -> lo <= hi -> hi <= Z.of_nat (length v) -> window_entries v lo hi = Ok (sub v lo (Z.to_nat (hi - lo))).
Proof. intros A B C. unfold window_entries. destruct (Z.ltb_spec hi lo); [lia|]. apply read_entries_ok; lia. Qed.

Fixpoint idx (lo : Z) (n : nat) : list Z := match n with O => [] | S n => lo :: idx (lo + 1) n end.
Lemma coef_loop_ok one g v lo hi n k : 0 <= lo -> lo <= hi -> hi <= Z.of_nat (length v) ->
  (forall xk, In xk (sub v lo (Z.to_nat (hi - lo))) -> one xk (sub v lo (Z.to_nat (hi - lo))) = (g xk, true)) ->
  lo <= k -> k + Z.of_nat n <= hi ->
  coef_loop one v lo hi k n = Ok (map g (sub v k n), idx k n).
Proof.
  intros A B C G. revert k. induction n as [|n IH]; intros k K H; cbn [coef_loop]; [reflexivity|].
  destruct (vat_in v k) as (a & E); [lia|]. rewrite E. cbn [obind]. rewrite window_ok by assumption. cbn [obind].
  rewrite G by (apply (sub_in v lo _ k); [lia|lia|exact E]). rewrite IH by lia. cbn [obind].
  rewrite (sub_cons v k n a) by (lia || exact E). reflexivity.
Qed.

Lemma bounds_ok v x order : 1 <= order -> order + 1 <= Z.of_nat (length v) ->
  exists ilo nlo nhi, get_bounds v x order = Ok (ilo, nlo, nhi) /\ nlo + nhi = order + 1 /\
    ilo = (if lower_bound v x =? 0 then 0 else lower_bound v x - 1) /\
    0 <= ilo - nlo + 1 /\ ilo + nhi + 1 <= Z.of_nat (length v) /\ 1 <= nlo /\ 0 <= nhi /\ (ilo + 1 < Z.of_nat (length v) -> 1 <= nhi).
Proof.
  intros O L. pose proof (lower_bound_range v x) as R. unfold get_bounds. cbv zeta.
  set (ilo := if lower_bound v x - 1 <? 0 then lower_bound v x - 1 - (lower_bound v x - 1) else lower_bound v x - 1).
  assert (I : ilo = (if lower_bound v x =? 0 then 0 else lower_bound v x - 1) /\ 0 <= ilo < Z.of_nat (length v)).
  { unfold ilo. destruct (Z.ltb_spec (lower_bound v x - 1) 0), (Z.eqb_spec (lower_bound v x) 0); lia. }
  destruct I as (I0 & I). unfold cdiv, cmod. change (2 =? 0) with false. cbn [obind].
  pose proof (Z.quot_rem (order + 1) 2 ltac:(lia)) as QR. pose proof (Z.rem_bound_pos (order + 1) 2 ltac:(lia) ltac:(lia)) as RB.
  set (q := Z.quot (order + 1) 2) in *. set (r := Z.rem (order + 1) 2) in *.
  assert (N : exists nlo nhi, nlo + nhi = order + 1 /\ 1 <= nlo /\ 1 <= nhi /\
    (if negb (r =? 0) then
       if Z.of_nat (length v) <=? ilo + 1 then Ok (q + 1, q)
       else do a <- vat v ilo; do b <- vat v (ilo + 1); Ok (if qc_ltb (qc_abs (b - x)) (qc_abs (a - x)) then (q, q + 1) else (q + 1, q))
     else Ok (q, q)) = Ok (nlo, nhi)).
  { destruct (Z.eqb_spec r 0); cbn [negb]; [exists q, q; repeat split; lia|].
    destruct (Z.leb_spec (Z.of_nat (length v)) (ilo + 1)); [exists (q + 1), q; repeat split; lia|].
    destruct (vat_in v ilo) as (a & A); [lia|]. destruct (vat_in v (ilo + 1)) as (b & B); [lia|]. rewrite A, B. cbn [obind].
    destruct (qc_ltb _ _); [exists q, (q + 1)|exists (q + 1), q]; repeat split; lia. }
  destruct N as (nlo & nhi & N1 & N2 & N3 & ->). cbn [obind].
  destruct (Z.ltb_spec (ilo - nlo + 1) 0);
  [destruct (Z.ltb_spec (Z.of_nat (length v) - (ilo + (nhi - (ilo - nlo + 1)) + 1)) 0)|destruct (Z.ltb_spec (Z.of_nat (length v) - (ilo + nhi + 1)) 0)];
  do 3 eexists; (split; [reflexivity|]); repeat split; try lia; exact I0.
Qed.

(** What both coefficient functions return. *)
Lemma coefs_ok v x order : increasing v -> 1 <= order -> order + 1 <= Z.of_nat (length v) ->
  exists lo, let n := Z.to_nat (order + 1) in let w := sub v lo n in
    0 <= lo /\ lo + order < Z.of_nat (length v) /\
    interp_coefs v x order = Ok (map (fun xk => poly (basis w xk) x) w, idx lo n) /\
    deriv_coefs v x order = Ok (map (fun xk => poly (dpoly (basis w xk)) x) w, idx lo n) /\
    NoDup w /\ length w = n /\
    (let ilo := if lower_bound v x =? 0 then 0 else lower_bound v x - 1 in
     lo <= ilo <= lo + order /\ (ilo + 1 < Z.of_nat (length v) -> ilo + 1 <= lo + order)) .
Proof.
  intros Inc O L. destruct (bounds_ok v x order O L) as (ilo & nlo & nhi & B & S & I & A1 & A2 & A3 & A5 & A4).
  exists (ilo - nlo + 1). cbv zeta. set (n := Z.to_nat (order + 1)). set (lo := ilo - nlo + 1) in *. set (w := sub v lo n).
  assert (Len : length w = n) by (apply sub_length; lia).
  assert (ND : NoDup w) by (apply sub_nodup, increasing_nodup, Inc).
  assert (HI : Z.to_nat (ilo + nhi + 1 - lo) = n) by lia.
  split; [lia|]. split; [lia|]. split; [|split; [|split; [exact ND|split; [exact Len|]]]].
  - unfold interp_coefs. rewrite B. cbn [obind]. fold lo n. apply coef_loop_ok; try lia. rewrite HI. fold w. intros xk Ik.
    apply interp_coef_basis; [exact ND|exact Ik|lia].
  - unfold deriv_coefs. rewrite B. cbn [obind]. fold lo n.
    apply (coef_loop_ok (fun xk => deriv_coef x xk order) (fun xk => poly (dpoly (basis w xk)) x)); try lia. rewrite HI. fold w. intros xk Ik.
    apply deriv_coef_basis; [exact ND|exact Ik|lia|lia].
  - rewrite <- I. split; [lia|]. intros H. specialize (A4 H). lia.
Qed.

(** ** Weighted sums over the window *)
Lemma weigh_ok ys lo cs acc g ws : 0 <= lo -> lo + Z.of_nat (length cs) <= Z.of_nat (length ys) ->
  cs = map g ws -> forall f, sub ys lo (length cs) = map f ws ->
  weigh ys lo cs acc = Ok (acc + suml (fun a => f a * g a) ws)%Qc.
Proof.
  intros L H E f. revert lo acc ws L H E. induction cs as [|c cs IH]; intros lo acc ws L H E F.
  - destruct ws; [|discriminate]. cbn. f_equal. ring.
  - destruct ws as [|a ws]; [discriminate|]. injection E as -> E. cbn [weigh length] in *.
    destruct (vat_in ys lo) as (y & Y); [lia|]. rewrite Y. cbn [obind]. rewrite (sub_cons ys lo _ y L Y) in F. injection F as -> F.
    rewrite (IH (lo + 1) _ ws) by (lia || assumption). cbn [suml]. f_equal. ring.
Qed.
Lemma sub_map (f : Qc -> Qc) v lo n : sub (map f v) lo n = map f (sub v lo n).
Proof. unfold sub. rewrite skipn_map, firstn_map. reflexivity. Qed.

Lemma weighted_ok (f g : Qc -> Qc) v lo n : 0 <= lo -> (1 <= n)%nat -> lo + Z.of_nat n <= Z.of_nat (length v) ->
  weighted (map f v) (map g (sub v lo n), idx lo n) = Ok (suml (fun a => f a * g a)%Qc (sub v lo n)).
Proof.
  intros L N H. unfold weighted. cbn [fst snd]. destruct n; [lia|]. cbn [idx].
  rewrite (weigh_ok (map f v) lo (map g (sub v lo (S n))) 0%Qc g (sub v lo (S n)) L) with (f := f);
    [f_equal; ring| |reflexivity|]; rewrite map_length, sub_length by lia; [rewrite map_length; lia|apply sub_map].
Qed.

Lemma ys_map (xs ys : list Qc) : NoDup xs -> length ys = length xs -> exists f, ys = map f xs.
Proof.
  intros ND. revert ys. induction xs as [|a xs IH]; intros [|y ys] L; try discriminate; [exists (fun a => a); reflexivity|].
  inversion ND; subst. injection L as L. destruct (IH H2 ys L) as (f & ->).
  exists (fun b => if Qc_eq_dec b a then y else f b). cbn. destruct (Qc_eq_dec a a); [|congruence]. f_equal.
  apply map_ext_in. intros b Ib. destruct (Qc_eq_dec b a); [congruence|reflexivity].
Qed.

(** ** C40 *)
Lemma idx_spec lo n : idx lo n = map (fun i => lo + Z.of_nat i) (seq 0 n).
Proof.
  revert lo. induction n as [|n IH]; intros lo; cbn [idx seq map]; [reflexivity|]. f_equal; [lia|]. rewrite IH, <- seq_shift, map_map.
  apply map_ext. intros i. lia.
Qed.

Lemma lb_char xs x j a b : increasing xs -> nth_error xs j = Some a -> nth_error xs (S j) = Some b -> (a < x)%Qc -> (x <= b)%Qc ->
  lower_bound xs x = Z.of_nat j + 1.
Proof.
  intros I A B Ha Hb. pose proof (lower_bound_range xs x) as R.
  destruct (Z.lt_trichotomy (lower_bound xs x) (Z.of_nat j + 1)) as [H|[H|H]]; [|exact H|].
  - exfalso. set (k := Z.to_nat (lower_bound xs x)). assert (Lk : (k <= j)%nat) by lia.
    assert (Lj : (j < length xs)%nat) by (apply nth_error_Some; congruence).
    destruct (nth_error xs k) as [c|] eqn:C; [|apply nth_error_None in C; lia].
    pose proof (lower_bound_at xs x c C) as NC. apply NC.
    destruct (Nat.eq_dec k j) as [E|E]; [rewrite E in C; congruence|].
    eapply Qclt_trans; [|exact Ha]. apply (I k j); [lia|exact C|exact A].
  - exfalso. pose proof (lower_bound_below xs x (S j) b ltac:(lia) B) as H'. exact (Qclt_not_le _ _ H' Hb).
Qed.
Lemma lb_low xs x a : nth_error xs 0 = Some a -> (x <= a)%Qc -> lower_bound xs x = 0.
Proof.
  intros A Hx. pose proof (lower_bound_range xs x). destruct (Z.eq_dec (lower_bound xs x) 0); [assumption|].
  pose proof (lower_bound_below xs x 0%nat a ltac:(lia) A) as H'. destruct (Qclt_not_le _ _ H' Hx).
Qed.
Lemma lb_high xs x a : increasing xs -> nth_error xs (length xs - 1) = Some a -> (a < x)%Qc -> lower_bound xs x = Z.of_nat (length xs).
Proof.
  intros I A Hx. pose proof (lower_bound_range xs x). destruct (Z.eq_dec (lower_bound xs x) (Z.of_nat (length xs))) as [E|E]; [exact E|].
  exfalso. set (k := Z.to_nat (lower_bound xs x)). destruct (nth_error xs k) as [c|] eqn:C; [|apply nth_error_None in C; lia].
  apply (lower_bound_at xs x c C). assert (k <= length xs - 1)%nat by lia.
  destruct (Nat.eq_dec k (length xs - 1)) as [E'|E']; [rewrite E' in C; congruence|].
  eapply Qclt_trans; [|exact Hx]. apply (I k (length xs - 1)%nat); [lia|exact C|exact A].
Qed.

Lemma window_spec xs x order : increasing xs -> 1 <= order -> order + 1 <= Z.of_nat (length xs) ->
  exists lo cs ds, interp_coefs xs x order = Ok (cs, map (fun i => lo + Z.of_nat i) (seq 0 (Z.to_nat (order + 1)))) /\
    deriv_coefs xs x order = Ok (ds, map (fun i => lo + Z.of_nat i) (seq 0 (Z.to_nat (order + 1)))) /\
    Z.of_nat (length cs) = order + 1 /\ Z.of_nat (length ds) = order + 1 /\
    0 <= lo /\ lo + order < Z.of_nat (length xs) /\
    (forall j a b, nth_error xs j = Some a -> nth_error xs (S j) = Some b -> (a < x)%Qc -> (x <= b)%Qc -> lo <= Z.of_nat j /\ Z.of_nat j + 1 <= lo + order) /\
    (forall a, nth_error xs 0 = Some a -> (x <= a)%Qc -> lo = 0) /\
    (forall a, nth_error xs (length xs - 1) = Some a -> (a < x)%Qc -> lo + order = Z.of_nat (length xs) - 1).
Proof.
  intros I O L. destruct (coefs_ok xs x order I O L) as (lo & A1 & A2 & A3 & A4 & A5 & A6 & A7 & A8).
  exists lo. do 2 eexists. rewrite <- idx_spec. split; [exact A3|]. split; [exact A4|]. rewrite !map_length, A6.
  split; [lia|]. split; [lia|]. split; [exact A1|]. split; [exact A2|]. split; [|split].
  - intros j a b A B Ha Hb. pose proof (lb_char xs x j a b I A B Ha Hb) as E. rewrite E in A7, A8.
    assert (S j < length xs)%nat by (apply nth_error_Some; congruence).
    destruct (Z.eqb_spec (Z.of_nat j + 1) 0); lia.
  - intros a A Hx. rewrite (lb_low xs x a A Hx) in A7. cbn in A7. lia.
  - intros a A Hx. rewrite (lb_high xs x a I A Hx) in A7. destruct (Z.eqb_spec (Z.of_nat (length xs)) 0); lia.
Qed.


(** ** C41 *)
Lemma value_exact xs p x order : increasing xs -> 1 <= order -> order + 1 <= Z.of_nat (length xs) -> Z.of_nat (length p) <= order + 1 ->
  interp_value xs (map (poly p) xs) x order = Ok (poly p x) /\ deriv_value xs (map (poly p) xs) x order = Ok (poly (dpoly p) x).
Proof.
  intros I O L P. destruct (coefs_ok xs x order I O L) as (lo & A1 & A2 & A3 & A4 & A5 & A6 & _).
  unfold interp_value, deriv_value. rewrite A3, A4. cbn [obind]. rewrite !weighted_ok by lia.
  destruct (lagrange_exact (sub xs lo (Z.to_nat (order + 1))) p x A5) as (E1 & E2); [lia|]. rewrite E1, E2. split; reflexivity.
Qed.

Lemma total_map f l : total (map f l) = suml f l.
Proof. induction l; cbn; [reflexivity|]. rewrite IHl. reflexivity. Qed.
Lemma coefs_sum xs x order : increasing xs -> 1 <= order -> order + 1 <= Z.of_nat (length xs) ->
  exists cs ds ix, interp_coefs xs x order = Ok (cs, ix) /\ deriv_coefs xs x order = Ok (ds, ix) /\ total cs = 1%Qc /\ total ds = 0%Qc.
Proof.
  intros I O L. destruct (coefs_ok xs x order I O L) as (lo & A1 & A2 & A3 & A4 & A5 & A6 & _).
  do 3 eexists. split; [exact A3|]. split; [exact A4|]. rewrite !total_map.
  destruct (lagrange_exact (sub xs lo (Z.to_nat (order + 1))) [1%Qc] x A5) as (E1 & E2); [cbn; lia|].
  split; [transitivity (poly [1%Qc] x); [rewrite <- E1|cbn; ring]|transitivity (poly (dpoly [1%Qc]) x); [rewrite <- E2|cbn; ring]];
    apply suml_ext; intros a _; cbn; ring.
Qed.

Lemma value_node xs ys j xj yj order : increasing xs -> length ys = length xs -> 1 <= order -> order + 1 <= Z.of_nat (length xs) ->
  nth_error xs j = Some xj -> nth_error ys j = Some yj -> interp_value xs ys xj order = Ok yj.
Proof.
  intros I Ly O L X Y. destruct (ys_map xs ys (increasing_nodup xs I) Ly) as (f & ->).
  rewrite nth_error_map, X in Y. injection Y as <-.
  destruct (coefs_ok xs xj order I O L) as (lo & A1 & A2 & A3 & _ & A5 & A6 & A7 & A8).
  unfold interp_value. rewrite A3. cbn [obind]. rewrite weighted_ok by lia. f_equal. apply suml_one; [exact A5|].
  assert (Lj : (j < length xs)%nat) by (apply nth_error_Some; congruence).
  apply (sub_in xs lo _ (Z.of_nat j)); [exact A1| |apply vat_nth; rewrite Nat2Z.id; split; [lia|exact X]].
  assert (LB : lower_bound xs xj = Z.of_nat j).
  { pose proof (lower_bound_range xs xj). destruct (Z.lt_trichotomy (lower_bound xs xj) (Z.of_nat j)) as [H'|[H'|H']]; [|exact H'|].
    - exfalso. set (k := Z.to_nat (lower_bound xs xj)). destruct (nth_error xs k) as [c|] eqn:C; [|apply nth_error_None in C; lia].
      apply (lower_bound_at xs xj c C). apply (I k j); [lia|exact C|exact X].
    - exfalso. pose proof (lower_bound_below xs xj j xj ltac:(lia) X) as H''. destruct (Qclt_not_eq _ _ H'' eq_refl). }
  rewrite LB in A7, A8. destruct (Z.eqb_spec (Z.of_nat j) 0); lia.
Qed.

(** ** Outside the precondition *)
Lemma bounds_any v x order : 0 <= order ->
  exists ilo nlo nhi, get_bounds v x order = Ok (ilo, nlo, nhi) /\ nlo + nhi = order + 1 /\ ilo + nhi + 1 <= Z.of_nat (length v) \/
    get_bounds v x order = UB.
Proof.
  intros O. pose proof (lower_bound_range v x) as R. unfold get_bounds. cbv zeta.
  set (ilo := if lower_bound v x - 1 <? 0 then lower_bound v x - 1 - (lower_bound v x - 1) else lower_bound v x - 1).
  unfold cdiv, cmod. change (2 =? 0) with false. cbn [obind].
  pose proof (Z.quot_rem (order + 1) 2 ltac:(lia)) as QR. pose proof (Z.rem_bound_pos (order + 1) 2 ltac:(lia) ltac:(lia)) as RB.
  set (q := Z.quot (order + 1) 2) in *. set (r := Z.rem (order + 1) 2) in *.
  match goal with |- context [obind ?e _] => destruct e as [[nlo nhi]| |] eqn:E end; cbn [obind].
  - assert (N1 : nlo + nhi = order + 1).
    { destruct (Z.eqb_spec r 0); cbn [negb] in E; [injection E as <- <-; lia|].
      destruct (Z.leb_spec (Z.of_nat (length v)) (ilo + 1)); [injection E as <- <-; lia|].
      destruct (vat v ilo); try discriminate; destruct (vat v (ilo + 1)); try discriminate; cbn [obind] in E.
      destruct (qc_ltb _ _); injection E as <- <-; lia. }
    destruct (Z.ltb_spec (ilo - nlo + 1) 0);
    [destruct (Z.ltb_spec (Z.of_nat (length v) - (ilo + (nhi - (ilo - nlo + 1)) + 1)) 0)|destruct (Z.ltb_spec (Z.of_nat (length v) - (ilo + nhi + 1)) 0)];
    do 3 eexists; left; (split; [reflexivity|]); split; lia.
  - exfalso. destruct (negb _); [|discriminate]. destruct (_ <=? _); [discriminate|]. unfold vat in E.
    repeat (match type of E with context [if ?c then _ else _] => destruct c | context [match nth_error ?a ?b with _ => _ end] => destruct (nth_error a b) end; try discriminate; cbn [obind] in E).
  - exists 0, 0, 0. right. reflexivity.
Qed.

(** Too few table entries: both functions read before the start of the table. *)
Lemma short_table v x order : 0 <= order -> Z.of_nat (length v) <= order -> interp_coefs v x order = UB /\ deriv_coefs v x order = UB.
Proof.
  intros O L. unfold interp_coefs, deriv_coefs.
  destruct (bounds_any v x order O) as (ilo & nlo & nhi & [(E & N & H)|E]); rewrite E; cbn [obind]; [|split; reflexivity].
  replace (Z.to_nat (order + 1)) with (S (Z.to_nat order)) by lia. cbn [coef_loop]. rewrite vat_out by lia. split; reflexivity.
Qed.

(** Order 0: no coefficient is produced and the value reads indices_[0] of an empty vector. *)
Lemma order_zero v ys x : interp_value v ys x 0 = UB /\ deriv_value v ys x 0 = UB.
Proof.
  unfold interp_value, deriv_value, interp_coefs, deriv_coefs.
  destruct (bounds_any v x 0 ltac:(lia)) as (ilo & nlo & nhi & [(E & N & H)|E]); rewrite E; cbn [obind]; [|split; reflexivity].
  change (Z.to_nat (0 + 1)) with 1%nat. cbn [coef_loop]. destruct (vat v (ilo - nlo + 1)) as [a| |] eqn:A.
  2:{ unfold vat in A. destruct (_ <? 0); [discriminate|]. destruct (nth_error _ _); discriminate. }
  2:{ cbn. split; reflexivity. }
  assert (0 <= ilo - nlo + 1) by (apply vat_nth in A; lia).
  cbn [obind]. rewrite window_ok by lia. replace (Z.to_nat (ilo + nhi + 1 - (ilo - nlo + 1))) with 1%nat by lia. rewrite (sub_cons v _ 0 a) by (lia || exact A).
  unfold sub. cbn [firstn obind]. unfold interp_coef, deriv_coef, deriv_den. cbn [fold_left]. unfold qc_eqb. destruct (Qc_eq_dec a a); [|congruence].
  cbn. split; reflexivity.
Qed.

Lemma increasing_cons a v : Forall (fun b => (a < b)%Qc) v -> increasing v -> increasing (a :: v).
Proof.
  intros F I i j x y L X Y. destruct j; [lia|]. destruct i; [|apply (I i j); [lia|exact X|exact Y]].
  injection X as <-. rewrite Forall_forall in F. apply F. eapply nth_error_In. exact Y.
Qed.
