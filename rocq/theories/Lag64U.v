(** Proofs about Lagrange interpolation in double precision: the public calls. *)
From Coq Require Import Reals Lra Lia Psatz.
From Flocq Require Import Core.
From Verif Require Import Prelude StencilM RoundM RoundS RoundP RoundQ RoundT RedM HeatM Cmp64M Cmp64S Cmp64P Part64Q Lag64M Lag64S Lag64A Lag64P Lag64Q Lag64R Lag64T.
Open Scope R_scope.

Section Table.
Context (xs ys : list dbl) (x : dbl) (n : nat).
Context (Inc : increasing64 xs) (Ly : length ys = length xs) (N1 : (1 <= n)%nat) (Nl : (n < length xs)%nat) (Fx : finite x).

Lemma value_ok : exists lo cs, interp_coefs64 xs x (Z.of_nat n) = Ok (cs, map Z.of_nat (seq lo (S n))) /\ (lo + n < length xs)%nat /\
  (let w := map val (part lo (S n) xs) in let v := map val (part lo (S n) ys) in
   forall a b, spaced a b (val x :: w) -> ratios_ok a b n -> Forall plain (part lo (S n) ys) ->
   exists r, interp_value64 xs ys x (Z.of_nat n) = Ok r /\ finite r /\
     Rabs (val r - blend (weight w (val x)) w v) <= powerRZ 2 (-48) * INR n * blend (fun xk => Rabs (weight w (val x) xk)) w (map Rabs v)).
Proof.
  destruct (values_are xs ys x n Inc Ly N1 Nl) as (lo & cs & ds & L & C & D & (Ec & _) & V & _). exists lo, cs.
  split; [exact C|]. split; [exact L|]. cbv zeta. intros a b Sp RO Py. eexists. split; [exact V|]. rewrite Ec.
  apply (interp_accurate _ _ x n a b); try assumption; [apply part_finite, Inc|apply vals_nodup, Inc|apply part_length; lia|apply part_length; lia].
Qed.
Lemma deriv_ok : exists lo ds, deriv_coefs64 xs x (Z.of_nat n) = Ok (ds, map Z.of_nat (seq lo (S n))) /\ (lo + n < length xs)%nat /\
  (let w := map val (part lo (S n) xs) in let v := map val (part lo (S n) ys) in
   forall a b, spaced a b (val x :: w) -> products_ok a b n -> Forall plain (part lo (S n) ys) ->
   exists r, deriv_value64 xs ys x (Z.of_nat n) = Ok r /\ finite r /\
     Rabs (val r - blend (dweight w (val x)) w v) <= powerRZ 2 (-47) * INR n * blend (dsize w (val x)) w (map Rabs v)).
Proof.
  destruct (values_are xs ys x n Inc Ly N1 Nl) as (lo & cs & ds & L & C & D & (_ & Ed) & _ & V). exists lo, ds.
  split; [exact D|]. split; [exact L|]. cbv zeta. intros a b Sp PO Py. eexists. split; [exact V|]. rewrite Ed.
  apply (deriv_accurate x _ n) with (a := a) (b := b); try assumption; [apply part_finite, Inc|apply vals_nodup, Inc|apply part_length; lia|apply part_length; lia].
Qed.
End Table.

(** ** Values of a polynomial *)
Lemma blend_close f w : forall v v' e, length v = length w -> length v' = length w ->
  (forall i y y', nth_error v i = Some y -> nth_error v' i = Some y' -> Rabs (y - y') <= e) ->
  Rabs (blend f w v - blend f w v') <= e * suml (fun xk => Rabs (f xk)) w.
Proof.
  induction w as [|xk w IH]; intros [|y v] [|y' v'] e L L' H; try discriminate; cbn [blend suml].
  - rewrite Rminus_0_r, Rabs_R0. lra.
  - replace (y * f xk + blend f w v - (y' * f xk + blend f w v')) with ((y - y') * f xk + (blend f w v - blend f w v')) by ring.
    eapply Rle_trans; [apply Rabs_triang|]. rewrite Rabs_mult. pose proof (H 0%nat y y' eq_refl eq_refl). pose proof (Rabs_pos (f xk)).
    assert (K := IH v v' e (f_equal Nat.pred L) (f_equal Nat.pred L') (fun i z z' Z Z' => H (S i) z z' Z Z')). nra.
Qed.
Lemma nth_part {T} lo n (l : list T) i a : nth_error (part lo n l) i = Some a -> nth_error l (lo + i) = Some a.
Proof.
  unfold part. revert lo l. induction lo as [|lo IH]; intros l.
  - cbn [skipn Nat.add]. revert l i. induction n as [|n IHn]; intros l i; [destruct i; discriminate|]. destruct l as [|c l]; [destruct i; discriminate|].
    destruct i; [exact (fun e => e)|]. cbn. apply IHn.
  - destruct l as [|c l]; cbn [skipn Nat.add]; [destruct n; destruct i; discriminate|]. apply IH.
Qed.
Lemma nth_part_in {T} lo n (l : list T) j a : nth_error l j = Some a -> (lo <= j)%nat -> (j < lo + n)%nat -> nth_error (part lo n l) (j - lo) = Some a.
Proof.
  intros E L U. destruct (nth_error (part lo n l) (j - lo)) as [c|] eqn:C.
  - apply nth_part in C. replace (lo + (j - lo))%nat with j in C by lia. congruence.
  - apply nth_error_None in C. assert (j < length l)%nat by (apply nth_error_Some; congruence).
    unfold part in C. rewrite firstn_length, skipn_length in C. lia.
Qed.
Lemma sample_close f xs ys lo n p e : length ys = length xs -> (lo + n <= length xs)%nat ->
  (forall i xi yi, nth_error xs i = Some xi -> nth_error ys i = Some yi -> Rabs (val yi - poly p (val xi)) <= e) ->
  let w := map val (part lo n xs) in
  Rabs (blend f w (map val (part lo n ys)) - blend f w (map (poly p) w)) <= e * suml (fun xk => Rabs (f xk)) w.
Proof.
  intros Ly L H. cbv zeta. apply blend_close; rewrite ?map_length, ?part_length by lia; try reflexivity.
  intros i y y' E E'. rewrite !nth_error_map in *. destruct (nth_error (part lo n ys) i) as [yi|] eqn:Y; [|discriminate].
  destruct (nth_error (part lo n xs) i) as [xi|] eqn:X; [|discriminate]. cbn in E, E'. injection E as <-. injection E' as <-.
  apply (H (lo + i)%nat); [apply (nth_part lo n xs i xi X)|apply (nth_part lo n ys i yi Y)].
Qed.

Section Samples.
Context (xs ys : list dbl) (x : dbl) (n : nat) (p : list R) (e : R).
Context (Inc : increasing64 xs) (Ly : length ys = length xs) (N1 : (1 <= n)%nat) (Nl : (n < length xs)%nat) (Fx : finite x) (Lp : (length p <= S n)%nat).
Context (Hp : forall i xi yi, nth_error xs i = Some xi -> nth_error ys i = Some yi -> Rabs (val yi - poly p (val xi)) <= e).

Lemma poly_value : exists lo cs, interp_coefs64 xs x (Z.of_nat n) = Ok (cs, map Z.of_nat (seq lo (S n))) /\ (lo + n < length xs)%nat /\
  (let w := map val (part lo (S n) xs) in let v := map val (part lo (S n) ys) in
   forall a b, spaced a b (val x :: w) -> ratios_ok a b n -> Forall plain (part lo (S n) ys) ->
   exists r, interp_value64 xs ys x (Z.of_nat n) = Ok r /\ finite r /\
     Rabs (val r - poly p (val x)) <=
       powerRZ 2 (-48) * INR n * blend (fun xk => Rabs (weight w (val x) xk)) w (map Rabs v) + e * suml (fun xk => Rabs (weight w (val x) xk)) w).
Proof.
  destruct (value_ok xs ys x n Inc Ly N1 Nl Fx) as (lo & cs & C & L & H). exists lo, cs. split; [exact C|]. split; [exact L|].
  cbv zeta in *. intros a b Sp RO Py. destruct (H a b Sp RO Py) as (r & V & F & B). exists r. split; [exact V|]. split; [exact F|].
  assert (Lw : length (map val (part lo (S n) xs)) = S n) by (rewrite map_length; apply part_length; lia).
  destruct (weights_exact (map val (part lo (S n) xs)) p (val x) (vals_nodup xs lo (S n) Inc) ltac:(rewrite Lw; exact Lp)) as (E1 & _).
  assert (S1 := sample_close (weight (map val (part lo (S n) xs)) (val x)) xs ys lo (S n) p e Ly ltac:(lia) Hp). cbv zeta in S1.
  rewrite E1 in S1. set (m := blend _ _ (map val (part lo (S n) ys))) in *.
  replace (val r - poly p (val x)) with ((val r - m) + (m - poly p (val x))) by ring.
  eapply Rle_trans; [apply Rabs_triang|]. lra.
Qed.
Lemma poly_deriv : exists lo ds, deriv_coefs64 xs x (Z.of_nat n) = Ok (ds, map Z.of_nat (seq lo (S n))) /\ (lo + n < length xs)%nat /\
  (let w := map val (part lo (S n) xs) in let v := map val (part lo (S n) ys) in
   forall a b, spaced a b (val x :: w) -> products_ok a b n -> Forall plain (part lo (S n) ys) ->
   exists r, deriv_value64 xs ys x (Z.of_nat n) = Ok r /\ finite r /\
     Rabs (val r - poly (dpoly p) (val x)) <=
       powerRZ 2 (-47) * INR n * blend (dsize w (val x)) w (map Rabs v) + e * suml (fun xk => Rabs (dweight w (val x) xk)) w).
Proof.
  destruct (deriv_ok xs ys x n Inc Ly N1 Nl Fx) as (lo & cs & C & L & H). exists lo, cs. split; [exact C|]. split; [exact L|].
  cbv zeta in *. intros a b Sp RO Py. destruct (H a b Sp RO Py) as (r & V & F & B). exists r. split; [exact V|]. split; [exact F|].
  assert (Lw : length (map val (part lo (S n) xs)) = S n) by (rewrite map_length; apply part_length; lia).
  destruct (weights_exact (map val (part lo (S n) xs)) p (val x) (vals_nodup xs lo (S n) Inc) ltac:(rewrite Lw; exact Lp)) as (_ & E1).
  assert (S1 := sample_close (dweight (map val (part lo (S n) xs)) (val x)) xs ys lo (S n) p e Ly ltac:(lia) Hp). cbv zeta in S1.
  rewrite E1 in S1. set (m := blend _ _ (map val (part lo (S n) ys))) in *.
  replace (val r - poly (dpoly p) (val x)) with ((val r - m) + (m - poly (dpoly p) (val x))) by ring.
  eapply Rle_trans; [apply Rabs_triang|]. lra.
Qed.
End Samples.

(** ** Table points *)
Lemma table_point xs ys x n j xj yj : increasing64 xs -> length ys = length xs -> (1 <= n)%nat -> (n < length xs)%nat -> finite x ->
  nth_error xs j = Some xj -> nth_error ys j = Some yj -> val x = val xj ->
  exists lo cs, interp_coefs64 xs x (Z.of_nat n) = Ok (cs, map Z.of_nat (seq lo (S n))) /\ (lo <= j <= lo + n)%nat /\ (lo + n < length xs)%nat /\
  (forall a b, spaced a b (map val (part lo (S n) xs)) -> ratios_ok a b n -> Forall finite (part lo (S n) ys) ->
   exists r, interp_value64 xs ys x (Z.of_nat n) = Ok r /\ finite r /\ val r = val yj).
Proof.
  intros Inc Ly N1 Nl Fx X Y E. destruct (coefs_ok xs x n Inc N1 Nl) as (lo & L & (C & D) & P1 & P2). cbv zeta in *.
  exists lo. eexists. split; [exact C|]. assert (Lj : (j < length xs)%nat) by (apply nth_error_Some; congruence).
  destruct Inc as (F & I). pose proof (nth_finite _ _ _ F X) as Fj.
  assert (LB : lower_bound64 xs x = Z.of_nat j).
  { pose proof (lower_bound_range xs x). destruct (Z.lt_trichotomy (lower_bound64 xs x) (Z.of_nat j)) as [H'|[H'|H']]; [|exact H'|].
    - exfalso. set (k := Z.to_nat (lower_bound64 xs x)). destruct (nth_error xs k) as [c|] eqn:Ck; [|apply nth_error_None in Ck; lia].
      pose proof (lower_bound_at xs x c Ck) as NC. pose proof (nth_finite _ _ _ F Ck) as Fc. apply (lt_val_f c x Fc Fx) in NC.
      pose proof (I k j c xj ltac:(lia) Ck X). lra.
    - exfalso. pose proof (lower_bound_below xs x j xj ltac:(lia) X) as H''. apply (lt_val xj x Fj Fx) in H''. lra. }
  rewrite LB in P1, P2. assert (R : (lo <= j <= lo + n)%nat) by (destruct (Z.eqb_spec (Z.of_nat j) 0); lia).
  split; [exact R|]. split; [exact L|]. intros a b Sp RO Fy.
  destruct (values_are xs ys x n (conj F I) Ly N1 Nl) as (lo' & cs' & ds' & L' & C' & _ & (Ec & _) & V & _).
  rewrite C in C'. assert (EL : lo' = lo).
  { injection C' as _ C'. apply Nat2Z.inj in C'. congruence. }
  subst lo'. eexists. split; [exact V|]. rewrite Ec.
  apply (interp_node _ _ x n a b (j - lo) xj yj); try assumption.
  - apply part_finite, F.
  - apply vals_nodup. split; assumption.
  - apply part_length. lia.
  - intros p q Ip Iq. assert (Ix : In (val x) (map val (part lo (S n) xs))).
    { rewrite E. apply in_map. eapply nth_error_In. apply (nth_part_in lo (S n) xs j xj X); lia. }
    apply Sp; [destruct Ip as [<-|Ip]|destruct Iq as [<-|Iq]]; assumption.
  - apply nth_part_in; [exact X|lia|lia].
  - apply nth_part_in; [exact Y|lia|lia].
Qed.
