(** Model of Lagrange interpolation and differentiation of tables.
    structured/onedim/LagrangePoly.cpp.  Doubles are exact rationals (Qc). *)
From Verif Require Import Prelude StencilM.

(** operator[] and dereferenced iterators of std::vector: outside the vector
    the access is undefined. *)
Definition vat (v : list Qc) (i : Z) : outcome Qc :=
  if i <? 0 then UB else match nth_error v (Z.to_nat i) with Some x => Ok x | None => UB end.

(** < and fabs on double *)
Definition qc_ltb (a b : Qc) : bool := if Qclt_le_dec a b then true else false.
Definition qc_abs (a : Qc) : Qc := if qc_ltb a 0 then (- a)%Qc else a.
Definition qc_eqb (a b : Qc) : bool := if Qc_eq_dec a b then true else false.

(** std::lower_bound on a sorted table: position of the first entry not below x *)
Fixpoint lower_bound (v : list Qc) (x : Qc) : Z :=
  match v with
  | [] => 0
  | a :: v => if qc_ltb a x then 1 + lower_bound v x else 0
  end.

(** LagrangePoly.cpp:55-115 (get_bounds): ilo, nlo, nhi.  Line 63 forms
    begin() - 1 when x is not above the first entry; the model treats iterators
    as indices and does not call that undefined.  Line 70 sets ilo to 0. *)
Definition get_bounds (v : list Qc) (x : Qc) (order : Z) : outcome (Z * Z * Z) :=
  let nx := Z.of_nat (length v) in
  let ilo0 := lower_bound v x - 1 in
  let ilo := if ilo0 <? 0 then ilo0 - ilo0 else ilo0 in
  let npts := order + 1 in
  do nhi0 <- cdiv npts 2;
  do odd <- cmod npts 2;
  do nn <- (if negb (odd =? 0) then
              if nx <=? ilo + 1 then Ok (nhi0 + 1, nhi0)
              else do a <- vat v ilo; do b <- vat v (ilo + 1);
                   Ok (if qc_ltb (qc_abs (b - x)) (qc_abs (a - x)) then (nhi0, nhi0 + 1) else (nhi0 + 1, nhi0))
            else Ok (nhi0, nhi0));
  let '(nlo, nhi) := nn in
  let loExcess := ilo - nlo + 1 in
  let '(nlo, nhi) := if loExcess <? 0 then (nlo + loExcess, nhi - loExcess) else (nlo, nhi) in
  let hiExcess := nx - (ilo + nhi + 1) in
  let '(nlo, nhi) := if hiExcess <? 0 then (nlo - hiExcess, nhi + hiExcess) else (nlo, nhi) in
  Ok (ilo, nlo, nhi).

(** for( int i=from; i!=to; ++i ) over the table, from <= to: the entries read.
    If to < from the C++ loop runs away and leaves the table: undefined. *)
Fixpoint read_entries (v : list Qc) (from : Z) (n : nat) : outcome (list Qc) :=
  match n with
  | O => Ok []
  | S n => do x <- vat v from; do l <- read_entries v (from + 1) n; Ok (x :: l)
  end.
Definition window_entries (v : list Qc) (from to : Z) : outcome (list Qc) :=
  if to <? from then UB else read_entries v from (Z.to_nat (to - from)).

(** LagrangePoly.cpp:138-148: coefficient and haveEntry *)
Definition interp_coef (x xk : Qc) (w : list Qc) : Qc * bool :=
  fold_left (fun '(coef, have) xi =>
               if qc_eqb xk xi then (coef, have) else (coef * ((x - xi) / (xk - xi)), true)%Qc) w (1%Qc, false).

(** LagrangePoly.cpp:183-194: den and haveEntry *)
Definition deriv_den (xk : Qc) (w : list Qc) : Qc * bool :=
  fold_left (fun '(den, have) xi => if qc_eqb xi xk then (den, have) else (den * (xk - xi), true)%Qc) w (1%Qc, false).
(** LagrangePoly.cpp:207-217: tmp and tmpEntry *)
Definition deriv_tmp (x xk xj : Qc) (w : list Qc) : Qc * bool :=
  fold_left (fun '(tmp, have) xi =>
               if qc_eqb xi xk || qc_eqb xi xj then (tmp, have) else (tmp * (x - xi), true)%Qc) w (1%Qc, false).
(** LagrangePoly.cpp:202-219: num *)
Definition deriv_num (x xk : Qc) (order : Z) (w : list Qc) : Qc :=
  fold_left (fun num xj =>
               if qc_eqb xj xk then num
               else let '(tmp, have) := deriv_tmp x xk xj w in if have then (num + tmp)%Qc else num)
            w (if order =? 1 then 1%Qc else 0%Qc).
Definition deriv_coef (x xk : Qc) (order : Z) (w : list Qc) : Qc * bool :=
  let '(den, have) := deriv_den xk w in ((deriv_num x xk order w / den)%Qc, have).

(** LagrangePoly.cpp:135-153, 174-228: the loop over k.  [one] computes the
    entry for xk from the entries of the inner loops, which are read again for
    every k. *)
Fixpoint coef_loop (one : Qc -> list Qc -> Qc * bool) (v : list Qc) (lo hi kindex : Z) (n : nat)
  : outcome (list Qc * list Z) :=
  match n with
  | O => Ok ([], [])
  | S n =>
      do xk <- vat v kindex;
      do w <- window_entries v lo hi;
      let '(c, have) := one xk w in
      do r <- coef_loop one v lo hi (kindex + 1) n;
      Ok (if have : bool then (c :: fst r, kindex :: snd r) else r)
  end.

(** LagrangePoly.cpp:119-154 (get_interp_coefs_indices), 158-229
    (get_derivative_coefs_indices) *)
Definition interp_coefs (v : list Qc) (x : Qc) (order : Z) : outcome (list Qc * list Z) :=
  do b <- get_bounds v x order;
  let '(ilo, nlo, nhi) := b in
  coef_loop (interp_coef x) v (ilo - nlo + 1) (ilo + nhi + 1) (ilo - nlo + 1) (Z.to_nat (order + 1)).
Definition deriv_coefs (v : list Qc) (x : Qc) (order : Z) : outcome (list Qc * list Z) :=
  do b <- get_bounds v x order;
  let '(ilo, nlo, nhi) := b in
  coef_loop (fun xk => deriv_coef x xk order) v (ilo - nlo + 1) (ilo + nhi + 1) (ilo - nlo + 1) (Z.to_nat (order + 1)).

(** LagrangePoly.cpp:257-263, 308-314: the weighted sum.  indices_[0] of an
    empty vector is undefined. *)
Fixpoint weigh (ys : list Qc) (i : Z) (cs : list Qc) (acc : Qc) : outcome Qc :=
  match cs with
  | [] => Ok acc
  | c :: cs => do y <- vat ys i; weigh ys (i + 1) cs (acc + y * c)%Qc
  end.
Definition weighted (ys : list Qc) (r : list Qc * list Z) : outcome Qc :=
  match snd r with
  | [] => UB
  | i :: _ => weigh ys i (fst r) 0%Qc
  end.
(** LagrangePoly.cpp:252-264 (LagrangeInterpolant::value), 304-315 (LagrangeDerivative::value) *)
Definition interp_value (xs ys : list Qc) (x : Qc) (order : Z) : outcome Qc :=
  do r <- interp_coefs xs x order; weighted ys r.
Definition deriv_value (xs ys : list Qc) (x : Qc) (order : Z) : outcome Qc :=
  do r <- deriv_coefs xs x order; weighted ys r.
