(** Model of Lagrange interpolation and differentiation of tables in double
    precision (IEEE-754 binary64, rounding to nearest even after every operation).
    structured/onedim/LagrangePoly.cpp.  Counters are unbounded integers. *)
From Verif Require Import Prelude StencilM RoundM RedM HeatM Cmp64M.
Open Scope Z_scope.

(** operator[] and dereferenced iterators of std::vector: outside the vector
    the access is undefined. *)
Definition vat64 (v : list dbl) (i : Z) : outcome dbl :=
  if i <? 0 then UB else match nth_error v (Z.to_nat i) with Some x => Ok x | None => UB end.

(** std::lower_bound on a sorted table: position of the first entry not below x *)
Fixpoint lower_bound64 (v : list dbl) (x : dbl) : Z :=
  match v with
  | [] => 0
  | a :: v => if dltb a x then 1 + lower_bound64 v x else 0
  end.

(** LagrangePoly.cpp:55-115 (get_bounds), as in LagrangeM *)
Definition get_bounds64 (v : list dbl) (x : dbl) (order : Z) : outcome (Z * Z * Z) :=
  let nx := Z.of_nat (length v) in
  let ilo0 := lower_bound64 v x - 1 in
  let ilo := if ilo0 <? 0 then ilo0 - ilo0 else ilo0 in
  let npts := order + 1 in
  do nhi0 <- cdiv npts 2;
  do odd <- cmod npts 2;
  do nn <- (if negb (odd =? 0) then
              if nx <=? ilo + 1 then Ok (nhi0 + 1, nhi0)
              else do a <- vat64 v ilo; do b <- vat64 v (ilo + 1);
                   Ok (if dltb (dabs (dsub b x)) (dabs (dsub a x)) then (nhi0, nhi0 + 1) else (nhi0 + 1, nhi0))
            else Ok (nhi0, nhi0));
  let '(nlo, nhi) := nn in
  let loExcess := ilo - nlo + 1 in
  let '(nlo, nhi) := if loExcess <? 0 then (nlo + loExcess, nhi - loExcess) else (nlo, nhi) in
  let hiExcess := nx - (ilo + nhi + 1) in
  let '(nlo, nhi) := if hiExcess <? 0 then (nlo - hiExcess, nhi + hiExcess) else (nlo, nhi) in
  Ok (ilo, nlo, nhi).

(** for( int i=from; i!=to; ++i ) over the table, as in LagrangeM *)
Fixpoint read_entries64 (v : list dbl) (from : Z) (n : nat) : outcome (list dbl) :=
  match n with
  | O => Ok []
  | S n => do x <- vat64 v from; do l <- read_entries64 v (from + 1) n; Ok (x :: l)
  end.
Definition window_entries64 (v : list dbl) (from to : Z) : outcome (list dbl) :=
  if to <? from then UB else read_entries64 v from (Z.to_nat (to - from)).

(** LagrangePoly.cpp:138-148: coefficient and haveEntry *)
Definition interp_coef64 (x xk : dbl) (w : list dbl) : dbl * bool :=
  fold_left (fun '(coef, have) xi =>
               if deqb xk xi then (coef, have) else (dmul coef (ddiv (dsub x xi) (dsub xk xi)), true)) w (d_one, false).

(** LagrangePoly.cpp:183-194: den and haveEntry *)
Definition deriv_den64 (xk : dbl) (w : list dbl) : dbl * bool :=
  fold_left (fun '(den, have) xi => if deqb xi xk then (den, have) else (dmul den (dsub xk xi), true)) w (d_one, false).
(** LagrangePoly.cpp:207-217: tmp and tmpEntry *)
Definition deriv_tmp64 (x xk xj : dbl) (w : list dbl) : dbl * bool :=
  fold_left (fun '(tmp, have) xi =>
               if deqb xi xk || deqb xi xj then (tmp, have) else (dmul tmp (dsub x xi), true)) w (d_one, false).
(** LagrangePoly.cpp:202-219: num *)
Definition deriv_num64 (x xk : dbl) (order : Z) (w : list dbl) : dbl :=
  fold_left (fun num xj =>
               if deqb xj xk then num
               else let '(tmp, have) := deriv_tmp64 x xk xj w in if have then dadd num tmp else num)
            w (if order =? 1 then d_one else d_zero).
Definition deriv_coef64 (x xk : dbl) (order : Z) (w : list dbl) : dbl * bool :=
  let '(den, have) := deriv_den64 xk w in (ddiv (deriv_num64 x xk order w) den, have).

(** LagrangePoly.cpp:135-153, 174-228: the loop over k, as in LagrangeM *)
Fixpoint coef_loop64 (one : dbl -> list dbl -> dbl * bool) (v : list dbl) (lo hi kindex : Z) (n : nat)
  : outcome (list dbl * list Z) :=
  match n with
  | O => Ok ([], [])
  | S n =>
      do xk <- vat64 v kindex;
      do w <- window_entries64 v lo hi;
      let '(c, have) := one xk w in
      do r <- coef_loop64 one v lo hi (kindex + 1) n;
      Ok (if have : bool then (c :: fst r, kindex :: snd r) else r)
  end.

(** LagrangePoly.cpp:119-154 (get_interp_coefs_indices), 158-229
    (get_derivative_coefs_indices) *)
Definition interp_coefs64 (v : list dbl) (x : dbl) (order : Z) : outcome (list dbl * list Z) :=
  do b <- get_bounds64 v x order;
  let '(ilo, nlo, nhi) := b in
  coef_loop64 (interp_coef64 x) v (ilo - nlo + 1) (ilo + nhi + 1) (ilo - nlo + 1) (Z.to_nat (order + 1)).
Definition deriv_coefs64 (v : list dbl) (x : dbl) (order : Z) : outcome (list dbl * list Z) :=
  do b <- get_bounds64 v x order;
  let '(ilo, nlo, nhi) := b in
  coef_loop64 (fun xk => deriv_coef64 x xk order) v (ilo - nlo + 1) (ilo + nhi + 1) (ilo - nlo + 1) (Z.to_nat (order + 1)).

(** LagrangePoly.cpp:257-263, 308-314: the weighted sum.  indices_[0] of an
    empty vector is undefined. *)
Fixpoint weigh64 (ys : list dbl) (i : Z) (cs : list dbl) (acc : dbl) : outcome dbl :=
  match cs with
  | [] => Ok acc
  | c :: cs => do y <- vat64 ys i; weigh64 ys (i + 1) cs (dadd acc (dmul y c))
  end.
Definition weighted64 (ys : list dbl) (r : list dbl * list Z) : outcome dbl :=
  match snd r with
  | [] => UB
  | i :: _ => weigh64 ys i (fst r) d_zero
  end.
(** LagrangePoly.cpp:252-264 (LagrangeInterpolant::value), 304-315 (LagrangeDerivative::value) *)
Definition interp_value64 (xs ys : list dbl) (x : dbl) (order : Z) : outcome dbl :=
  do r <- interp_coefs64 xs x order; weighted64 ys r.
Definition deriv_value64 (xs ys : list dbl) (x : dbl) (order : Z) : outcome dbl :=
  do r <- deriv_coefs64 xs x order; weighted64 ys r.
