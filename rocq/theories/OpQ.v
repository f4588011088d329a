From Verif Require Import Prelude NeboM NeboS OpM OpS RoundM RedM.
From Flocq Require Import IEEE754.Binary IEEE754.BinarySingleNaN.

Lemma nan_lt (x y : dbl) : is_nan x = true \/ is_nan y = true -> dltb x y = false.
Proof. destruct x, y; cbn; intros [H|H]; try discriminate; try reflexivity. Qed.

Lemma max_min_nan (A : arith dbl) vadd vmul :
  (forall x y, ac A PGt x y = dltb y x) -> (forall x y, ac A PLt x y = dltb x y) ->
  forall h p a b,
  is_nan (num_value dbl A vadd vmul h p a) = true \/ is_nan (num_value dbl A vadd vmul h p b) = true ->
  num_value dbl A vadd vmul h p (N2 dbl Max a b) = num_value dbl A vadd vmul h p b /\
  num_value dbl A vadd vmul h p (N2 dbl Min a b) = num_value dbl A vadd vmul h p b.
Proof.
  intros Gt Lt h p a b N. cbn. rewrite Gt, Lt, !nan_lt by tauto. auto.
Qed.
