(** Specification for the merge sort program. *)
From Verif Require Import Prelude.

(** b is a sorted by content, elements of equal content in the order they had. *)
Definition sorts {A} (content : A -> Z) (a b : list A) : Prop :=
  (forall i j x y, (i < j)%nat -> nth_error b i = Some x -> nth_error b j = Some y -> content x <= content y) /\
  (forall k, filter (fun x => content x =? k) b = filter (fun x => content x =? k) a) /\
  length b = length a.
