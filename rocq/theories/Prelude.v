(** Shared vocabulary: outcomes of C++ operations, list and arithmetic helpers.
    Nothing here models a particular function of the repository. *)
From Coq Require Export List ZArith Lia Bool FinFun.
From Coq Require Export ZifyBool ZifyNat.
Export ListNotations.
Global Open Scope Z_scope.

Ltac Zify.zify_post_hook ::= Z.div_mod_to_equations.

(** Outcome of a C++ operation: a value, a thrown exception, or undefined
    behaviour (division by zero, access outside a block, NULL dereference,
    use after free, ...). *)
Inductive outcome (A : Type) : Type :=
| Ok (a : A)
| Throw
| UB.
Arguments Ok {A} a.
Arguments Throw {A}.
Arguments UB {A}.

Definition obind {A B} (x : outcome A) (f : A -> outcome B) : outcome B :=
  match x with Ok a => f a | Throw => Throw | UB => UB end.
Definition omap {A B} (f : A -> B) (x : outcome A) : outcome B :=
  match x with Ok a => Ok (f a) | Throw => Throw | UB => UB end.

Declare Scope outcome_scope.
Delimit Scope outcome_scope with outcome.
Notation "'do' x <- e ; f" := (obind e (fun x => f))
  (at level 200, x pattern, e at level 100, f at level 200, right associativity) : outcome_scope.
Global Open Scope outcome_scope.

(** C++ integer division and remainder truncate towards zero; a zero divisor
    is undefined behaviour. *)
Definition cdiv (a b : Z) : outcome Z := if b =? 0 then UB else Ok (Z.quot a b).
Definition cmod (a b : Z) : outcome Z := if b =? 0 then UB else Ok (Z.rem a b).

(** [0; 1; ...; n-1] *)
Definition zrange (n : Z) : list Z := map Z.of_nat (seq 0 (Z.to_nat n)).

Lemma zrange_length n : length (zrange n) = Z.to_nat n.
Proof. unfold zrange. rewrite map_length, seq_length. reflexivity. Qed.

Lemma in_zrange n x : In x (zrange n) <-> 0 <= x < n.
Proof.
  unfold zrange. rewrite in_map_iff. split.
  - intros [k [Hk Hin]]. apply in_seq in Hin. lia.
  - intros H. exists (Z.to_nat x). split; [lia|]. apply in_seq. lia.
Qed.

Lemma zrange_NoDup n : NoDup (zrange n).
Proof.
  unfold zrange. apply FinFun.Injective_map_NoDup; [|apply seq_NoDup].
  intros a b H. lia.
Qed.

Lemma zrange_0 n : n <= 0 -> zrange n = [].
Proof. intros H. unfold zrange. replace (Z.to_nat n) with 0%nat by lia. reflexivity. Qed.

Lemma zrange_succ n : 0 <= n -> zrange (n + 1) = zrange n ++ [n].
Proof.
  intros H. unfold zrange. replace (Z.to_nat (n + 1)) with (S (Z.to_nat n)) by lia.
  rewrite seq_S, map_app. cbn [map]. do 2 f_equal. lia.
Qed.

Lemma zrange_add a b : 0 <= a -> 0 <= b ->
  zrange (a + b) = zrange a ++ map (fun j => a + j) (zrange b).
Proof.
  intros Ha Hb. unfold zrange. rewrite Z2Nat.inj_add by lia.
  rewrite seq_app, map_app. f_equal.
  rewrite map_map. replace (0 + Z.to_nat a)%nat with (Z.to_nat a + 0)%nat by lia.
  generalize 0%nat as s. generalize (Z.to_nat b) as n.
  induction n as [|n IH]; intros s; cbn [seq map]; [reflexivity|].
  f_equal; [lia|]. specialize (IH (S s)).
  replace (Z.to_nat a + S s)%nat with (S (Z.to_nat a + s)) in IH by lia. exact IH.
Qed.

Lemma flat_map_app {A B} (f : A -> list B) l1 l2 :
  flat_map f (l1 ++ l2) = flat_map f l1 ++ flat_map f l2.
Proof.
  induction l1 as [|a l1 IH]; cbn; [reflexivity|]. rewrite IH, app_assoc. reflexivity.
Qed.

Lemma flat_map_map {A B C} (f : B -> list C) (g : A -> B) l :
  flat_map f (map g l) = flat_map (fun a => f (g a)) l.
Proof. induction l as [|a l IH]; cbn; [reflexivity|]. rewrite IH. reflexivity. Qed.

Lemma map_flat_map {A B C} (f : B -> C) (g : A -> list B) l :
  map f (flat_map g l) = flat_map (fun a => map f (g a)) l.
Proof. induction l as [|a l IH]; cbn; [reflexivity|]. rewrite map_app, IH. reflexivity. Qed.

Lemma flat_map_ext_in {A B} (f g : A -> list B) l :
  (forall a, In a l -> f a = g a) -> flat_map f l = flat_map g l.
Proof.
  induction l as [|a l IH]; cbn; intros H; [reflexivity|].
  rewrite (H a) by (left; reflexivity). rewrite IH; [reflexivity|].
  intros b Hb. apply H. right. exact Hb.
Qed.

Lemma zrange_mul a b : 0 <= a -> 0 <= b ->
  zrange (a * b) = flat_map (fun i => map (fun j => j + a * i) (zrange a)) (zrange b).
Proof.
  intros Ha Hb. pattern b. apply natlike_ind; [| |exact Hb].
  - rewrite Z.mul_0_r. reflexivity.
  - intros n Hn IH. unfold Z.succ. rewrite zrange_succ, flat_map_app by lia.
    rewrite <- IH. replace (a * (n + 1)) with (a * n + a) by lia.
    rewrite zrange_add by lia. f_equal. cbn [flat_map]. rewrite app_nil_r.
    apply map_ext. intros j. lia.
Qed.

Lemma nth_error_zrange n (k : nat) : Z.of_nat k < n -> nth_error (zrange n) k = Some (Z.of_nat k).
Proof.
  intros H. unfold zrange. apply map_nth_error.
  rewrite nth_error_nth' with (d := 0%nat) by (rewrite seq_length; lia).
  rewrite seq_nth by lia. reflexivity.
Qed.
