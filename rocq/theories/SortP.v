(** The merge sort program: merging, and parts of arrays. *)
From Coq Require Import Lia Arith.
From Verif Require Import Prelude SortM SortS.
Local Open Scope nat_scope.

Section Sort.
Variable A : Type.
Variable content : A -> Z.
Notation less := (less A content).
Notation merge := (merge A content).
Notation in_order := (in_order A content).
Notation part := (part A).
Notation put := (put A).

(** ** Merging *)
Inductive asc : list A -> Prop :=
| asc_nil : asc []
| asc_cons a l : (forall x, In x l -> (content a <= content x)%Z) -> asc l -> asc (a :: l).
Lemma asc_inv a l : asc (a :: l) -> (forall x, In x l -> (content a <= content x)%Z) /\ asc l.
Proof. inversion 1; subst; auto. Qed.
Lemma in_order_asc l : asc l -> in_order l = true.
Proof.
  induction 1 as [|a l H _ IH]; [reflexivity|]. cbn. destruct l as [|b l]; [reflexivity|]. rewrite IH, andb_true_r.
  unfold less. specialize (H b (or_introl eq_refl)). apply negb_true_iff, Z.ltb_ge. lia.
Qed.
Lemma merge_nil_r l : merge l [] = l.
Proof. destruct l; reflexivity. Qed.
Lemma merge_cons a l1 b l2 : merge (a :: l1) (b :: l2) = if less b a then b :: merge (a :: l1) l2 else a :: merge l1 (b :: l2).
Proof. reflexivity. Qed.
Lemma merge_ind2 (P : list A -> list A -> Prop) : (forall l, P [] l) -> (forall l, P l []) ->
  (forall a l1 b l2, P (a :: l1) l2 -> P l1 (b :: l2) -> P (a :: l1) (b :: l2)) -> forall l1 l2, P l1 l2.
Proof.
  intros H1 H2 H3 l1. induction l1 as [|a l1 IH]; [exact H1|]. intros l2. induction l2 as [|b l2 IH2]; [apply H2|]. apply H3; [exact IH2|apply IH].
Qed.
Lemma merge_in x l1 l2 : In x (merge l1 l2) -> In x l1 \/ In x l2.
Proof.
  revert l1 l2. apply (merge_ind2 (fun l1 l2 => In x (merge l1 l2) -> In x l1 \/ In x l2)).
  - intros l. auto.
  - intros l. rewrite merge_nil_r. auto.
  - intros a l1 b l2 I1 I2. rewrite merge_cons. destruct (less b a).
    + intros [E|H]; [right; left; exact E|]. destruct (I1 H); [left; assumption|right; right; assumption].
    + intros [E|H]; [left; left; exact E|]. destruct (I2 H); [left; right; assumption|right; assumption].
Qed.
Lemma merge_asc l1 l2 : asc l1 -> asc l2 -> asc (merge l1 l2).
Proof.
  revert l1 l2. apply (merge_ind2 (fun l1 l2 => asc l1 -> asc l2 -> asc (merge l1 l2))).
  - auto.
  - intros l. rewrite merge_nil_r. auto.
  - intros a l1 b l2 I1 I2 A1 A2. rewrite merge_cons. destruct (asc_inv _ _ A1) as (H1 & H2), (asc_inv _ _ A2) as (H4 & H5). destruct (less b a) eqn:L; unfold less in L.
    + apply Z.ltb_lt in L. constructor; [|apply I1; assumption]. intros x H. apply merge_in in H. destruct H as [[<-|H]|H]; [lia|specialize (H1 x H); lia|auto].
    + apply Z.ltb_ge in L. constructor; [|apply I2; assumption]. intros x H. apply merge_in in H. destruct H as [H|[<-|H]]; [auto|lia|specialize (H4 x H); lia].
Qed.
Definition at_key (k : Z) (l : list A) : list A := filter (fun x => content x =? k)%Z l.
Lemma above k a l : (k < content a)%Z -> asc (a :: l) -> at_key k (a :: l) = [].
Proof.
  intros L H. unfold at_key. assert (G : forall x, In x (a :: l) -> (k < content x)%Z) by (destruct (asc_inv _ _ H) as (H2 & _); intros x [<-|I]; [exact L|specialize (H2 x I); lia]).
  clear H L. induction (a :: l) as [|y m IH]; [reflexivity|]. cbn. pose proof (G y (or_introl eq_refl)). destruct (Z.eqb_spec (content y) k); [lia|]. apply IH. intros x I. apply G. right. exact I.
Qed.
Lemma merge_key k l1 l2 : asc l1 -> asc l2 -> at_key k (merge l1 l2) = at_key k l1 ++ at_key k l2.
Proof.
  revert l1 l2. apply (merge_ind2 (fun l1 l2 => asc l1 -> asc l2 -> at_key k (merge l1 l2) = at_key k l1 ++ at_key k l2)).
  - reflexivity.
  - intros l _ _. rewrite merge_nil_r, app_nil_r. reflexivity.
  - intros a l1 b l2 I1 I2 A1 A2. rewrite merge_cons. destruct (asc_inv _ _ A1) as (H1 & H2), (asc_inv _ _ A2) as (H4 & H5). destruct (less b a) eqn:L; unfold less in L.
    + apply Z.ltb_lt in L. change (at_key k (b :: merge (a :: l1) l2)) with (if (content b =? k)%Z then b :: at_key k (merge (a :: l1) l2) else at_key k (merge (a :: l1) l2)).
      change (at_key k (b :: l2)) with (if (content b =? k)%Z then b :: at_key k l2 else at_key k l2). rewrite (I1 A1 H5).
      destruct (Z.eqb_spec (content b) k) as [E|E]; [|reflexivity]. rewrite (above k a l1) by (try assumption; lia). reflexivity.
    + change (at_key k (a :: merge l1 (b :: l2))) with (if (content a =? k)%Z then a :: at_key k (merge l1 (b :: l2)) else at_key k (merge l1 (b :: l2))).
      change (at_key k (a :: l1)) with (if (content a =? k)%Z then a :: at_key k l1 else at_key k l1). rewrite (I2 H2 A2). destruct (content a =? k)%Z; reflexivity.
Qed.
Lemma merge_length l1 l2 : length (merge l1 l2) = length l1 + length l2.
Proof.
  revert l1 l2. apply (merge_ind2 (fun l1 l2 => length (merge l1 l2) = length l1 + length l2)).
  - reflexivity.
  - intros l. rewrite merge_nil_r. cbn. lia.
  - intros a l1 b l2 I1 I2. rewrite merge_cons. destruct (less b a); cbn [length] in *; lia.
Qed.

(** ** Sorting by merging *)
Fixpoint msort (s : nat) (l : list A) : list A :=
  match s with 0 => l | S s => merge (msort s (firstn (2 ^ s) l)) (msort s (skipn (2 ^ s) l)) end.
Lemma two_pow s : 2 ^ S s = 2 ^ s + 2 ^ s.
Proof. cbn. lia. Qed.
Lemma pow_pos s : 1 <= 2 ^ s.
Proof. induction s; [cbn; lia|rewrite two_pow; lia]. Qed.
Lemma msort_ok s : forall l, length l = 2 ^ s -> length (msort s l) = 2 ^ s /\ asc (msort s l) /\ forall k, at_key k (msort s l) = at_key k l.
Proof.
  induction s as [|s IH]; intros l L.
  - cbn in *. split; [exact L|]. split; [|reflexivity]. destruct l as [|a [|b l]]; try discriminate L. constructor; [intros x []|constructor].
  - rewrite two_pow in L. cbn [msort]. assert (L1 : length (firstn (2 ^ s) l) = 2 ^ s) by (rewrite firstn_length; lia).
    assert (L2 : length (skipn (2 ^ s) l) = 2 ^ s) by (rewrite skipn_length; lia).
    destruct (IH _ L1) as (N1 & A1 & K1), (IH _ L2) as (N2 & A2 & K2).
    split; [rewrite merge_length, N1, N2, two_pow; reflexivity|]. split; [apply merge_asc; assumption|].
    intros k. rewrite merge_key by assumption. rewrite K1, K2. unfold at_key. rewrite <- filter_app, firstn_skipn. reflexivity.
Qed.
Lemma asc_nth l : asc l -> forall i j x y, i < j -> nth_error l i = Some x -> nth_error l j = Some y -> (content x <= content y)%Z.
Proof.
  induction 1 as [|a l H _ IH]; intros i j x y L X Y; [destruct i; discriminate X|].
  destruct j as [|j]; [lia|]. destruct i as [|i]; cbn in *; [injection X as <-; apply H; eapply nth_error_In; exact Y|eapply (IH i j); eauto; lia].
Qed.
Lemma msort_sorts s l : length l = 2 ^ s -> sorts content l (msort s l).
Proof.
  intros L. destruct (msort_ok s l L) as (N & As & K). split; [exact (asc_nth _ As)|]. split; [exact K|congruence].
Qed.

(** ** Parts of an array *)
Lemma nth_error_ext (l m : list A) : length l = length m -> (forall i, i < length l -> nth_error l i = nth_error m i) -> l = m.
Proof.
  revert m. induction l as [|a l IH]; intros [|b m] L H; try discriminate L; [reflexivity|]. f_equal.
  - specialize (H 0 ltac:(cbn; lia)). injection H. auto.
  - apply IH; [cbn in L; lia|]. intros i Hi. apply (H (S i)). cbn. lia.
Qed.
Lemma part_length d p n : length (part d p n) = n.
Proof. unfold part. rewrite map_length, seq_length. reflexivity. Qed.
Lemma part_app d p n m : part d p (n + m) = part d p n ++ part d (p + n) m.
Proof. unfold part. rewrite seq_app, map_app. reflexivity. Qed.
Lemma part_ext d d' p n : (forall i, p <= i < p + n -> d i = d' i) -> part d p n = part d' p n.
Proof. intros H. unfold part. apply map_ext_in. intros i I. apply in_seq in I. apply H. lia. Qed.
Lemma part_first d p n m : firstn n (part d p (n + m)) = part d p n.
Proof. rewrite part_app. rewrite <- (part_length d p n) at 1. rewrite firstn_app, firstn_all, Nat.sub_diag, app_nil_r. reflexivity. Qed.
Lemma part_skip d p n m : skipn n (part d p (n + m)) = part d (p + n) m.
Proof. rewrite part_app. rewrite <- (part_length d p n) at 1. rewrite skipn_app, skipn_all, Nat.sub_diag. reflexivity. Qed.
Lemma put_out d p l i : i < p \/ p + length l <= i -> put d p l i = d i.
Proof. intros H. unfold put. destruct (Nat.leb_spec p i), (Nat.ltb_spec i (p + length l)); cbn; try reflexivity. lia. Qed.
Lemma part_put d p l : part (put d p l) p (length l) = l.
Proof.
  apply nth_error_ext; [rewrite part_length; reflexivity|]. intros i. rewrite part_length. intros L. unfold part, put.
  rewrite (map_nth_error _ i (seq p (length l)) (d := p + i)).
  - destruct (Nat.leb_spec p (p + i)); [|lia]. destruct (Nat.ltb_spec (p + i) (p + length l)); [|lia]. cbn [andb].
    replace (p + i - p) with i by lia. symmetry. apply nth_error_nth'. exact L.
  - rewrite (nth_error_nth' _ 0) by (rewrite seq_length; exact L). rewrite seq_nth by exact L. reflexivity.
Qed.
Lemma part_put_other d p l q n : q + n <= p \/ p + length l <= q -> part (put d p l) q n = part d q n.
Proof. intros H. apply part_ext. intros i I. apply put_out. lia. Qed.
End Sort.
