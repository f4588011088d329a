(** Proofs about write_matlab: the digits and the text. *)
From Coq Require Import String Ascii Reals Lra Lia Psatz.
From Verif Require Import Prelude WindowM WindowS WindowP GhostM FieldM FieldS MaskM NeboM NeboS IterM IterS IterP RoundM RoundS MatlabM MatlabS.
Open Scope string_scope.
Open Scope Z_scope.

Lemma app_assoc_s (a b c : string) : (a ++ b) ++ c = a ++ (b ++ c).
Proof. induction a as [|x a IH]; cbn; [reflexivity|]. f_equal. exact IH. Qed.
Lemma app_nil_s (a : string) : a ++ "" = a.
Proof. induction a as [|x a IH]; cbn; [reflexivity|]. f_equal. exact IH. Qed.

(** ** Digits *)
Lemma ten d : 0 <= d < 10 -> d = 0 \/ d = 1 \/ d = 2 \/ d = 3 \/ d = 4 \/ d = 5 \/ d = 6 \/ d = 7 \/ d = 8 \/ d = 9.
Proof. lia. Qed.
Lemma digit_ok d : 0 <= d < 10 -> digit_value (digit d) = Some d.
Proof. intros H. destruct (ten d H) as [->|[->|[->|[->|[->|[->|[->|[->|[->| ->]]]]]]]]]; reflexivity. Qed.
Lemma read_digits_digits n : forall z s acc k,
  read_digits (digits n z ++ s) acc k = read_digits s (acc * 10 ^ Z.of_nat n + z mod 10 ^ Z.of_nat n) (k + Z.of_nat n).
Proof.
  induction n as [|n IH]; intros z s acc k.
  - cbn [digits append]. change (10 ^ Z.of_nat 0) with 1. rewrite Z.mod_1_r. f_equal; lia.
  - cbn [digits]. rewrite app_assoc_s, IH. cbn [append read_digits]. rewrite digit_ok by (apply Z.mod_pos_bound; lia).
    assert (P : 10 ^ Z.of_nat (S n) = 10 * 10 ^ Z.of_nat n) by (rewrite Nat2Z.inj_succ, Z.pow_succ_r by lia; reflexivity).
    assert (Q : 0 < 10 ^ Z.of_nat n) by (apply Z.pow_pos_nonneg; lia).
    f_equal; [|lia]. rewrite P, (Z.rem_mul_r z 10) by lia. ring.
Qed.
Definition no_digit (s : string) : Prop := match s with String c _ => digit_value c = None | "" => True end.
Lemma read_digits_stop s acc n : no_digit s -> read_digits s acc n = (acc, n, s).
Proof. destruct s as [|c s]; cbn; [reflexivity|]. intros ->. reflexivity. Qed.

Lemma read_scientific q k s neg : 0 <= q < 10 ^ 15 -> -1000 < k < 1000 -> no_digit s ->
  read_unsigned (scientific q k ++ s) neg = Some (Dec neg q (k - 14), s).
Proof.
  intros Q K N. unfold scientific, read_unsigned. rewrite !app_assoc_s, read_digits_digits. rewrite read_digits_stop by reflexivity.
  cbn [append]. change (strip "." (String "." ?x)) with (Some x). cbv iota beta. change (0 + Z.of_nat 1 =? 0) with false. cbv iota.
  cbn [strip Ascii.eqb Bool.eqb]. rewrite read_digits_digits. rewrite read_digits_stop by reflexivity.
  cbn [strip Ascii.eqb Bool.eqb].
  assert (M : (0 * 10 ^ Z.of_nat 1 + (q / 10 ^ 14) mod 10 ^ Z.of_nat 1) * 10 ^ Z.of_nat 14 + (q mod 10 ^ 14) mod 10 ^ Z.of_nat 14 = q).
  { change (10 ^ Z.of_nat 1) with 10. change (10 ^ Z.of_nat 14) with (10 ^ 14). rewrite Z.mod_mod by lia.
    rewrite (Z.mod_small (q / 10 ^ 14)) by (split; [apply Z.div_pos; lia|apply Z.div_lt_upper_bound; lia]).
    rewrite (Z.div_mod q (10 ^ 14)) at 3 by lia. ring. }
  rewrite M. unfold exponent. rewrite app_assoc_s.
  assert (E : forall n, (n = 2%nat /\ Z.abs k < 100) \/ (n = 3%nat) -> read_digits (digits n (Z.abs k) ++ s) 0 0 = (Z.abs k, Z.of_nat n, s)).
  { intros n H. rewrite read_digits_digits, read_digits_stop by exact N. rewrite Z.mod_small.
    - f_equal; f_equal; lia.
    - destruct H as [(-> & L)| ->]; [change (10 ^ Z.of_nat 2) with 100|change (10 ^ Z.of_nat 3) with 1000]; lia. }
  destruct (Z.ltb_spec k 0) as [L|L]; cbn [append strip Ascii.eqb Bool.eqb];
    (destruct (Z.ltb_spec (Z.abs k) 100) as [A|A]; [rewrite (E 2%nat) by auto|rewrite (E 3%nat) by auto]);
    cbn [Z.of_nat Pos.of_succ_nat Pos.succ Z.eqb]; do 3 f_equal; lia.
Qed.

(** The first character of what is shown. *)
Lemma digits1 z : 0 <= z < 10 -> digits 1 z = String (digit z) "".
Proof. intros H. cbn [digits]. rewrite (Z.mod_small z) by exact H. reflexivity. Qed.
Definition starts (s : string) : Prop := match s with String c _ => separator c = false /\ Ascii.eqb c "]" = false | "" => False end.
Lemma read_signed q k s neg : 0 <= q < 10 ^ 15 -> -1000 < k < 1000 -> no_digit s ->
  read_literal ((minus_sign neg ++ scientific q k) ++ s) = Some (Dec neg q (k - 14), s) /\ starts ((minus_sign neg ++ scientific q k) ++ s).
Proof.
  intros Q K N. pose proof (read_scientific q k s neg Q K N) as R. destruct neg; cbn [minus_sign append].
  - split; [|split; reflexivity]. unfold read_literal. cbn [strip Ascii.eqb Bool.eqb].
    assert (B : 0 <= q / 10 ^ 14 < 10) by (split; [apply Z.div_pos; lia|apply Z.div_lt_upper_bound; lia]).
    revert R. unfold scientific. rewrite digits1 by exact B. cbn [append].
    destruct (ten _ B) as [->|[->|[->|[->|[->|[->|[->|[->|[->| ->]]]]]]]]]; intros R; exact R.
  - assert (B : 0 <= q / 10 ^ 14 < 10) by (split; [apply Z.div_pos; lia|apply Z.div_lt_upper_bound; lia]).
    revert R. unfold scientific. rewrite digits1 by exact B. cbn [append].
    destruct (ten _ B) as [->|[->|[->|[->|[->|[->|[->|[->|[->| ->]]]]]]]]]; intros R; (split; [exact R|split; reflexivity]).
Qed.

(** ** Lists *)
Definition lists (s : string) (ls : list literal) (t : string) : Prop := exists fuel, read_list fuel s = Some (ls, t).
Lemma lists_sep c s ls t : separator c = true -> lists s ls t -> lists (String c s) ls t.
Proof. intros C (n & R). exists (S n). cbn. rewrite C. exact R. Qed.
Lemma lists_end s : lists (String "]" s) [] s.
Proof. exists 1%nat. reflexivity. Qed.
Lemma lists_lit s l s1 ls t : starts s -> read_literal s = Some (l, s1) -> lists s1 ls t -> lists s (l :: ls) t.
Proof.
  intros B R (n & E). exists (S n). destruct s as [|c s]; [destruct B|]. destruct B as (B1 & B2). cbn [read_list]. rewrite B1, B2, R, E. reflexivity.
Qed.
