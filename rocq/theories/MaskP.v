From Verif Require Import Prelude WindowM WindowS WindowP GhostM FieldM FieldS FieldP MaskM MaskS.

(** The bit at flat position [f]. *)
Definition bit_at (words : list Z) (f : Z) : bool :=
  Z.testbit (nth (Z.to_nat (f / 32)) words 0) (f mod 32).
Definition in_store (words : list Z) (f : Z) : Prop := 0 <= f < 32 * Z.of_nat (length words).

Lemma land_bit w b : 0 <= b -> negb (Z.land w (Z.shiftl 1 b) =? 0) = Z.testbit w b.
Proof.
  intros Hb. rewrite Z.shiftl_1_l.
  assert (E : Z.land w (2 ^ b) = if Z.testbit w b then 2 ^ b else 0).
  { apply Z.bits_inj'. intros n Hn. rewrite Z.land_spec, Z.pow2_bits_eqb by lia.
    destruct (b =? n) eqn:E.
    - apply Z.eqb_eq in E. subst n. rewrite andb_true_r. destruct (Z.testbit w b) eqn:T.
      + rewrite Z.pow2_bits_eqb by lia. symmetry. apply Z.eqb_refl.
      + symmetry. apply Z.bits_0.
    - rewrite andb_false_r. destruct (Z.testbit w b); [rewrite Z.pow2_bits_eqb by lia; rewrite E; reflexivity|].
      symmetry. apply Z.bits_0. }
  rewrite E. pose proof (Z.pow_pos_nonneg 2 b). destruct (Z.testbit w b); lia.
Qed.

Lemma round_to_int_cover n f : 0 <= f < n -> 0 <= f < 32 * round_to_int n.
Proof. unfold round_to_int, INT_BIT. intros H. rewrite Z.quot_div_nonneg by lia. lia. Qed.

Lemma find_position_addr w p : find_position w p = addr w p.
Proof. reflexivity. Qed.

Lemma word_get_ok words b : 0 <= b < Z.of_nat (length words) ->
  word_get words b = Ok (nth (Z.to_nat b) words 0).
Proof. intros H. unfold word_get. destruct (0 <=? b) eqn:A, (b <? Z.of_nat (length words)) eqn:B; try lia. reflexivity. Qed.
Lemma word_set_ok words b v : 0 <= b < Z.of_nat (length words) ->
  word_set words b v = Ok (list_set words (Z.to_nat b) v).
Proof. intros H. unfold word_set. destruct (0 <=? b) eqn:A, (b <? Z.of_nat (length words)) eqn:B; try lia. reflexivity. Qed.
Lemma one_shl_ok b : 0 <= b < 32 -> one_shl b = Ok (Z.shiftl 1 b).
Proof. intros H. unfold one_shl, INT_BIT. destruct (0 <=? b) eqn:A, (b <? 32) eqn:B; try lia. reflexivity. Qed.

Lemma list_set_length l n v : length (list_set l n v) = length l.
Proof. revert n. induction l as [|h t IH]; intros [|n]; cbn; auto. Qed.
Lemma list_set_nth l n v k d : (n < length l)%nat ->
  nth k (list_set l n v) d = if Nat.eqb k n then v else nth k l d.
Proof.
  revert n k. induction l as [|h t IH]; intros [|n] [|k] H; cbn in *; try lia; try reflexivity.
  apply IH. lia.
Qed.

Lemma store_pos words f : in_store words f ->
  find_block f = f / 32 /\ find_bit f = f mod 32 /\ 0 <= f / 32 < Z.of_nat (length words) /\ 0 <= f mod 32 < 32.
Proof.
  unfold in_store, find_block, find_bit, INT_BIT. intros H.
  rewrite Z.quot_div_nonneg, Z.rem_mod_nonneg by lia. lia.
Qed.

Lemma query_bit w words p : in_store words (addr w p) ->
  bitfield_query w words p = Ok (bit_at words (addr w p)).
Proof.
  intros H. unfold bitfield_query. rewrite find_position_addr.
  destruct (store_pos _ _ H) as (-> & -> & A & B).
  rewrite word_get_ok by lia. cbn [obind]. rewrite one_shl_ok by lia. cbn [obind].
  rewrite land_bit by lia. reflexivity.
Qed.

Definition word32 (w : Z) : Prop := 0 <= w < 2 ^ 32.
Lemma word32_bits w : 0 <= w -> (word32 w <-> forall n, 32 <= n -> Z.testbit w n = false).
Proof.
  intros H. split.
  - intros [_ L] n Hn. destruct (Z.eq_dec w 0) as [->|N]; [apply Z.bits_0|].
    apply Z.bits_above_log2; [lia|]. assert (Z.log2 w < 32) by (apply Z.log2_lt_pow2; lia). lia.
  - intros B. split; [lia|]. destruct (Z_lt_le_dec w (2 ^ 32)) as [L|L]; [exact L|exfalso].
    assert (32 <= Z.log2 w) by (apply Z.log2_le_pow2; lia).
    pose proof (Z.bit_log2 w). rewrite B in H1 by lia. lia.
Qed.
Lemma word32_lor a b : word32 a -> 0 <= b < 32 -> word32 (Z.lor a (Z.shiftl 1 b)).
Proof.
  intros A B. rewrite Z.shiftl_1_l. assert (P : 0 < 2 ^ b) by (apply Z.pow_pos_nonneg; lia).
  assert (N : 0 <= Z.lor a (2 ^ b)) by (apply Z.lor_nonneg; unfold word32 in A; lia).
  apply word32_bits; [exact N|]. intros n Hn. rewrite Z.lor_spec, Z.pow2_bits_eqb by lia.
  pose proof (proj1 (word32_bits a (proj1 A)) A) as A'. rewrite A' by lia. cbn. lia.
Qed.

Lemma add_point_bit w words p : in_store words (addr w p) -> exists words',
  add_point w words p = Ok words' /\ length words' = length words /\
  (forall f, 0 <= f -> bit_at words' f = (f =? addr w p) || bit_at words f) /\
  (Forall word32 words -> Forall word32 words').
Proof.
  intros H. unfold add_point. rewrite find_position_addr.
  destruct (store_pos _ _ H) as (-> & -> & A & B).
  rewrite word_get_ok by lia. cbn [obind]. rewrite one_shl_ok by lia. cbn [obind].
  rewrite word_set_ok by lia. eexists. split; [reflexivity|].
  split; [apply list_set_length|]. split.
  - intros f Hf. unfold bit_at. rewrite list_set_nth by lia.
    set (a := addr w p) in *.
    destruct (Nat.eqb (Z.to_nat (f / 32)) (Z.to_nat (a / 32))) eqn:E.
    + apply Nat.eqb_eq in E. assert (E' : f / 32 = a / 32) by lia.
      rewrite Z.lor_spec, Z.shiftl_1_l, Z.pow2_bits_eqb by lia. rewrite E'.
      destruct (f =? a) eqn:Q.
      * apply Z.eqb_eq in Q. rewrite Q, Z.eqb_refl. apply orb_true_r.
      * destruct (a mod 32 =? f mod 32) eqn:R; [lia|]. rewrite orb_false_r. reflexivity.
    + apply Nat.eqb_neq in E. destruct (f =? a) eqn:Q; [exfalso; apply E; f_equal; lia|]. reflexivity.
  - intros W. apply Forall_nth. intros i d Hi. rewrite list_set_length in Hi.
    rewrite list_set_nth by lia.
    rewrite Forall_nth in W.
    destruct (Nat.eqb i (Z.to_nat (addr w p / 32))); [|apply W; exact Hi].
    apply word32_lor; [apply W; lia|lia].
Qed.

Lemma in_block_store w p words : in_block w p ->
  Z.of_nat (length words) = round_to_int (glob_npts w) -> in_store words (addr w p).
Proof.
  intros (Hx & Hy & Hz) L. unfold in_store. rewrite L. apply round_to_int_cover.
  cbn in Hx, Hy, Hz. unfold addr, glob_npts. apply flat_range; lia.
Qed.
Lemma in_block_inj w p q : in_block w p -> in_block w q -> addr w p = addr w q -> p = q.
Proof.
  intros Hp Hq E.
  assert (iv_add (woff w) p = iv_add (woff w) q) as S.
  { apply (addr_inj (win_full (wglob w))); try assumption.
    destruct Hp as (?&?&?). unfold fits; cbn. lia. }
  unfold iv_add in S. injection S. intros. apply iv_ext; lia.
Qed.

Lemma add_points_bits w ps : forall words,
  Forall (in_block w) ps -> Z.of_nat (length words) = round_to_int (glob_npts w) ->
  exists words', add_points w words ps = Ok words' /\ length words' = length words /\
    (forall f, 0 <= f -> bit_at words' f = existsb (fun p => f =? addr w p) ps || bit_at words f) /\
    (Forall word32 words -> Forall word32 words').
Proof.
  induction ps as [|p ps IH]; intros words P L; cbn [add_points existsb].
  - exists words. repeat split; auto.
  - inversion P as [|? ? Pp Pps]; subst.
    destruct (add_point_bit w words p) as (w1 & E1 & L1 & B1 & F1); [apply in_block_store; assumption|].
    rewrite E1. cbn [obind]. destruct (IH w1 Pps ltac:(lia)) as (w2 & E2 & L2 & B2 & F2).
    exists w2. split; [exact E2|]. split; [lia|]. split; [|auto].
    intros f Hf. rewrite B2, B1 by lia. destruct (f =? addr w p), (existsb (fun p => f =? addr w p) ps); reflexivity.
Qed.

Lemma bit_at_zeros n f : bit_at (repeat 0 n) f = false.
Proof. unfold bit_at. rewrite nth_repeat. apply Z.bits_0. Qed.

Lemma round_to_int_nonneg n : 0 <= n -> 0 <= round_to_int n.
Proof. unfold round_to_int, INT_BIT. intros. rewrite Z.quot_div_nonneg by lia. lia. Qed.

Lemma bitfield_make_bits w ps : pos_dims (wglob w) -> Forall (in_block w) ps ->
  exists words, bitfield_make w ps = Ok words /\ Z.of_nat (length words) = round_to_int (glob_npts w) /\
    Forall word32 words /\
    forall f, 0 <= f -> bit_at words f = existsb (fun p => f =? addr w p) ps.
Proof.
  intros (Gx & Gy & Gz) P. unfold bitfield_make.
  assert (N : 0 <= glob_npts w) by (unfold glob_npts; nia).
  pose proof (round_to_int_nonneg _ N) as R.
  assert (L : Z.of_nat (length (repeat 0 (Z.to_nat (round_to_int (glob_npts w))))) = round_to_int (glob_npts w))
    by (rewrite repeat_length; lia).
  destruct (add_points_bits w ps _ P L) as (w' & E & L' & B & F).
  exists w'. split; [exact E|]. split; [lia|]. split.
  - apply F. apply Forall_forall. intros x Hx. apply repeat_spec in Hx. subst x. unfold word32. lia.
  - intros f Hf. rewrite B by lia. rewrite bit_at_zeros. apply orb_false_r.
Qed.

Lemma bitfield_query_make w ps : pos_dims (wglob w) -> Forall (in_block w) ps ->
  exists words, bitfield_make w ps = Ok words /\ Forall word32 words /\
    forall q, in_block w q ->
      (In q ps -> bitfield_query w words q = Ok true) /\
      (~ In q ps -> bitfield_query w words q = Ok false).
Proof.
  intros G P. destruct (bitfield_make_bits w ps G P) as (words & E & L & F & B).
  exists words. split; [exact E|]. split; [exact F|]. intros q Q.
  assert (S : in_store words (addr w q)) by (apply in_block_store; assumption).
  rewrite query_bit by exact S. rewrite B by (unfold in_store in S; lia). split; intros I; f_equal.
  - apply existsb_exists. exists q. split; [exact I|apply Z.eqb_refl].
  - destruct (existsb _ ps) eqn:X; [|reflexivity]. exfalso. apply existsb_exists in X as (p & Hp & Hq).
    apply Z.eqb_eq in Hq. apply in_block_inj in Hq; [|exact Q|rewrite Forall_forall in P; auto].
    subst p. auto.
Qed.

#[local] Arguments Z.mul : simpl never.
(** ** Mask iterators simulate field iterators *)
Definition m_abs (m : miter) : iter :=
  Iter (32 * mblk m + mbit m) (mcnt m) (mxi m) (myi m) (mzi m) (mystep m) (mzstep m)
       (mxe m) (mye m) (mze m) (mxye m).
Definition m_norm (m : miter) : Prop := 0 <= mbit m < 32.

Lemma update_positions_eq bit blk : exists bit' blk', update_positions bit blk = (bit', blk') /\
  32 * blk' + bit' = 32 * blk + bit /\ (0 <= 32 * blk + bit -> 0 <= bit' < 32).
Proof.
  unfold update_positions, INT_BIT. destruct ((bit <? 0) || (32 <=? bit)) eqn:E.
  - eexists _, _. split; [reflexivity|]. pose proof (Z.quot_rem' (blk * 32 + bit) 32).
    split; [lia|]. intros. apply Z.rem_bound_pos; lia.
  - eexists _, _. split; [reflexivity|]. lia.
Qed.

Lemma mit_with_abs m bit cnt xi yi zi :
  m_abs (mit_with m bit cnt xi yi zi)
  = Iter (32 * mblk m + bit) cnt xi yi zi (mystep m) (mzstep m) (mxe m) (mye m) (mze m) (mxye m)
  /\ (0 <= 32 * mblk m + bit -> m_norm (mit_with m bit cnt xi yi zi))
  /\ msize (mit_with m bit cnt xi yi zi) = msize m.
Proof.
  unfold mit_with. destruct (update_positions_eq bit (mblk m)) as (b' & k' & -> & E & N).
  unfold m_abs, m_norm; cbn -[Z.mul]. rewrite E. auto.
Qed.

Lemma mit_incr_abs m : m_abs (mit_incr m) = it_incr (m_abs m) /\
  (0 <= icur (it_incr (m_abs m)) -> m_norm (mit_incr m)) /\ msize (mit_incr m) = msize m.
Proof.
  unfold mit_incr, it_incr.
  cbn [m_abs icur icnt ixi iyi izi iystep izstep ixe iye ize ixye].
  destruct (mxi m + 1 =? mxe m); [destruct (myi m + 1 =? mye m)|];
    match goal with |- context [mit_with m ?a ?b ?c ?d ?e] =>
      destruct (mit_with_abs m a b c d e) as (-> & N & ->) end;
    (split; [f_equal; lia|split; [intros; apply N; cbn in *; lia|reflexivity]]).
Qed.
Lemma mit_decr_abs m : m_abs (mit_decr m) = it_decr (m_abs m) /\
  (0 <= icur (it_decr (m_abs m)) -> m_norm (mit_decr m)) /\ msize (mit_decr m) = msize m.
Proof.
  unfold mit_decr, it_decr.
  cbn [m_abs icur icnt ixi iyi izi iystep izstep ixe iye ize ixye].
  destruct (mxi m - 1 =? -1); [destruct (myi m - 1 =? -1)|];
    match goal with |- context [mit_with m ?a ?b ?c ?d ?e] =>
      destruct (mit_with_abs m a b c d e) as (-> & N & ->) end;
    (split; [f_equal; lia|split; [intros; apply N; cbn in *; lia|reflexivity]]).
Qed.
Lemma mit_advance_abs m n : match mit_advance m n with
  | Ok m' => it_advance (m_abs m) n = Ok (m_abs m') /\ (0 <= icur (m_abs m') -> m_norm m') /\ msize m' = msize m
  | Throw => it_advance (m_abs m) n = Throw
  | UB => it_advance (m_abs m) n = UB end.
Proof.
  unfold mit_advance, it_advance.
  cbn [m_abs icur icnt ixi iyi izi iystep izstep ixe iye ize ixye].
  destruct (_ || _).
  - match goal with |- context [mit_with m ?a ?b ?c ?d ?e] =>
      destruct (mit_with_abs m a b c d e) as (A & N & S) end.
    pose proof (f_equal icur A) as A'. cbn [m_abs icur] in A'. split; [rewrite A; do 2 f_equal; ring|split; [intros H; apply N; rewrite <- A'; exact H|exact S]].
  - unfold cdiv, cmod. destruct (mxe m =? 0); [reflexivity|]. cbn [obind].
    destruct (mxye m =? 0); [reflexivity|]. cbn [obind].
    match goal with |- context [mit_with m ?a ?b ?c ?d ?e] =>
      destruct (mit_with_abs m a b c d e) as (A & N & S) end.
    pose proof (f_equal icur A) as A'. cbn [m_abs icur] in A'. split; [rewrite A; do 2 f_equal; ring|split; [intros H; apply N; rewrite <- A'; exact H|exact S]].
Qed.

Lemma m_abs_inj m m' : m_norm m -> m_norm m' -> msize m = msize m' -> m_abs m = m_abs m' -> m = m'.
Proof.
  destruct m, m'. unfold m_norm, m_abs; cbn. intros N N' S E. inversion E; subst.
  f_equal; lia.
Qed.

Definition mit_at (w : window) (c : Z) : miter :=
  let f := addr w (dec (ix (wext w)) (iy (wext w)) c) in
  let p := dec (ix (wext w)) (iy (wext w)) c in
  MIter (f mod 32) (f / 32) (ix p + ix (wext w) * (iy p + iy (wext w) * iz p))
        (round_to_int (glob_npts w)) (ix p) (iy p) (iz p)
        (ix (wglob w) - ix (wext w)) ((iy (wglob w) - iy (wext w)) * ix (wglob w))
        (ix (wext w)) (iy (wext w)) (iz (wext w)) (ix (wext w) * iy (wext w)).

Lemma mit_at_abs w c : m_abs (mit_at w c) = iter_at 0 w c /\ m_norm (mit_at w c).
Proof.
  unfold mit_at, m_abs, m_norm, iter_at, iter_pt; cbn -[addr dec]. split; [f_equal; lia|lia].
Qed.

Section MaskAt.
Variable w : window.
Hypothesis F : fits w.
Hypothesis Hx : 0 < ix (wext w).
Hypothesis Hy : 0 < iy (wext w).

Lemma mit_at_eq m c : m_norm m -> msize m = round_to_int (glob_npts w) ->
  m_abs m = iter_at 0 w c -> m = mit_at w c.
Proof.
  intros N S A. destruct (mit_at_abs w c) as (B & N'). apply m_abs_inj; try assumption. congruence.
Qed.

Lemma iter_at_nonneg c : 0 <= c -> 0 <= icur (iter_at 0 w c).
Proof.
  intros Hc. destruct (flat_decomp (ix (wext w)) (iy (wext w)) c Hx Hy) as (E & A & B).
  destruct F as ((?&?&?)&(?&?&?)&(?&?&?)). unfold iter_at, iter_pt, addr; cbn.
  assert (0 <= c / (ix (wext w) * iy (wext w))) by (apply Z.div_pos; nia).
  assert (0 <= iy (wglob w) * (iz (woff w) + c / (ix (wext w) * iy (wext w)))) by nia.
  nia.
Qed.

Lemma mit_at_0 : mit_begin w = mit_at w 0.
Proof.
  assert (N : 0 <= icur (it_make 0 w)) by (rewrite (iter_at_0 0 w Hx Hy); apply iter_at_nonneg; lia).
  assert (E : ix (woff w) + ix (wglob w) * (iy (woff w) + iy (wglob w) * iz (woff w)) = icur (it_make 0 w))
    by (cbn; ring).
  apply mit_at_eq; [| reflexivity |].
  - unfold m_norm, mit_begin, mit_make; cbn -[Z.rem Z.quot]. rewrite E. apply Z.rem_bound_pos; [exact N|reflexivity].
  - rewrite <- (iter_at_0 0 w Hx Hy). unfold m_abs, mit_begin, mit_make; cbn -[Z.rem Z.quot it_make].
    unfold INT_BIT. rewrite <- Z.quot_rem', E. reflexivity.
Qed.
Lemma mit_at_incr c : 0 <= c -> mit_incr (mit_at w c) = mit_at w (c + 1).
Proof.
  intros Hc. destruct (mit_incr_abs (mit_at w c)) as (A & N & S).
  destruct (mit_at_abs w c) as (B & _). rewrite B in *. rewrite (iter_at_incr 0 w Hx Hy) in *.
  apply mit_at_eq; [apply N; apply iter_at_nonneg; lia|rewrite S; reflexivity|exact A].
Qed.
Lemma mit_at_decr c : 0 <= c -> mit_decr (mit_at w (c + 1)) = mit_at w c.
Proof.
  intros Hc. destruct (mit_decr_abs (mit_at w (c + 1))) as (A & N & S).
  destruct (mit_at_abs w (c + 1)) as (B & _). rewrite B in *. rewrite (iter_at_decr 0 w Hx Hy) in *.
  apply mit_at_eq; [apply N; apply iter_at_nonneg; lia|rewrite S; reflexivity|exact A].
Qed.
Lemma mit_at_advance c n : 0 <= c -> 0 <= c + n -> mit_advance (mit_at w c) n = Ok (mit_at w (c + n)).
Proof.
  intros Hc Hn. pose proof (mit_advance_abs (mit_at w c) n) as A.
  destruct (mit_at_abs w c) as (B & _). rewrite B in *.
  rewrite (iter_at_advance 0 w Hx Hy c n Hc Hn) in A.
  destruct (mit_advance (mit_at w c) n) as [m'| |]; [|discriminate|discriminate].
  destruct A as (A & N & S). assert (A' : iter_at 0 w (c + n) = m_abs m') by congruence. f_equal.
  apply mit_at_eq; [apply N; rewrite <- A'; apply iter_at_nonneg; lia|rewrite S; reflexivity|congruence].
Qed.
Lemma mit_at_iter n c : 0 <= c -> Nat.iter n mit_incr (mit_at w c) = mit_at w (c + Z.of_nat n).
Proof.
  intros Hc. induction n as [|n IH]; cbn [Nat.iter nat_rect]; [f_equal; lia|].
  change (nat_rect _ _ _ n) with (Nat.iter n mit_incr (mit_at w c)).
  rewrite IH, mit_at_incr by lia. f_equal. lia.
Qed.
Lemma mit_at_cnt c : mcnt (mit_at w c) = c.
Proof. unfold mit_at, dec; cbn. symmetry. apply flat_decomp; assumption. Qed.
Lemma mit_at_eqb a b : mit_eqb (mit_at w a) (mit_at w b) = (a =? b).
Proof. unfold mit_eqb. rewrite !mit_at_cnt. reflexivity. Qed.
Lemma mit_end_at : 0 <= iz (wext w) -> mit_end w = Ok (mit_at w (local_npts w)).
Proof.
  intros Hz. unfold mit_end, local_npts. change (mit_make w) with (mit_begin w). rewrite mit_at_0.
  rewrite mit_at_advance; [f_equal; f_equal; lia|lia|nia].
Qed.

Lemma local_pos_box c : 0 <= c < local_npts w -> in_box (wext w) (dec (ix (wext w)) (iy (wext w)) c).
Proof.
  intros H. unfold local_npts in H. pose proof (dec_range (ix (wext w)) (iy (wext w)) (iz (wext w)) c Hx Hy H).
  destruct (wext w); exact H0.
Qed.

Lemma mit_at_deref words c : 0 <= c < local_npts w ->
  Z.of_nat (length words) = round_to_int (glob_npts w) ->
  mit_deref words (mit_at w c) = Ok (bit_at words (addr w (dec (ix (wext w)) (iy (wext w)) c))) /\
  mit_deref_ok (mit_at w c) = true.
Proof.
  intros Hc L. pose proof (local_pos_box c Hc) as Bx.
  pose proof (addr_range w _ F Bx) as R. apply round_to_int_cover in R.
  split.
  - unfold mit_deref, mit_at; cbn [mblk mbit]. set (f := addr w _) in *. clearbody f.
    rewrite word_get_ok by lia. cbn [obind]. rewrite one_shl_ok by lia. cbn [obind].
    rewrite land_bit by lia. reflexivity.
  - unfold mit_deref_ok, mit_at; cbn [mblk mbit mcnt msize mxi myi mzi mxe mye mze mxye].
    set (f := addr w _) in *. clearbody f. destruct Bx as (X & Y & Z).
    set (p := dec _ _ c) in *. clearbody p.
    replace (ix p + ix (wext w) * (iy p + iy (wext w) * iz p))
      with (ix p + iy p * ix (wext w) + iz p * (ix (wext w) * iy (wext w))) by ring.
    rewrite Z.eqb_refl. unfold INT_BIT. lia.
Qed.
End MaskAt.

(** ** Masks *)
Lemma mask_make_query proto ps : pos_dims (wglob (fint proto)) -> Forall (in_block (fint proto)) ps ->
  exists m, mask_make proto ps = Ok m /\ mgeo m = proto /\ Forall word32 (mwords m) /\
    forall q, in_block (fint proto) q ->
      (In q ps -> mask_query m q = Ok true) /\ (~ In q ps -> mask_query m q = Ok false).
Proof.
  intros G P. destruct (bitfield_query_make (fint proto) ps G P) as (words & E & W & Q).
  exists (Mask proto words). unfold mask_make. rewrite E. cbn [obind]. auto.
Qed.

Lemma mask_iterate m w c n : fits w -> nonempty w -> wglob w = wglob (fint (mgeo m)) ->
  Z.of_nat (length (mwords m)) = round_to_int (glob_npts w) ->
  let at_ k := Nat.iter (Z.to_nat k) mit_incr (mit_begin w) in
  (0 <= c < local_npts w ->
   exists p, nth_error (box_points (wext w)) (Z.to_nat c) = Some p /\
     mit_deref (mwords m) (at_ c) = mask_query m (iv_sub (iv_add (woff w) p) (woff (fint (mgeo m)))) /\
     (exists b, mit_deref (mwords m) (at_ c) = Ok b) /\
     mit_deref_ok (at_ c) = true) /\
  (0 <= c <= local_npts w -> 0 <= c + n <= local_npts w ->
   mit_advance (at_ c) n = Ok (at_ (c + n)) /\
   (0 < c -> mit_decr (at_ c) = at_ (c - 1)) /\
   mit_eqb (at_ c) (at_ (c + n)) = (n =? 0)) /\
  mit_end w = Ok (at_ (local_npts w)).
Proof.
  intros F (Nx & Ny & Nz) G L at_.
  assert (A : forall k, 0 <= k -> at_ k = mit_at w k).
  { intros k Hk. unfold at_. rewrite mit_at_0, mit_at_iter by (assumption || lia). f_equal. lia. }
  assert (P : 0 <= local_npts w) by (unfold local_npts; nia).
  split; [|split].
  - intros Hc. rewrite A by lia. destruct (mit_at_deref w F Nx Ny (mwords m) c Hc L) as (D & K).
    exists (dec (ix (wext w)) (iy (wext w)) c). split; [|split; [|split; [eexists; exact D|exact K]]].
    + destruct (wext w) as [ex ey ez] eqn:E. cbn in *. rewrite box_points_dec by lia.
      unfold local_npts in Hc. rewrite E in Hc. cbn in Hc.
      erewrite map_nth_error; [reflexivity|]. rewrite nth_error_zrange; [f_equal; lia|lia].
    + rewrite D. unfold mask_query. pose proof (local_pos_box w Nx Ny c Hc) as Bx.
      assert (EA : addr (fint (mgeo m)) (iv_sub (iv_add (woff w) (dec (ix (wext w)) (iy (wext w)) c)) (woff (fint (mgeo m))))
        = addr w (dec (ix (wext w)) (iy (wext w)) c)).
      { unfold addr. rewrite <- G. cbn [iv_sub iv_add ix iy iz]. 
        replace (ix (woff (fint (mgeo m))) + _) with (ix (woff w) + ix (dec (ix (wext w)) (iy (wext w)) c)) by lia.
        f_equal. f_equal. f_equal; [lia|]. f_equal. lia. }
      rewrite query_bit; rewrite EA; [reflexivity|].
      unfold in_store. rewrite L. apply round_to_int_cover. apply addr_range; assumption.
  - intros Hc Hn. rewrite !A by lia. split; [apply mit_at_advance; (assumption || lia)|]. split.
    + intros Hp. rewrite A by lia. replace c with (c - 1 + 1) at 1 by lia. apply mit_at_decr; (assumption || lia).
    + unfold mit_eqb. rewrite !mit_at_cnt by assumption. lia.
  - rewrite A by lia. apply mit_end_at; (assumption || lia).
Qed.

Lemma mask_make_iterate proto ps w c n :
  pos_dims (wglob (fint proto)) -> Forall (in_block (fint proto)) ps ->
  fits w -> nonempty w -> wglob w = wglob (fint proto) ->
  exists m, mask_make proto ps = Ok m /\
  let at_ k := Nat.iter (Z.to_nat k) mit_incr (mit_begin w) in
  (0 <= c < local_npts w ->
   exists p, nth_error (box_points (wext w)) (Z.to_nat c) = Some p /\
     mit_deref (mwords m) (at_ c) = mask_query m (iv_sub (iv_add (woff w) p) (woff (fint proto))) /\
     (exists b, mit_deref (mwords m) (at_ c) = Ok b) /\
     mit_deref_ok (at_ c) = true) /\
  (0 <= c <= local_npts w -> 0 <= c + n <= local_npts w ->
   mit_advance (at_ c) n = Ok (at_ (c + n)) /\
   (0 < c -> mit_decr (at_ c) = at_ (c - 1)) /\
   mit_eqb (at_ c) (at_ (c + n)) = (n =? 0)) /\
  mit_end w = Ok (at_ (local_npts w)).
Proof.
  intros G P F N E. destruct (bitfield_make_bits (fint proto) ps G P) as (words & M & L & _).
  exists (Mask proto words). unfold mask_make. rewrite M. split; [reflexivity|].
  apply (mask_iterate (Mask proto words) w c n F N E). cbn. rewrite L. unfold glob_npts. rewrite E. reflexivity.
Qed.
