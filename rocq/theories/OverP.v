From Verif Require Import Prelude WindowM WindowS WindowP OverM.

Lemma i32_ok z : - 2 ^ 31 <= z <= INT_MAX -> i32 z = Ok z.
Proof. intros H. unfold i32, is_int. destruct (_ && _) eqn:E; [reflexivity|]. lia. Qed.
Lemma i32_iff z : i32 z <> UB <-> - 2 ^ 31 <= z <= INT_MAX.
Proof.
  unfold i32, is_int. destruct (_ && _) eqn:E; split; intros H; try congruence; try discriminate; try lia.
Qed.
Lemma max_pos : 0 < INT_MAX. Proof. reflexivity. Qed.
Lemma min_max : - 2 ^ 31 = - INT_MAX - 1. Proof. reflexivity. Qed.
Lemma i32_abs z : - INT_MAX <= z <= INT_MAX -> i32 z = Ok z.
Proof. intros H. apply i32_ok. rewrite min_max. lia. Qed.
Lemma u64_ok z : 0 <= z <= INT_MAX -> u64 z = z.
Proof. intros H. apply Z.mod_small. split; [lia|]. eapply Z.le_lt_trans; [apply H|reflexivity]. Qed.
Lemma to_int_ok z : - INT_MAX <= z <= INT_MAX -> to_int z = z.
Proof.
  intros H. unfold to_int. rewrite Z.mod_small; [lia|]. change (2 ^ 32) with (2 * INT_MAX + 2). change (2 ^ 31) with (INT_MAX + 1). lia.
Qed.
Lemma idiv_ok a b : 0 <= a <= INT_MAX -> 0 < b -> idiv a b = Ok (a / b).
Proof.
  intros A B. unfold idiv. destruct (b =? 0) eqn:E; [lia|]. rewrite Z.quot_div_nonneg by lia. apply i32_abs.
  pose proof (Z.div_pos a b ltac:(lia) B). pose proof (Z.div_le_upper_bound a b a B ltac:(nia)). lia.
Qed.
Lemma imod_ok a b : 0 <= a <= INT_MAX -> 0 < b -> imod a b = Ok (a mod b).
Proof.
  intros A B. unfold imod. pose proof (idiv_ok a b A B) as D. unfold idiv in D. destruct (b =? 0) eqn:E; [lia|].
  rewrite D. cbn [obind]. rewrite Z.rem_mod_nonneg by lia. reflexivity.
Qed.
Lemma cdiv_ok a b : 0 <= a -> 0 < b -> cdiv a b = Ok (a / b).
Proof. intros A B. unfold cdiv. destruct (b =? 0) eqn:E; [lia|]. rewrite Z.quot_div_nonneg by lia. reflexivity. Qed.
Lemma cmod_ok a b : 0 <= a -> 0 < b -> cmod a b = Ok (a mod b).
Proof. intros A B. unfold cmod. destruct (b =? 0) eqn:E; [lia|]. rewrite Z.rem_mod_nonneg by lia. reflexivity. Qed.
Lemma le_prod a b c a' b' c' : 0 <= a <= a' -> 0 <= b <= b' -> 0 <= c <= c' -> 0 <= a * b * c <= a' * b' * c'.
Proof.
  intros A B C. split; [nia|]. apply Z.mul_le_mono_nonneg; [nia| |lia|lia]. apply Z.mul_le_mono_nonneg; lia.
Qed.

Section Window.
Variable w : window.
Hypothesis F : fits w.
Hypothesis G : pos_dims (wglob w).
Hypothesis Sz : glob_npts w <= INT_MAX.
Notation gx := (ix (wglob w)). Notation gy := (iy (wglob w)). Notation gz := (iz (wglob w)).
Notation ex := (ix (wext w)). Notation ey := (iy (wext w)). Notation ez := (iz (wext w)).
Notation ox := (ix (woff w)). Notation oy := (iy (woff w)). Notation oz := (iz (woff w)).

Lemma below a b c : 0 <= a <= gx -> 0 <= b <= gy -> 0 <= c <= gz -> 0 <= a * b * c <= INT_MAX.
Proof. intros A B C. pose proof (le_prod a b c gx gy gz A B C). unfold glob_npts in Sz. lia. Qed.
Lemma one_x a : 0 <= a <= gx -> 0 <= a <= INT_MAX.
Proof. intros A. destruct G as (? & ? & ?). pose proof (below a 1 1 A ltac:(lia) ltac:(lia)). lia. Qed.
Lemma one_y b : 0 <= b <= gy -> 0 <= b <= INT_MAX.
Proof. intros A. destruct G as (? & ? & ?). pose proof (below 1 b 1 ltac:(lia) A ltac:(lia)). lia. Qed.
Lemma one_z c : 0 <= c <= gz -> 0 <= c <= INT_MAX.
Proof. intros A. destruct G as (? & ? & ?). pose proof (below 1 1 c ltac:(lia) ltac:(lia) A). lia. Qed.
Lemma two_xy a b : 0 <= a <= gx -> 0 <= b <= gy -> 0 <= a * b <= INT_MAX.
Proof. intros A B. destruct G as (? & ? & ?). pose proof (below a b 1 A B ltac:(lia)). lia. Qed.
Lemma two_xz a c : 0 <= a <= gx -> 0 <= c <= gz -> 0 <= a * c <= INT_MAX.
Proof. intros A B. destruct G as (? & ? & ?). pose proof (below a 1 c A ltac:(lia) B). lia. Qed.

Lemma glob32 : glob_npts32 w = Ok (glob_npts w).
Proof.
  destruct G as (? & ? & ?). pose proof (two_xy gx gy ltac:(lia) ltac:(lia)). pose proof (below gx gy gz ltac:(lia) ltac:(lia) ltac:(lia)).
  unfold glob_npts32, imul. rewrite i32_abs by lia. cbn [obind]. rewrite i32_abs by lia. cbn [obind]. rewrite u64_ok by lia. reflexivity.
Qed.
Lemma local32 : local_npts32 w = Ok (local_npts w).
Proof.
  destruct F as (? & ? & ?). pose proof (two_xy ex ey ltac:(lia) ltac:(lia)). pose proof (below ex ey ez ltac:(lia) ltac:(lia) ltac:(lia)).
  unfold local_npts32, imul. rewrite i32_abs by lia. cbn [obind]. rewrite i32_abs by lia. cbn [obind]. rewrite u64_ok by lia. reflexivity.
Qed.
Lemma ijk32 p : in_box (wglob w) p -> ijk_to_flat32 (wglob w) p = Ok (ijk_to_flat (wglob w) p).
Proof.
  intros (X & Y & Z). destruct G as (? & ? & ?). unfold ijk_to_flat32, imul, iadd.
  pose proof (two_xy gx (iy p) ltac:(lia) ltac:(lia)). pose proof (two_xz gx (iz p) ltac:(lia) ltac:(lia)).
  pose proof (below gx gy (iz p) ltac:(lia) ltac:(lia) ltac:(lia)).
  assert (B1 : 0 <= ix p + iy p * gx < gx * gy) by nia.
  assert (B2 : 0 <= ix p + iy p * gx + iz p * gx * gy < gx * gy * gz) by nia.
  unfold glob_npts in Sz.
  assert (B3 : gx * gy <= INT_MAX) by (apply two_xy; lia).
  rewrite (i32_abs (iy p * gx)) by lia. cbn [obind]. rewrite (i32_abs (iz p * gx)) by lia. cbn [obind].
  rewrite (i32_abs (iz p * gx * gy)) by lia. cbn [obind]. rewrite (i32_abs (ix p + iy p * gx)) by lia. cbn [obind].
  rewrite i32_abs by lia. reflexivity.
Qed.
Lemma flat32 c : 0 <= c < glob_npts w -> flat_to_ijk32 (wglob w) c = flat_to_ijk (wglob w) c.
Proof.
  intros C. destruct G as (? & ? & ?). unfold flat_to_ijk32, flat_to_ijk, imul.
  pose proof (two_xy gx gy ltac:(lia) ltac:(lia)). assert (0 < gx * gy) by nia.
  assert (Q : 0 <= c / gx <= INT_MAX).
  { split; [apply Z.div_pos; lia|]. etransitivity; [apply (Z.div_le_upper_bound c gx c); nia|lia]. }
  rewrite (imod_ok c gx), (cmod_ok c gx) by lia. cbn [obind].
  rewrite (idiv_ok c gx), (cdiv_ok c gx) by lia. cbn [obind].
  rewrite imod_ok, cmod_ok by lia. cbn [obind]. rewrite i32_abs by lia. cbn [obind].
  rewrite idiv_ok, cdiv_ok by lia. reflexivity.
Qed.
Lemma local_flat32 c : 0 < ex -> 0 < ey -> 0 <= c < local_npts w -> flat_to_ijk32 (wext w) c = flat_to_ijk (wext w) c.
Proof.
  intros Px Py C. destruct F as (? & ? & ?). unfold flat_to_ijk32, flat_to_ijk, imul.
  pose proof (two_xy ex ey ltac:(lia) ltac:(lia)). assert (0 < ex * ey) by nia.
  pose proof (below ex ey ez ltac:(lia) ltac:(lia) ltac:(lia)). unfold local_npts in C.
  assert (Q : 0 <= c / ex <= INT_MAX).
  { split; [apply Z.div_pos; lia|]. etransitivity; [apply (Z.div_le_upper_bound c ex c); nia|lia]. }
  rewrite (imod_ok c ex), (cmod_ok c ex) by lia. cbn [obind].
  rewrite (idiv_ok c ex), (cdiv_ok c ex) by lia. cbn [obind].
  rewrite imod_ok, cmod_ok by lia. cbn [obind]. rewrite i32_abs by lia. cbn [obind].
  rewrite idiv_ok, cdiv_ok by lia. reflexivity.
Qed.
Lemma index32 p : in_box (wext w) p -> flat_index32 w p = Ok (flat_index w p).
Proof.
  intros (X & Y & Z). destruct G as (? & ? & ?). destruct F as (? & ? & ?). unfold flat_index32, flat_index, iadd.
  pose proof (one_x (ix p + ox) ltac:(lia)). pose proof (one_y (iy p + oy) ltac:(lia)). pose proof (one_z (iz p + oz) ltac:(lia)).
  assert (Ex : (if 1 <? gx then i32 (ix p + ox) else Ok 0) = Ok (if 1 <? gx then ix p + ox else 0)) by (destruct (1 <? gx); [apply i32_abs; lia|reflexivity]).
  assert (Ey : (if 1 <? gy then i32 (iy p + oy) else Ok 0) = Ok (if 1 <? gy then iy p + oy else 0)) by (destruct (1 <? gy); [apply i32_abs; lia|reflexivity]).
  assert (Ez : (if 1 <? gz then i32 (iz p + oz) else Ok 0) = Ok (if 1 <? gz then iz p + oz else 0)) by (destruct (1 <? gz); [apply i32_abs; lia|reflexivity]).
  rewrite Ex, Ey, Ez. cbn [obind]. apply ijk32. unfold in_box. cbn [ix iy iz].
  destruct (1 <? gx), (1 <? gy), (1 <? gz); lia.
Qed.
Lemma off32 off ext g s l : 0 <= g <= INT_MAX -> 0 <= off -> 0 <= ext -> off + ext <= g -> 0 < s <= ext -> 0 <= l < s ->
  refine_off32 off ext s l = refine_off1 off ext s l /\ refine_ext32 ext s l = refine_ext1 ext s l.
Proof.
  intros Hg Ho He Hs S L. unfold refine_off32, refine_off1, refine_ext32, refine_ext1, imul, iadd.
  rewrite imod_ok, cmod_ok by lia. cbn [obind]. rewrite idiv_ok, cdiv_ok by lia. cbn [obind].
  pose proof (Z.div_mod ext s ltac:(lia)) as E. pose proof (Z.mod_pos_bound ext s ltac:(lia)) as M.
  pose proof (Z.div_pos ext s ltac:(lia) ltac:(lia)) as P.
  set (q := ext / s) in *. set (r := ext mod s) in *. assert (Bq : 0 <= q * l <= q * s) by nia.
  destruct (l <? r) eqn:Lr.
  - assert (q * l + l <= ext) by nia. assert (q + 1 <= ext) by nia. rewrite (i32_abs (q * l)) by lia. cbn [obind].
    rewrite (i32_abs (off + q * l)) by lia. cbn [obind]. rewrite !i32_abs by lia. split; reflexivity.
  - assert (q * l + r <= ext) by nia. assert (q <= ext) by nia. rewrite (i32_abs (q * l)) by lia. cbn [obind].
    rewrite (i32_abs (off + q * l)) by lia. cbn [obind]. rewrite !i32_abs by lia. split; reflexivity.
Qed.
Lemma refine_32 s l : 0 < ix s <= ex -> 0 < iy s <= ey -> 0 < iz s <= ez -> in_box s l -> refine32 w s l = refine w s l.
Proof.
  intros Sx Sy Sz' (Lx & Ly & Lz). destruct F as (Fx & Fy & Fz). destruct G as (Gx & Gy & Gz). unfold refine32, refine.
  pose proof (one_x gx ltac:(lia)). pose proof (one_y gy ltac:(lia)). pose proof (one_z gz ltac:(lia)).
  destruct (off32 ox ex gx (ix s) (ix l)) as (-> & ->); try lia.
  destruct (off32 oy ey gy (iy s) (iy l)) as (-> & ->); try lia.
  destruct (off32 oz ez gz (iz s) (iz l)) as (-> & ->); try lia. reflexivity.
Qed.

(** ** Iterators *)
Hypothesis Px : 0 < ex.
Hypothesis Py : 0 < ey.
Hypothesis Pz : 0 < ez.
Variable base : Z.

Lemma make32 : it_make32 base w = it_make base w.
Proof.
  destruct F as (Fx & Fy & Fz). destruct G as (Gx & Gy & Gz). unfold it_make32, it_make. cbv zeta.
  pose proof (one_x gx ltac:(lia)). pose proof (one_x ex ltac:(lia)). pose proof (one_x ox ltac:(lia)).
  pose proof (one_y gy ltac:(lia)). pose proof (one_y ey ltac:(lia)). pose proof (one_y oy ltac:(lia)).
  pose proof (one_z ez ltac:(lia)). pose proof (one_z oz ltac:(lia)).
  pose proof (two_xy gx oy ltac:(lia) ltac:(lia)). pose proof (two_xz gx oz ltac:(lia) ltac:(lia)).
  pose proof (below gx gy oz ltac:(lia) ltac:(lia) ltac:(lia)). pose proof (two_xy gx (gy - ey) ltac:(lia) ltac:(lia)).
  pose proof (two_xy ex ey ltac:(lia) ltac:(lia)).
  rewrite (u64_ok ox), (u64_ok oy), (u64_ok oz), (u64_ok gx), (u64_ok gy), (u64_ok ex), (u64_ok ey), (u64_ok ez) by lia.
  rewrite (u64_ok (oy * gx)), (u64_ok (oz * gx)), (u64_ok (oz * gx * gy)), (u64_ok (gx - ex)), (u64_ok (gy - ey)) by lia.
  rewrite (u64_ok ((gy - ey) * gx)), (u64_ok (ex * ey)) by lia.
  rewrite !to_int_ok by lia. reflexivity.
Qed.
Definition total := local_npts w.
Lemma total_le : 0 < total <= INT_MAX.
Proof.
  destruct F as (Fx & Fy & Fz). pose proof (below ex ey ez ltac:(lia) ltac:(lia) ltac:(lia)). unfold total, local_npts. nia.
Qed.
(** where the iterator stands *)
Lemma at_bounds c : 0 <= c <= total -> exists x y z, 0 <= x < ex /\ 0 <= y < ey /\ 0 <= z <= ez /\
  c = x + ex * (y + ey * z) /\ iter_at base w c = iter_pt base w (IV x y z) /\ (z = ez -> x = 0 /\ y = 0).
Proof.
  intros C. destruct (iter_at_cases w Px Py c) as (x & y & z & X & Y & E). exists x, y, z.
  split; [exact X|]. split; [exact Y|].
  unfold total, local_npts in C.
  assert (Z0 : 0 <= z). { destruct (Z_lt_le_dec z 0); [|assumption]. exfalso. assert (y + ey * z <= -1) by nia. nia. }
  assert (Z1 : z <= ez). { destruct (Z_lt_le_dec ez z); [|assumption]. exfalso. assert (ey * ez + ey <= y + ey * z) by nia. nia. }
  split; [lia|].
  split; [exact E|]. split; [rewrite E; apply iter_at_pt; lia|]. intros ->. assert (x + ex * y <= 0) by nia. nia.
Qed.

Lemma incr32 c : 0 <= c < total -> it_incr32 (iter_at base w c) = Ok (it_incr (iter_at base w c)).
Proof.
  intros C. pose proof total_le. destruct (at_bounds c ltac:(lia)) as (x & y & z & X & Y & Z & E & -> & _).
  destruct F as (Fx & Fy & Fz). pose proof (one_x ex ltac:(lia)). pose proof (one_y ey ltac:(lia)). pose proof (one_z ez ltac:(lia)).
  assert (Zs : z < ez) by (unfold total, local_npts in C; nia).
  unfold it_incr32, it_incr, iter_pt, iadd. cbn [ixi iyi izi icur icnt ixe iye ix iy iz iystep izstep ize ixye]. rewrite <- E.
  rewrite (i32_abs (c + 1)) by lia. cbn [obind]. rewrite (i32_abs (x + 1)) by lia. cbn [obind].
  destruct (x + 1 =? ex); [|reflexivity]. rewrite (i32_abs (y + 1)) by lia. cbn [obind].
  destruct (y + 1 =? ey); [|reflexivity]. rewrite (i32_abs (z + 1)) by lia. reflexivity.
Qed.
Lemma decr32 c : 0 < c <= total -> it_decr32 (iter_at base w c) = Ok (it_decr (iter_at base w c)).
Proof.
  intros C. pose proof total_le. destruct (at_bounds c ltac:(lia)) as (x & y & z & X & Y & Z & E & -> & _).
  destruct F as (Fx & Fy & Fz). pose proof (one_x ex ltac:(lia)). pose proof (one_y ey ltac:(lia)). pose proof (one_z ez ltac:(lia)).
  unfold it_decr32, it_decr, iter_pt, isub. cbn [ixi iyi izi icur icnt ixe iye ix iy iz iystep izstep ize ixye]. rewrite <- E.
  rewrite (i32_abs (c - 1)) by lia. cbn [obind]. rewrite (i32_abs (x - 1)) by lia. cbn [obind].
  destruct (x - 1 =? -1); [|reflexivity]. rewrite (i32_abs (ex - 1)) by lia. cbn [obind]. rewrite (i32_abs (y - 1)) by lia. cbn [obind].
  destruct (y - 1 =? -1); [|reflexivity]. rewrite (i32_abs (ey - 1)) by lia. cbn [obind]. rewrite (i32_abs (z - 1)) by lia. reflexivity.
Qed.

Lemma step_bound n a g e rows : 0 <= e <= g -> 0 < e -> (0 <= n /\ 0 <= a <= rows) \/ (n <= 0 /\ - rows <= a <= 0) ->
  - (e * rows) <= n <= e * rows -> - (g * rows) <= n + (g - e) * a <= g * rows /\ - (g * rows) <= (g - e) * a <= g * rows.
Proof. intros E P [A|A] N; split; nia. Qed.

Lemma within m x k : - m <= x <= m -> 0 <= m <= k -> - k <= x <= k.
Proof. lia. Qed.
Lemma signs n qy1 qy0 qz1 qz0 g e ez r : 0 < e <= g -> (n = 0 -> qy1 = qy0 /\ qz1 = qz0) ->
  (0 <= n /\ 0 <= qy1 - qy0 <= r) \/ (n <= 0 /\ - r <= qy1 - qy0 <= 0) -> (0 <= n /\ 0 <= qz1 - qz0 <= ez) \/ (n <= 0 /\ - ez <= qz1 - qz0 <= 0) ->
  (0 <= n + (g - e) * (qy1 - qy0) /\ 0 <= qz1 - qz0 <= ez) \/ (n + (g - e) * (qy1 - qy0) <= 0 /\ - ez <= qz1 - qz0 <= 0).
Proof.
  intros Fx Eq0 Dy Dz. destruct (Z_lt_le_dec 0 n) as [Hn|Hn]; [|destruct (Z_lt_le_dec n 0) as [Hm|Hm]].
  - left. split; [|lia]. assert (0 <= (g - e) * (qy1 - qy0)) by (apply Z.mul_nonneg_nonneg; lia). lia.
  - right. split; [|lia]. assert ((g - e) * (qy1 - qy0) <= 0) by (apply Z.mul_nonneg_nonpos; lia). lia.
  - assert (N0 : n = 0) by lia. destruct (Eq0 N0) as (-> & ->). left. rewrite Z.sub_diag, Z.mul_0_r. lia.
Qed.

Lemma advance32 c n : 0 <= c <= total -> 0 <= c + n <= total ->
  it_advance32 (iter_at base w c) n = it_advance (iter_at base w c) n.
Proof.
  intros C N. pose proof total_le as T. destruct (at_bounds c ltac:(lia)) as (x & y & z & X & Y & Z & E & -> & _).
  destruct F as (Fx & Fy & Fz). pose proof (one_x ex ltac:(lia)). pose proof (one_y ey ltac:(lia)). pose proof (one_z ez ltac:(lia)).
  pose proof (two_xy ex ey ltac:(lia) ltac:(lia)). assert (Exy : 0 < ex * ey) by nia.
  unfold it_advance32, it_advance, iter_pt, isub, iadd, ineg. cbn [ixi iyi izi icur icnt ixe iye ix iy iz iystep izstep ize ixye]. rewrite <- E.
  rewrite (i32_abs (ex - x)) by lia. cbn [obind].
  assert (R : (if 0 <? n then Ok (n <? ex - x) else Ok false) = Ok ((0 <? n) && (n <? ex - x))) by (destruct (0 <? n); reflexivity).
  rewrite R. cbn [obind].
  assert (S : (if (0 <? n) && (n <? ex - x) then Ok true else if n <? 0 then do m <- i32 (- n); Ok (m <? x) else Ok false)
    = Ok ((0 <? n) && (n <? ex - x) || (n <? 0) && (- n <? x))).
  { destruct ((0 <? n) && (n <? ex - x)); [reflexivity|]. destruct (n <? 0) eqn:Nn; [|reflexivity]. rewrite i32_abs by lia. reflexivity. }
  rewrite S. cbn [obind]. destruct ((0 <? n) && (n <? ex - x) || (n <? 0) && (- n <? x)) eqn:Sm.
  - rewrite (i32_abs (x + n)) by lia. cbn [obind]. rewrite (i32_abs (c + n)) by lia. reflexivity.
  - rewrite (i32_abs (c + n)) by lia. cbn [obind].
    rewrite (idiv_ok (c + n) ex), (cdiv_ok (c + n) ex), (idiv_ok c ex), (cdiv_ok c ex) by lia. cbn [obind].
    rewrite (idiv_ok (c + n) (ex * ey)), (cdiv_ok (c + n) (ex * ey)), (idiv_ok c (ex * ey)), (cdiv_ok c (ex * ey)) by lia. cbn [obind].
    set (qy1 := (c + n) / ex). set (qy0 := c / ex). set (qz1 := (c + n) / (ex * ey)). set (qz0 := c / (ex * ey)).
    assert (T1 : total = ex * (ey * ez)) by (unfold total, local_npts; ring).
    assert (T2 : total = (ex * ey) * ez) by (unfold total, local_npts; ring).
    assert (Y1 : 0 <= qy1 <= ey * ez) by (split; [apply Z.div_pos; lia|apply Z.div_le_upper_bound; lia]).
    assert (Y0 : 0 <= qy0 <= ey * ez) by (split; [apply Z.div_pos; lia|apply Z.div_le_upper_bound; lia]).
    assert (Z1 : 0 <= qz1 <= ez) by (split; [apply Z.div_pos; lia|apply Z.div_le_upper_bound; lia]).
    assert (Z0 : 0 <= qz0 <= ez) by (split; [apply Z.div_pos; lia|apply Z.div_le_upper_bound; lia]).
    assert (Dy : (0 <= n /\ 0 <= qy1 - qy0 <= ey * ez) \/ (n <= 0 /\ - (ey * ez) <= qy1 - qy0 <= 0)).
    { destruct (Z.le_ge_cases 0 n); [left|right]; (split; [assumption|]).
      - assert (qy0 <= qy1) by (apply Z.div_le_mono; lia). lia.
      - assert (qy1 <= qy0) by (apply Z.div_le_mono; lia). lia. }
    assert (Dz : (0 <= n /\ 0 <= qz1 - qz0 <= ez) \/ (n <= 0 /\ - ez <= qz1 - qz0 <= 0)).
    { destruct (Z.le_ge_cases 0 n); [left|right]; (split; [assumption|]).
      - assert (qz0 <= qz1) by (apply Z.div_le_mono; lia). lia.
      - assert (qz1 <= qz0) by (apply Z.div_le_mono; lia). lia. }
    destruct (step_bound n (qy1 - qy0) gx ex (ey * ez) ltac:(lia) Px Dy ltac:(lia)) as (A1 & A2).
    assert (Eq0 : n = 0 -> qy1 = qy0 /\ qz1 = qz0) by (intros En; unfold qy1, qy0, qz1, qz0; rewrite En, Z.add_0_r; split; reflexivity).
    assert (Dn : (0 <= n + (gx - ex) * (qy1 - qy0) /\ 0 <= qz1 - qz0 <= ez) \/ (n + (gx - ex) * (qy1 - qy0) <= 0 /\ - ez <= qz1 - qz0 <= 0)).
    { assert (Fe : 0 < ex <= gx) by (clear - Fx Px; lia). exact (signs n qy1 qy0 qz1 qz0 gx ex ez (ey * ez) Fe Eq0 Dy Dz). }
    assert (Ge : 0 <= gx * ey <= gx * gy) by (split; [apply Z.mul_nonneg_nonneg; lia|apply Z.mul_le_mono_nonneg_l; lia]).
    assert (Gp : 0 < gx * ey) by (apply Z.mul_pos_pos; lia).
    assert (Ga : gx * (ey * ez) = gx * ey * ez) by ring. rewrite Ga in A1, A2.
    destruct (step_bound (n + (gx - ex) * (qy1 - qy0)) (qz1 - qz0) (gx * gy) (gx * ey) ez Ge Gp Dn A1) as (B1 & B2).
    pose proof (below gx ey ez ltac:(lia) ltac:(lia) ltac:(lia)). pose proof (below gx gy ez ltac:(lia) ltac:(lia) ltac:(lia)).
    assert (Bz : 0 <= ey * ez <= INT_MAX).
    { clear - F G Sz Fy Fz. destruct G as (? & ? & ?). pose proof (below 1 ey ez ltac:(lia) ltac:(lia) ltac:(lia)) as B. rewrite Z.mul_1_l in B. exact B. }
    assert (By' : - INT_MAX <= qy1 - qy0 <= INT_MAX) by (clear - Y0 Y1 Bz; lia).
    assert (Bz' : - INT_MAX <= qz1 - qz0 <= INT_MAX) by (clear - Z0 Z1 H1; lia).
    assert (Cy : - INT_MAX <= (gx - ex) * (qy1 - qy0) <= INT_MAX) by exact (within _ _ _ A2 H3).
    assert (Cz : - INT_MAX <= (gx * gy - gx * ey) * (qz1 - qz0) <= INT_MAX) by exact (within _ _ _ B2 H4).
    assert (Cn : - INT_MAX <= n + (gx - ex) * (qy1 - qy0) <= INT_MAX) by exact (within _ _ _ A1 H3).
    assert (Cs : - INT_MAX <= n + (gx - ex) * (qy1 - qy0) + (gx * gy - gx * ey) * (qz1 - qz0) <= INT_MAX) by exact (within _ _ _ B1 H4).
    clear Dy Dz Dn A1 A2 B1 B2 Eq0. unfold imul. rewrite (i32_abs _ By'). cbn [obind]. rewrite (i32_abs _ Cy). cbn [obind].
    rewrite (i32_abs _ Bz'). cbn [obind].
    assert (Rz : ((gy - ey) * gx) * (qz1 - qz0) = (gx * gy - gx * ey) * (qz1 - qz0)) by ring. rewrite Rz.
    rewrite (i32_abs _ Cz). cbn [obind]. rewrite (i32_abs _ Cn). cbn [obind]. rewrite (i32_abs _ Cs). cbn [obind].
    rewrite (imod_ok (c + n) ex), (cmod_ok (c + n) ex), (imod_ok (c + n) (ex * ey)), (cmod_ok (c + n) (ex * ey)) by (clear - N T Exy Px; lia). cbn [obind].
    pose proof (Z.mod_pos_bound (c + n) (ex * ey) Exy).
    rewrite idiv_ok, cdiv_ok by (clear - H2 H5 Px; lia). reflexivity.
Qed.
Lemma end32 : it_end32 base w = it_end base w.
Proof.
  pose proof total_le as T. destruct F as (Fx & Fy & Fz). unfold it_end32. rewrite make32.
  pose proof (one_x ex ltac:(lia)). pose proof (one_y ey ltac:(lia)). pose proof (one_z ez ltac:(lia)). pose proof (two_xy ex ey ltac:(lia) ltac:(lia)).
  rewrite (u64_ok ex), (u64_ok ey), (u64_ok ez) by lia. rewrite (u64_ok (ex * ey)) by lia.
  change (ex * ey * ez) with total. rewrite u64_ok by lia. rewrite to_int_ok by lia.
  unfold it_end. rewrite (iter_at_0 base w Px Py). change (ex * ey * ez) with total. apply advance32; lia.
Qed.
End Window.
