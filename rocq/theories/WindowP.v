(** Proofs about index arithmetic, windows and iterators. *)
From Verif Require Import Prelude WindowM WindowS.

Lemma iv_ext (a b : ivec) : ix a = ix b -> iy a = iy b -> iz a = iz b -> a = b.
Proof. destruct a, b; cbn; intros; subst; reflexivity. Qed.

Lemma iv_eqb_eq a b : iv_eqb a b = true <-> a = b.
Proof.
  unfold iv_eqb. destruct a as [a1 a2 a3], b as [b1 b2 b3]; cbn.
  rewrite !andb_true_iff, !Z.eqb_eq. split.
  - intros [[-> ->] ->]. reflexivity.
  - intros H. injection H as -> -> ->. auto.
Qed.

(** Decomposition of a flat position. *)
Lemma flat_unique ex ey x y z : 0 < ex -> 0 < ey -> 0 <= x < ex -> 0 <= y < ey ->
  let c := x + ex * (y + ey * z) in
  c mod ex = x /\ c / ex = y + ey * z /\ (c / ex) mod ey = y /\ c / (ex * ey) = z
  /\ (c mod (ex * ey)) / ex = y.
Proof.
  intros Hex Hey Hx Hy c.
  assert (Hm : c mod ex = x).
  { symmetry. apply Z.mod_unique with (q := y + ey * z). lia. unfold c. ring. }
  assert (Hq : c / ex = y + ey * z).
  { symmetry. apply Z.div_unique with (r := x). lia. unfold c. ring. }
  assert (Hb : 0 <= x + ex * y < ex * ey).
  { assert (0 <= ex * y) by (apply Z.mul_nonneg_nonneg; lia).
    assert (ex * (y + 1) <= ex * ey) by (apply Z.mul_le_mono_nonneg_l; lia). lia. }
  repeat split; auto.
  - rewrite Hq. symmetry. apply Z.mod_unique with (q := z). lia. ring.
  - symmetry. apply Z.div_unique with (r := x + ex * y). lia. unfold c. ring.
  - assert (Hm2 : c mod (ex * ey) = x + ex * y).
    { symmetry. apply Z.mod_unique with (q := z). lia. unfold c. ring. }
    rewrite Hm2. symmetry. apply Z.div_unique with (r := x). lia. ring.
Qed.

Lemma flat_decomp ex ey c : 0 < ex -> 0 < ey ->
  c = c mod ex + ex * ((c / ex) mod ey + ey * (c / (ex * ey)))
  /\ 0 <= c mod ex < ex /\ 0 <= (c / ex) mod ey < ey.
Proof.
  intros Hex Hey. rewrite <- Z.div_div by lia.
  pose proof (Z.div_mod c ex ltac:(lia)) as H1.
  pose proof (Z.div_mod (c / ex) ey ltac:(lia)) as H2.
  pose proof (Z.mod_pos_bound c ex Hex). pose proof (Z.mod_pos_bound (c / ex) ey Hey).
  repeat split; try lia.
Qed.

Lemma flat_range ex ey ez x y z : 0 <= x < ex -> 0 <= y < ey -> 0 <= z < ez ->
  0 <= x + ex * (y + ey * z) < ex * ey * ez.
Proof.
  intros Hx Hy Hz.
  assert (0 <= ey * z) by (apply Z.mul_nonneg_nonneg; lia).
  assert (ey * (z + 1) <= ey * ez) by (apply Z.mul_le_mono_nonneg_l; lia).
  assert (0 <= y + ey * z /\ y + ey * z + 1 <= ey * ez) as [Ha Hb] by lia.
  assert (0 <= ex * (y + ey * z)) by (apply Z.mul_nonneg_nonneg; lia).
  assert (ex * (y + ey * z + 1) <= ex * (ey * ez)) by (apply Z.mul_le_mono_nonneg_l; lia).
  lia.
Qed.

Definition dec (ex ey c : Z) : ivec := IV (c mod ex) ((c / ex) mod ey) (c / (ex * ey)).

Lemma dec_flat ex ey x y z : 0 < ex -> 0 < ey -> 0 <= x < ex -> 0 <= y < ey ->
  dec ex ey (x + ex * (y + ey * z)) = IV x y z.
Proof.
  intros. destruct (flat_unique ex ey x y z) as (A & _ & B & C & _); try assumption.
  unfold dec. cbn zeta in *. rewrite A, B, C. reflexivity.
Qed.

Lemma dec_range ex ey ez c : 0 < ex -> 0 < ey -> 0 <= c < ex * ey * ez ->
  in_box (IV ex ey ez) (dec ex ey c).
Proof.
  intros Hex Hey Hc. destruct (flat_decomp ex ey c Hex Hey) as (_ & Hx & Hy).
  unfold in_box, dec; cbn. repeat split; try lia.
  - apply Z.div_pos; nia.
  - apply Z.div_lt_upper_bound; nia.
Qed.

(** ijk_to_flat / flat_to_ijk *)
Lemma ijk_to_flat_eq d p : ijk_to_flat d p = ix p + ix d * (iy p + iy d * iz p).
Proof. unfold ijk_to_flat. ring. Qed.

Lemma flat_to_ijk_eq d c : 0 < ix d -> 0 < iy d -> 0 <= c ->
  flat_to_ijk d c = Ok (dec (ix d) (iy d) c).
Proof.
  intros Hx Hy Hc. unfold flat_to_ijk, cmod, cdiv.
  destruct (ix d =? 0) eqn:E1; [lia|]. destruct (iy d =? 0) eqn:E2; [lia|].
  destruct (ix d * iy d =? 0) eqn:E3; [nia|]. cbn [obind].
  rewrite Z.quot_div_nonneg, Z.rem_mod_nonneg by lia.
  rewrite Z.rem_mod_nonneg by (try lia; apply Z.div_pos; lia).
  rewrite Z.quot_div_nonneg by nia. reflexivity.
Qed.

Lemma ijk_flat_inverse d p : in_box d p ->
  0 <= ijk_to_flat d p < ix d * iy d * iz d /\ flat_to_ijk d (ijk_to_flat d p) = Ok p.
Proof.
  intros (Hx & Hy & Hz). rewrite ijk_to_flat_eq.
  pose proof (flat_range _ _ _ _ _ _ Hx Hy Hz) as Hr. split; [exact Hr|].
  rewrite flat_to_ijk_eq by lia. f_equal.
  rewrite dec_flat by lia. destruct p; reflexivity.
Qed.

Lemma flat_ijk_inverse d c : pos_dims d -> 0 <= c < ix d * iy d * iz d ->
  exists p, flat_to_ijk d c = Ok p /\ in_box d p /\ ijk_to_flat d p = c.
Proof.
  intros (Hx & Hy & Hz) Hc. exists (dec (ix d) (iy d) c).
  split; [apply flat_to_ijk_eq; lia|]. split.
  - pose proof (dec_range (ix d) (iy d) (iz d) c Hx Hy Hc). destruct d; exact H.
  - rewrite ijk_to_flat_eq. cbn. symmetry. apply flat_decomp; lia.
Qed.

Lemma flat_monotone ex ey x y z x' y' z' :
  0 <= x < ex -> 0 <= y < ey -> 0 <= x' < ex -> 0 <= y' < ey ->
  before (IV x y z) (IV x' y' z') -> x + ex * (y + ey * z) < x' + ex * (y' + ey * z').
Proof.
  unfold before; cbn. intros Hx Hy Hx' Hy' [Hz | [<- [Hyy | [<- Hxx]]]].
  - assert (ey * (z + 1) <= ey * z') by (apply Z.mul_le_mono_nonneg_l; lia).
    assert (ex * (y + ey * z + 1) <= ex * (y' + ey * z')) by (apply Z.mul_le_mono_nonneg_l; lia). lia.
  - assert (ex * (y + ey * z + 1) <= ex * (y' + ey * z)) by (apply Z.mul_le_mono_nonneg_l; lia). lia.
  - lia.
Qed.

Lemma before_total p q : p = q \/ before p q \/ before q p.
Proof.
  unfold before. destruct p as [x y z], q as [x' y' z']; cbn.
  destruct (Z.lt_trichotomy z z') as [H|[->|H]]; [auto| |auto].
  destruct (Z.lt_trichotomy y y') as [H|[->|H]]; [auto 7| |auto 7].
  destruct (Z.lt_trichotomy x x') as [H|[->|H]]; auto 9.
Qed.

Lemma ijk_order d p q : in_box d p -> in_box d q ->
  (before p q <-> ijk_to_flat d p < ijk_to_flat d q).
Proof.
  intros Hp Hq.
  assert (M : forall a b, in_box d a -> in_box d b -> before a b -> ijk_to_flat d a < ijk_to_flat d b).
  { intros a b Ha Hb H. rewrite !ijk_to_flat_eq. unfold in_box in *.
    destruct a, b; apply flat_monotone; cbn in *; lia || exact H. }
  split; [apply M; assumption|]. intros H.
  destruct (before_total p q) as [->|[E|E]]; [lia|exact E|].
  pose proof (M _ _ Hq Hp E). lia.
Qed.

(** flat_index *)
Lemma flat_index_addr w p : fits w -> in_box (wext w) p -> flat_index w p = addr w p.
Proof.
  intros ((?&?&?)&(?&?&?)&(?&?&?)) (Hx&Hy&Hz). unfold flat_index, addr, ijk_to_flat.
  destruct (1 <? ix (wglob w)) eqn:E1, (1 <? iy (wglob w)) eqn:E2, (1 <? iz (wglob w)) eqn:E3;
    cbn [ix iy iz];
    try (replace (ix (wglob w)) with 1 by lia);
    try (replace (iy (wglob w)) with 1 by lia);
    try (replace (iz (wglob w)) with 1 by lia);
    try (replace (ix (woff w) + ix p) with 0 by lia);
    try (replace (iy (woff w) + iy p) with 0 by lia);
    try (replace (iz (woff w) + iz p) with 0 by lia); ring.
Qed.

Lemma addr_range w p : fits w -> in_box (wext w) p -> 0 <= addr w p < glob_npts w.
Proof.
  intros ((?&?&?)&(?&?&?)&(?&?&?)) (Hx&Hy&Hz). unfold addr, glob_npts.
  apply flat_range; lia.
Qed.

Lemma addr_lt w p q : fits w -> 0 < iz (wext w) ->
  0 <= ix p < ix (wext w) -> 0 <= iy p < iy (wext w) ->
  0 <= ix q < ix (wext w) -> 0 <= iy q < iy (wext w) ->
  before p q -> addr w p < addr w q.
Proof.
  intros ((?&?&?)&(?&?&?)&(?&?&?)) Hz Hpx Hpy Hqx Hqy Hbef. unfold addr.
  apply flat_monotone; try lia. unfold before in *; cbn. lia.
Qed.

Lemma addr_inj w p q : fits w -> in_box (wext w) p -> in_box (wext w) q ->
  addr w p = addr w q -> p = q.
Proof.
  intros F Hp Hq E.
  destruct Hp as (?&?&?). destruct Hq as (?&?&?).
  destruct (before_total p q) as [H'|[H'|H']]; [exact H'| |];
    apply (addr_lt w) in H'; try assumption; lia.
Qed.

(** Enumeration of a box *)
Lemma flat_map_flat_map {A B C} (f : B -> list C) (g : A -> list B) l :
  flat_map f (flat_map g l) = flat_map (fun a => flat_map f (g a)) l.
Proof. induction l as [|a l IH]; cbn; [reflexivity|]. rewrite flat_map_app, IH. reflexivity. Qed.

Lemma box_points_dec ex ey ez : 0 < ex -> 0 < ey -> 0 <= ez ->
  box_points (IV ex ey ez) = map (dec ex ey) (zrange (ex * ey * ez)).
Proof.
  intros Hx Hy Hz. unfold box_points; cbn [ix iy iz].
  replace (ex * ey * ez) with (ex * (ey * ez)) by ring.
  rewrite (zrange_mul ex (ey * ez)) by nia.
  rewrite (zrange_mul ey ez) by lia.
  rewrite flat_map_flat_map, map_flat_map.
  apply flat_map_ext_in. intros z Hz'. rewrite flat_map_map, map_flat_map.
  apply flat_map_ext_in. intros y Hy'. rewrite map_map. apply map_ext_in.
  intros x Hx'. apply in_zrange in Hx', Hy'. symmetry. apply dec_flat; lia.
Qed.

Lemma in_box_points e p : In p (box_points e) <-> in_box e p.
Proof.
  unfold box_points, in_box. rewrite in_flat_map. split.
  - intros (z & Hz & H). apply in_flat_map in H as (y & Hy & H).
    apply in_map_iff in H as (x & <- & Hx). apply in_zrange in Hx, Hy, Hz. cbn. lia.
  - intros (Hx & Hy & Hz). exists (iz p). split; [apply in_zrange; lia|].
    apply in_flat_map. exists (iy p). split; [apply in_zrange; lia|].
    apply in_map_iff. exists (ix p). split; [destruct p; reflexivity|apply in_zrange; lia].
Qed.

Lemma box_points_empty e : ix e <= 0 \/ iy e <= 0 \/ iz e <= 0 -> box_points e = [].
Proof.
  intros H. destruct (box_points e) as [|p l] eqn:E; [reflexivity|exfalso].
  assert (Hp : In p (box_points e)) by (rewrite E; left; reflexivity).
  apply in_box_points in Hp. unfold in_box in Hp. lia.
Qed.

Lemma box_points_NoDup e : NoDup (box_points e).
Proof.
  destruct (Z_lt_le_dec 0 (ix e)) as [Hx|Hx]; [|rewrite box_points_empty by lia; constructor].
  destruct (Z_lt_le_dec 0 (iy e)) as [Hy|Hy]; [|rewrite box_points_empty by lia; constructor].
  destruct (Z_lt_le_dec 0 (iz e)) as [Hz|Hz]; [|rewrite box_points_empty by lia; constructor].
  destruct e as [ex ey ez]; cbn in *. rewrite box_points_dec by lia.
  apply (NoDup_map_inv (fun p => ix p + ex * (iy p + ey * iz p))). rewrite map_map.
  rewrite map_ext_in with (g := fun x => x).
  - rewrite map_id. apply zrange_NoDup.
  - intros c Hc. cbn. symmetry. apply flat_decomp; lia.
Qed.

Lemma box_points_length e : 0 <= ix e -> 0 <= iy e -> 0 <= iz e ->
  Z.of_nat (length (box_points e)) = ix e * iy e * iz e.
Proof.
  intros Hx Hy Hz.
  destruct (Z.eq_dec (ix e) 0) as [E|Nx]; [rewrite box_points_empty by lia; cbn; rewrite E; ring|].
  destruct (Z.eq_dec (iy e) 0) as [E|Ny]; [rewrite box_points_empty by lia; cbn; rewrite E; ring|].
  destruct e as [ex ey ez]; cbn in *. rewrite box_points_dec by lia.
  rewrite map_length, zrange_length. nia.
Qed.

(** Iterators: closed form at a grid point. *)
Definition iter_pt (base : Z) (w : window) (p : ivec) : iter :=
  Iter (base + addr w p) (ix p + ix (wext w) * (iy p + iy (wext w) * iz p))
       (ix p) (iy p) (iz p)
       (ix (wglob w) - ix (wext w)) ((iy (wglob w) - iy (wext w)) * ix (wglob w))
       (ix (wext w)) (iy (wext w)) (iz (wext w)) (ix (wext w) * iy (wext w)).
Definition iter_at (base : Z) (w : window) (c : Z) : iter :=
  iter_pt base w (dec (ix (wext w)) (iy (wext w)) c).

Lemma iter_ext a b :
  icur a = icur b -> icnt a = icnt b -> ixi a = ixi b -> iyi a = iyi b -> izi a = izi b ->
  iystep a = iystep b -> izstep a = izstep b -> ixe a = ixe b -> iye a = iye b ->
  ize a = ize b -> ixye a = ixye b -> a = b.
Proof. destruct a, b; cbn; intros; subst; reflexivity. Qed.

Section ITER.
Variables (base : Z) (w : window).
Hypothesis Hx : 0 < ix (wext w).
Hypothesis Hy : 0 < iy (wext w).

Lemma iter_at_pt x y z : 0 <= x < ix (wext w) -> 0 <= y < iy (wext w) ->
  iter_at base w (x + ix (wext w) * (y + iy (wext w) * z)) = iter_pt base w (IV x y z).
Proof. intros. unfold iter_at. rewrite dec_flat by lia. reflexivity. Qed.

Lemma iter_at_0 : it_make base w = iter_at base w 0.
Proof.
  replace 0 with (0 + ix (wext w) * (0 + iy (wext w) * 0)) by ring.
  rewrite iter_at_pt by lia. unfold iter_pt, it_make, addr; cbn.
  apply iter_ext; cbn; try reflexivity; ring.
Qed.

Lemma iter_at_cases c : exists x y z, 0 <= x < ix (wext w) /\ 0 <= y < iy (wext w) /\
  c = x + ix (wext w) * (y + iy (wext w) * z).
Proof.
  destruct (flat_decomp (ix (wext w)) (iy (wext w)) c Hx Hy) as (E & A & B).
  eexists _, _, _. split; [exact A|]. split; [exact B|]. exact E.
Qed.

Lemma iter_at_incr c : it_incr (iter_at base w c) = iter_at base w (c + 1).
Proof.
  destruct (iter_at_cases c) as (x & y & z & Bx & By & ->).
  rewrite iter_at_pt by lia. unfold it_incr, iter_pt at 1 2 3 4 5; cbn [ixi iyi izi icur icnt ixe iye ix iy iz iystep izstep ize ixye].
  destruct (x + 1 =? ix (wext w)) eqn:E1; [destruct (y + 1 =? iy (wext w)) eqn:E2|].
  - replace (x + ix (wext w) * (y + iy (wext w) * z) + 1)
      with (0 + ix (wext w) * (0 + iy (wext w) * (z + 1))) by nia.
    rewrite iter_at_pt by lia. unfold iter_pt, addr.
    apply iter_ext; cbn; try reflexivity; nia.
  - replace (x + ix (wext w) * (y + iy (wext w) * z) + 1)
      with (0 + ix (wext w) * ((y + 1) + iy (wext w) * z)) by nia.
    rewrite iter_at_pt by lia. unfold iter_pt, addr.
    apply iter_ext; cbn; try reflexivity; nia.
  - replace (x + ix (wext w) * (y + iy (wext w) * z) + 1)
      with ((x + 1) + ix (wext w) * (y + iy (wext w) * z)) by nia.
    rewrite iter_at_pt by lia. unfold iter_pt, addr.
    apply iter_ext; cbn; try reflexivity; nia.
Qed.

Lemma iter_at_decr c : it_decr (iter_at base w (c + 1)) = iter_at base w c.
Proof.
  destruct (iter_at_cases (c + 1)) as (x & y & z & Bx & By & E).
  replace c with (x + ix (wext w) * (y + iy (wext w) * z) - 1) by lia.
  replace (_ - 1 + 1) with (x + ix (wext w) * (y + iy (wext w) * z)) by lia.
  rewrite (iter_at_pt x y z) by lia. unfold it_decr, iter_pt at 1 2 3 4 5; cbn [ixi iyi izi icur icnt ixe iye ix iy iz iystep izstep ize ixye].
  destruct (x - 1 =? -1) eqn:E1; [destruct (y - 1 =? -1) eqn:E2|].
  - replace (x + ix (wext w) * (y + iy (wext w) * z) - 1)
      with ((ix (wext w) - 1) + ix (wext w) * ((iy (wext w) - 1) + iy (wext w) * (z - 1))) by nia.
    rewrite iter_at_pt by lia. unfold iter_pt, addr.
    apply iter_ext; cbn; try reflexivity; nia.
  - replace (x + ix (wext w) * (y + iy (wext w) * z) - 1)
      with ((ix (wext w) - 1) + ix (wext w) * ((y - 1) + iy (wext w) * z)) by nia.
    rewrite iter_at_pt by lia. unfold iter_pt, addr.
    apply iter_ext; cbn; try reflexivity; nia.
  - replace (x + ix (wext w) * (y + iy (wext w) * z) - 1)
      with ((x - 1) + ix (wext w) * (y + iy (wext w) * z)) by nia.
    rewrite iter_at_pt by lia. unfold iter_pt, addr.
    apply iter_ext; cbn; try reflexivity; nia.
Qed.

Lemma iter_at_advance c n : 0 <= c -> 0 <= c + n ->
  it_advance (iter_at base w c) n = Ok (iter_at base w (c + n)).
Proof.
  intros Hc Hn. 
  destruct (iter_at_cases c) as (x & y & z & Bx & By & Ec).
  assert (Hat : iter_at base w c = iter_pt base w (IV x y z)) by (rewrite Ec; apply iter_at_pt; lia).
  rewrite Hat. unfold it_advance, iter_pt; cbn [ixi iyi izi icur icnt ixe iye ix iy iz iystep izstep ize ixye].
  rewrite <- Ec.
  destruct (_ || _) eqn:Ef.
  - replace (c + n) with ((x + n) + ix (wext w) * (y + iy (wext w) * z)) by lia.
    rewrite iter_at_pt by lia. f_equal. unfold iter_pt, addr.
    apply iter_ext; cbn; try reflexivity; lia.
  - assert (Hxy : 0 < ix (wext w) * iy (wext w)) by nia.
    unfold cdiv, cmod.
    destruct (ix (wext w) =? 0) eqn:E1; [lia|].
    destruct (ix (wext w) * iy (wext w) =? 0) eqn:E2; [lia|]. cbn [obind].
    destruct (iter_at_cases (c + n)) as (x' & y' & z' & Bx' & By' & Ec').
    destruct (flat_unique _ _ x y z Hx Hy Bx By) as (A1 & A2 & A3 & A4 & A5).
    destruct (flat_unique _ _ x' y' z' Hx Hy Bx' By') as (B1 & B2 & B3 & B4 & B5).
    cbn zeta in *. rewrite <- Ec in A1, A2, A3, A4, A5. rewrite <- Ec' in B1, B2, B3, B4, B5.
    rewrite !(Z.quot_div_nonneg (c + n)), !(Z.rem_mod_nonneg (c + n)) by lia.
    rewrite !(Z.quot_div_nonneg c) by lia.
    rewrite Z.quot_div_nonneg by (try lia; apply Z.mod_pos_bound; lia).
    rewrite A2, A4, B1, B2, B4, B5. rewrite Ec' at 2. rewrite iter_at_pt by lia.
    f_equal. unfold iter_pt, addr. apply iter_ext; cbn; try reflexivity; try lia.

Qed.

Lemma iter_at_cnt c : icnt (iter_at base w c) = c.
Proof.
  unfold iter_at, iter_pt, dec; cbn. symmetry. apply flat_decomp; assumption.
Qed.

Lemma iter_at_iter n c : Nat.iter n it_incr (iter_at base w c) = iter_at base w (c + Z.of_nat n).
Proof.
  induction n as [|n IH]; cbn [Nat.iter nat_rect]; [f_equal; lia|].
  change (nat_rect _ _ _ n) with (Nat.iter n it_incr (iter_at base w c)).
  rewrite IH, iter_at_incr. f_equal. lia.
Qed.

Hypothesis F : fits w.

Lemma iter_at_lt a b : 0 <= a -> a < b -> icur (iter_at base w a) < icur (iter_at base w b).
Proof.
  intros Ha Hab. unfold iter_at, iter_pt; cbn [icur].
  destruct (flat_decomp (ix (wext w)) (iy (wext w)) a Hx Hy) as (Ea & A1 & A2).
  destruct (flat_decomp (ix (wext w)) (iy (wext w)) b Hx Hy) as (Eb & B1 & B2).
  destruct (before_total (dec (ix (wext w)) (iy (wext w)) a) (dec (ix (wext w)) (iy (wext w)) b)) as [E|[E|E]].
  - unfold dec in E. injection E as E1 E2 E3. rewrite E1, E2, E3 in Ea. lia.
  - destruct F as ((?&?&?)&(?&?&?)&(?&?&?)).
    apply Z.add_lt_mono_l. unfold addr. apply flat_monotone; cbn; try lia.
    unfold before, dec in *; cbn in *. lia.
  - exfalso. unfold dec in E.
    apply (flat_monotone (ix (wext w)) (iy (wext w))) in E; try assumption. lia.
Qed.

Lemma iter_at_cmp a b : 0 <= a -> 0 <= b ->
  (icur (iter_at base w a) ?= icur (iter_at base w b)) = (a ?= b).
Proof.
  intros Ha Hb. destruct (Z.compare_spec a b) as [->|H|H].
  - apply Z.compare_refl.
  - apply Z.compare_lt_iff. apply iter_at_lt; lia.
  - apply Z.compare_gt_iff. apply iter_at_lt; lia.
Qed.

Lemma iter_at_eqb a b : 0 <= a -> 0 <= b ->
  it_eqb (iter_at base w a) (iter_at base w b) = (a =? b).
Proof.
  intros Ha Hb. unfold it_eqb. rewrite !Z.eqb_compare, iter_at_cmp by assumption. reflexivity.
Qed.

Hypothesis Hz : 0 <= iz (wext w).

Lemma it_end_at : it_end base w = Ok (iter_at base w (local_npts w)).
Proof.
  unfold it_end, local_npts. rewrite iter_at_0. rewrite iter_at_advance; [f_equal; f_equal; lia|lia|nia].
Qed.

Lemma it_loop_at n c e : 0 <= c -> c + Z.of_nat n = e ->
  it_loop n (iter_at base w c) (iter_at base w e)
  = Some (map (fun j => iter_at base w (c + Z.of_nat j)) (seq 0 n)).
Proof.
  revert c. induction n as [|n IH]; intros c Hc He; cbn [it_loop seq map].
  - rewrite iter_at_eqb by lia. replace (c =? e) with true by lia. reflexivity.
  - rewrite iter_at_eqb by lia. replace (c =? e) with false by lia.
    rewrite iter_at_incr, IH by lia. cbn. do 2 f_equal; [f_equal; lia|].
    rewrite <- seq_shift, map_map. apply map_ext. intros j. f_equal. lia.
Qed.
End ITER.

Definition nonempty (w : window) : Prop := 0 < ix (wext w) /\ 0 < iy (wext w) /\ 0 < iz (wext w).

Lemma iter_at_visits base w : nonempty w ->
  map (fun c => iter_at base w c) (zrange (local_npts w)) = map (iter_pt base w) (box_points (wext w)).
Proof.
  intros (Hx & Hy & Hz). unfold iter_at, local_npts. destruct (wext w) as [ex ey ez] eqn:E; cbn in *.
  rewrite box_points_dec by lia. rewrite map_map. reflexivity.
Qed.

Lemma it_loop_visits base w : fits w -> nonempty w -> exists e,
  it_end base w = Ok e /\
  it_loop (length (box_points (wext w))) (it_begin base w) e
  = Some (map (iter_pt base w) (box_points (wext w))).
Proof.
  intros F (Hx & Hy & Hz). exists (iter_at base w (local_npts w)).
  split; [apply it_end_at; lia|].
  unfold it_begin. rewrite iter_at_0 by assumption.
  pose proof (box_points_length (wext w) ltac:(lia) ltac:(lia) ltac:(lia)) as L.
  assert (L0 : 0 + Z.of_nat (length (box_points (wext w))) = local_npts w) by (unfold local_npts; lia).
  rewrite it_loop_at by (assumption || lia).
  rewrite <- iter_at_visits by (repeat split; assumption). f_equal.
  unfold zrange. rewrite map_map. unfold local_npts.
  replace (Z.to_nat _) with (length (box_points (wext w))) by lia.
  apply map_ext. intros j. f_equal.
Qed.

Lemma it_loop_fuel_mono n m it e l : it_loop n it e = Some l -> (n <= m)%nat -> it_loop m it e = Some l.
Proof.
  revert m it l. induction n as [|n IH]; intros m it l H Hm.
  - destruct m; cbn in *; destruct (it_eqb it e); congruence.
  - destruct m as [|m]; [lia|]. cbn in *. destruct (it_eqb it e); [assumption|].
    destruct (it_loop n (it_incr it) e) as [l'|] eqn:E; [|discriminate].
    rewrite (IH m _ l') by (assumption || lia). exact H.
Qed.

Lemma it_deref_ok_pt base w p : in_box (wext w) p -> it_deref_ok (iter_pt base w p) = true.
Proof.
  intros (Hx & Hy & Hz). unfold it_deref_ok, iter_pt; cbn.
  apply andb_true_iff. split; [apply Z.eqb_eq; ring|lia].
Qed.

(** refine, one direction *)
Definition roff (off ext split loc : Z) := off + ext / split * loc + (if loc <? ext mod split then loc else ext mod split).
Definition rext (ext split loc : Z) := ext / split + (if loc <? ext mod split then 1 else 0).

Lemma refine_off1_eq off ext split loc : 0 <= ext -> 0 < split ->
  refine_off1 off ext split loc = Ok (roff off ext split loc).
Proof.
  intros. unfold refine_off1, cmod, cdiv, roff. destruct (split =? 0) eqn:E; [lia|].
  cbn. rewrite Z.rem_mod_nonneg, Z.quot_div_nonneg by lia. reflexivity.
Qed.
Lemma refine_ext1_eq ext split loc : 0 <= ext -> 0 < split ->
  refine_ext1 ext split loc = Ok (rext ext split loc).
Proof.
  intros. unfold refine_ext1, cmod, cdiv, rext. destruct (split =? 0) eqn:E; [lia|].
  cbn. rewrite Z.rem_mod_nonneg, Z.quot_div_nonneg by lia. reflexivity.
Qed.

Lemma roff_step off ext split loc : roff off ext split (loc + 1) = roff off ext split loc + rext ext split loc.
Proof.
  unfold roff, rext. destruct (loc <? ext mod split) eqn:E1, (loc + 1 <? ext mod split) eqn:E2; lia || nia.
Qed.
Lemma roff_0 off ext split : 0 < split -> roff off ext split 0 = off.
Proof.
  intros. unfold roff. pose proof (Z.mod_pos_bound ext split H).
  destruct (0 <? ext mod split) eqn:E; lia.
Qed.
Lemma roff_end off ext split : 0 < split -> roff off ext split split = off + ext.
Proof.
  intros. unfold roff. pose proof (Z.mod_pos_bound ext split H).
  destruct (split <? ext mod split) eqn:E; [lia|].
  pose proof (Z.div_mod ext split). nia.
Qed.
Lemma rext_nonneg ext split loc : 0 <= ext -> 0 < split -> 0 <= rext ext split loc.
Proof.
  intros. unfold rext. pose proof (Z.div_pos ext split). destruct (loc <? ext mod split); lia.
Qed.
Lemma rext_pos ext split loc : 0 < split <= ext -> 0 < rext ext split loc.
Proof.
  intros. unfold rext. pose proof (Z.div_str_pos ext split). destruct (loc <? ext mod split); lia.
Qed.
Lemma rext_even ext split a b : rext ext split a <= rext ext split b + 1.
Proof. unfold rext. destruct (a <? ext mod split), (b <? ext mod split); lia. Qed.

Lemma roff_mono off ext split a b : 0 <= ext -> 0 < split -> a <= b ->
  roff off ext split a <= roff off ext split b.
Proof.
  intros He Hs Hab. replace b with (a + Z.of_nat (Z.to_nat (b - a))) by lia.
  generalize (Z.to_nat (b - a)) as n. induction n as [|n IH]; [rewrite Z.add_0_r; lia|].
  replace (a + Z.of_nat (S n)) with (a + Z.of_nat n + 1) by lia. rewrite roff_step.
  pose proof (rext_nonneg ext split (a + Z.of_nat n) He Hs). lia.
Qed.

(** Intervals tile. *)
Lemma tile1 off ext split v : 0 <= ext -> 0 < split ->
  (off <= v < off + ext) <->
  (exists l, 0 <= l < split /\ roff off ext split l <= v < roff off ext split l + rext ext split l).
Proof.
  intros He Hs. split.
  - intros Hv.
    assert (G : forall n : nat, Z.of_nat n <= split -> v < roff off ext split (Z.of_nat n) ->
       exists l, 0 <= l < split /\ roff off ext split l <= v < roff off ext split l + rext ext split l).
    { induction n as [|n IH]; intros Hn Hlt.
      - rewrite roff_0 in Hlt by assumption. lia.
      - destruct (Z_lt_le_dec v (roff off ext split (Z.of_nat n))) as [H|H]; [apply IH; lia|].
        exists (Z.of_nat n). rewrite <- roff_step.
        replace (Z.of_nat n + 1) with (Z.of_nat (S n)) by lia. lia. }
    apply (G (Z.to_nat split)); [lia|]. rewrite Z2Nat.id by lia. rewrite roff_end by assumption. lia.
  - intros (l & Hl & Hv). rewrite <- roff_step in Hv.
    pose proof (roff_mono off ext split 0 l He Hs ltac:(lia)) as H0. rewrite roff_0 in H0 by assumption.
    pose proof (roff_mono off ext split (l + 1) split He Hs ltac:(lia)) as H1. rewrite roff_end in H1 by assumption.
    lia.
Qed.

Lemma tile1_unique off ext split v a b : 0 <= ext -> 0 < split ->
  roff off ext split a <= v < roff off ext split a + rext ext split a ->
  roff off ext split b <= v < roff off ext split b + rext ext split b -> a = b.
Proof.
  intros He Hs Ha Hb. rewrite <- roff_step in Ha, Hb.
  destruct (Z.lt_trichotomy a b) as [H|[H|H]]; [|exact H|].
  - pose proof (roff_mono off ext split (a + 1) b He Hs ltac:(lia)). lia.
  - pose proof (roff_mono off ext split (b + 1) a He Hs ltac:(lia)). lia.
Qed.

Definition refined (w : window) (s l : ivec) : window :=
  Win (wglob w)
   (IV (roff (ix (woff w)) (ix (wext w)) (ix s) (ix l))
       (roff (iy (woff w)) (iy (wext w)) (iy s) (iy l))
       (roff (iz (woff w)) (iz (wext w)) (iz s) (iz l)))
   (IV (rext (ix (wext w)) (ix s) (ix l)) (rext (iy (wext w)) (iy s) (iy l)) (rext (iz (wext w)) (iz s) (iz l))).

Lemma refine_eq w s l : 0 <= ix (wext w) -> 0 <= iy (wext w) -> 0 <= iz (wext w) -> pos_dims s ->
  refine w s l = Ok (refined w s l).
Proof.
  intros Hx Hy Hz (Sx & Sy & Sz). unfold refine.
  rewrite !refine_off1_eq, !refine_ext1_eq by lia. reflexivity.
Qed.

Lemma refined_tile w s p : 0 <= ix (wext w) -> 0 <= iy (wext w) -> 0 <= iz (wext w) -> pos_dims s ->
  covers w p <-> (exists l, in_box s l /\ covers (refined w s l) p).
Proof.
  intros Hx Hy Hz (Sx & Sy & Sz). unfold covers, in_box, refined; cbn.
  rewrite (tile1 (ix (woff w)) (ix (wext w)) (ix s)) by lia.
  rewrite (tile1 (iy (woff w)) (iy (wext w)) (iy s)) by lia.
  rewrite (tile1 (iz (woff w)) (iz (wext w)) (iz s)) by lia.
  split.
  - intros ((a & Ha & A) & (b & Hb & B) & (c & Hc & C)). exists (IV a b c). cbn. tauto.
  - intros (l & (Ha & Hb & Hc) & A & B & C). repeat split; eexists; split; eassumption || idtac.
Qed.

Lemma refined_unique w s p l l' : 0 <= ix (wext w) -> 0 <= iy (wext w) -> 0 <= iz (wext w) -> pos_dims s ->
  covers (refined w s l) p -> covers (refined w s l') p -> l = l'.
Proof.
  intros Hx Hy Hz (Sx & Sy & Sz) (A & B & C) (A' & B' & C'). unfold refined in *; cbn in *.
  apply iv_ext.
  - eapply (tile1_unique (ix (woff w)) (ix (wext w))); [| |exact A|exact A']; lia.
  - eapply (tile1_unique (iy (woff w)) (iy (wext w))); [| |exact B|exact B']; lia.
  - eapply (tile1_unique (iz (woff w)) (iz (wext w))); [| |exact C|exact C']; lia.
Qed.

Lemma roff_bounds off ext split l : 0 <= ext -> 0 < split -> 0 <= l < split ->
  off <= roff off ext split l /\ roff off ext split l + rext ext split l <= off + ext.
Proof.
  intros He Hs Hl.
  pose proof (roff_mono off ext split 0 l He Hs ltac:(lia)) as H0. rewrite roff_0 in H0 by assumption.
  pose proof (roff_mono off ext split (l + 1) split He Hs ltac:(lia)) as H1.
  rewrite roff_end, roff_step in H1 by assumption. lia.
Qed.

Lemma refined_fits w s l : fits w -> pos_dims s -> in_box s l -> fits (refined w s l).
Proof.
  intros ((?&?&?)&(?&?&?)&(?&?&?)) (Sx & Sy & Sz) (Lx & Ly & Lz).
  pose proof (roff_bounds (ix (woff w)) (ix (wext w)) (ix s) (ix l)).
  pose proof (roff_bounds (iy (woff w)) (iy (wext w)) (iy s) (iy l)).
  pose proof (roff_bounds (iz (woff w)) (iz (wext w)) (iz s) (iz l)).
  pose proof (rext_nonneg (ix (wext w)) (ix s) (ix l)).
  pose proof (rext_nonneg (iy (wext w)) (iy s) (iy l)).
  pose proof (rext_nonneg (iz (wext w)) (iz s) (iz l)).
  unfold fits, refined; cbn. lia.
Qed.

(** Lemmas in the shape used by PropsWindow.v. *)
Lemma flat_index_facts w : fits w ->
  (forall p, in_box (wext w) p ->
     flat_index w p = addr w p /\ 0 <= flat_index w p < glob_npts w) /\
  (forall p q, in_box (wext w) p -> in_box (wext w) q ->
     flat_index w p = flat_index w q -> p = q).
Proof.
  intros F. split.
  - intros p Hp. rewrite flat_index_addr by assumption. split; [reflexivity|apply addr_range; assumption].
  - intros p q Hp Hq. rewrite !flat_index_addr by assumption. apply addr_inj; assumption.
Qed.

Lemma refine_partitions w s :
  0 < ix s <= ix (wext w) -> 0 < iy s <= iy (wext w) -> 0 < iz s <= iz (wext w) ->
  exists sub : ivec -> window,
    (forall l, in_box s l -> refine w s l = Ok (sub l)) /\
    (forall p, covers w p -> exists! l, in_box s l /\ covers (sub l) p) /\
    (forall l p, in_box s l -> covers (sub l) p -> covers w p) /\
    (forall l, in_box s l -> wglob (sub l) = wglob w /\ (fits w -> fits (sub l)) /\
       0 < ix (wext (sub l)) /\ 0 < iy (wext (sub l)) /\ 0 < iz (wext (sub l))) /\
    (forall l m, in_box s l -> in_box s m ->
       ix (wext (sub l)) <= ix (wext (sub m)) + 1 /\
       iy (wext (sub l)) <= iy (wext (sub m)) + 1 /\
       iz (wext (sub l)) <= iz (wext (sub m)) + 1).
Proof.
  intros Sx Sy Sz. assert (Hs : pos_dims s) by (repeat split; lia).
  exists (refined w s). split; [|split; [|split; [|split]]].
  - intros l Hl. apply refine_eq; lia || assumption.
  - intros p Hp. apply (refined_tile w s) in Hp; try lia; try assumption.
    destruct Hp as (l & Hl & Hc). exists l. split; [tauto|].
    intros l' (_ & Hc'). eapply refined_unique; try eassumption; lia.
  - intros l p Hl Hc. apply (refined_tile w s); try lia; try assumption. exists l; auto.
  - intros l Hl. split; [reflexivity|]. split; [intros F; apply refined_fits; assumption|].
    unfold refined; cbn. repeat split; apply rext_pos; lia.
  - intros l m _ _. unfold refined; cbn. repeat split; apply rext_even.
Qed.

Lemma forward_iteration base w : fits w -> nonempty w ->
  exists e its,
    it_end base w = Ok e /\
    it_loop (length its) (it_begin base w) e = Some its /\
    (forall n, (n < length its)%nat -> it_loop n (it_begin base w) e = None) /\
    Z.of_nat (length its) = ix (wext w) * iy (wext w) * iz (wext w) /\
    map icur its = map (fun p => base + flat_index w p) (box_points (wext w)) /\
    map it_location its = box_points (wext w) /\
    Forall (fun it => it_deref_ok it = true) its /\
    Forall (fun it => base <= icur it < base + glob_npts w) its.
Proof.
  intros F N. destruct (it_loop_visits base w F N) as (e & He & Hl).
  exists e, (map (iter_pt base w) (box_points (wext w))).
  rewrite map_length. split; [exact He|]. split; [exact Hl|].
  destruct N as (Nx & Ny & Nz). split; [|split; [|split; [|split; [|split]]]].
  - intros n Hn. destruct (it_loop n (it_begin base w) e) as [l|] eqn:E; [|reflexivity].
    exfalso. pose proof (it_loop_fuel_mono _ _ _ _ _ E (Nat.lt_le_incl _ _ Hn)) as E'.
    rewrite Hl in E'. injection E' as E'.
    assert (forall n it l, it_loop n it e = Some l -> (length l <= n)%nat) as Hlen.
    { clear. induction n as [|n IH]; intros it l; cbn; destruct (it_eqb it e).
      - intros H; injection H as <-; cbn; lia.
      - discriminate.
      - intros H; injection H as <-; cbn; lia.
      - destruct (it_loop n (it_incr it) e) as [l'|] eqn:E; [|discriminate].
        intros H; injection H as <-. cbn. apply IH in E. lia. }
    apply Hlen in E. rewrite <- E', map_length in E. lia.
  - apply box_points_length; lia.
  - rewrite map_map. apply map_ext_in. intros p Hp. apply in_box_points in Hp.
    rewrite flat_index_addr by assumption. reflexivity.
  - rewrite map_map. rewrite <- (map_id (box_points (wext w))) at 2. apply map_ext.
    intros [x y z]. reflexivity.
  - apply Forall_map, Forall_forall. intros p Hp. apply in_box_points in Hp.
    apply it_deref_ok_pt, Hp.
  - apply Forall_map, Forall_forall. intros p Hp. apply in_box_points in Hp. cbn.
    pose proof (addr_range w p F Hp). lia.
Qed.

Lemma random_access base w c n : fits w -> nonempty w ->
  let at_ k := Nat.iter (Z.to_nat k) it_incr (it_begin base w) in
  0 <= c <= local_npts w -> 0 <= c + n <= local_npts w ->
  it_advance (at_ c) n = Ok (at_ (c + n)) /\
  it_retreat (at_ c) (- n) = Ok (at_ (c + n)) /\
  it_diff (at_ (c + n)) (at_ c) = n /\
  it_decr (it_incr (at_ c)) = at_ c /\
  (0 < c -> it_incr (it_decr (at_ c)) = at_ c /\ it_decr (at_ c) = at_ (c - 1)) /\
  it_eqb (at_ c) (at_ (c + n)) = (0 =? n) /\
  it_ltb (at_ c) (at_ (c + n)) = (0 <? n) /\
  it_leb (at_ c) (at_ (c + n)) = (0 <=? n) /\
  it_gtb (at_ c) (at_ (c + n)) = (n <? 0) /\
  it_geb (at_ c) (at_ (c + n)) = (n <=? 0).
Proof.
  intros F (Nx & Ny & Nz) at_ Hc Hn.
  assert (A : forall k, 0 <= k -> at_ k = iter_at base w k).
  { intros k Hk. unfold at_, it_begin. rewrite iter_at_0, iter_at_iter by assumption.
    f_equal. lia. }
  rewrite (A c), (A (c + n)) by lia. unfold it_retreat. rewrite Z.opp_involutive.
  rewrite iter_at_advance by lia.
  split; [reflexivity|]. split; [reflexivity|].
  split; [unfold it_diff; rewrite !iter_at_cnt by assumption; lia|].
  split; [rewrite iter_at_incr, iter_at_decr by assumption; reflexivity|].
  split.
  { intros Hp. replace c with (c - 1 + 1) at 1 3 by lia. rewrite iter_at_decr by assumption.
    rewrite iter_at_incr by assumption. rewrite A by lia. split; f_equal; lia. }
  unfold it_eqb, it_ltb, it_leb, it_gtb, it_geb.
  destruct (Z.lt_trichotomy n 0) as [G|[G|G]].
  - pose proof (iter_at_lt base w Nx Ny F (c + n) c ltac:(lia) ltac:(lia)). lia.
  - subst n. rewrite Z.add_0_r. lia.
  - pose proof (iter_at_lt base w Nx Ny F c (c + n) ltac:(lia) ltac:(lia)). lia.
Qed.

Lemma end_of_empty_ub base w : ix (wext w) = 0 \/ iy (wext w) = 0 -> it_end base w = UB.
Proof.
  intros H. unfold it_end, it_advance, it_make; cbn [icur icnt ixi ixe ixye iystep izstep].
  replace (ix (wext w) * iy (wext w) * iz (wext w)) with 0 by (destruct H as [-> | ->]; ring).
  cbn [Z.ltb Z.compare andb orb Z.opp Z.add]. unfold cdiv.
  destruct (ix (wext w) =? 0) eqn:E; [reflexivity|]. cbn [obind].
  replace (ix (wext w) * iy (wext w)) with 0 by (destruct H as [-> | ->]; ring). reflexivity.
Qed.

Lemma end_of_empty_z base w : 0 < ix (wext w) -> 0 < iy (wext w) -> iz (wext w) = 0 ->
  it_end base w = Ok (it_begin base w).
Proof.
  intros Hx Hy Hz. rewrite it_end_at by lia. unfold it_begin. rewrite iter_at_0 by assumption.
  unfold local_npts. rewrite Hz. do 2 f_equal. ring.
Qed.

