(** Reductions of fields of doubles: instances and counterexamples. *)
From Coq Require Import Reals Lra Lia.
From Flocq Require Import Core.
From Verif Require Import Prelude WindowM WindowS WindowP GhostM FieldM FieldS MaskM NeboM NeboS NeboP NeboQ NeboA NeboB NeboC NeboD NeboE NeboF IterP RoundM RoundS RoundP RoundQ RoundR RoundU RoundV RoundE RedM RedS RedP RedQ.
Open Scope R_scope.

Notation ex := (EField dbl xs).
(** Memory in which each cell of every field holds what g says. *)
Definition heap_of (g : Z -> dbl) : heap dbl := fun b => Block (fun i => (0 <=? i)%Z && (i <? 200)%Z) g.
Lemma ex_known p : expr_known dbl xdim ex p <-> (-2 <= ix p <= 4 /\ -2 <= iy p <= 3 /\ iz p = 0)%Z.
Proof.
  split.
  - intros K. specialize (K _ _ _ (or_introl eq_refl) p). unfold known, in_region, iv_le in K. cbn in K. destruct p as [x y z]. cbn in *.
    assert (H : (x - 0 <= x /\ y - 0 <= y /\ z - 0 <= z)%Z) by lia. assert (H' : (x <= x + 0 /\ y <= y + 0 /\ z <= z + 0)%Z) by lia.
    specialize (K H H'). lia.
  - intros K l m u I q L U. cbn in I. unfold known, in_region, iv_le in *. destruct I as [E|[]]. injection E as <- <- <-. cbn in *. lia.
Qed.
Lemma ex_reducible i g : reducible i xdim (heap_of g) ex.
Proof.
  split.
  - split; [|split; [intros m s []|intros f []]]. intros f s [E|[]]. injection E as <- <-.
    split; [apply user_field_on_patch, user_xs|intros p P; apply xcell_ok; cbn; auto].
  - split; [reflexivity|]. destruct i.
    + split; [repeat split; cbn; lia|]. intros p (A & B & C). apply ex_known. cbn in *. lia.
    + exists (IV 0 0 0). apply ex_known. cbn. lia.
Qed.
Definition ex_cells (i : bool) : list ivec :=
  if i then box_points xdim else map (iv_add (IV (-2) (-2) 0)) (box_points (IV 7 6 1)).
Lemma ex_once i : each_once (covered i xdim ex) (ex_cells i).
Proof.
  destruct i; unfold covered, ex_cells.
  - split; [apply box_points_NoDup|intros p; apply in_box_points].
  - split.
    + apply FinFun.Injective_map_NoDup; [|apply box_points_NoDup]. intros [x y z] [x' y' z']. unfold iv_add. cbn [ix iy iz]. intros E.
      pose proof (f_equal ix E). pose proof (f_equal iy E). pose proof (f_equal iz E). cbn [ix iy iz] in *. f_equal; lia.
    + intros p. unfold covered. rewrite ex_known, in_map_iff. split.
      * intros ([x y z] & <- & I). apply in_box_points in I. unfold in_box, iv_add in *. cbn [ix iy iz] in *. lia.
      * intros K. exists (iv_add (IV 2 2 0) p). split; [destruct p as [x y z]; unfold iv_add; cbn [ix iy iz]; f_equal; lia|].
        apply in_box_points. destruct p as [x y z]. unfold in_box, iv_add in *. cbn [ix iy iz] in *. lia.
Qed.
Definition ex_first (i : bool) : ivec := if i then IV 0 0 0 else IV (-2) (-2) 0.
Lemma ex_first_cell i : first_cell (covered i xdim ex) (ex_first i).
Proof.
  destruct i; unfold covered, ex_first.
  - split; [unfold in_box; cbn; lia|]. intros [x y z] (A & B & C). cbn in *. unfold before. cbn.
    destruct (Z.eq_dec z 0); [|right; lia]. destruct (Z.eq_dec y 0); [|right; lia]. destruct (Z.eq_dec x 0); [left; f_equal; lia|right; lia].
  - split; [apply ex_known; cbn; lia|]. intros [x y z] K. apply ex_known in K. cbn in *. unfold before. cbn.
    destruct (Z.eq_dec y (-2)); [|right; lia]. destruct (Z.eq_dec x (-2)); [left; f_equal; lia|right; lia].
Qed.
Lemma heap64_is : heap64 = heap_of (fun i => if Z.even i then d_one else d3).
Proof. reflexivity. Qed.
Lemma ex_values p : finite (den64 heap64 ex p) /\ (val (den64 heap64 ex p) = 0 \/ powerRZ 2 (-500) <= Rabs (val (den64 heap64 ex p))) /\
  Rabs (val (den64 heap64 ex p)) <= 3.
Proof.
  destruct (heap64_values p) as (F & _ & B). change (value dbl heap64 xs p) with (den64 heap64 ex p) in *. split; [exact F|].
  rewrite Rabs_pos_eq by lra. split; [|lra]. right. rewrite p2. apply Rle_trans with (bpow radix2 0); [apply bpow_le; lia|change (bpow radix2 0) with 1; lra].
Qed.
Lemma ex_ints p : val (den64 heap64 ex p) = IZR (if Z.even (cell xs p) then 1 else 3).
Proof.
  change (den64 heap64 ex p) with (if Z.even (cell xs p) then d_one else d3). destruct (Z.even _); [apply one_val|apply val_d3].
Qed.
Lemma rsum_const l (f : ivec -> R) c : (forall p, 0 <= f p <= c) -> 0 <= rsum (map f l) <= INR (length l) * c.
Proof.
  intros H. induction l as [|p l IH]; [cbn; lra|]. cbn [map rsum length]. rewrite S_INR. specialize (H p). lra.
Qed.
Lemma ex_length i : (length (ex_cells i) <= 42)%nat.
Proof. destruct i; vm_compute; lia. Qed.
Lemma ex_bounds i : INR (length (ex_cells i)) <= powerRZ 2 51 /\
  rsum (map (fun p => Rabs (val (den64 heap64 ex p))) (ex_cells i)) <= powerRZ 2 1022 /\
  rsum (map (fun p => val (den64 heap64 ex p) * val (den64 heap64 ex p)) (ex_cells i)) <= powerRZ 2 1020 /\
  (fold_right (fun p s => Z.abs (if Z.even (cell xs p) then 1 else 3) + s) 0 (ex_cells i) <= 2 ^ 53)%Z.
Proof.
  assert (L : INR (length (ex_cells i)) <= 42).
  { replace 42 with (INR 42) by (cbn; lra). apply le_INR, ex_length. }
  assert (B : bpow radix2 10 <= bpow radix2 51 /\ bpow radix2 10 <= bpow radix2 1022 /\ bpow radix2 10 <= bpow radix2 1020) by (repeat split; apply bpow_le; lia).
  change (bpow radix2 10) with 1024 in B. rewrite !p2. split; [lra|]. split; [|split].
  - destruct (rsum_const (ex_cells i) (fun p => Rabs (val (den64 heap64 ex p))) 3) as [_ H]; [|lra].
    intros p. split; [apply Rabs_pos|apply ex_values].
  - destruct (rsum_const (ex_cells i) (fun p => val (den64 heap64 ex p) * val (den64 heap64 ex p)) 9) as [_ H]; [|lra].
    intros p. destruct (ex_values p) as (_ & _ & B9). apply Rabs_le_inv in B9. nra.
  - destruct i; vm_compute; discriminate.
Qed.

(** ** A NaN that is not in the first cell is skipped *)
Definition heap_nan (k : Z) : heap dbl := heap_of (fun i => if (i =? k)%Z then NaN else d_one).
Lemma nan_cell k p : cell xs p = k -> den64 (heap_nan k) ex p = NaN.
Proof. intros <-. change (den64 (heap_nan (cell xs p)) ex p) with (if (cell xs p =? cell xs p)%Z then NaN else d_one). rewrite Z.eqb_refl. reflexivity. Qed.
Lemma one_cell k p : cell xs p <> k -> den64 (heap_nan k) ex p = d_one.
Proof.
  intros E. change (den64 (heap_nan k) ex p) with (if (cell xs p =? k)%Z then NaN else d_one). apply Z.eqb_neq in E. rewrite E. reflexivity.
Qed.
Lemma max_skips_nan : forall i, exists n h e p hi, reducible i n h e /\ covered i n e p /\ den64 h e p = NaN /\
  returns (fun fuel => max64 i fuel e) h hi /\ hi <> NaN.
Proof.
  intros i. set (p := IV 1 1 0). exists xdim, (heap_nan (cell xs p)), ex, p.
  destruct (max_min_first i xdim (heap_nan (cell xs p)) ex (ex_first i)) as (hi & lo & R & _ & _ & _ & H & _).
  - apply ex_reducible.
  - apply ex_first_cell.
  - rewrite one_cell; [discriminate|destruct i; vm_compute; discriminate].
  - exists hi. split; [apply ex_reducible|]. split; [|split; [apply nan_cell; reflexivity|split; assumption]].
    destruct i; [unfold covered, in_box; cbn; lia|apply ex_known; cbn; lia].
Qed.
Definition fint_xs : window := Eval vm_compute in fint xs.
Lemma cell_xs x y z : cell xs (IV x y z) = (x + 2 + 7 * (y + 2) + 42 * z)%Z.
Proof.
  unfold cell. replace (fint xs) with (fint_xs) by (vm_compute; reflexivity). unfold addr, fint_xs. cbn [wglob woff ix iy iz]. lia.
Qed.
Lemma max_hidden : forall i, exists n h e p, reducible i n h e /\ covered i n e p /\ den64 h e p = NaN /\
  (forall q, covered i n e q -> q <> p -> den64 h e q = d_one) /\
  returns (fun fuel => max64 i fuel e) h NaN /\ returns (fun fuel => min64 i fuel e) h NaN.
Proof.
  intros i. exists xdim, (heap_nan (cell xs (ex_first i))), ex, (ex_first i). split; [apply ex_reducible|].
  pose proof (ex_first_cell i) as F. split; [apply F|]. split; [apply nan_cell; reflexivity|]. split.
  - intros q C N. apply one_cell. intros E. apply N. clear N F.
    destruct q as [x y z]. destruct i; unfold covered, ex_first in *.
    + unfold in_box in C. rewrite !cell_xs in E. cbn in C. f_equal; lia.
    + apply ex_known in C. rewrite !cell_xs in E. cbn in C. f_equal; lia.
  - apply (max_min_nan i xdim _ ex (ex_first i)); [apply ex_reducible|exact F|apply nan_cell; reflexivity].
Qed.

(** ** Squares that underflow or overflow *)
Definition small : dbl := @B754_finite 53 1024 false 4503599627370496 (-652) eq_refl.
Definition large : dbl := @B754_finite 53 1024 false 4503599627370496 548 eq_refl.
Lemma val_small : val small = powerRZ 2 (-600).
Proof.
  rewrite p2. unfold val, small, B2R, F2R. cbn [Fnum Fexp cond_Zopp]. change (IZR (Z.pos 4503599627370496)) with (bpow radix2 52). rewrite <- bpow_plus. reflexivity.
Qed.
Lemma val_large : val large = powerRZ 2 600.
Proof.
  rewrite p2. unfold val, large, B2R, F2R. cbn [Fnum Fexp cond_Zopp]. change (IZR (Z.pos 4503599627370496)) with (bpow radix2 52). rewrite <- bpow_plus. reflexivity.
Qed.
Lemma fold_same {A} (z : dbl) (l : list A) : dadd z z = z -> fold_left dadd (map (fun _ => z) l) z = z.
Proof. intros E. induction l as [|x l IH]; cbn; [reflexivity|]. rewrite E. exact IH. Qed.
Lemma norm_same pow2 i v z : pow2 v = z -> dadd z z = z -> returns (fun fuel => norm64 pow2 i fuel ex) (heap_of (fun _ => v)) (dsqrt z).
Proof.
  intros P E. destruct (norm_runs pow2 i xdim (heap_of (fun _ => v)) ex (ex_reducible i _)) as (p0 & rest & _ & R).
  rewrite map_map in R. change (den64 (heap_of (fun _ => v)) ex p0) with v in R. rewrite P in R.
  replace (map (fun x => pow2 (den64 (heap_of (fun _ => v)) ex x)) rest) with (map (fun _ : ivec => z) rest) in R.
  - rewrite (fold_same z rest E) in R. exact R.
  - apply map_ext. intros p. change (den64 (heap_of (fun _ => v)) ex p) with v. symmetry. exact P.
Qed.
Lemma norm_underflow : exists pow2, square_ok pow2 /\ forall i, exists n h e, reducible i n h e /\
  (forall p, finite (den64 h e p) /\ val (den64 h e p) = powerRZ 2 (-600)) /\ returns (fun fuel => norm64 pow2 i fuel e) h zero.
Proof.
  exists (fun x => dmul x x). split; [exact dmul_square|]. intros i. exists xdim, (heap_of (fun _ => small)), ex. split; [apply ex_reducible|]. split.
  - intros p. change (den64 (heap_of (fun _ => small)) ex p) with small. split; [reflexivity|exact val_small].
  - apply (norm_same (fun x => dmul x x) i small zero); vm_compute; reflexivity.
Qed.
Lemma norm_overflow : exists pow2, square_ok pow2 /\ forall i, exists n h e, reducible i n h e /\
  (forall p, finite (den64 h e p) /\ val (den64 h e p) = powerRZ 2 600) /\ returns (fun fuel => norm64 pow2 i fuel e) h infinity.
Proof.
  exists (fun x => dmul x x). split; [exact dmul_square|]. intros i. exists xdim, (heap_of (fun _ => large)), ex. split; [apply ex_reducible|]. split.
  - intros p. change (den64 (heap_of (fun _ => large)) ex p) with large. split; [reflexivity|exact val_large].
  - apply (norm_same (fun x => dmul x x) i large infinity); vm_compute; reflexivity.
Qed.
