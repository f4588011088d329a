From Verif Require Import Prelude WindowM WindowS WindowP OverM OverP OverQ GhostM FieldM FieldS FieldP MaskM MaskS MaskP NeboM NeboS NeboP NeboQ NeboA NeboB OvAsgM OvAsgP.

#[local] Arguments has_extra : simpl never.
#[local] Arguments INT_MAX : simpl never.

(** ** Mask iterators *)
Section MaskIt.
Variable G : Z.
Hypothesis G0 : 0 <= G.
Hypothesis HG : 7 * G + 60000 <= INT_MAX.
Variable w : window.
Hypothesis F : fits w.
Hypothesis D : pos_dims (wglob w).
Hypothesis Sz : glob_npts w <= G.
Hypothesis Px : 0 < ix (wext w).
Hypothesis Py : 0 < iy (wext w).
Hypothesis Pz : 0 < iz (wext w).
Notation gx := (ix (wglob w)). Notation gy := (iy (wglob w)). Notation gz := (iz (wglob w)).
Notation ex := (ix (wext w)). Notation ey := (iy (wext w)). Notation ez := (iz (wext w)).
Notation ox := (ix (woff w)). Notation oy := (iy (woff w)). Notation oz := (iz (woff w)).

Lemma Szm : glob_npts w <= INT_MAX.
Proof. lia. Qed.
Lemma gbelow a b c : 0 <= a <= gx -> 0 <= b <= gy -> 0 <= c <= gz -> 0 <= a * b * c <= G.
Proof. intros A B C. pose proof (le_prod a b c gx gy gz A B C). unfold glob_npts in Sz. lia. Qed.

Lemma mmake32 : mit_make32 w = Ok (mit_make w).
Proof.
  pose proof (blocks32 w D Szm) as Bl. destruct F as (Fx & Fy & Fz). destruct D as (Gx & Gy & Gz).
  unfold mit_make32, mit_make. rewrite (glob32 w D Szm). cbn [obind]. cbv zeta.
  pose proof (gbelow gx 1 1 ltac:(lia) ltac:(lia) ltac:(lia)). pose proof (gbelow 1 gy 1 ltac:(lia) ltac:(lia) ltac:(lia)).
  pose proof (gbelow 1 1 gz ltac:(lia) ltac:(lia) ltac:(lia)).
  pose proof (gbelow 1 gy oz ltac:(lia) ltac:(lia) ltac:(lia)) as B1. rewrite Z.mul_1_l in B1.
  pose proof (gbelow gx gy oz ltac:(lia) ltac:(lia) ltac:(lia)) as B2.
  pose proof (gbelow gx oy 1 ltac:(lia) ltac:(lia) ltac:(lia)) as B3. rewrite Z.mul_1_r in B3.
  pose proof (gbelow gx (gy - ey) 1 ltac:(lia) ltac:(lia) ltac:(lia)) as B4. rewrite Z.mul_1_r, Z.mul_comm in B4.
  pose proof (gbelow ex ey 1 ltac:(lia) ltac:(lia) ltac:(lia)) as B5. rewrite Z.mul_1_r in B5.
  assert (B6 : gx * (oy + gy * oz) = gx * oy + gx * gy * oz) by ring.
  rewrite (u64_ok ox), (u64_ok oy), (u64_ok oz), (u64_ok gx), (u64_ok gy), (u64_ok ex), (u64_ok ey), (u64_ok ez) by lia.
  rewrite (u64_ok (gy * oz)), (u64_ok (gx - ex)), (u64_ok (gy - ey)) by lia.
  rewrite (u64_ok (oy + gy * oz)) by lia. rewrite (u64_ok (gx * (oy + gy * oz))) by lia.
  rewrite (u64_ok (ox + gx * (oy + gy * oz))) by lia. rewrite (u64_ok ((gy - ey) * gx)), (u64_ok (ex * ey)) by lia.
  set (flat := ox + gx * (oy + gy * oz)) in *.
  assert (Fl : 0 <= flat <= 3 * G) by (unfold flat; lia). clearbody flat.
  rewrite (to_int_ok (Z.rem flat INT_BIT)), (to_int_ok (Z.quot flat INT_BIT)).
  2:{ unfold INT_BIT. rewrite Z.quot_div_nonneg by lia. pose proof (Z.div_pos flat 32 ltac:(lia) ltac:(lia)).
      pose proof (Z.div_le_upper_bound flat 32 flat ltac:(lia) ltac:(lia)). lia. }
  2:{ unfold INT_BIT. pose proof (Z.rem_bound_pos flat 32 ltac:(lia) ltac:(lia)). lia. }
  rewrite (to_int_ok (gx - ex)), (to_int_ok ((gy - ey) * gx)), (to_int_ok ex), (to_int_ok ey), (to_int_ok ez), (to_int_ok (ex * ey)) by lia.
  rewrite Bl. reflexivity.
Qed.

Lemma positions32 bit blk : 0 <= bit <= 3 * G + 64 -> 0 <= blk * 32 <= 3 * G + 64 ->
  update_positions32 bit blk = Ok (update_positions bit blk).
Proof.
  intros B K. unfold update_positions32, update_positions, imul, iadd. unfold INT_BIT in *.
  destruct (_ || _) eqn:E; [|reflexivity].
  rewrite i32_abs by lia. cbn [obind]. rewrite i32_abs by lia. cbn [obind].
  rewrite idiv_ok, imod_ok by lia. cbn [obind]. rewrite Z.quot_div_nonneg, Z.rem_mod_nonneg by lia. reflexivity.
Qed.
Lemma with32 m bit cnt xi yi zi : 0 <= bit <= 3 * G + 64 -> 0 <= mblk m * 32 <= 3 * G + 64 ->
  mit_with32 m bit cnt xi yi zi = Ok (mit_with m bit cnt xi yi zi).
Proof.
  intros B K. unfold mit_with32, mit_with. rewrite positions32 by assumption. cbn [obind].
  destruct (update_positions bit (mblk m)). reflexivity.
Qed.

Lemma mincr32 c : 0 <= c < local_npts w -> mit_incr32 (mit_at w c) = Ok (mit_incr (mit_at w c)).
Proof.
  intros C. unfold local_npts in C.
  pose proof (dec_range ex ey ez c Px Py C) as Bx.
  assert (Ad := addr_range w (dec ex ey c) F ltac:(destruct (wext w); exact Bx)).
  destruct Bx as (X & Y & Z). destruct F as (Fx & Fy & Fz). destruct D as (Gx & Gy & Gz).
  unfold mit_incr32, mit_incr, mit_at, iadd. cbv zeta. cbn [mbit mblk mcnt msize mxi myi mzi mystep mzstep mxe mye mze mxye].
  set (p := dec ex ey c) in *. set (a := addr w p) in *. cbn [ix iy iz] in X, Y, Z. clearbody p a.
  pose proof (gbelow gx 1 1 ltac:(lia) ltac:(lia) ltac:(lia)). pose proof (gbelow 1 gy 1 ltac:(lia) ltac:(lia) ltac:(lia)).
  pose proof (gbelow 1 1 gz ltac:(lia) ltac:(lia) ltac:(lia)).
  pose proof (gbelow gx (gy - ey) 1 ltac:(lia) ltac:(lia) ltac:(lia)) as B4. rewrite Z.mul_1_r, Z.mul_comm in B4.
  assert (Cn : 0 <= ix p + ex * (iy p + ey * iz p) <= G).
  { pose proof (gbelow ex ey ez ltac:(lia) ltac:(lia) ltac:(lia)). pose proof (flat_range ex ey ez (ix p) (iy p) (iz p) X Y Z). lia. }
  set (cn := ix p + ex * (iy p + ey * iz p)) in *. clearbody cn.
  set (zs := (gy - ey) * gx) in *. clearbody zs.
  assert (Bm : 0 <= a mod 32 < 32) by (apply Z.mod_pos_bound; lia).
  assert (Bd : 0 <= a / 32 * 32 <= G) by (pose proof (Z.div_mod a 32 ltac:(lia)); pose proof (Z.div_pos a 32 ltac:(lia) ltac:(lia)); lia).
  set (b := a mod 32) in *. set (k := a / 32) in *. clearbody b k.
  rewrite !(i32_abs (b + 1)), !(i32_abs (cn + 1)), !(i32_abs (ix p + 1)) by lia. cbn [obind].
  destruct (ix p + 1 =? ex).
  - rewrite !(i32_abs (b + 1 + (gx - ex))), !(i32_abs (iy p + 1)) by lia. cbn [obind].
    destruct (iy p + 1 =? ey).
    + rewrite !(i32_abs (b + 1 + (gx - ex) + zs)), !(i32_abs (iz p + 1)) by lia. cbn [obind].
      apply with32; cbn [mblk]; lia.
    + apply with32; cbn [mblk]; lia.
  - apply with32; cbn [mblk]; lia.
Qed.
End MaskIt.

(** ** Windows of the operands *)
Section Windows.
Variable G : Z.
Hypothesis G0 : 0 <= G.
Hypothesis HG : 7 * G + 60000 <= INT_MAX.
Notation R := (2 * G + 9001).
Notation T := (G + 9001).
Variable n : ivec.

Lemma window32 f minus plus shift : leafb G n f -> inr (- R) T minus -> inr (- (R + G)) T plus -> inr (- R) R shift ->
  exists g, resize_ghost_and_shift_window32 f minus plus shift = Ok g /\
    fwin g = fwin (resize_ghost_and_shift_window f minus plus shift) /\ fbuf g = fbuf f.
Proof.
  intros L M P S. destruct (lb_valid _ _ _ L) as (Vm & Vp). pose proof (lb_off _ _ _ L) as Of. pose proof (lb_ext _ _ _ L) as Ex.
  assert (I1 := inr_sub _ _ _ _ _ _ Vm M). assert (I2 := inr_add _ _ _ _ _ _ M P).
  assert (I3 := inr_sub _ _ _ _ _ _ I2 Vm). assert (I4 := inr_sub _ _ _ _ _ _ I3 Vp).
  assert (I5 := inr_add _ _ _ _ _ _ Of I1). assert (I6 := inr_add _ _ _ _ _ _ Ex I4).
  assert (I7 := inr_add _ _ _ _ _ _ I5 S).
  assert (Z0 : inr 0 0 iv_zero) by (intros pr Pr; rewrite pr_zero by assumption; lia).
  assert (I8 := inr_add _ _ _ _ _ _ I6 Z0).
  unfold resize_ghost_and_shift_window32, resize_ghost32.
  rewrite (sub32_ok _ _ _ _ I1) by lia. cbn [obind]. rewrite (add32_ok _ _ _ _ I2) by lia. cbn [obind].
  rewrite (sub32_ok _ _ _ _ I3) by lia. cbn [obind]. rewrite (sub32_ok _ _ _ _ I4) by lia. cbn [obind].
  unfold reshape32. rewrite (add32_ok _ _ _ _ I5) by lia. cbn [obind]. rewrite (add32_ok _ _ _ _ I6) by lia. cbn [obind].
  unfold shift_window32, reshape32. cbn [field_window32 fwin wglob woff wext].
  rewrite (add32_ok _ _ _ _ I7) by lia. cbn [obind]. rewrite (add32_ok _ _ _ _ I8) by lia. cbn [obind].
  eexists. split; [reflexivity|]. split; reflexivity.
Qed.

Lemma reset32 f g : leafb G n f -> inr (- R) T (gminus g) -> inr (- (R + G)) T (gplus g) ->
  reset_valid_ghosts32 f g = Ok (reset_valid_ghosts f g).
Proof.
  intros L M P. destruct (lb_valid _ _ _ L) as (Vm & Vp). pose proof (lb_off _ _ _ L) as Of. pose proof (lb_ext _ _ _ L) as Ex.
  assert (I1 := inr_sub _ _ _ _ _ _ Vm M). assert (I2 := inr_add _ _ _ _ _ _ Of I1).
  assert (I3 := inr_sub _ _ _ _ _ _ Ex I1). assert (I4 := inr_sub _ _ _ _ _ _ I3 Vp).
  assert (I5 := inr_add _ _ _ _ _ _ I4 P).
  unfold reset_valid_ghosts32, reset_valid_ghosts.
  rewrite (sub32_ok _ _ _ _ I1) by lia. cbn [obind]. rewrite (add32_ok _ _ _ _ I2) by lia. cbn [obind].
  rewrite (sub32_ok _ _ _ _ I3) by lia. cbn [obind]. rewrite (sub32_ok _ _ _ _ I4) by lia. cbn [obind].
  rewrite (add32_ok _ _ _ _ I5) by lia. reflexivity.
Qed.
End Windows.
