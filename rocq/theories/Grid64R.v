(** Proofs about grid coordinates in double precision: the theorems. *)
From Coq Require Import Reals Lra Lia Psatz.
From Flocq Require Import Core.
From Verif Require Import Prelude WindowM WindowS WindowP GhostM FieldM FieldS MaskM NeboM NeboS StencilM StencilS LagrangeM IterM IterS IterP CompareP PointP NeboC GridM RoundM RoundS RoundP RoundQ RoundT RedM RedS RedP HeatM Cmp64M Cmp64S Cmp64P Part64M Part64S Part64P Part64Q Part64R Part64T Grid64M Grid64S Grid64P Grid64Q.
From Verif Require GridP.
Open Scope R_scope.

Lemma spacing_ok npts lx ly lz d : domain64 npts lx ly lz d ->
  let s := spacing64 npts lx ly lz d in let w := width npts lx ly lz d in
  finite s /\ b2 (-400) <= val s <= b2 301 /\ Rabs (val s - w) <= u * w /\ 0 < w.
Proof.
  intros (F & (Lo & Hi) & N). set (L := match d with XDIR => lx | YDIR => ly | ZDIR => lz end) in *. cbv zeta.
  assert (E : spacing64 npts lx ly lz d = ddiv L (dlit (comp d npts) 0)) by (unfold L; destruct d; reflexivity). rewrite E.
  unfold width. fold L. set (k := comp d npts) in *. destruct (int_val k ltac:(lia)) as (Fk & Vk). rewrite p2 in Lo, Hi.
  assert (K1 : 1 <= IZR k) by (apply (IZR_le 1); lia). assert (K2 : IZR k <= b2 31) by (apply (IZR_le _ (2 ^ 31)); lia).
  assert (P : 0 < val L) by (eapply Rlt_le_trans; [apply bpow_gt_0|exact Lo]).
  assert (Q1 : val L / IZR k <= b2 300). { apply (Rmult_le_reg_r (IZR k)); [lra|]. unfold Rdiv. rewrite Rmult_assoc, Rinv_l by lra. pose proof (bpow_gt_0 radix2 300). nra. }
  assert (Q2 : b2 (-331) <= val L / IZR k).
  { apply (Rmult_le_reg_r (IZR k)); [lra|]. unfold Rdiv. rewrite Rmult_assoc, Rinv_l, Rmult_1_r by lra. eapply Rle_trans; [|exact Lo].
    change (-300)%Z with (-331 + 31)%Z. rewrite bpow_plus. apply Rmult_le_compat_l; [apply bpow_ge_0|exact K2]. }
  pose proof (bpow_gt_0 radix2 (-331)) as W0.
  destruct (div_val L (dlit k 0) F) as (A & B); [rewrite Vk; lra|rewrite Vk, Rabs_pos_eq by lra; eapply Rle_trans; [exact Q1|apply bpow_le; lia]|]. rewrite Vk in B.
  destruct (rel_eps (val L / IZR k)) as (e & He & R); [rewrite Rabs_pos_eq by lra; eapply Rle_trans; [|exact Q2]; apply bpow_le; lia|]. rewrite R in B.
  split; [exact A|]. rewrite B. set (w := val L / IZR k) in *.
  assert (E1 : Rabs (w * (1 + e) - w) <= u * w). { replace (w * (1 + e) - w) with (e * w) by ring. rewrite Rabs_mult, (Rabs_pos_eq w) by lra. apply Rmult_le_compat_r; lra. }
  split; [|split; [exact E1|lra]]. apply Rabs_le_inv in E1. pose proof u_small.
  assert (b2 (-400) <= / 2 * b2 (-331)). { change (/ 2) with (b2 (-1)). rewrite <- bpow_plus. apply bpow_le. lia. }
  assert (2 * b2 300 = b2 301) by (change 2 with (b2 1); rewrite <- bpow_plus; reflexivity). nra.
Qed.

Lemma coord_index npts lx ly lz l p d : coord64 npts lx ly lz l p d = at_index (spacing64 npts lx ly lz d) (negb (comp d (offset l) =? -1)%Z) (comp d p) /\
  IZR (half_cells l p d) / 2 = IZR (comp d p) + half_of (negb (comp d (offset l) =? -1)%Z).
Proof.
  split.
  - unfold coord64, at_index. destruct (comp d (offset l) =? -1)%Z; reflexivity.
  - unfold half_cells. assert (H : comp d (place (offset l) p) = (2 * comp d p + 1 + comp d (offset l))%Z) by (destruct d; reflexivity). rewrite H.
    assert (comp d (offset l) = 0 \/ comp d (offset l) = -1)%Z as [-> | ->] by (destruct l, d; cbn; auto); cbn [Z.eqb negb half_of Pos.eqb]; rewrite !plus_IZR, mult_IZR; lra.
Qed.

Lemma coord_accurate npts lx ly lz l p d : domain64 npts lx ly lz d -> (Z.abs (comp d p) <= 2 ^ 31)%Z ->
  let w := width npts lx ly lz d in
  finite (coord64 npts lx ly lz l p d) /\
  Rabs (val (coord64 npts lx ly lz l p d) - IZR (half_cells l p d) / 2 * w) <= powerRZ 2 (-51) * (IZR (Z.abs (comp d p)) + 1) * w.
Proof.
  intros D K w. destruct (spacing_ok _ _ _ _ _ D) as (F & (Lo & Hi) & E & P). fold w in E, P. set (s := spacing64 npts lx ly lz d) in *.
  destruct (coord_index npts lx ly lz l p d) as (-> & ->). fold s. set (c := negb (comp d (offset l) =? -1)%Z). set (k := comp d p) in *.
  destruct (index_val s F Lo Hi c k K) as (A & _ & B). split; [exact A|].
  assert (Hc : 0 <= half_of c <= / 2) by (destruct c; cbn; lra). assert (K0 : 0 <= IZR (Z.abs k)) by (apply (IZR_le 0); lia).
  replace (val (at_index s c k) - (IZR k + half_of c) * w) with ((val (at_index s c k) - (IZR k + half_of c) * val s) + (IZR k + half_of c) * (val s - w)) by ring.
  eapply Rle_trans; [apply Rabs_triang|]. rewrite Rabs_mult.
  assert (Kc : Rabs (IZR k + half_of c) <= IZR (Z.abs k) + / 2) by (eapply Rle_trans; [apply Rabs_triang|]; rewrite <- abs_IZR, (Rabs_pos_eq (half_of c)) by lra; lra).
  assert (T2 : Rabs (IZR k + half_of c) * Rabs (val s - w) <= (IZR (Z.abs k) + / 2) * (u * w)) by (apply Rmult_le_compat; try apply Rabs_pos; assumption).
  assert (powerRZ 2 (-51) = 4 * u) as -> by (rewrite p2; unfold u; cbn; lra).
  apply Rabs_le_inv in E. pose proof u_small. pose proof u_pos. assert (Sw : val s <= (1 + / 1000000) * w) by nra.
  assert (u * val s * (2 * IZR (Z.abs k) + 2) <= (2 * IZR (Z.abs k) + 2) * (1 + / 1000000) * (u * w)).
  { replace ((2 * IZR (Z.abs k) + 2) * (1 + / 1000000) * (u * w)) with (u * ((1 + / 1000000) * w) * (2 * IZR (Z.abs k) + 2)) by ring.
    apply Rmult_le_compat_r; [lra|]. apply Rmult_le_compat_l; lra. }
  assert (0 <= u * w) by (apply Rmult_le_pos; lra). nra.
Qed.
Lemma coord_order npts lx ly lz l l' p q d : domain64 npts lx ly lz d -> (Z.abs (comp d p) <= 2 ^ 31)%Z -> (Z.abs (comp d q) <= 2 ^ 31)%Z ->
  (half_cells l p d < half_cells l' q d)%Z -> val (coord64 npts lx ly lz l p d) < val (coord64 npts lx ly lz l' q d).
Proof.
  intros D K K' H. destruct (spacing_ok _ _ _ _ _ D) as (F & (Lo & Hi) & _ & _).
  destruct (coord_index npts lx ly lz l p d) as (-> & E). destruct (coord_index npts lx ly lz l' q d) as (-> & E').
  apply index_order; try assumption. rewrite <- E, <- E'. apply IZR_lt in H. lra.
Qed.
Lemma coord_equal npts lx ly lz l l' p q d : half_cells l p d = half_cells l' q d -> coord64 npts lx ly lz l p d = coord64 npts lx ly lz l' q d.
Proof.
  unfold half_cells, coord64. intros H.
  assert (P : forall l p, comp d (place (offset l) p) = (2 * comp d p + 1 + comp d (offset l))%Z) by (intros; destruct d; reflexivity). rewrite !P in H.
  assert (O : forall l, (comp d (offset l) = 0 \/ comp d (offset l) = -1)%Z) by (intros []; destruct d; cbn; auto).
  assert (comp d p = comp d q /\ comp d (offset l) = comp d (offset l')) as (-> & ->) by (destruct (O l), (O l'); lia). reflexivity.
Qed.
Lemma coord_first npts lx ly lz l p d : domain64 npts lx ly lz d ->
  let s := spacing64 npts lx ly lz d in
  (half_cells l p d = 0%Z -> coord64 npts lx ly lz l p d = zero) /\
  (half_cells l p d = 1%Z -> val (coord64 npts lx ly lz l p d) = val s / 2) /\
  (half_cells l p d = (-1)%Z -> val (coord64 npts lx ly lz l p d) = - (val s / 2)).
Proof.
  intros D s. destruct (spacing_ok _ _ _ _ _ D) as (F & (Lo & Hi) & _ & _). fold s in F, Lo, Hi. destruct (index_exact s F Lo Hi) as (A & B & C).
  destruct (coord_index npts lx ly lz l p d) as (-> & _). fold s. unfold half_cells.
  assert (H : comp d (place (offset l) p) = (2 * comp d p + 1 + comp d (offset l))%Z) by (destruct d; reflexivity). rewrite H.
  assert (comp d (offset l) = 0 \/ comp d (offset l) = -1)%Z as [-> | ->] by (destruct l, d; cbn; auto); cbn [Z.eqb negb half_of Pos.eqb];
    (split; [|split]); intros E; try lia.
  - assert (comp d p = 0%Z) as -> by lia. exact B.
  - assert (comp d p = (-1)%Z) as -> by lia. exact C.
  - assert (comp d p = 0%Z) as -> by lia. exact A.
Qed.

Lemma any_int n f p d : user_field n f -> fvalid f = fghosts f -> int_indices f -> any_cell n f p -> (Z.abs (comp d p) <= 2 ^ 31)%Z.
Proof.
  intros U VG II A. destruct (user_field_on_patch n f U) as (O & _ & _). pose proof (II d) as I. destruct O as (Pn & En & Wi & Fw & Ng & _).
  rewrite Fw, VG in I. cbn [grown wext] in I. rewrite Wi in I. rewrite VG in Ng. unfold any_cell, reach, in_region in A.
  destruct Ng as ((? & ? & ?) & ? & ? & ?). destruct Pn as (? & ? & ?). destruct En as (? & ? & ?).
  set (M := (2 ^ 31)%Z) in *. clearbody M. cbn in A. destruct d; cbn in *; lia.
Qed.

(** The field after the call. *)
Lemma set_coord_positions n h f d l npts lx ly lz rest g :
  user_field n f -> fvalid f = fghosts f -> int_indices f -> freadonly f = false -> (forall p, any_cell n f p -> bcells (h (fbuf f)) (cell f p) = true) ->
  make_grid64 npts (lx :: ly :: lz :: rest) = Ok g -> domain64 npts lx ly lz d ->
  let w := width npts lx ly lz d in
  exists h', run (set_coord64 g d l f) h = RDone h' tt /\
    (forall p, any_cell n f p -> finite (value dbl h' f p) /\
       Rabs (val (value dbl h' f p) - IZR (half_cells l p d) / 2 * w) <= powerRZ 2 (-51) * (IZR (Z.abs (comp d p)) + 1) * w) /\
    (forall p q, any_cell n f p -> any_cell n f q ->
       ((comp d p < comp d q)%Z -> val (value dbl h' f p) < val (value dbl h' f q)) /\
       (comp d p = comp d q -> value dbl h' f p = value dbl h' f q)) /\
    differs_only h h' (fun b i => b = fbuf f /\ exists p, any_cell n f p /\ i = cell f p).
Proof.
  intros U VG II RO C G D w. destruct (set_coord64_ok n h f d l npts lx ly lz rest g U VG II RO C G) as (h' & R & V & Df).
  exists h'. split; [exact R|]. split; [|split; [|exact Df]].
  - intros p P. rewrite (V p P). apply coord_accurate; [exact D|apply (any_int n f p d U VG II P)].
  - intros p q P Q. rewrite (V p P), (V q Q). split.
    + intros H. apply coord_order; [exact D|apply (any_int n f p d U VG II P)|apply (any_int n f q d U VG II Q)|]. unfold half_cells, place. destruct d; cbn [comp ix iy iz] in H |- *; lia.
    + intros H. apply coord_equal. unfold half_cells, place. destruct d; cbn [comp ix iy iz] in H |- *; lia.
Qed.

(** A mesh for the particle operators. *)
Lemma grid_mesh n h f l npts lx ly lz rest g :
  user_field n f -> fvalid f = fghosts f -> int_indices f -> freadonly f = false -> (forall p, any_cell n f p -> bcells (h (fbuf f)) (cell f p) = true) ->
  make_grid64 npts (lx :: ly :: lz :: rest) = Ok g -> domain64 npts lx ly lz XDIR ->
  comp XDIR (offset l) = 0%Z -> whole_block f -> iy (wext (fwin f)) = 1%Z -> iz (wext (fwin f)) = 1%Z -> ix (gminus (fghosts f)) = 1%Z ->
  let dx := spacing64 npts lx ly lz XDIR in
  exists h', run (set_coord64 g XDIR l f) h = RDone h' tt /\
    mesh64 (powerRZ 2 (-51) * INR (length (contents h' f)) * val dx) dx (contents h' f) /\
    exists K, forall fuel, (K <= fuel)%nat -> run (particle_op64 fuel f) h' = RDone h' dx.
Proof.
  intros U VG II RO C G D Ol WB Y1 Z1 Gx dx. destruct (set_coord64_ok n h f XDIR l npts lx ly lz rest g U VG II RO C G) as (h' & R & V & Df).
  exists h'. split; [exact R|].
  destruct (spacing_ok _ _ _ _ _ D) as (F & (Lo & Hi) & _ & _). fold dx in F, Lo, Hi. pose proof (W_pos dx Lo) as Wp.
  destruct (user_field_on_patch n f U) as (O & _ & OW).
  assert (A : any_cell n f = valid_cell n f) by (unfold any_cell, valid_cell; rewrite VG; reflexivity). rewrite A in *.
  pose proof (patch_live64 h n f O C) as Lv. pose proof Lv as (PD & Ft & Cl).
  assert (Lv' : live h' f) by (split; [exact PD|split; [exact Ft|]]; intros i I; rewrite (proj1 Df); apply Cl, I).
  set (M := ix (wext (fwin f))). assert (NP : local_npts (fwin f) = M) by (unfold local_npts; rewrite Y1, Z1; unfold M; ring).
  assert (Mb : (2 <= M < 2 ^ 31)%Z).
  { split; [|apply (II XDIR)]. unfold M. destruct O as (Pn & En & Wi & Fw & Ng & _). rewrite Fw, VG. cbn [grown wext]. rewrite Wi. rewrite VG in Ng.
    destruct Ng as ((? & ? & ?) & ? & ? & ?). destruct Pn as (? & ? & ?). destruct En as (? & ? & ?). cbn in *. lia. }
  assert (Ct : contents h' f = map (fun k => at_index dx true (k - 1)) (zrange M)).
  { unfold contents. rewrite cells_kcell by exact PD. rewrite map_map, NP. apply map_ext_in. intros k Hk. apply in_zrange in Hk.
    assert (Hk' : (0 <= k < local_npts (fwin f))%Z) by lia. destruct (GridP.kcell_valid n f k O Hk') as (p & Vp & Ek).
    destruct (GridP.valid_kcell n f p O Vp) as (k' & K' & Ek' & Q). assert (k' = k) as -> by (apply (kcell_inj (fwin f)); [exact PD|exact Ft|lia|lia|congruence]).
    specialize (Q XDIR). rewrite (proj1 WB) in Q. cbn [comp] in Q. rewrite OW, Gx, Y1 in Q.
    assert (Dk : dec (ix (wext (fwin f))) 1 k = IV k 0 0). { replace k with (k + M * (0 + 1 * 0))%Z at 1 by ring. apply dec_flat; lia. }
    rewrite Dk in Q. cbn [iv_at ix iv_zero] in Q. rewrite Ek. change (value dbl h' f p = at_index dx true (k - 1)). rewrite (V p Vp).
    destruct (coord_index npts lx ly lz l p XDIR) as (-> & _). rewrite Ol. cbn [Z.eqb negb Pos.eqb comp]. fold dx. f_equal. lia. }
  assert (Nth : forall k c, nth_error (contents h' f) k = Some c -> c = at_index dx true (Z.of_nat k - 1) /\ (Z.of_nat k < M)%Z).
  { intros k c E. rewrite Ct in E. apply nth_zrange_inv in E as (H & ->). split; [reflexivity|exact H]. }
  assert (Len : length (contents h' f) = Z.to_nat M) by (rewrite Ct, map_length; unfold zrange; rewrite map_length, seq_length; reflexivity).
  assert (Nat0 : nth_error (contents h' f) 0 = Some (at_index dx true (-1))) by (rewrite Ct; apply (nth_zrange (fun k => at_index dx true (k - 1)) M 0); lia).
  assert (Nat1 : nth_error (contents h' f) 1 = Some (at_index dx true 0)) by (rewrite Ct; apply (nth_zrange (fun k => at_index dx true (k - 1)) M 1); lia).
  assert (LenR : INR (length (contents h' f)) = IZR M) by (rewrite Len, INR_IZR_INZ; f_equal; lia).
  assert (M2 : 2 <= IZR M < IZR (2 ^ 31)) by (split; [apply (IZR_le 2)|apply IZR_lt]; lia).
  split.
  - unfold mesh64. rewrite LenR, !p2. split; [exact F|]. split; [exact Lo|]. split.
    { apply Rle_trans with (b2 31 * b2 301); [change (b2 31) with (IZR (2 ^ 31)); apply Rmult_le_compat; lra|]. rewrite <- bpow_plus. apply bpow_le. lia. }
    split; [rewrite Len; lia|]. split; [change (b2 31) with (IZR (2 ^ 31)); lra|].
    split; [apply Rmult_le_pos; [apply Rmult_le_pos; [apply bpow_ge_0|lra]|lra]|].
    intros k c E. apply Nth in E as (-> & Hk). destruct (index_val dx F Lo Hi true (Z.of_nat k - 1) ltac:(lia)) as (A1 & _ & B1). split; [exact A1|].
    cbn [half_of] in B1. rewrite minus_IZR, <- INR_IZR_INZ in B1. replace (INR k - / 2) with (INR k - 1 + / 2) by lra. eapply Rle_trans; [exact B1|].
    assert (IZR (Z.abs (Z.of_nat k - 1)) + 1 <= IZR M) by (rewrite <- plus_IZR; apply IZR_le; lia).
    assert (b2 (-51) = 4 * u) as -> by (unfold u; cbn; lra). pose proof u_pos. assert (0 <= u * val dx) by (apply Rmult_le_pos; lra). nra.
  - destruct (ctor64_run h' f _ _ Lv' WB Nat0 Nat1) as (K & H). rewrite (first_difference dx F Lo Hi) in H. exists K. intros fuel Hf. destruct (H fuel Hf) as (b & E & B).
    assert (b = true) as ->; [|exact E]. apply B. intros k a c Ea Ec. apply Nth in Ea as (-> & Hka). apply Nth in Ec as (-> & Hkc).
    replace (Z.of_nat (S k) - 1)%Z with (Z.of_nat k - 1 + 1)%Z by lia. apply index_even; try assumption; lia.
Qed.
