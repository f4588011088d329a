(** Proofs about grid coordinates in double precision: the loop. *)
From Verif Require Import Prelude WindowM WindowS WindowP GhostM FieldM FieldS MaskM NeboM NeboS StencilM StencilS LagrangeM IterM IterS IterP CompareP PointP NeboC GridM RoundM RoundS Part64P Grid64M Grid64S.
From Verif Require GridP.
Local Open Scope Z_scope.

Lemma range_rule {V S} (Inv : Z -> heap V -> S -> Prop) (body : Z -> S -> prog V S) lo hi :
  lo <= hi ->
  (forall i h s, lo <= i < hi -> Inv i h s -> IterP.ends (body i s) h (Inv (i + 1))) ->
  forall h s, Inv lo h s -> IterP.ends (for_range (Z.to_nat (hi - lo)) lo s body) h (Inv hi).
Proof.
  intros L B. remember (Z.to_nat (hi - lo)) as n eqn:E. revert lo L B E. induction n as [|n IH]; intros lo L B E h s I; cbn [for_range].
  - assert (lo = hi) as <- by lia. apply ends_ret. exact I.
  - apply ends_bind. eapply ends_mono; [|apply B; [lia|exact I]]. intros h' s' I'. apply (IH (lo + 1)); [lia| |lia|exact I'].
    intros i h2 s2 R. apply B. lia.
Qed.

Section Walk.
Context {V : Type}.
Variables (ok : ivec -> bool) (st : ivec -> V) (f : field) (h0 : heap V).
Hypothesis L : live h0 f.
Notation w := (fwin f).
Notation pos k := (dec (ix (wext w)) (iy (wext w)) k).
Hypothesis OK : forall k, 0 <= k < local_npts w -> ok (pos k) = true.
Definition walked (k : Z) (h : heap V) (it : WindowM.iter) : Prop :=
  it = iter_at 0 w k /\
  (forall j, 0 <= j < k -> bdata (h (fbuf f)) (kcell w j) = st (pos j)) /\
  differs_only h0 h (fun b i => b = fbuf f /\ exists j, 0 <= j < k /\ i = kcell w j).

Lemma walk_step k h it x y z : 0 <= k < local_npts w -> pos k = IV x y z -> walked k h it ->
  IterP.ends (if ok (IV x y z) then Store (fbuf f) (icur it) (st (IV x y z)) (Ret (it_incr it)) else PUB) h (walked (k + 1)).
Proof.
  intros K E (-> & S & C & D). pose proof L as (P & F & _). rewrite icur_at. rewrite <- E, OK by exact K.
  apply ends_store; [rewrite C; apply live_cell; assumption|]. apply ends_ret. split; [apply incr_ok; exact P|]. split.
  - intros j Hj. destruct (Z.eq_dec j k) as [->|N].
    + rewrite upd_same. reflexivity.
    + rewrite upd_other; [apply S; lia|]. right. intros Q. apply N. apply (kcell_inj w); assumption || lia.
  - split.
    + intros b i. rewrite upd_cells. apply C.
    + intros b i N. rewrite upd_other.
      * apply D. intros (-> & j & R & ->). apply N. split; [reflexivity|]. exists j. split; [lia|reflexivity].
      * destruct (Nat.eq_dec b (fbuf f)) as [->|]; [|left; assumption]. right. intros ->. apply N. split; [reflexivity|]. exists k. split; [lia|reflexivity].
Qed.

Lemma walk_all : IterP.ends
  (for_range (Z.to_nat (iz (wext w))) 0 (iter_at 0 w 0) (fun z it =>
    for_range (Z.to_nat (iy (wext w))) 0 it (fun y it =>
      for_range (Z.to_nat (ix (wext w))) 0 it (fun x it =>
        if ok (IV x y z) then Store (fbuf f) (icur it) (st (IV x y z)) (Ret (it_incr it)) else PUB)))) h0
  (walked (local_npts w)).
Proof.
  pose proof L as ((A & B & C) & F & _). set (ex := ix (wext w)) in *. set (ey := iy (wext w)) in *. set (ez := iz (wext w)) in *.
  assert (E : local_npts w = 0 + ex * (0 + ey * ez)) by (unfold local_npts; fold ex ey ez; ring). rewrite E.
  rewrite <- (Z.sub_0_r ez) at 1. apply (range_rule (fun z => walked (0 + ex * (0 + ey * z)))); [lia| |].
  - intros z h it Hz I. eapply ends_mono; [|rewrite <- (Z.sub_0_r ey) at 1; apply (range_rule (fun y => walked (0 + ex * (y + ey * z)))); [lia| |exact I]].
    + intros h' it' I'. replace (0 + ex * (0 + ey * (z + 1))) with (0 + ex * (ey + ey * z)) by ring. exact I'.
    + intros y h' it' Hy I'. eapply ends_mono; [|rewrite <- (Z.sub_0_r ex) at 1; apply (range_rule (fun x => walked (x + ex * (y + ey * z)))); [lia| |exact I']].
      * intros h2 it2 I2. replace (0 + ex * (y + 1 + ey * z)) with (ex + ex * (y + ey * z)) by ring. exact I2.
      * intros x h2 it2 Hx I2. eapply ends_mono; [|apply (walk_step (x + ex * (y + ey * z)))].
        -- intros h3 it3 I3. replace (x + 1 + ex * (y + ey * z)) with (x + ex * (y + ey * z) + 1) by ring. exact I3.
        -- rewrite E. assert (0 <= y + ey * z <= ey * ez - 1) by nia. nia.
        -- apply dec_flat; fold ex ey; lia.
        -- exact I2.
  - replace (0 + ex * (0 + ey * 0)) with 0 by ring. split; [reflexivity|]. split; [lia|]. split; reflexivity.
Qed.
End Walk.

Lemma patch_live64 {V} (h : heap V) n f : on_patch n f -> (forall p, valid_cell n f p -> bcells (h (fbuf f)) (cell f p) = true) -> live h f.
Proof.
  intros O C. pose proof O as (P & E & W & Fw & N & Le & _ & _ & F).
  assert (PD : pos_dims (wext (fwin f))).
  { rewrite Fw. cbn. rewrite W. destruct N as ((? & ? & ?) & ? & ? & ?); destruct E as (? & ? & ?); destruct P as (? & ? & ?). unfold pos_dims; cbn in *. lia. }
  split; [exact PD|]. split.
  - rewrite Fw in PD |- *. destruct PD as (? & ? & ?). destruct Le as ((? & ? & ?) & ? & ? & ?). destruct N as ((? & ? & ?) & ? & ? & ?). unfold fits in *. cbn in *. lia.
  - intros i I. apply in_cells in I as (k & K & ->); [|exact PD]. destruct (GridP.kcell_valid n f k O K) as (p & V' & ->). apply C. exact V'.
Qed.

Lemma iv_at_comp v d : iv_at v d = comp d v. Proof. destruct d; reflexivity. Qed.
Lemma shift_lit d l : shift64 d l = (if comp d (offset l) =? -1 then dlit 0 0 else dlit 1 (-1))%Z.
Proof. unfold shift64. rewrite iv_at_comp. apply B2SF_inj.
  assert (comp d (offset l) = 0 \/ comp d (offset l) = -1) as [-> | ->] by (destruct l, d; cbn; auto); vm_compute; reflexivity.
Qed.

(** Every cell gets the coordinate computed in machine arithmetic. *)
Lemma set_coord64_ok n h f d l npts lx ly lz rest g :
  user_field n f -> fvalid f = fghosts f -> int_indices f -> freadonly f = false -> (forall p, any_cell n f p -> bcells (h (fbuf f)) (cell f p) = true) ->
  make_grid64 npts (lx :: ly :: lz :: rest) = Ok g ->
  exists h', run (set_coord64 g d l f) h = RDone h' tt /\
    (forall p, any_cell n f p -> value dbl h' f p = coord64 npts lx ly lz l p d) /\
    differs_only h h' (fun b i => b = fbuf f /\ exists p, any_cell n f p /\ i = cell f p).
Proof.
  intros U VG II RO C G. assert (A : any_cell n f = valid_cell n f) by (unfold any_cell, valid_cell; rewrite VG; reflexivity). rewrite A in *.
  destruct (user_field_on_patch n f U) as (O & _ & OW). pose proof (patch_live64 h n f O C) as L. pose proof L as (PD & _).
  assert (S : grid64_spacing g d = Ok (spacing64 npts lx ly lz d)) by (unfold make_grid64 in G; cbn in G; injection G as <-; destruct d; reflexivity).
  assert (W0 : comp d (woff (fwin f)) = 0).
  { destruct O as (_ & _ & _ & Fw & _). rewrite Fw. cbn [grown woff]. rewrite OW, VG. destruct d; cbn; lia. }
  assert (NG : 0 <= comp d (woff (fint f))).
  { rewrite OW. destruct O as (_ & _ & _ & _ & Ng & _). rewrite VG in Ng. destruct Ng as ((? & ? & ?) & _). destruct d; assumption. }
  set (k0 := iv_at (woff (fint f)) d).
  assert (E : IterP.ends (set_coord64 g d l f) h (fun h' _ =>
    (forall p, valid_cell n f p -> value dbl h' f p = coord64 npts lx ly lz l p d) /\
    differs_only h h' (fun b i => b = fbuf f /\ exists p, valid_cell n f p /\ i = cell f p))).
  { unfold set_coord64. rewrite S. cbn [lift pbind]. rewrite begin_ok by assumption. cbn [lift pbind]. apply ends_bind. eapply ends_mono.
    2: apply (walk_all (fun q => (- 2 ^ 31 <=? iv_at q d - k0) && (iv_at q d - k0 <? 2 ^ 31))
               (fun q => dadd (dmul (spacing64 npts lx ly lz d) (dlit (iv_at q d - k0) 0)) (dmul (shift64 d l) (spacing64 npts lx ly lz d))) f h L).
    - intros h' it (_ & St & Cl & D). apply ends_ret. split; [|split; [exact Cl|]].
      + intros p Vp. destruct (GridP.valid_kcell n f p O Vp) as (k & K & Ek & Q). unfold value. rewrite Ek, St by exact K.
        rewrite Q. unfold k0. rewrite iv_at_comp, W0. unfold coord64. rewrite shift_lit. repeat f_equal. lia.
      + intros b i N. apply D. intros (-> & j & J & ->). apply N. split; [reflexivity|]. apply (GridP.kcell_valid n f j O J).
    - intros k K. destruct (GridP.kcell_valid n f k O K) as (p & Vp & Ek). destruct (GridP.valid_kcell n f p O Vp) as (k' & K' & Ek' & Q).
      assert (k' = k) as -> by (apply (kcell_inj (fwin f)); [exact PD|apply L|apply K'|apply K|congruence]). rewrite Q. unfold k0. rewrite iv_at_comp, W0.
      pose proof (II d) as I. destruct O as (Pn & En & Wi & Fw & Ng & _).
      rewrite VG in Ng. rewrite Fw, VG in I. cbn [grown wext] in I. rewrite Wi in I. unfold valid_cell, reach, in_region in Vp. rewrite VG in Vp.
      assert (B : - comp d (woff (fint f)) <= comp d p /\ Z.max (comp d p) (comp d (woff (fint f))) < comp d (iv_add (iv_add (iv_add n (has_extra (fbc f))) (gminus (fghosts f))) (gplus (fghosts f)))).
      { rewrite OW. destruct Ng as ((? & ? & ?) & ? & ? & ?). destruct Pn as (? & ? & ?). destruct En as (? & ? & ?). cbn in Vp. destruct d; cbn [comp]; cbn in *; lia. }
      rewrite andb_true_iff, Z.leb_le, Z.ltb_lt. lia. }
  destruct E as (h' & [] & E & H). exists h'. split; [exact E|exact H].
Qed.
