(** Proofs about grid coordinates. *)
From Verif Require Import Prelude WindowM WindowS WindowP GhostM FieldM FieldS MaskM NeboM NeboS StencilM StencilS LagrangeM IterM IterS IterP CompareP PointP NeboC GridM.
Local Open Scope Z_scope.

Lemma for_range_rule {S} (Inv : Z -> heap Qc -> S -> Prop) (body : Z -> S -> prog Qc S) lo hi :
  lo <= hi ->
  (forall i h s, lo <= i < hi -> Inv i h s -> IterP.ends (body i s) h (Inv (i + 1))) ->
  forall h s, Inv lo h s -> IterP.ends (for_range (Z.to_nat (hi - lo)) lo s body) h (Inv hi).
Proof.
  intros L B. remember (Z.to_nat (hi - lo)) as n eqn:E. revert lo L B E. induction n as [|n IH]; intros lo L B E h s I; cbn [for_range].
  - assert (lo = hi) as <- by lia. apply ends_ret. exact I.
  - apply ends_bind. eapply ends_mono; [|apply B; [lia|exact I]]. intros h' s' I'. apply (IH (lo + 1)); [lia| |lia|exact I'].
    intros i h2 s2 R. apply B. lia.
Qed.

(** The value stored at position p of the window. *)
Definition stored (sp : Qc) (d : dir) (l : loc) (f : field) (p : ivec) : Qc :=
  (sp * qc_of (iv_at p d - iv_at (woff (fint f)) d) + shift d l * sp)%Qc.

Section Walk.
Variables (sp : Qc) (d : dir) (l : loc) (f : field) (h0 : heap Qc).
Hypothesis L : live h0 f.
Notation w := (fwin f).
Notation pos k := (dec (ix (wext w)) (iy (wext w)) k).
Definition walked (k : Z) (h : heap Qc) (it : WindowM.iter) : Prop :=
  it = iter_at 0 w k /\
  (forall j, 0 <= j < k -> bdata (h (fbuf f)) (kcell w j) = stored sp d l f (pos j)) /\
  differs_only h0 h (fun b i => b = fbuf f /\ exists j, 0 <= j < k /\ i = kcell w j).

Lemma walk_step k h it x y z : 0 <= k < local_npts w -> pos k = IV x y z -> walked k h it ->
  IterP.ends (Store (fbuf f) (icur it) (sp * qc_of (iv_at (IV x y z) d - iv_at (woff (fint f)) d) + shift d l * sp)%Qc (Ret (it_incr it))) h (walked (k + 1)).
Proof.
  intros K E (-> & V & C & D). pose proof L as (P & F & _). rewrite icur_at.
  apply ends_store; [rewrite C; apply live_cell; assumption|]. apply ends_ret. split; [apply incr_ok; exact P|]. split.
  - intros j Hj. destruct (Z.eq_dec j k) as [->|N].
    + rewrite upd_same. unfold stored. rewrite E. reflexivity.
    + rewrite upd_other; [apply V; lia|]. right. intros Q. apply N. apply (kcell_inj w); assumption || lia.
  - split.
    + intros b i. rewrite upd_cells. apply C.
    + intros b i N. rewrite upd_other.
      * apply D. intros (-> & j & R & ->). apply N. split; [reflexivity|]. exists j. split; [lia|reflexivity].
      * destruct (Nat.eq_dec b (fbuf f)) as [->|]; [|left; assumption]. right. intros ->. apply N. split; [reflexivity|]. exists k. split; [lia|reflexivity].
Qed.

Lemma walk_all : IterP.ends
  (for_range (Z.to_nat (iz (wext w))) 0 (iter_at 0 w 0) (fun z it =>
    for_range (Z.to_nat (iy (wext w))) 0 it (fun y it =>
      for_range (Z.to_nat (ix (wext w))) 0 it (fun x it =>
        Store (fbuf f) (icur it) (sp * qc_of (iv_at (IV x y z) d - iv_at (woff (fint f)) d) + shift d l * sp)%Qc (Ret (it_incr it)))))) h0
  (walked (local_npts w)).
Proof.
  pose proof L as ((A & B & C) & F & _). set (ex := ix (wext w)) in *. set (ey := iy (wext w)) in *. set (ez := iz (wext w)) in *.
  assert (E : local_npts w = 0 + ex * (0 + ey * ez)) by (unfold local_npts; fold ex ey ez; ring). rewrite E.
  rewrite <- (Z.sub_0_r ez) at 1. apply (for_range_rule (fun z => walked (0 + ex * (0 + ey * z)))); [lia| |].
  - intros z h it Hz I. eapply ends_mono; [|rewrite <- (Z.sub_0_r ey) at 1; apply (for_range_rule (fun y => walked (0 + ex * (y + ey * z)))); [lia| |exact I]].
    + intros h' it' I'. replace (0 + ex * (0 + ey * (z + 1))) with (0 + ex * (ey + ey * z)) by ring. exact I'.
    + intros y h' it' Hy I'. eapply ends_mono; [|rewrite <- (Z.sub_0_r ex) at 1; apply (for_range_rule (fun x => walked (x + ex * (y + ey * z)))); [lia| |exact I']].
      * intros h2 it2 I2. replace (0 + ex * (y + 1 + ey * z)) with (ex + ex * (y + ey * z)) by ring. exact I2.
      * intros x h2 it2 Hx I2. eapply ends_mono; [|apply (walk_step (x + ex * (y + ey * z)))].
        -- intros h3 it3 I3. replace (x + 1 + ex * (y + ey * z)) with (x + ex * (y + ey * z) + 1) by ring. exact I3.
        -- rewrite E. assert (0 <= y + ey * z <= ey * ez - 1) by nia. nia.
        -- apply dec_flat; fold ex ey; lia.
        -- exact I2.
  - replace (0 + ex * (0 + ey * 0)) with 0 by ring. split; [reflexivity|]. split; [lia|]. split; reflexivity.
Qed.
End Walk.

Lemma qc_of_add a b : qc_of (a + b) = (qc_of a + qc_of b)%Qc.
Proof. unfold qc_of. apply Qc_is_canon. unfold Qcplus, Q2Qc, this. rewrite !Qred_correct, inject_Z_plus. reflexivity. Qed.
Lemma qc_of_opp a : qc_of (- a) = (- qc_of a)%Qc.
Proof. unfold qc_of. apply Qc_is_canon. unfold Qcopp, Q2Qc, this. rewrite !Qred_correct, inject_Z_opp. reflexivity. Qed.
Lemma stored_coord sp d l f p q : iv_at q d = comp d p + comp d (woff (fint f)) - comp d (woff (fwin f)) ->
  stored (sp d) d l f q = (coord sp l p d - sp d * qc_of (comp d (woff (fwin f))))%Qc.
Proof.
  intros E. unfold stored, coord, shift. rewrite E.
  assert (iv_at (woff (fint f)) d = comp d (woff (fint f))) as -> by (destruct d; reflexivity).
  replace (comp d p + comp d (woff (fint f)) - comp d (woff (fwin f)) - comp d (woff (fint f))) with (comp d p + - comp d (woff (fwin f))) by ring.
  assert (comp d (place (offset l) p) = comp d p + comp d p + (1 + iv_at (offset l) d)) as -> by (destruct d; unfold comp, place, iv_at; cbn [ix iy iz]; ring).
  rewrite !(qc_of_add (comp d p)), !qc_of_opp, (qc_of_add (comp d p + comp d p)), (qc_of_add (comp d p)). 
  generalize (qc_of (comp d p)) (qc_of (comp d (woff (fwin f)))) (qc_of (1 + iv_at (offset l) d)) (sp d). intros a b c s.
  assert (H : (half + half = 1)%Qc) by (apply Qc_is_canon; reflexivity).
  transitivity (s * (half + half) * a - s * b + half * c * s)%Qc; [rewrite H; ring|ring].
Qed.

Lemma valid_kcell n f p : on_patch n f -> valid_cell n f p ->
  exists k, 0 <= k < local_npts (fwin f) /\ cell f p = kcell (fwin f) k /\
    forall d, iv_at (dec (ix (wext (fwin f))) (iy (wext (fwin f))) k) d = comp d p + comp d (woff (fint f)) - comp d (woff (fwin f)).
Proof.
  intros (P & E & W & Fw & N & _) V. unfold valid_cell, reach, in_region in V.
  assert (Wx : wext (fwin f) = iv_add (iv_add (iv_add n (has_extra (fbc f))) (gminus (fvalid f))) (gplus (fvalid f))) by (rewrite Fw; cbn; rewrite W; reflexivity).
  set (q := iv_add p (gminus (fvalid f))).
  assert (B : in_box (wext (fwin f)) q) by (rewrite Wx; unfold in_box, q; cbn in *; lia).
  destruct B as (Bx & By & Bz). exists (ix q + ix (wext (fwin f)) * (iy q + iy (wext (fwin f)) * iz q)).
  assert (D : dec (ix (wext (fwin f))) (iy (wext (fwin f))) (ix q + ix (wext (fwin f)) * (iy q + iy (wext (fwin f)) * iz q)) = q).
  { rewrite dec_flat by lia. destruct q; reflexivity. }
  split; [|split].
  - unfold local_npts. set (a := ix (wext (fwin f))) in *. set (b := iy (wext (fwin f))) in *. set (c := iz (wext (fwin f))) in *.
    assert (0 <= iy q + b * iz q <= b * c - 1) by nia. nia.
  - unfold kcell. rewrite D. unfold cell. rewrite Fw. unfold addr, grown, q. cbn [woff wglob ix iy iz iv_sub iv_add].
    f_equal; [lia|]. f_equal. f_equal; [lia|]. f_equal. lia.
  - intros d. rewrite D. rewrite Fw. unfold q, grown. cbn [woff]. destruct d; cbn; lia.
Qed.
Lemma kcell_valid n f k : on_patch n f -> 0 <= k < local_npts (fwin f) -> exists p, valid_cell n f p /\ kcell (fwin f) k = cell f p.
Proof.
  intros (P & E & W & Fw & N & _) K.
  assert (Wx : wext (fwin f) = iv_add (iv_add (iv_add n (has_extra (fbc f))) (gminus (fvalid f))) (gplus (fvalid f))) by (rewrite Fw; cbn; rewrite W; reflexivity).
  assert (B : in_box (wext (fwin f)) (dec (ix (wext (fwin f))) (iy (wext (fwin f))) k)).
  { destruct (wext (fwin f)) as [a b c] eqn:Ew. apply dec_range; [| |unfold local_npts in K; rewrite Ew in K; exact K];
    pose proof (f_equal ix Wx) as X; pose proof (f_equal iy Wx) as Y; cbn in X, Y; destruct N as ((? & ? & ?) & ? & ? & ?); destruct E as (? & ? & ?); destruct P as (? & ? & ?); cbn in *; lia. }
  set (q := dec _ _ k) in *. exists (iv_sub q (gminus (fvalid f))). split.
  - rewrite Wx in B. unfold in_box in B. unfold valid_cell, reach, in_region. cbn in *. lia.
  - unfold kcell. fold q. unfold cell. rewrite Fw. unfold addr, grown. cbn [woff wglob ix iy iz iv_sub iv_add]. f_equal; [lia|]. f_equal. f_equal; [lia|]. f_equal. lia.
Qed.
Lemma patch_live (h : heap Qc) n f : on_patch n f -> (forall p, valid_cell n f p -> bcells (h (fbuf f)) (cell f p) = true) -> live h f.
Proof.
  intros O C. pose proof O as (P & E & W & Fw & N & Le & _ & _ & F).
  assert (PD : pos_dims (wext (fwin f))).
  { rewrite Fw. cbn. rewrite W. destruct N as ((? & ? & ?) & ? & ? & ?); destruct E as (? & ? & ?); destruct P as (? & ? & ?). unfold pos_dims; cbn in *. lia. }
  split; [exact PD|]. split.
  - rewrite Fw in PD |- *. destruct PD as (? & ? & ?). destruct Le as ((? & ? & ?) & ? & ? & ?). destruct N as ((? & ? & ?) & ? & ? & ?). unfold fits in *. cbn in *. lia.
  - intros i I. apply in_cells in I as (k & K & ->); [|exact PD]. destruct (kcell_valid n f k O K) as (p & V & ->). apply C. exact V.
Qed.

(** ** The theorems *)
Lemma make_grid_ok npts lx ly lz rest : exists g, make_grid npts (lx :: ly :: lz :: rest) = Ok g /\
  forall d, grid_spacing_of g d = Ok (grid_spacing npts lx ly lz d).
Proof. eexists. split; [reflexivity|]. intros []; reflexivity. Qed.

Lemma set_coord_ok n h f d l npts lx ly lz rest g :
  on_patch n f -> freadonly f = false -> (forall p, valid_cell n f p -> bcells (h (fbuf f)) (cell f p) = true) ->
  make_grid npts (lx :: ly :: lz :: rest) = Ok g ->
  let s := grid_spacing npts lx ly lz in
  exists h', run (set_coord g d l f) h = RDone h' tt /\
    (forall p, valid_cell n f p -> value Qc h' f p = (coord s l p d - s d * qc_of (comp d (woff (fwin f))))%Qc) /\
    differs_only h h' (fun b i => b = fbuf f /\ exists p, valid_cell n f p /\ i = cell f p).
Proof.
  intros O RO C G s. pose proof (patch_live h n f O C) as L. pose proof L as (PD & _).
  destruct (make_grid_ok npts lx ly lz rest) as (g' & G' & S). rewrite G in G'. injection G' as <-.
  assert (E : IterP.ends (set_coord g d l f) h (fun h' _ =>
    (forall p, valid_cell n f p -> value Qc h' f p = (coord s l p d - s d * qc_of (comp d (woff (fwin f))))%Qc) /\
    differs_only h h' (fun b i => b = fbuf f /\ exists p, valid_cell n f p /\ i = cell f p))).
  { unfold set_coord. rewrite S. cbn [lift pbind]. rewrite begin_ok by assumption. cbn [lift pbind]. apply ends_bind. eapply ends_mono.
    2: apply (walk_all (s d) d l f h L).
    intros h' it (_ & V & Cl & D). apply ends_ret. split; [|split; [exact Cl|]].
    - intros p Vp. destruct (valid_kcell n f p O Vp) as (k & K & Ek & Q). unfold value. rewrite Ek, V by exact K. apply stored_coord. apply Q.
    - intros b i N. apply D. intros (-> & j & J & ->). apply N. split; [reflexivity|]. apply (kcell_valid n f j O J). }
  destruct E as (h' & [] & E & H). exists h'. split; [exact E|exact H].
Qed.

Lemma set_coord_user n h f d l npts lx ly lz rest g :
  user_field n f -> freadonly f = false -> (forall p, valid_cell n f p -> bcells (h (fbuf f)) (cell f p) = true) ->
  make_grid npts (lx :: ly :: lz :: rest) = Ok g ->
  let s := grid_spacing npts lx ly lz in
  let hidden := comp d (gminus (fghosts f)) - comp d (gminus (fvalid f)) in
  exists h', run (set_coord g d l f) h = RDone h' tt /\
    (forall p, valid_cell n f p -> value Qc h' f p = (coord s l p d - s d * qc_of hidden)%Qc) /\
    differs_only h h' (fun b i => b = fbuf f /\ exists p, valid_cell n f p /\ i = cell f p).
Proof.
  intros U RO C G s hd. destruct (user_field_on_patch n f U) as (O & _ & OW).
  destruct (set_coord_ok n h f d l npts lx ly lz rest g O RO C G) as (h' & E & V & D). exists h'. split; [exact E|]. split; [|exact D].
  intros p Vp. rewrite (V p Vp). unfold hd. assert (comp d (woff (fwin f)) = comp d (gminus (fghosts f)) - comp d (gminus (fvalid f))) as ->; [|reflexivity].
  destruct O as (_ & _ & _ & Fw & _). rewrite Fw. cbn [grown woff]. rewrite OW. destruct d; reflexivity.
Qed.

Lemma coord_step_along s l p d : coord s l (step d 1 p) d = (coord s l p d + s d)%Qc.
Proof.
  unfold coord. assert (comp d (place (offset l) (step d 1 p)) = comp d (place (offset l) p) + 2) as -> by (destruct d; unfold comp, place, step; cbn [ix iy iz]; ring).
  rewrite qc_of_add. assert (H : (half * qc_of 2 = 1)%Qc) by (apply Qc_is_canon; reflexivity).
  generalize (qc_of (comp d (place (offset l) p))) (s d). intros a b. transitivity (b * half * a + b * (half * qc_of 2))%Qc; [ring|rewrite H; ring].
Qed.
Lemma coord_step_across s l p d e k : d <> e -> coord s l (step e k p) d = coord s l p d.
Proof. intros N. unfold coord. destruct d, e; try (exfalso; apply N; reflexivity); reflexivity. Qed.
Lemma set_coord_readonly h f d l g : freadonly f = true -> (exists s, grid_spacing_of g d = Ok s) -> run (set_coord g d l f) h = RThrow.
Proof. intros RO (s & E). unfold set_coord. rewrite E. cbn [lift pbind]. unfold field_begin. rewrite RO. reflexivity. Qed.
Lemma qc_nonzero_of k : k <> 0 -> qc_of k <> 0%Qc.
Proof. intros N E. apply N. apply (f_equal this) in E. unfold qc_of, Q2Qc, this in E. assert (H : (inject_Z k == 0)%Q) by (rewrite <- (Qred_correct (inject_Z k)), E; reflexivity). unfold Qeq in H. cbn in H. lia. Qed.
Lemma coord_wrong s l p d k : s d <> 0%Qc -> k <> 0 -> (coord s l p d - s d * qc_of k)%Qc <> coord s l p d.
Proof.
  intros S K E. assert (H : (s d * qc_of k = 0)%Qc) by (transitivity (coord s l p d - (coord s l p d - s d * qc_of k))%Qc; [ring|rewrite E; ring]).
  apply Qcmult_integral in H as [H|H]; [exact (S H)|exact (qc_nonzero_of k K H)].
Qed.

Lemma set_coord_exact n h f d l npts lx ly lz rest g :
  user_field n f -> fvalid f = fghosts f -> freadonly f = false -> (forall p, any_cell n f p -> bcells (h (fbuf f)) (cell f p) = true) ->
  make_grid npts (lx :: ly :: lz :: rest) = Ok g ->
  exists h', run (set_coord g d l f) h = RDone h' tt /\
    (forall p, any_cell n f p -> value Qc h' f p = coord (grid_spacing npts lx ly lz) l p d) /\
    differs_only h h' (fun b i => b = fbuf f /\ exists p, any_cell n f p /\ i = cell f p).
Proof.
  intros U VG RO C G. assert (A : any_cell n f = valid_cell n f) by (unfold any_cell, valid_cell; rewrite VG; reflexivity). rewrite A in *.
  destruct (set_coord_user n h f d l npts lx ly lz rest g U RO C G) as (h' & E & V & D). exists h'. split; [exact E|]. split; [|exact D].
  intros p Vp. rewrite (V p Vp). rewrite VG, Z.sub_diag. unfold Qcminus. assert (qc_of 0 = 0%Qc) as -> by (apply Qc_is_canon; reflexivity). ring.
Qed.
Lemma set_coord_wrong n h f d l npts lx ly lz rest g :
  user_field n f -> freadonly f = false -> (forall p, valid_cell n f p -> bcells (h (fbuf f)) (cell f p) = true) ->
  make_grid npts (lx :: ly :: lz :: rest) = Ok g -> grid_spacing npts lx ly lz d <> 0%Qc ->
  comp d (gminus (fvalid f)) <> comp d (gminus (fghosts f)) ->
  exists h', run (set_coord g d l f) h = RDone h' tt /\
    forall p, valid_cell n f p -> value Qc h' f p <> coord (grid_spacing npts lx ly lz) l p d.
Proof.
  intros U RO C G S N. destruct (set_coord_user n h f d l npts lx ly lz rest g U RO C G) as (h' & E & V & D). exists h'. split; [exact E|].
  intros p Vp. rewrite (V p Vp). apply coord_wrong; [exact S|lia].
Qed.
Lemma set_coord_neighbours n h f d e l npts lx ly lz rest g p :
  user_field n f -> freadonly f = false -> (forall p, valid_cell n f p -> bcells (h (fbuf f)) (cell f p) = true) ->
  make_grid npts (lx :: ly :: lz :: rest) = Ok g -> valid_cell n f p -> valid_cell n f (step e 1 p) ->
  exists h', run (set_coord g d l f) h = RDone h' tt /\
    (d = e -> value Qc h' f (step e 1 p) = (value Qc h' f p + grid_spacing npts lx ly lz d)%Qc) /\
    (d <> e -> value Qc h' f (step e 1 p) = value Qc h' f p).
Proof.
  intros U RO C G Vp Vq. destruct (set_coord_user n h f d l npts lx ly lz rest g U RO C G) as (h' & E & V & D). exists h'. split; [exact E|].
  rewrite (V p Vp), (V _ Vq). split.
  - intros <-. rewrite coord_step_along. ring.
  - intros N. rewrite coord_step_across by exact N. reflexivity.
Qed.
Lemma coord_origin s l d :
  (comp d (offset l) = 0 -> coord s l iv_zero d = (s d * half)%Qc) /\ (comp d (offset l) = -1 -> coord s l iv_zero d = 0%Qc).
Proof.
  assert (P : comp d (place (offset l) iv_zero) = 1 + comp d (offset l)) by (destruct d; reflexivity).
  unfold coord. rewrite P. split; intros ->.
  - change (1 + 0) with 1. assert (qc_of 1 = 1%Qc) as -> by (apply Qc_is_canon; reflexivity). ring.
  - change (1 + -1) with 0. assert (qc_of 0 = 0%Qc) as -> by (apply Qc_is_canon; reflexivity). ring.
Qed.
Lemma set_coord_ro h f d l npts lx ly lz rest g : make_grid npts (lx :: ly :: lz :: rest) = Ok g -> freadonly f = true ->
  run (set_coord g d l f) h = RThrow.
Proof.
  intros G RO. apply set_coord_readonly; [exact RO|]. destruct (make_grid_ok npts lx ly lz rest) as (g' & G' & S). rewrite G in G'. injection G' as <-. eexists. apply S.
Qed.
