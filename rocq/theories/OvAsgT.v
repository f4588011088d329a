From Verif Require Import Prelude WindowM WindowS WindowP OverM OverP OverQ GhostM FieldM FieldS FieldP MaskM MaskS MaskP NeboM NeboS NeboP NeboQ NeboA NeboB NeboC OvAsgM OvAsgS OvAsgP OvAsgQ OvAsgR.

#[local] Arguments has_extra : simpl never.
#[local] Arguments INT_MAX : simpl never.

Section Top.
Variable V : Type.
Variable vadd vmul : V -> V -> V.
Notation expr := (expr V).
Notation G := (2 ^ 28).

Lemma bound_ok : 0 <= G /\ 7 * G + 60000 <= INT_MAX.
Proof. split; [discriminate|]. unfold INT_MAX. lia. Qed.

Lemma small_demands n h f (e : expr) p : operands_ok V n h e -> on_patch n f -> glob_npts (fwin f) <= G -> small_operands V e ->
  any_cell n f p -> expr_known V n e p -> leafb G n f /\ dok G n (demands V e iv_zero iv_zero).
Proof.
  intros O Pf Sf (Sr & Sm) A K. pose proof (leafb_of G (proj1 bound_ok) n f Pf Sf) as L. split; [exact L|].
  intros l a b I. destruct (demands_nonneg V e l a b I) as (Na & Nb).
  pose proof (K l a b I) as Kn.
  assert (Ll : match l with LConst => True | LField g => leafb G n g end).
  { destruct l as [|g]; [exact Logic.I|]. destruct O as (Ro & Mo & _).
    destruct (proj1 (demands_origin_all V) e iv_zero iv_zero iv_zero g a b I) as [(s & J)|(k & s & <- & J)].
    - apply (leafb_of G (proj1 bound_ok)); [apply (Ro g s J)|apply (Sr g s J)].
    - apply (leafb_of G (proj1 bound_ok)); [apply (Mo k s J)|apply (Sm k s J)]. }
  assert (Hg : 0 <= G) by discriminate.
  revert Ll Hg L Kn. generalize (2 ^ 28). clear - A Na Nb. intros G Ll Hg L Kn.
  pose proof (Kn (iv_sub p a)) as K1. pose proof (Kn (iv_add p b)) as K2. clear Kn.
  assert (Le1 : iv_le (iv_sub p a) (iv_sub p a) /\ iv_le (iv_sub p a) (iv_add p b)) by (unfold iv_le in *; cbn in *; lia).
  assert (Le2 : iv_le (iv_sub p a) (iv_add p b) /\ iv_le (iv_add p b) (iv_add p b)) by (unfold iv_le in *; cbn in *; lia).
  specialize (K1 (proj1 Le1) (proj2 Le1)). specialize (K2 (proj1 Le2) (proj2 Le2)). clear Le1 Le2.
  assert (Lay : forall pr, is_proj pr -> pr (fst (layers l)) <= G + 9001 /\ pr n + pr (snd (layers l)) <= G + 9001).
  { intros pr P. pose proof (lb_n _ _ _ L pr P) as Nn. destruct l as [|g]; cbn [layers fst snd].
    - replace (pr (IV GHOST_MAX GHOST_MAX GHOST_MAX)) with 9001 by (destruct P as [->|[->| ->]]; reflexivity). lia.
    - pose proof (proj1 (lb_valid _ _ _ Ll) pr P). pose proof (lb_all _ _ _ Ll pr P) as S. rewrite pr_add in S by assumption. lia. }
  assert (Cell : forall pr, is_proj pr -> - G <= pr p <= G /\ - pr (fst (layers l)) <= pr p - pr a /\ pr p + pr b < pr n + pr (snd (layers l))).
  { intros pr P. unfold any_cell, reach, known, in_region in *. cbn [iv_neg ix iy iz iv_add iv_sub] in *.
    pose proof (lb_gall _ _ _ L pr P) as S. rewrite !pr_add in S by assumption.
    pose proof (proj1 (lb_ghosts _ _ _ L) pr P) as Gm. destruct P as [->|[->| ->]]; lia. }
  repeat split; try assumption.
  - rewrite iv_le_pr in Na. specialize (Na pr H). rewrite pr_zero in Na by assumption. exact Na.
  - specialize (Lay pr H). specialize (Cell pr H). lia.
  - rewrite iv_le_pr in Nb. specialize (Nb pr H). rewrite pr_zero in Nb by assumption. exact Nb.
  - specialize (Lay pr H). specialize (Cell pr H). lia.
Qed.

Lemma core32 n h f (e : expr) useGhost rg lg fuel :
  operands_ok V n h e -> destination_ok V n h f -> glob_npts (fwin f) <= G -> small_operands V e ->
  assign_ghosts V useGhost f e = Ok (rg, lg) ->
  gminus lg = gminus rg -> gplus lg = iv_sub (gplus rg) (has_extra (fbc f)) ->
  (forall p, box_of n rg p -> any_cell n f p /\ expr_known V n e p) ->
  0 < ix (box_ext n rg) -> 0 < iy (box_ext n rg) -> 0 < iz (box_ext n rg) ->
  run (sequential_assign32 V vadd vmul fuel useGhost f e) h = run (sequential_assign V vadd vmul fuel useGhost f e) h.
Proof.
  intros O (Df & Dr & Dc) Sf So Eg Lm Lp K Ex Ey Ez. destruct bound_ok as (G0 & HG).
  set (lo := box_lo rg) in *. set (ext := box_ext n rg) in *.
  assert (Pl : in_region lo (box_hi lo ext) lo) by (unfold in_region, box_hi; cbn [iv_add ix iy iz]; lia).
  destruct (K lo (proj2 (box_of_eq n rg lo) Pl)) as (A0 & K0).
  destruct (small_demands n h f e lo O Df Sf So A0 K0) as (L & D).
  clear A0 K0. revert G0 HG L D. generalize (2 ^ 28). clear Sf So. intros G G0 HG L D.
  assert (KV : forall g s p, In (g, s) (reads V e iv_zero) -> in_region lo (box_hi lo ext) p -> valid_cell n g (iv_add p s)).
  { intros g s p I P. eapply known_read; [apply K; apply box_of_eq; exact P|exact I]. }
  assert (KM : forall k s p, In (k, s) (masks V e iv_zero) -> in_region lo (box_hi lo ext) p -> valid_cell n (mgeo k) (iv_add p s)).
  { intros k s p I P. eapply known_mask; [apply K; apply box_of_eq; exact P|exact I]. }
  assert (KA : forall p, in_region lo (box_hi lo ext) p -> any_cell n f p).
  { intros p P. apply K. apply box_of_eq. exact P. }
  assert (Fl : fits (lhswin lo ext f)).
  { destruct Df as (_ & _ & W & _ & _ & _ & _ & _ & (FG & FO & FE)).
    assert (K0 := KA lo). assert (K1 := KA (iv_sub (box_hi lo ext) (IV 1 1 1))).
    unfold any_cell, reach, in_region, box_hi, fits, grown, iv_le, lhswin, pos_dims in *; cbn [wglob woff wext] in *.
    clear - K0 K1 FG FO FE W Ex Ey Ez. clearbody lo ext. cbn in *. rewrite W in FG, FO, FE. cbn in *.
    specialize (K0 ltac:(lia)). specialize (K1 ltac:(lia)). lia. }
  assert (E1 : lo = iv_neg (gminus rg)) by reflexivity.
  assert (E2 : ext = iv_add (iv_add n (gminus rg)) (gplus rg)) by reflexivity.
  destruct O as (Ro & Mo & So).
  assert (RF : forall g s, In (g, s) (reads V e iv_zero) -> fits (leafwin lo ext g s)).
  { intros g s I. apply (leaf_fits n); [exact (proj1 (Ro g s I))|assumption..|]. intros p P. exact (KV g s p I P). }
  assert (MF : forall k s, In (k, s) (masks V e iv_zero) -> fits (leafwin lo ext (mgeo k) s)).
  { intros k s I. apply (leaf_fits n); [exact (proj1 (Mo k s I))|assumption..|]. intros p P. exact (KM k s p I P). }
  assert (Lf : each (lf lo ext (gminus rg) (gplus rg)) (reads V e iv_zero) (masks V e iv_zero)).
  { split; intros x s I; split; auto.
    - apply (leaf_window n); [apply (Ro x s I)|exact E1|exact E2].
    - apply (leaf_window n); [apply (Mo x s I)|exact E1|exact E2]. }
  assert (Sz : each (sized G n lo ext) (reads V e iv_zero) (masks V e iv_zero)).
  { split; intros x s I; split; auto.
    - destruct (proj1 (reads_demands_all V) e iv_zero iv_zero iv_zero x s I) as (a & b & J & _). apply (D _ _ _ J).
    - destruct (proj1 (masks_demands_all V) e iv_zero iv_zero iv_zero x s I) as (a & b & J & _). apply (D _ _ _ J). }
  destruct (assign_ghosts_ok G G0 HG V n useGhost f e rg lg L D Eg) as (Eg32 & (Rm & Rp) & Lm' & Lp').
  unfold sequential_assign32, sequential_assign. rewrite Eg32, Eg. cbn [lift pbind].
  assert (Ein : init32 V vadd vmul e (gminus rg) (gplus rg) iv_zero = init V vadd vmul false e (gminus rg) (gplus rg) iv_zero).
  { apply (proj1 (init32_all G G0 HG n V vadd vmul lo ext Ex Ey Ez (gminus rg) (gplus rg) Rm Rp) e iv_zero iv_zero iv_zero).
    - intros pr P. rewrite pr_zero by assumption. lia.
    - intros pr P. rewrite pr_zero by assumption. lia.
    - exact D.
    - exact Lf. }
  rewrite Ein. rewrite !run_then.
  assert (Si : solo (fun _ _ => True) (fun _ _ => True) (init V vadd vmul false e (gminus rg) (gplus rg) iv_zero) h h
                 (wat V vadd vmul lo ext h false e iv_zero 0)).
  { apply (proj1 (init_all V vadd vmul lo ext Ex Ey Ez h _ _ (gminus rg) (gplus rg) false)).
    - intros g s I. apply Lf. exact I.
    - intros k s I. apply Lf. exact I.
    - intros g I. split; [apply So; exact I|exact Logic.I]. }
  rewrite (solo_run _ _ _ _ _ _ _ Si). rewrite (reset32 G G0 HG n) by assumption. cbn [lift pbind].
  apply (walk32 G G0 HG n V vadd vmul lo ext Ex Ey Ez h f Fl L e Sz); [|reflexivity].
  destruct Df as (_ & _ & W & E & _). unfold reset_valid_ghosts, lhswin; cbn [fwin]. rewrite E.
  apply win_ext; cbn [wglob woff wext grown mk_ghost gminus gplus]; [reflexivity| |]; rewrite ?E1, ?E2, ?W, Lm, ?Lp; iv_solve.
Qed.

Lemma assign32_ok n h f (e : expr) : operands_ok V n h e -> destination_ok V n h f -> alias_ok V f e -> covers_extra V f e ->
  (exists p, region V n f e p) -> glob_npts (fwin f) <= G -> small_operands V e ->
  exists N, forall fuel, (N <= fuel)%nat -> exists h',
    run (sequential_assign32 V vadd vmul fuel true f e) h = RDone h' tt /\
    assigned V h h' f (region V n f e) (denote V vadd vmul h e).
Proof.
  intros O D Al Cx (p0 & P0) Sf So. destruct (assign_solo V vadd vmul n h f e O D Al Cx (ex_intro _ p0 P0)) as (N & HN).
  exists N. intros fuel Hf. destruct (HN fuel Hf) as (h' & S & A). exists h'. split; [|exact A].
  destruct (assign_ghosts_region V n h f e O (proj1 D) Cx) as (rg & lg & E & L1 & L2 & B).
  destruct (box_nonempty n rg p0 (proj2 (B p0) P0)) as (Ex & Ey & Ez).
  rewrite (core32 n h f e true rg lg fuel O D Sf So E L1 L2 (fun p H => proj1 (B p) H) Ex Ey Ez).
  exact (solo_run _ _ _ _ _ _ _ S).
Qed.

Lemma interior32_ok n h f (e : expr) : operands_ok V n h e -> destination_ok V n h f -> alias_ok V f e ->
  (forall p, interior_cell n f p -> expr_known V n e p) -> glob_npts (fwin f) <= G -> small_operands V e ->
  exists N, forall fuel, (N <= fuel)%nat -> exists h',
    run (sequential_assign32 V vadd vmul fuel false f e) h = RDone h' tt /\
    assigned V h h' f (interior_cell n f) (denote V vadd vmul h e).
Proof.
  intros O D Al K Sf So. destruct (interior_solo V vadd vmul n h f e O D Al K) as (N & HN).
  exists N. intros fuel Hf. destruct (HN fuel Hf) as (h' & S & A). exists h'. split; [|exact A].
  destruct (interior_ghosts V n h f e O D K) as (rg & lg & E & L1 & L2 & B & KK & Ex & Ey & Ez).
  rewrite (core32 n h f e false rg lg fuel O D Sf So E L1 L2 KK Ex Ey Ez).
  exact (solo_run _ _ _ _ _ _ _ S).
Qed.
End Top.

(** A mask walked from begin() to end(). *)
Lemma mask_steps w : fits w -> pos_dims (wglob w) -> glob_npts w <= 2 ^ 28 -> 0 < ix (wext w) /\ 0 < iy (wext w) /\ 0 < iz (wext w) ->
  forall k, (Z.of_nat k <= local_npts w) ->
  (do m <- mit_make32 w; mit_steps32 k m) = Ok (Nat.iter k mit_incr (mit_begin w)).
Proof.
  intros F D Sm (Px & Py & Pz). destruct bound_ok as (G0 & HG).
  rewrite (mmake32 (2 ^ 28) G0 HG w F D Sm Px Py Pz). cbn [obind].
  assert (H : forall k j, 0 <= j -> j + Z.of_nat k <= local_npts w -> mit_steps32 k (mit_at w j) = Ok (mit_at w (j + Z.of_nat k))).
  { induction k as [|k IH]; intros j Hj L.
    - cbn [mit_steps32]. rewrite Z.add_0_r. reflexivity.
    - cbn [mit_steps32]. rewrite (mincr32 (2 ^ 28) G0 HG w F D Sm Px Py Pz) by lia. cbn [obind].
      rewrite (mit_at_incr w F Px Py) by lia. rewrite IH by lia.
      replace (j + 1 + Z.of_nat k) with (j + Z.of_nat (S k)) by lia. reflexivity. }
  intros k Hk. rewrite (mit_at_0 w F Px Py). change (mit_make w) with (mit_begin w). rewrite (mit_at_0 w F Px Py).
  rewrite H by lia. rewrite (mit_at_iter w F Px Py) by lia. reflexivity.
Qed.
