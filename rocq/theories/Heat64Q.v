(** How much heat rounding can create in an insulated patch (C65). *)
From Coq Require Import Reals Lra Lia.
From Flocq Require Import Core.
From Verif Require Import Prelude WindowM WindowS GhostM FieldM FieldS MaskM NeboM NeboS StencilM StencilS StencilQ RoundM RoundS RoundP RoundT StoreM StoreS ThinS HeatM HeatS HeatT HeatD HeatE Heat64S Heat64P.
Open Scope R_scope.
Local Notation step := StencilS.step.

(** ** The sums of HeatT over the reals *)
Lemma rsum_app a b : rsum (a ++ b) = rsum a + rsum b.
Proof. induction a as [|x a IH]; cbn [app rsum]; [ring|]. rewrite IH. ring. Qed.
Lemma rsum_sub {A} (f g : A -> R) l : rsum (map (fun x => f x - g x) l) = rsum (map f l) - rsum (map g l).
Proof. induction l as [|x l IH]; cbn [map rsum]; [ring|]. rewrite IH. ring. Qed.
Lemma rsum_plus {A} (f g : A -> R) l : rsum (map (fun x => f x + g x) l) = rsum (map f l) + rsum (map g l).
Proof. induction l as [|x l IH]; cbn [map rsum]; [ring|]. rewrite IH. ring. Qed.
Lemma rsum_scale {A} (f : A -> R) k l : rsum (map (fun x => f x * k) l) = rsum (map f l) * k.
Proof. induction l as [|x l IH]; cbn [map rsum]; [ring|]. rewrite IH. ring. Qed.
Lemma rsum_flat {A B} (f : B -> R) (F : A -> list B) l : rsum (map f (flat_map F l)) = rsum (map (fun x => rsum (map f (F x))) l).
Proof. induction l as [|x l IH]; cbn [flat_map map rsum]; [reflexivity|]. rewrite map_app, rsum_app, IH. reflexivity. Qed.
Lemma rsum_cells f n : rsum (map f (cells n)) =
  rsum (map (fun z => rsum (map (fun y => rsum (map (fun x => f (IV x y z)) (zrange (ix n)))) (zrange (iy n)))) (zrange (iz n))).
Proof.
  unfold cells. rewrite rsum_flat. f_equal. apply map_ext. intros z. rewrite rsum_flat. f_equal. apply map_ext. intros y.
  rewrite map_map. reflexivity.
Qed.
Lemma telescopeR (G : Z -> R) m : (0 <= m)%Z -> rsum (map (fun k => G k - G (k + 1)%Z) (zrange m)) = G 0%Z - G m.
Proof.
  intros H. rewrite <- (Z2Nat.id m H). induction (Z.to_nat m) as [|k IH].
  - cbn. ring.
  - rewrite Nat2Z.inj_succ, <- Z.add_1_r, zrange_succ by lia. rewrite map_app, rsum_app, IH. cbn [map rsum]. ring.
Qed.
Lemma telescope_cellsR F d n : iv_le (IV 1 1 1) n ->
  rsum (map (fun p => F p - F (step d 1 p)) (cells n)) = rsum (map F (side d n 0)) - rsum (map F (side d n (comp d n))).
Proof.
  intros (Hx & Hy & Hz). cbn in Hx, Hy, Hz. unfold side. rewrite !map_map, !rsum_cells. rewrite <- rsum_sub.
  destruct d; cbn [one_layer StencilS.step ix iy iz comp].
  - f_equal. apply map_ext. intros z. rewrite <- rsum_sub. f_equal. apply map_ext. intros y. rewrite zrange_1. cbn [map rsum].
    rewrite (telescopeR (fun x => F (IV x y z)) (ix n)) by lia. rewrite !Z.add_0_l. ring.
  - f_equal. apply map_ext. intros z. rewrite zrange_1. cbn [map rsum].
    erewrite map_ext; [|intros y; apply rsum_sub].
    rewrite (telescopeR (fun y => rsum (map (fun x => F (IV x y z)) (zrange (ix n)))) (iy n)) by lia. rewrite !Z.add_0_l. ring.
  - rewrite zrange_1. cbn [map rsum].
    erewrite map_ext; [|intros z; erewrite map_ext; [|intros y; apply rsum_sub]; apply rsum_sub].
    rewrite (telescopeR (fun z => rsum (map (fun y => rsum (map (fun x => F (IV x y z)) (zrange (ix n)))) (zrange (iy n)))) (iz n)) by lia.
    rewrite !Z.add_0_l. ring.
Qed.
Lemma energyR dx T K C n : iv_le (IV 1 1 1) n -> (forall p, in_patch n p -> val (C p) <> 0) ->
  rsum (map (fun p => val (C p) * heatingR dx T K C n p) (cells n)) =
  rsum (map (fun d => (rsum (map (heat_fluxR dx T K d) (side d n 0)) - rsum (map (heat_fluxR dx T K d) (side d n (comp d n)))) / dx d) (wide_dirs n)).
Proof.
  intros Pn NZ.
  transitivity (rsum (map (fun p => rsum (map (fun d => (heat_fluxR dx T K d p - heat_fluxR dx T K d (step d 1 p)) / dx d) (wide_dirs n))) (cells n))).
  { f_equal. apply map_ext_in. intros p I. apply in_cells in I. unfold heatingR. field. apply NZ, I. }
  induction (wide_dirs n) as [|d l IH]; cbn [map rsum].
  { induction (cells n) as [|p c IHc]; cbn [map rsum]; [reflexivity|]. rewrite IHc. ring. }
  rewrite rsum_plus, IH. f_equal. unfold Rdiv. rewrite rsum_scale. rewrite telescope_cellsR by exact Pn. reflexivity.
Qed.
Lemma rsum_zero {A} (f : A -> R) l : (forall x, In x l -> f x = 0) -> rsum (map f l) = 0.
Proof.
  induction l as [|x l IH]; intros H; cbn [map rsum]; [reflexivity|].
  rewrite (H x (or_introl eq_refl)), IH; [ring|]. intros y I. apply H. right. exact I.
Qed.
Lemma insulatedR dx T K C n : iv_le (IV 1 1 1) n -> (forall p, in_patch n p -> val (C p) <> 0) ->
  (forall d p, wide n d -> In p (side d n 0) \/ In p (side d n (comp d n)) -> T (step d (-1) p) = T p) ->
  rsum (map (fun p => val (C p) * heatingR dx T K C n p) (cells n)) = 0.
Proof.
  intros Pn NZ H. rewrite energyR by assumption. apply rsum_zero. intros d I. apply filter_In in I. destruct I as (_ & W). apply Z.ltb_lt in W.
  rewrite !rsum_zero; [unfold Rdiv; ring| |]; intros p J; unfold heat_fluxR; rewrite H by auto; unfold Rdiv; ring.
Qed.
Lemma rsum_close {A} (f g : A -> R) c l : (forall x, In x l -> Rabs (f x - g x) <= c) -> Rabs (rsum (map f l) - rsum (map g l)) <= c * INR (length l).
Proof.
  induction l as [|x l IH]; intros H.
  - cbn. replace (0 - 0) with 0 by ring. rewrite Rabs_R0. lra.
  - change (length (x :: l)) with (S (length l)). rewrite S_INR. cbn [map rsum].
    replace (f x + rsum (map f l) - (g x + rsum (map g l))) with ((f x - g x) + (rsum (map f l) - rsum (map g l))) by ring.
    pose proof (Rabs_triang (f x - g x) (rsum (map f l) - rsum (map g l))). pose proof (H x (or_introl eq_refl)).
    pose proof (IH (fun y I => H y (or_intror I))). lra.
Qed.

(** ** The program *)
Lemma insulated_run64 n Lx Ly Lz : counts_ok n -> (forall d, wide n d -> moderate (len Lx Ly Lz d) /\ val (len Lx Ly Lz d) <> 0) ->
  forall bx by_ bz g h P scr,
  heat_setup dbl n bx by_ bz g (build_stencils64 n Lx Ly Lz) h P -> (forall s, In s scr -> scratch_ok dbl n bx by_ bz g h P s) -> scr <> [] ->
  let T := value dbl h (temperature P) in let K := value dbl h (thermCond P) in let C := value dbl h (rhoCp P) in
  let D := spacingR n Lx Ly Lz in
  forall MT MK,
  (forall p, in_patch n p -> moderate (C p) /\ val (C p) <> 0 /\
     forall d k, wide n d -> (-1 <= k <= 1)%Z -> bounded_by (T (step d k p)) MT /\ bounded_by (K (step d k p)) MK) ->
  (forall d p, wide n d -> In p (side d n 0) \/ In p (side d n (comp d n)) -> T (step d (-1) p) = T p) ->
  exists h', ends_with dbl (fun fuel => heat_loop64 fuel n P scr) h h' /\
  Rabs (rsum (map (fun p => val (C p) * val (value dbl h' (rhs P) p)) (cells n))) <=
  powerRZ 2 (-47) * (MT * MK) * rsum (map (fun d => / (D d * D d)) (wide_dirs n)) * INR (length (cells n)).
Proof.
  intros Cn HL bx by_ bz g h P scr S1 S2 NE T K C D MT MK HB HI.
  destruct (error_run n Lx Ly Lz Cn HL bx by_ bz g h P scr S1 S2 NE) as (h' & E & R & _). exists h'. split; [exact E|].
  fold T K C D in R. pose proof (insulatedR D T K C n (hs_patch _ _ _ _ _ _ _ _ _ S1) (fun p I => proj1 (proj2 (HB p I))) HI) as Z0.
  pose proof (rsum_close (fun p => val (C p) * val (value dbl h' (rhs P) p)) (fun p => val (C p) * heatingR D T K C n p)
    (powerRZ 2 (-47) * (MT * MK) * rsum (map (fun d => / (D d * D d)) (wide_dirs n))) (cells n)) as Cl.
  rewrite Z0, Rminus_0_r in Cl. apply Cl. intros p I. apply in_cells in I. destruct (HB p I) as (MC & NC & H).
  destruct (R p MT MK I MC NC H) as (_ & B). rewrite <- Rmult_minus_distr_l, Rabs_mult.
  apply Rmult_le_compat_l with (r := Rabs (val (C p))) in B; [|apply Rabs_pos]. apply Rle_trans with (1 := B). right.
  assert (Rabs (val (C p)) <> 0) by (apply Rabs_no_R0, NC). field. assumption.
Qed.

(** ** The example *)
Lemma e64_small k : (1 <= k <= 4)%Z -> moderate (dlit k 0) /\ val (dlit k 0) = IZR k.
Proof.
  intros H. destruct (count_exact k ltac:(lia)) as (F & V). split; [|exact V]. split; [exact F|right]. rewrite V, Rabs_pos_eq by (apply IZR_le; lia). rewrite !p2. split.
  - apply Rle_trans with 1; [change 1 with (bpow radix2 0); apply bpow_le; lia|apply IZR_le; lia].
  - apply Rle_trans with 4; [apply IZR_le; lia|]. change 4 with (bpow radix2 2). apply bpow_le. lia.
Qed.
Lemma e64_bounds :
  (forall d, wide en2 d -> moderate (len (dlit 2 0) d_one d_one d) /\ val (len (dlit 2 0) d_one d_one d) <> 0) /\
  (forall p, in_patch en2 p -> moderate (C64 p) /\ val (C64 p) <> 0 /\
     forall d k, wide en2 d -> (-1 <= k <= 1)%Z -> bounded_by (T64 (step d k p)) 2 /\ bounded_by (K64 (step d k p)) 1) /\
  (forall d p, wide en2 d -> In p (side d en2 0) \/ In p (side d en2 (comp d en2)) -> T64 (step d (-1) p) = T64 p).
Proof.
  destruct (e64_small 1 ltac:(lia)) as (M1 & V1), (e64_small 2 ltac:(lia)) as (M2 & V2), (e64_small 3 ltac:(lia)) as (M3 & V3).
  assert (J : forall k, (-1 <= k <= 1)%Z -> (k = -1 \/ k = 0 \/ k = 1)%Z) by (intros; lia).
  split; [|split].
  - intros d W. destruct d; unfold wide in W; cbn in W; try lia. split; [exact M2|]. cbn [len]. rewrite V2. lra.
  - intros p I. split; [|split].
    + apply e64_patch in I. destruct I as [-> | ->]; [exact M3|exact M1].
    + apply e64_patch in I. destruct I as [-> | ->]; [change (val (dlit 3 0) <> 0); rewrite V3; lra|change (val (dlit 1 0) <> 0); rewrite V1; lra].
    + intros d k W B. destruct d; unfold wide in W; cbn in W; try lia. split.
      * assert (Q : T64 (step XDIR k p) = dlit 1 0 \/ T64 (step XDIR k p) = dlit 2 0).
        { apply e64_patch in I. destruct I as [-> | ->]; destruct (J k B) as [-> |[-> | ->]]; (left; reflexivity) || (right; reflexivity). }
        destruct Q as [-> | ->]; (split; [assumption|]); rewrite ?V1, ?V2, Rabs_pos_eq; lra.
      * change (bounded_by (dlit 1 0) 1). split; [exact M1|]. rewrite V1, Rabs_pos_eq; lra.
  - intros d p W [I|I]; destruct d; unfold wide in W; cbn in W, I; try lia; destruct I as [<-|[]]; reflexivity.
Qed.
