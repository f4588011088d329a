(** Consequences for C65, about the memory the program leaves behind. *)
From Coq Require Import Reals Lra.
From Verif Require Import Prelude WindowM WindowS GhostM FieldM FieldS MaskM NeboM NeboS StencilM StencilS StencilQ RoundM RoundS RoundT StoreM StoreS ThinS HeatM HeatS HeatP HeatQ HeatR HeatT HeatD.
Open Scope Z_scope.

Section Exact.
Variable n : ivec.
Variable Lx Ly Lz : Qc.
Variable bx by_ bz : bool.
Variable g : ghost.
Variable h : heap Qc.
Variable P : problem Qc.
Variable scr : list ((dir -> field) * (dir -> field)).
Notation dx := (grid_spacing n Lx Ly Lz).
Notation T := (value Qc h (temperature P)). Notation K := (value Qc h (thermCond P)). Notation C := (value Qc h (rhoCp P)).
Hypothesis S1 : heat_setup Qc n bx by_ bz g (build_stencils n Lx Ly Lz) h P.
Hypothesis S2 : forall s, In s scr -> scratch_ok Qc n bx by_ bz g h P s.
Hypothesis NE : scr <> [].

Lemma in_side d k p : wide n d -> 0 <= k <= comp d n -> In p (side d n k) -> on_face n d p.
Proof.
  intros W B I. apply in_map_iff in I. destruct I as (q & <- & I). apply in_cells in I. pose proof (hs_patch _ _ _ _ _ _ _ _ _ S1) as (X & Y & Z).
  unfold in_patch, on_face, in_region, wide in *. destruct d; cbn in *; lia.
Qed.
Lemma energy_run : (forall p, in_patch n p -> C p <> 0%Qc) ->
  exists h', ends_with Qc (fun fuel => heat_loopQ fuel n P scr) h h' /\
    qsum (map (fun p => value Qc h' (rhoCp P) p * value Qc h' (rhs P) p)%Qc (cells n)) =
    qsum (map (fun d => (qsum (map (value Qc h' (flux P d)) (side d n 0)) - qsum (map (value Qc h' (flux P d)) (side d n (comp d n)))) / dx d)%Qc (wide_dirs n)).
Proof.
  intros NZ. destruct (loop_exact n Lx Ly Lz bx by_ bz g h P scr S1 S2 NE) as (h' & E & R & F & _ & W). exists h'. split; [exact E|].
  pose proof S1 as [Pn Pg HC HF OR OF OF2 HG HI HD].
  assert (CC : forall p, value Qc h' (rhoCp P) p = C p).
  { intros p. apply W. assert (IC : In (rhoCp P) (inputs Qc P)) by (cbn; auto).
    intros [Eq|[(d & Wd & Eq)|(s & d & I & Wd & Eq)]].
    - apply (OR _ IC Eq).
    - apply (OF d _ Wd (or_intror IC) Eq).
    - destruct (sc_own _ _ _ _ _ _ _ _ _ (S2 s I) d _ Wd (or_intror IC)) as (A & B). destruct Eq as [Eq|Eq]; [apply A, Eq|apply B, Eq]. }
  rewrite (map_ext_in (fun p => value Qc h' (rhoCp P) p * value Qc h' (rhs P) p)%Qc (fun p => C p * heating dx T K C n p)%Qc).
  2:{ intros p I. apply in_cells in I. rewrite CC, (R p I). reflexivity. }
  rewrite (energy dx T K C n Pn NZ). f_equal. apply map_ext_in. intros d I. apply filter_In in I. destruct I as (_ & Wd). apply Z.ltb_lt in Wd.
  assert (Hn : 0 <= comp d n) by lia.
  assert (Sd : forall k, 0 <= k <= comp d n -> qsum (map (heat_flux dx T K d) (side d n k)) = qsum (map (value Qc h' (flux P d)) (side d n k))).
  { intros k B. f_equal. apply map_ext_in. intros p I. symmetry. apply F; [exact Wd|exact (in_side d k p Wd B I)]. }
  rewrite !Sd by lia. reflexivity.
Qed.
Lemma insulated_run : (forall p, in_patch n p -> C p <> 0%Qc) ->
  (forall d p, wide n d -> In p (side d n 0) \/ In p (side d n (comp d n)) -> T (step d (-1) p) = T p) ->
  exists h', ends_with Qc (fun fuel => heat_loopQ fuel n P scr) h h' /\
    qsum (map (fun p => C p * value Qc h' (rhs P) p)%Qc (cells n)) = 0%Qc.
Proof.
  intros NZ I. destruct (loop_exact n Lx Ly Lz bx by_ bz g h P scr S1 S2 NE) as (h' & E & R & F & _ & W). exists h'. split; [exact E|].
  rewrite <- (insulated dx T K C n (hs_patch _ _ _ _ _ _ _ _ _ S1) NZ I). f_equal. apply map_ext_in. intros p J. apply in_cells in J. rewrite (R p J). reflexivity.
Qed.
Lemma sign_run : exists h', ends_with Qc (fun fuel => heat_loopQ fuel n P scr) h h' /\
  forall p, in_patch n p -> (0 < C p)%Qc -> (forall d k, wide n d -> -1 <= k <= 1 -> (0 <= K (step d k p))%Qc) ->
   ((forall d k, wide n d -> -1 <= k <= 1 -> (T (step d k p) <= T p)%Qc) -> (value Qc h' (rhs P) p <= 0)%Qc) /\
   ((forall d k, wide n d -> -1 <= k <= 1 -> (T p <= T (step d k p))%Qc) -> (0 <= value Qc h' (rhs P) p)%Qc).
Proof.
  destruct (loop_exact n Lx Ly Lz bx by_ bz g h P scr S1 S2 NE) as (h' & E & R & F & _ & W). exists h'. split; [exact E|].
  intros p IP PC KK. rewrite (R p IP). split; intros TT; [apply hottest|apply coldest]; auto.
Qed.
Lemma quadratic_run c k0 k : Lx <> 0%Qc -> Ly <> 0%Qc -> Lz <> 0%Qc ->
  exists h', ends_with Qc (fun fuel => heat_loopQ fuel n P scr) h h' /\
  forall p, in_patch n p ->
   (forall d j, wide n d -> -1 <= j <= 1 -> T (step d j p) = quadratic c (coord dx SVol (step d j p))) ->
   (forall d j, wide n d -> -1 <= j <= 1 -> K (step d j p) = linear k0 k (coord dx SVol (step d j p))) ->
   value Qc h' (rhs P) p =
   (qsum (map (fun d => k d * slope c d (coord dx SVol p) + linear k0 k (coord dx SVol p) * bend c d) (wide_dirs n)) / C p)%Qc.
Proof.
  intros X Y Z. destruct (loop_exact n Lx Ly Lz bx by_ bz g h P scr S1 S2 NE) as (h' & E & R & F & _ & W). exists h'. split; [exact E|].
  intros p IP HT HK. rewrite (R p IP). apply exact_heating; [|exact HT|exact HK].
  intros d. apply spacing_neq0; try assumption. apply (hs_patch _ _ _ _ _ _ _ _ _ S1).
Qed.
End Exact.

Section Double.
Variable n : ivec.
Variable Lx Ly Lz : dbl.
Hypothesis Cn : counts_ok n.
Hypothesis Fx : finite Lx.
Hypothesis Fy : finite Ly.
Hypothesis Fz : finite Lz.
Hypothesis Px : (0 < val Lx)%R.
Hypothesis Py : (0 < val Ly)%R.
Hypothesis Pz : (0 < val Lz)%R.
Variable bx by_ bz : bool.
Variable g : ghost.
Variable h : heap dbl.
Variable P : problem dbl.
Variable scr : list ((dir -> field) * (dir -> field)).
Notation T := (value dbl h (temperature P)). Notation K := (value dbl h (thermCond P)). Notation C := (value dbl h (rhoCp P)).
Hypothesis S1 : heat_setup dbl n bx by_ bz g (build_stencils64 n Lx Ly Lz) h P.
Hypothesis S2 : forall s, In s scr -> scratch_ok dbl n bx by_ bz g h P s.
Hypothesis NE : scr <> [].
Lemma spacing_pos d : finite (ddiv d_one (spacing64 n Lx Ly Lz d)) -> (0 <= val (ddiv d_one (spacing64 n Lx Ly Lz d)))%R.
Proof. exact (reciprocal_nonneg n Lx Ly Lz Gradient d Cn Fx Fy Fz Px Py Pz). Qed.
Lemma sign_run64 : exists h', ends_with dbl (fun fuel => heat_loop64 fuel n P scr) h h' /\
  (forall p, in_patch n p -> finite (value dbl h' (rhs P) p) -> finite (C p) -> (0 < val (C p))%R ->
   (forall d k, wide n d -> -1 <= k <= 1 -> dle zero (K (step d k p))) ->
   ((forall d k, wide n d -> -1 <= k <= 1 -> dle (T (step d k p)) (T p)) -> dle (value dbl h' (rhs P) p) zero) /\
   ((forall d k, wide n d -> -1 <= k <= 1 -> dle (T p) (T (step d k p))) -> dle zero (value dbl h' (rhs P) p))) /\
  (forall d p, wide n d -> on_face n d p -> finite (value dbl h' (flux P d) p) -> dle zero (K (step d (-1) p)) -> dle zero (K p) ->
   (dle (T (step d (-1) p)) (T p) -> dle (value dbl h' (flux P d) p) zero) /\
   (dle (T p) (T (step d (-1) p)) -> dle zero (value dbl h' (flux P d) p))).
Proof.
  destruct (loop_double n Lx Ly Lz bx by_ bz g h P scr S1 S2 NE) as (h' & E & R & F & _ & W). exists h'. split; [exact E|]. split.
  - intros p IP Fp FC PC KK. rewrite (R p IP) in *. split; intros TT; [apply hottest64|apply coldest64]; auto using spacing_pos.
  - intros d p Wd IP Fp K1 K2. rewrite (F d p Wd IP) in *.
    destruct (flux_sign _ spacing_pos T K d p Fp K1 K2) as (_ & _ & A & B). split; intros TT.
    + apply dle_val; [exact Fp|reflexivity|]. apply A, TT.
    + apply dle_val; [reflexivity|exact Fp|]. apply B, TT.
Qed.
End Double.
