(** Examples for C65. *)
From Coq Require Import Reals Lra.
From Flocq Require Import Core.
From Verif Require Import Prelude WindowM WindowS GhostM FieldM FieldS MaskM NeboM NeboS StencilM StencilS RoundM RoundS RoundP RoundT StoreM StoreS ThinS HeatM HeatS HeatP HeatQ HeatR HeatT HeatD HeatU.
Open Scope Z_scope.

Section Ex.
Variable V : Type.
Variable c : stencil_coefs V.
(** A patch of 3 x 2 x 1 cells and one of 2 x 1 x 1, one ghost layer declared
    everywhere, boundaries on all sides.  Both passes use the same scratch block
    for both directions. *)
Definition en : ivec := IV 3 2 1.
Definition en2 : ivec := IV 2 1 1.
Definition ef (n : ivec) (l : loc) (buf : nat) : field := built l n true true true (ghost_n 1) buf 4.
Definition eop (t : optag) (s d : loc) (cs : coefs V) : builder V := StencilOp (stencil2 (offset s) (offset d)) cs.
Definition ep (n : ivec) : problem V :=
  Problem V (ef n SVol 0) (ef n SVol 1) (ef n SVol 2) (ef n SVol 3)
    (fun d => ef n (face_of d) (match d with XDIR => 4 | YDIR => 5 | ZDIR => 6 end)%nat)
    (fun d => ef n (face_of d) 7) (fun _ => ef n SVol 8)
    (fun d => eop Gradient SVol (face_of d) (coefD c d)) (fun d => eop Interpolant SVol (face_of d) (coefHalf c))
    (fun d => eop Divergence (face_of d) SVol (coefD c d)).
Definition esc (n : ivec) : list ((dir -> field) * (dir -> field)) :=
  [(fun d => ef n (face_of d) 7, fun _ => ef n SVol 8); (fun d => ef n (face_of d) 9, fun _ => ef n SVol 9)].
Definition emem (v : nat -> Z -> V) : heap V := fun b => Block (fun i => (0 <=? i) && (i <? 30)) (v b).

Lemma e_int n l buf : In n [en; en2] -> usable n l ->
  (n = en /\ l = SVol /\ fint (ef n l buf) = Win (IV 5 4 1) (IV 1 1 0) (IV 3 2 1)) \/
  (n = en /\ l = SSurfX /\ fint (ef n l buf) = Win (IV 6 4 1) (IV 1 1 0) (IV 4 2 1)) \/
  (n = en /\ l = SSurfY /\ fint (ef n l buf) = Win (IV 5 5 1) (IV 1 1 0) (IV 3 3 1)) \/
  (n = en2 /\ l = SVol /\ fint (ef n l buf) = Win (IV 4 1 1) (IV 1 0 0) (IV 2 1 1)) \/
  (n = en2 /\ l = SSurfX /\ fint (ef n l buf) = Win (IV 5 1 1) (IV 1 0 0) (IV 3 1 1)).
Proof.
  intros [<-|[<-|[]]] [->|(d & W & ->)]; try destruct d; unfold wide in *; cbn in *; try lia; auto 10.
Qed.
Lemma e_field n l buf v : In n [en; en2] -> usable n l -> field_at V n true true true (ghost_n 1) (emem v) l (ef n l buf).
Proof.
  intros I U. split; [exists buf, 4; reflexivity|].
  intros p A. assert (B : 0 <= cell (ef n l buf) p < 30); [|cbn -[cell]; lia].
  unfold any_cell, reach, in_region, cell, addr in *.
  destruct (e_int n l buf I U) as [(-> & -> & ->)|[(-> & -> & ->)|[(-> & -> & ->)|[(-> & -> & ->)|(-> & -> & ->)]]]]; cbn -[Z.mul Z.add] in *; lia.
Qed.
Lemma in_reg t s d a b : In (t, s, d, a) (registrations c) -> new_operator t s d a = Some b -> In (t, s, d, b) (registered c).
Proof. intros I E. apply in_flat_map. exists (t, s, d, a). split; [exact I|]. cbv beta iota. rewrite E. left. reflexivity. Qed.
Lemma e_grad d : In (Gradient, SVol, face_of d, eop Gradient SVol (face_of d) (coefD c d)) (registered c).
Proof. apply in_reg with (With (coefD c d)); [apply in_or_app; left; destruct d; cbn; auto 15|destruct d; reflexivity]. Qed.
Lemma e_interp d : In (Interpolant, SVol, face_of d, eop Interpolant SVol (face_of d) (coefHalf c)) (registered c).
Proof. apply in_reg with (With (coefHalf c)); [apply in_or_app; left; destruct d; cbn; auto 15|destruct d; reflexivity]. Qed.
Lemma e_div d : In (Divergence, face_of d, SVol, eop Divergence (face_of d) SVol (coefD c d)) (registered c).
Proof. apply in_reg with (With (coefD c d)); [apply in_or_app; left; destruct d; cbn; auto 15|destruct d; reflexivity]. Qed.
Lemma e_setup n v : In n [en; en2] -> heat_setup V n true true true (ghost_n 1) (registered c) (emem v) (ep n).
Proof.
  intros I. constructor.
  - destruct I as [<-|[<-|[]]]; vm_compute; intuition discriminate.
  - split; [reflexivity|]. intros d. unfold GHOST_MAX. destruct d; cbn; lia.
  - intros f [<-|[<-|[<-|[<-|[]]]]]; apply e_field; try exact I; left; reflexivity.
  - intros d W. apply e_field; [exact I|]. right. exists d. auto.
  - intros f [<-|[<-|[<-|[]]]]; discriminate.
  - intros d f W [<-|[<-|[<-|[<-|[]]]]]; destruct d; discriminate.
  - intros d e _ _ N. destruct d, e; cbn; congruence.
  - intros d _. apply e_grad.
  - intros d _. apply e_interp.
  - intros d _. apply e_div.
Qed.
Lemma e_scratch n v : In n [en; en2] -> forall s, In s (esc n) -> scratch_ok V n true true true (ghost_n 1) (emem v) (ep n) s.
Proof.
  intros I s [<-|[<-|[]]]; (constructor; cbn [fst snd];
    [intros d W; apply e_field; [exact I|right; exists d; auto]|intros d W; apply e_field; [exact I|left; reflexivity]| |]);
    try (intros d f W [<-|[<-|[<-|[<-|[]]]]]; split; discriminate); intros d e W W'; split; destruct e; discriminate.
Qed.
End Ex.

(** ** A run: temperature x squared with spacing 1 gives 2 in every cell *)
Definition vq (b : nat) (i : Z) : Qc :=
  match b with
  | 0%nat => qc_of (((i mod 5) - 1) * ((i mod 5) - 1))
  | 1%nat | 2%nat => 1%Qc
  | _ => qc_of (1000 + i)
  end.

(** ** Doubles *)
Definition v64 (b : nat) (i : Z) : dbl :=
  match b with
  | 0%nat => if i <=? 1 then d_one else dlit 2 0
  | 1%nat => d_one
  | 2%nat => if i =? 1 then dlit 3 0 else d_one
  | _ => zero
  end.
Definition e64 : problem dbl := ep dbl (make_coefs64 (spacing64 en2 (dlit 2 0) d_one d_one)) en2.
Lemma e64_setup : heat_setup dbl en2 true true true (ghost_n 1) (build_stencils64 en2 (dlit 2 0) d_one d_one) (emem dbl v64) e64.
Proof. apply (e_setup dbl (make_coefs64 (spacing64 en2 (dlit 2 0) d_one d_one))). cbn; auto. Qed.
Lemma e64_scratch s : In s (esc en2) -> scratch_ok dbl en2 true true true (ghost_n 1) (emem dbl v64) e64 s.
Proof. apply e_scratch. cbn; auto. Qed.
Notation T64 := (value dbl (emem dbl v64) (temperature e64)).
Notation K64 := (value dbl (emem dbl v64) (thermCond e64)).
Notation C64 := (value dbl (emem dbl v64) (rhoCp e64)).
Notation H64 := (heating64 (spacing64 en2 (dlit 2 0) d_one d_one) T64 K64 C64 en2).
Lemma e64_cold : B2SF (H64 (IV 0 0 0)) = SpecFloat.S754_finite false 6004799503160661 (-54).
Proof. vm_compute. reflexivity. Qed.
Lemma e64_hot : B2SF (H64 (IV 1 0 0)) = SpecFloat.S754_finite true 4503599627370496 (-52).
Proof. vm_compute. reflexivity. Qed.
Lemma sf_val (x : dbl) f : B2SF x = f -> val x = SF2R radix2 f.
Proof. intros <-. unfold val. rewrite SF2R_B2SF. reflexivity. Qed.
Lemma sf_fin (x : dbl) s m e : B2SF x = SpecFloat.S754_finite s m e -> finite x.
Proof. destruct x; cbn; intros E; try discriminate; reflexivity. Qed.
Lemma e64_patch p : in_patch en2 p -> p = IV 0 0 0 \/ p = IV 1 0 0.
Proof.
  destruct p as [x y z]. unfold in_patch, in_region. cbn. intros (X & Y & Z). assert (y = 0) by lia. assert (z = 0) by lia. subst.
  assert (x = 0 \/ x = 1) as [->| ->] by lia; auto.
Qed.
Lemma not_conserved : exists n Lx Ly Lz g h P scr h',
  heat_setup dbl n true true true g (build_stencils64 n Lx Ly Lz) h P /\ (forall s, In s scr -> scratch_ok dbl n true true true g h P s) /\
  (forall d p, wide n d -> In p (side d n 0) \/ In p (side d n (comp d n)) -> value dbl h (temperature P) (step d (-1) p) = value dbl h (temperature P) p) /\
  ends_with dbl (fun fuel => heat_loop64 fuel n P scr) h h' /\
  (forall p, in_patch n p -> finite (value dbl h' (rhs P) p) /\ finite (value dbl h (rhoCp P) p) /\ (0 < val (value dbl h (rhoCp P) p))%R) /\
  rsum (map (fun p => val (value dbl h (rhoCp P) p) * val (value dbl h' (rhs P) p))%R (cells n)) <> 0%R.
Proof.
  destruct (loop_double en2 (dlit 2 0) d_one d_one true true true (ghost_n 1) (emem dbl v64) e64 (esc en2) e64_setup e64_scratch ltac:(discriminate))
    as (h' & E & R & _). cbv zeta in R.
  exists en2, (dlit 2 0), d_one, d_one, (ghost_n 1), (emem dbl v64), e64, (esc en2), h'.
  assert (C3 : B2SF (C64 (IV 0 0 0)) = SpecFloat.S754_finite false 6755399441055744 (-51)) by (vm_compute; reflexivity).
  assert (C1 : B2SF (C64 (IV 1 0 0)) = SpecFloat.S754_finite false 4503599627370496 (-52)) by (vm_compute; reflexivity).
  assert (I0 : in_patch en2 (IV 0 0 0)) by (repeat split; vm_compute; congruence).
  assert (I1 : in_patch en2 (IV 1 0 0)) by (repeat split; vm_compute; congruence).
  pose proof e64_cold as B0. rewrite <- (R _ I0) in B0. pose proof e64_hot as B1. rewrite <- (R _ I1) in B1.
  pose proof (sf_val _ _ C3) as VC3. pose proof (sf_val _ _ C1) as VC1. pose proof (sf_val _ _ B0) as VB0. pose proof (sf_val _ _ B1) as VB1.
  cbn [SF2R F2R Fnum Fexp cond_Zopp] in VC3, VC1, VB0, VB1. unfold F2R in *. cbn [Fnum Fexp bpow radix_val radix2] in *.
  split; [exact e64_setup|]. split; [exact e64_scratch|]. split; [|split; [exact E|split]].
  - intros d p W [I|I]; destruct d; unfold wide in W; cbn in W, I; try lia; destruct I as [<-|[]]; reflexivity.
  - intros p I. apply e64_patch in I. destruct I as [-> | ->]; (split; [|split]).
    + exact (sf_fin _ _ _ _ B0). + exact (sf_fin _ _ _ _ C3). + rewrite VC3. change (Z.pow_pos 2 51) with 2251799813685248%Z. lra.
    + exact (sf_fin _ _ _ _ B1). + exact (sf_fin _ _ _ _ C1). + rewrite VC1. change (Z.pow_pos 2 52) with 4503599627370496%Z. lra.
  - change (cells en2) with [IV 0 0 0; IV 1 0 0]. cbn [map rsum]. rewrite VC3, VC1, VB0, VB1.
    change (Z.pow_pos 2 51) with 2251799813685248%Z. change (Z.pow_pos 2 52) with 4503599627370496%Z. change (Z.pow_pos 2 54) with 18014398509481984%Z. rewrite opp_IZR. intros Z0. lra.
Qed.

(** ** The hypotheses of the exact theorems *)
Definition eP : problem Qc := ep Qc (make_coefs (grid_spacing en (qc_of 3) (qc_of 2) 1%Qc)) en.
Lemma run_quadratic :
  match run (heat_loopQ 100 en eP (esc en)) (emem Qc vq) with
  | RDone h' _ => forallb (fun p => Qc_eq_bool (value Qc h' (ef en SVol 3) p) (qc_of 2)) (cells en) = true
  | _ => False
  end.
Proof. vm_compute. reflexivity. Qed.
Lemma eq_setup v : heat_setup Qc en true true true (ghost_n 1) (build_stencils en (qc_of 3) (qc_of 2) 1%Qc) (emem Qc v) eP.
Proof. apply (e_setup Qc (make_coefs (grid_spacing en (qc_of 3) (qc_of 2) 1%Qc))). cbn; auto. Qed.
Lemma eq_scratch v s : In s (esc en) -> scratch_ok Qc en true true true (ghost_n 1) (emem Qc v) eP s.
Proof. apply e_scratch. cbn; auto. Qed.
(** Temperature 1 on the left and 2 on the right, repeated in the ghost cells. *)
Definition vi (b : nat) (i : Z) : Qc :=
  match b with 0%nat => if i mod 5 <=? 1 then 1%Qc else qc_of 2 | 1%nat | 2%nat => 1%Qc | _ => qc_of 7 end.
Lemma e_insulated d p : wide en d -> In p (side d en 0) \/ In p (side d en (comp d en)) ->
  value Qc (emem Qc vi) (temperature eP) (step d (-1) p) = value Qc (emem Qc vi) (temperature eP) p.
Proof.
  intros W [I|I]; destruct d; unfold wide in W; cbn in W; try lia; cbn in I;
    repeat (destruct I as [<-|I]; [reflexivity|]); destruct I.
Qed.
Definition equad : quad := Quad (/ qc_of 4)%Qc (- (1))%Qc 0%Qc 0%Qc 1%Qc 0%Qc 0%Qc 0%Qc 0%Qc 0%Qc.
Lemma e_quadratic d j : wide en d -> -1 <= j <= 1 ->
  value Qc (emem Qc vq) (temperature eP) (step d j (IV 1 1 0)) =
  quadratic equad (coord (grid_spacing en (qc_of 3) (qc_of 2) 1%Qc) SVol (step d j (IV 1 1 0))).
Proof.
  intros W B. assert (J : j = -1 \/ j = 0 \/ j = 1) by lia.
  destruct d; unfold wide in W; cbn in W; try lia; destruct J as [->|[->| ->]]; apply Qc_is_canon; vm_compute; reflexivity.
Qed.
Lemma e64_hottest : in_patch en2 (IV 1 0 0) /\ finite (H64 (IV 1 0 0)) /\ finite (C64 (IV 1 0 0)) /\ (0 < val (C64 (IV 1 0 0)))%R /\
  (forall d k, wide en2 d -> -1 <= k <= 1 -> dle zero (K64 (step d k (IV 1 0 0)))) /\
  (forall d k, wide en2 d -> -1 <= k <= 1 -> dle (T64 (step d k (IV 1 0 0))) (T64 (IV 1 0 0))).
Proof.
  assert (J : forall k, -1 <= k <= 1 -> k = -1 \/ k = 0 \/ k = 1) by (intros; lia).
  split; [repeat split; vm_compute; congruence|]. split; [exact (sf_fin _ _ _ _ e64_hot)|]. split; [vm_compute; reflexivity|].
  split; [|split; intros d k W B; destruct d; unfold wide in W; cbn in W; try lia; destruct (J k B) as [->|[->| ->]]; vm_compute; reflexivity].
  assert (C1 : B2SF (C64 (IV 1 0 0)) = SpecFloat.S754_finite false 4503599627370496 (-52)) by (vm_compute; reflexivity).
  rewrite (sf_val _ _ C1). cbn [SF2R cond_Zopp]. unfold F2R. cbn [Fnum Fexp bpow radix_val radix2]. change (Z.pow_pos 2 52) with 4503599627370496%Z. lra.
Qed.
