(** Examples of grid coordinates in double precision. *)
From Coq Require Import Reals Lra Lia.
From Flocq Require Import Core.
From Verif Require Import Prelude WindowM WindowS GhostM FieldM FieldS MaskM NeboM NeboS StencilM StencilS IterM IterS GridM RoundM RoundS RoundP RedM HeatM Cmp64M Part64M Part64S Part64Q Grid64M Grid64S Grid64P.
Local Open Scope Z_scope.

(** 49 cells in x with one ghost layer at both ends: centres, and faces of a patch
    at the upper boundary. *)
Definition line : field := patch_field (IV 49 1 1) false false false (IV 0 0 0) (mk_ghost (IV 1 0 0) (IV 1 0 0)) 0 1.
Definition faces : field := patch_field (IV 49 1 1) true false false (IV 1 0 0) (mk_ghost (IV 1 0 0) (IV 1 0 0)) 0 1.
Definition line_heap : heap dbl := fun b => Block (fun i => (0 <=? i) && (i <? 52)) (fun _ => NaN).
Definition unit_grid : grid64 := MkGrid64 (IV 49 1 1) [d_one; d_one; d_one] [ddiv d_one (dlit 49 0); ddiv d_one (dlit 1 0); ddiv d_one (dlit 1 0)].
Lemma line_user : user_field (IV 49 1 1) line.
Proof. apply uf_make; try (cbv; repeat split; discriminate || reflexivity); cbv; intuition discriminate || lia. Qed.
Lemma faces_user : user_field (IV 49 1 1) faces.
Proof. apply uf_make; try (cbv; repeat split; discriminate || reflexivity); cbv; intuition discriminate || lia. Qed.
Lemma line_cells : forall p, any_cell (IV 49 1 1) line p -> bcells (line_heap (fbuf line)) (cell line p) = true.
Proof.
  intros [a b c] H. unfold any_cell, reach, in_region in H. cbn in H. change (((0 <=? (1 + a) + 51 * ((0 + b) + 1 * (0 + c))) && ((1 + a) + 51 * ((0 + b) + 1 * (0 + c)) <? 52)) = true). lia.
Qed.
Lemma faces_cells : forall p, any_cell (IV 49 1 1) faces p -> bcells (line_heap (fbuf faces)) (cell faces p) = true.
Proof.
  intros [a b c] H. unfold any_cell, reach, in_region in H. cbn in H. change (((0 <=? (1 + a) + 52 * ((0 + b) + 1 * (0 + c))) && ((1 + a) + 52 * ((0 + b) + 1 * (0 + c)) <? 52)) = true). lia.
Qed.
Lemma line_ints : int_indices line /\ int_indices faces.
Proof. split; intros []; reflexivity. Qed.
Lemma unit_domain : domain64 (IV 49 1 1) d_one d_one d_one XDIR.
Proof.
  destruct one_val as (F & V). split; [exact F|]. cbv zeta. rewrite V, !p2. split; [|cbn; lia]. change 1%R with (bpow radix2 0). split; apply bpow_le; lia.
Qed.
Lemma line_set : make_grid64 (IV 49 1 1) [d_one; d_one; d_one] = Ok unit_grid /\ whole_block line /\ fvalid line = fghosts line /\ fvalid faces = fghosts faces /\
  freadonly line = false /\ freadonly faces = false /\ iy (wext (fwin line)) = 1 /\ iz (wext (fwin line)) = 1 /\ ix (gminus (fghosts line)) = 1.
Proof. repeat split. Qed.

(** The last face of a domain of length 1 is not at 1. *)
Lemma end_missed : exists h', run (set_coord64 unit_grid XDIR SSurfX faces) line_heap = RDone h' tt /\
  value dbl h' faces (IV 49 0 0) = dlit 9007199254740991 (-53) /\ half_cells SSurfX (IV 49 0 0) XDIR = 2 * 49.
Proof.
  destruct (set_coord64_ok (IV 49 1 1) line_heap faces XDIR SSurfX (IV 49 1 1) d_one d_one d_one [] unit_grid faces_user eq_refl (proj2 line_ints) eq_refl faces_cells eq_refl) as (h' & R & V & _).
  exists h'. split; [exact R|]. split; [|reflexivity]. rewrite V.
  - apply B2SF_inj. vm_compute. reflexivity.
  - unfold any_cell, reach, in_region. cbn. lia.
Qed.
(** With ten cells on a domain of length 1 the step from the third centre to the fourth is not the spacing. *)
Lemma uneven : coord64 (IV 10 1 1) d_one d_one d_one SVol (IV 2 0 0) XDIR = dlit 1 (-2) /\
  dsub (coord64 (IV 10 1 1) d_one d_one d_one SVol (IV 3 0 0) XDIR) (dlit 1 (-2)) = dlit 1801439850948199 (-54) /\
  spacing64 (IV 10 1 1) d_one d_one d_one XDIR = dlit 7205759403792794 (-56).
Proof. split; [|split]; apply B2SF_inj; vm_compute; reflexivity. Qed.
(** No points: not a number, or infinite. *)
Lemma no_points : coord64 (IV 0 1 1) d_one d_one d_one SVol (IV 0 0 0) XDIR = NaN /\ coord64 (IV 0 1 1) d_one d_one d_one SVol (IV 1 0 0) XDIR = B754_infinity false.
Proof. split; reflexivity. Qed.
(** The smallest positive length, two cells: all coordinates are 0. *)
Lemma all_zero : val (dlit 1 (-1074)) <> 0%R /\ coord64 (IV 2 1 1) (dlit 1 (-1074)) d_one d_one SVol (IV 0 0 0) XDIR = zero /\
  coord64 (IV 2 1 1) (dlit 1 (-1074)) d_one d_one SVol (IV 1 0 0) XDIR = zero.
Proof.
  split; [|split; apply B2SF_inj; vm_compute; reflexivity]. unfold val. 
  assert (E : B2SF (dlit 1 (-1074)) = SpecFloat.S754_finite false 1 (-1074)) by (vm_compute; reflexivity).
  destruct (dlit 1 (-1074)) as [| | |sg m e B]; try discriminate E. cbn in E. injection E as -> -> ->. cbn [B2R]. intros H. apply eq_0_F2R in H. discriminate H.
Qed.
