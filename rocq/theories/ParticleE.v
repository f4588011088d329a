(** Particle operators on concrete meshes of four cells. *)
From Verif Require Import Prelude WindowM WindowS WindowP GhostM FieldM FieldS MaskM NeboM NeboS StencilM LagrangeM BCM BCS IterM IterS CompareM PointS PointP ParticleM ParticleS ParticleP.
Local Open Scope Z_scope.

(** Blocks: 0 mesh coordinates, 1 particle positions, 2 sizes, 3 values, 4 cells. *)
Definition eheap (x0 x s v : Qc) : heap Qc := fun b => match b with
  | 0%nat => Block (fun i => (0 <=? i) && (i <? 4)) (fun i => x0 + qc_of i)%Qc
  | 1%nat => Block (fun i => i =? 0) (fun i => x)
  | 2%nat => Block (fun i => i =? 0) (fun i => s)
  | 3%nat => Block (fun i => i =? 0) (fun i => v)
  | _ => Block (fun i => (0 <=? i) && (i <? 4)) (fun i => qc_of 7)
  end.
Lemma e_live x0 x s v : live (eheap x0 x s v) (pfull 0) /\ live (eheap x0 x s v) (ppts 1) /\ live (eheap x0 x s v) (ppts 2) /\
  live (eheap x0 x s v) (ppts 3) /\ live (eheap x0 x s v) (pfull 4).
Proof.
  repeat split; try (cbv; discriminate); try reflexivity; intros i I.
  1: (change (In i [0; 1; 2; 3]) in I; destruct I as [<-|[<-|[<-|[<-|[]]]]]; reflexivity).
  4: (change (In i [0; 1; 2; 3]) in I; destruct I as [<-|[<-|[<-|[<-|[]]]]]; reflexivity).
  all: change (In i [0]) in I; destruct I as [<-|[]]; reflexivity.
Qed.
Lemma e_dest x0 x s v : destination_ok Qc (IV 4 1 1) (eheap x0 x s v) (pfull 4) /\ finite_ghosts (pfull 4) /\
  (forall i, bcells (eheap x0 x s v 4%nat) i = true -> In i (cells_of (pfull 4))).
Proof.
  split; [|split].
  - split; [|split; [reflexivity|]].
    + unfold on_patch. cbv zeta. repeat split; try (cbv; discriminate); reflexivity.
    + intros [a b c] H. assert (R : (0 <= a < 4 /\ 0 <= b < 1 /\ 0 <= c < 1)) by (unfold any_cell, reach, in_region in H; cbn in H; lia).
      assert (b = 0) by lia. assert (c = 0) by lia. subst. change ((0 <=? cell (pfull 4) (IV a 0 0)) && (cell (pfull 4) (IV a 0 0) <? 4) = true).
      assert (cell (pfull 4) (IV a 0 0) = a) as -> by (unfold cell, addr; cbn; lia). lia.
  - repeat split; try (cbv; discriminate).
  - intros i H. cbn in H. apply andb_prop in H as (A & B). change (cells_of (pfull 4)) with [0; 1; 2; 3].
    assert (i = 0 \/ i = 1 \/ i = 2 \/ i = 3) as [-> | [-> | [-> | ->]]] by lia; cbn; auto.
Qed.
Definition q (a : Z) (b : positive) : Qc := Q2Qc (a # b).
(** [0,1] ... : half of the particle [1/2,3/2] in each of cells 1 and 2 *)
Lemma e_good : contents (eheap (q (-1) 2) 1 1 (qc_of 8)) (pfull 0) = map (centre 1%Qc) (zrange 4) /\
  particles (eheap (q (-1) 2) 1 1 (qc_of 8)) (ppts 1) (ppts 2) (ppts 3) = [(1, 1, qc_of 8)%Qc] /\
  map (fun k => covered 1 (1, 1, qc_of 8)%Qc k) (zrange 4) = [0%Qc; half; half; 0%Qc].
Proof. split; [|split]; cbv; repeat f_equal; apply Qc_is_canon; reflexivity. Qed.

(** Results compared through their fractions, to keep heaps out of computed terms. *)
Definition answer {R} (r : result Qc R) (f : field) : option (list Q) :=
  match r with RDone h' _ => Some (map this (contents h' f)) | _ => None end.
Lemma this_inj l l' : map this l = map this l' -> l = l'.
Proof. revert l'. induction l as [|a l IH]; intros [|b l'] E; cbn in E; try discriminate; [reflexivity|]. injection E as A B. f_equal; [apply Qc_is_canon; rewrite A; reflexivity|apply IH, B]. Qed.
Lemma answer_done (r : result Qc unit) f l : answer r f = Some (map this l) -> exists h', r = RDone h' tt /\ contents h' f = l.
Proof. destruct r as [h' []| | |]; cbn; intros E; try discriminate. exists h'. split; [reflexivity|]. apply this_inj. injection E as E. exact E. Qed.

(** A particle inside the ghost cell [-1,0] is put into cell 1. *)
Lemma e_ghost : exists h', run (particle_to_cell 20 1 (pfull 0) (ppts 1) (ppts 2) (ppts 3) (pfull 4)) (eheap (q (-1) 2) (q (-1) 4) half (qc_of 8)) = RDone h' tt /\
  contents h' (pfull 4) = [0%Qc; qc_of 8; 0%Qc; 0%Qc] /\
  map (fun k => covered 1 (q (-1) 4, half, qc_of 8) k) (zrange 4) = [half; 0%Qc; 0%Qc; 0%Qc].
Proof.
  match goal with |- exists h', run ?p ?h = _ /\ _ => destruct (answer_done (run p h) (pfull 4) [0%Qc; qc_of 8; 0%Qc; 0%Qc]) as (h' & E & C) end; [vm_compute; reflexivity|].
  exists h'. split; [exact E|]. split; [exact C|]. apply this_inj. vm_compute. reflexivity.
Qed.
(** Mesh centres 1/2, 3/2, ...: a particle inside the first cell is put into the second. *)
Lemma e_origin : exists h1 h', run (particle_op 20 (pfull 0)) (eheap half half half (qc_of 8)) = RDone h1 1%Qc /\
  run (particle_to_cell 20 1 (pfull 0) (ppts 1) (ppts 2) (ppts 3) (pfull 4)) (eheap half half half (qc_of 8)) = RDone h' tt /\
  contents h' (pfull 4) = [0%Qc; qc_of 8; 0%Qc; 0%Qc].
Proof.
  assert (X : exists h1, run (particle_op 20 (pfull 0)) (eheap half half half (qc_of 8)) = RDone h1 1%Qc).
  { assert (Y : match run (particle_op 20 (pfull 0)) (eheap half half half (qc_of 8)) with RDone _ d => Some (this d) | _ => None end = Some (this 1%Qc)) by (vm_compute; reflexivity).
    destruct (run (particle_op 20 (pfull 0)) (eheap half half half (qc_of 8))) as [h1 d| | |]; try discriminate. exists h1. f_equal. apply Qc_is_canon. injection Y as ->. reflexivity. }
  destruct X as (h1 & X). exists h1.
  match goal with |- exists h', _ /\ run ?p ?h = _ /\ _ => destruct (answer_done (run p h) (pfull 4) [0%Qc; qc_of 8; 0%Qc; 0%Qc]) as (h' & E & C) end; [vm_compute; reflexivity|].
  exists h'. split; [exact X|]. split; [exact E|exact C].
Qed.
(** A particle reaching beyond the mesh reads past the coordinates. *)
Lemma e_outside : run (particle_to_cell 20 1 (pfull 0) (ppts 1) (ppts 2) (ppts 3) (pfull 4)) (eheap (q (-1) 2) (qc_of 3) 1 (qc_of 8)) = RUB.
Proof. vm_compute. reflexivity. Qed.
