(** Instances and counterexamples for field comparison. *)
From Verif Require Import Prelude WindowM WindowS GhostM FieldM FieldS FieldP MaskM NeboM NeboS NeboP NeboE NeboF StencilM LagrangeM IterM IterS IterP CompareM CompareS CompareP BCE.

(** Two rows of two cells without ghosts; their values are given as lists. *)
Definition cdim : ivec := IV 2 1 1.
Definition cfld (b : nat) : field := patch_field cdim false false false iv_zero (mk_ghost iv_zero iv_zero) b 1.
Definition chp (v : nat -> list Z) : heap Qc :=
  fun b => Block (fun i => (0 <=? i) && (i <? 2)) (fun i => qc_of (nth (Z.to_nat i) (v b) 0)).
Lemma cfld_live v b : live (chp v) (cfld b).
Proof.
  split; [cbv; repeat split|]. split; [cbv; repeat split; discriminate|]. intros i I.
  change (cells_of (cfld b)) with [0; 1] in I. destruct I as [<-|[<-|[]]]; reflexivity.
Qed.
Lemma cfld_contents v b : contents (chp v) (cfld b) = [qc_of (nth 0 (v b) 0); qc_of (nth 1 (v b) 0)].
Proof. reflexivity. Qed.

(** 1 and 2 differ by 100% of 1 but by 50% of 2. *)
Definition cv1 (b : nat) : list Z := match b with O => [1; 5] | _ => [2; 5] end.
Lemma asym : exists h f1 f2 error, live h f1 /\ live h f2 /\ fwin f1 = fwin f2 /\
  run (field_equal4 10 f1 f2 error 0%Qc) h = RDone h false /\ run (field_equal4 10 f2 f1 error 0%Qc) h = RDone h true.
Proof.
  exists (chp cv1), (cfld 0), (cfld 1), half. split; [apply cfld_live|]. split; [apply cfld_live|]. split; [reflexivity|].
  split; vm_compute; reflexivity.
Qed.
(** 0 and 5 count as equal if the error is given with a minus sign: the
    default absolute tolerance is then negative. *)
Definition cv2 (b : nat) : list Z := match b with O => [0; 4] | _ => [5; 4] end.
Lemma negerr : exists h f1 f2 error, live h f1 /\ live h f2 /\ fwin f1 = fwin f2 /\ contents h f1 = [0; qc_of 4]%Qc /\ contents h f2 = [qc_of 5; qc_of 4] /\
  forall vsqrt, vsqrt (qc_of 16) = qc_of 4 ->
  run (field_equal3 10 vsqrt f1 f2 (- error)%Qc) h = RDone h true /\ run (field_equal3 10 vsqrt f1 f2 error) h = RDone h false.
Proof.
  exists (chp cv2), (cfld 0), (cfld 1), (1 / qc_of 100)%Qc. split; [apply cfld_live|]. split; [apply cfld_live|]. split; [reflexivity|].
  split; [reflexivity|]. split; [reflexivity|]. intros vsqrt E.
  assert (N : run (nebo_norm Qc Qcplus Qcmult 10 vsqrt (fun a => a * a)%Qc (EField Qc (cfld 0))) (chp cv2) = RDone (chp cv2) (qc_of 4)).
  { rewrite <- E. unfold nebo_norm. erewrite run_bind; [|reflexivity]. cbn [run]. f_equal. }
  unfold field_equal3, default_abs.
  split.
  - change (qc_eqb (- (1 / qc_of 100))%Qc 0) with false. cbv iota. erewrite run_bind; [|erewrite run_bind; [|exact N]; reflexivity]. vm_compute. reflexivity.
  - change (qc_eqb (1 / qc_of 100)%Qc 0) with false. cbv iota. erewrite run_bind; [|erewrite run_bind; [|exact N]; reflexivity]. vm_compute. reflexivity.
Qed.
