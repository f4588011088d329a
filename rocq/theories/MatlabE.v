(** Instances and counterexamples for write_matlab. *)
From Coq Require Import String Ascii Reals Lra Lia.
From Flocq Require Import Core.
From Verif Require Import Prelude WindowM WindowS WindowP GhostM FieldM FieldS MaskM NeboM NeboS NeboF StencilM IterM IterS IterP RoundM RoundS RoundP MatlabM MatlabS MatlabP MatlabQ MatlabR BCE.
Open Scope string_scope.
Open Scope Z_scope.

(** A row of two cells with one ghost on both sides. *)
Definition wfld : field := patch_field (IV 2 1 1) false false false iv_zero (mk_ghost (IV 1 0 0) (IV 1 0 0)) 0 1.
Definition whp (v : list dbl) : heap dbl := fun _ => Block (fun i => (0 <=? i) && (i <? 4)) (fun i => nth (Z.to_nat i) v (B754_zero false)).
Definition third : dbl := dlit 6004799503160661 (-54).
Definition wvals : list dbl := [dlit 5 (-1); dopp third; dlit 1 1000; B754_infinity true].
Lemma wfld_live v : live (whp v) wfld.
Proof.
  split; [cbv; repeat split|]. split; [cbv; repeat split; discriminate|]. intros i I.
  change (cells_of wfld) with [0; 1; 2; 3] in I. repeat (destruct I as [<-|I]; [reflexivity|]). destruct I.
Qed.
Lemma wfld_interior v : interior_live (whp v) wfld.
Proof.
  split; [cbv; repeat split|]. split; [cbv; repeat split; discriminate|]. intros [x y z] (X & Y & Z).
  change (wext (fint wfld)) with (IV 2 1 1) in *. cbn [ix iy iz] in *. assert (y = 0) as -> by lia. assert (z = 0) as -> by lia.
  assert (H : x = 0 \/ x = 1) by lia. destruct H as [-> | ->]; reflexivity.
Qed.
(** The text written, if the call ends. *)
Definition text_of (r : result dbl (string * string)) : option (string * string) := match r with RDone _ x => Some x | _ => None end.
Lemma wtext : let t := "function x = load_phi()" ++ endl ++ "x = [ 2.50000000000000e+00" ++ endl ++ ", -3.33333333333333e-01" ++ endl
    ++ ", 1.07150860718627e+301" ++ endl ++ ", -inf ];" ++ endl in
  text_of (run (write_matlab 10 wfld "phi" true) (whp wvals)) = Some ("load_phi.m", t).
Proof. vm_compute. reflexivity. Qed.
(** 1 and the next double. *)
Lemma same_text : exists h1 h2 f, live h1 f /\ live h2 f /\ contents h1 f <> contents h2 f /\
  text_of (run (write_matlab 10 f "x" true) h1) <> None /\
  text_of (run (write_matlab 10 f "x" true) h1) = text_of (run (write_matlab 10 f "x" true) h2).
Proof.
  exists (whp [dlit 1 0]), (whp [dlit 4503599627370497 (-52)]), wfld. split; [apply wfld_live|]. split; [apply wfld_live|].
  split; [|split; vm_compute; [discriminate|reflexivity]]. intros E. apply (f_equal (fun l => B2SF (hd (B754_zero false) l))) in E. vm_compute in E. discriminate.
Qed.
(** No cell between two ghosts: the call runs past the end of the field. *)
Definition efld : field := field_make (Win (IV 2 1 1) iv_zero (IV 2 1 1)) (bc_make false false false iv_zero) (mk_ghost (IV 1 0 0) (IV 1 0 0)) 0 1.
Definition ehp : heap dbl := fun _ => Block (fun i => (0 <=? i) && (i <? 2)) (fun i => dlit 1 0).
Lemma empty_runs_on : live ehp efld /\ interior_contents ehp efld = [] /\ run (write_matlab 10 efld "x" false) ehp = RUB.
Proof.
  split; [|split; [reflexivity|vm_compute; reflexivity]].
  split; [cbv; repeat split|]. split; [cbv; repeat split; discriminate|]. intros i I.
  change (cells_of efld) with [0; 1] in I. repeat (destruct I as [<-|I]; [reflexivity|]). destruct I.
Qed.
