(** Particle operators in double precision on concrete meshes of four cells. *)
From Coq Require Import Reals Lra Lia.
From Flocq Require Import Core.
From Verif Require Import Prelude WindowM WindowS WindowP GhostM FieldM FieldS MaskM NeboM NeboS IterM IterS RoundM RoundS RoundP RedM HeatM Cmp64M BCS PointP Part64M Part64S Part64P Part64Q Part64R Part64T.
Local Open Scope Z_scope.

(** Blocks: 0 mesh coordinates, 1 particle positions, 2 sizes, 3 values, 4 cells,
    5 a field of cells, 6 results at the particles. *)
Definition e64 (mesh : list dbl) (x s v : dbl) (cells : list dbl) : heap dbl := fun b => match b with
  | 0%nat => Block (fun i => (0 <=? i) && (i <? 4)) (fun i => nth (Z.to_nat i) mesh NaN)
  | 1%nat => Block (fun i => i =? 0) (fun i => x)
  | 2%nat => Block (fun i => i =? 0) (fun i => s)
  | 3%nat => Block (fun i => i =? 0) (fun i => v)
  | 5%nat => Block (fun i => (0 <=? i) && (i <? 4)) (fun i => nth (Z.to_nat i) cells NaN)
  | 6%nat => Block (fun i => i =? 0) (fun i => NaN)
  | _ => Block (fun i => (0 <=? i) && (i <? 4)) (fun i => NaN)
  end.
Lemma e64_live mesh x s v c : live (e64 mesh x s v c) (pfull 0) /\ live (e64 mesh x s v c) (ppts 1) /\ live (e64 mesh x s v c) (ppts 2) /\
  live (e64 mesh x s v c) (ppts 3) /\ live (e64 mesh x s v c) (pfull 4) /\ live (e64 mesh x s v c) (pfull 5) /\ live (e64 mesh x s v c) (ppts 6).
Proof.
  repeat split; try (cbv; discriminate); try reflexivity; intros i I.
  all: first [change (In i [0]) in I; destruct I as [<-|[]]; reflexivity | change (In i [0; 1; 2; 3]) in I; destruct I as [<-|[<-|[<-|[<-|[]]]]]; reflexivity].
Qed.
Lemma e64_dest mesh x s v c : destination_ok dbl (IV 4 1 1) (e64 mesh x s v c) (pfull 4) /\ finite_ghosts (pfull 4).
Proof.
  split.
  - split; [|split; [reflexivity|]].
    + unfold on_patch. cbv zeta. repeat split; try (cbv; discriminate); reflexivity.
    + intros [a b d] H. assert (R : (0 <= a < 4 /\ 0 <= b < 1 /\ 0 <= d < 1)) by (unfold any_cell, reach, in_region in H; cbn in H; lia).
      assert (b = 0) by lia. assert (d = 0) by lia. subst. change ((0 <=? cell (pfull 4) (IV a 0 0)) && (cell (pfull 4) (IV a 0 0) <? 4) = true).
      assert (cell (pfull 4) (IV a 0 0) = a) as -> by (unfold cell, addr; cbn; lia). lia.
  - repeat split; try (cbv; discriminate).
Qed.
Lemma e64_fields mesh x s v c : deposit_fields (IV 4 1 1) (e64 mesh x s v c) (pfull 0) (ppts 1) (ppts 2) (ppts 3) (pfull 4) /\
  collect_fields (e64 mesh x s v c) (pfull 0) (ppts 1) (ppts 2) (pfull 5) (ppts 6).
Proof.
  destruct (e64_live mesh x s v c) as (A & B & C & D & E & F & G). destruct (e64_dest mesh x s v c) as (H & I).
  assert (W : whole_block (pfull 0)) by (repeat split).
  split; repeat split; first [assumption | reflexivity | discriminate | apply A | apply B | apply C | apply D | apply E | apply F | apply G | apply H | apply I | idtac].
Qed.

Definition unit_mesh : list dbl := [dlit (-1) (-1); dlit 1 (-1); dlit 3 (-1); dlit 5 (-1)].
Definition good : heap dbl := e64 unit_mesh (dlit 5 (-2)) d_one (dlit 8 0) [d_one; dlit 2 0; dlit 3 0; dlit 4 0].
Lemma good_contents : contents good (pfull 0) = unit_mesh /\ contents good (pfull 5) = [d_one; dlit 2 0; dlit 3 0; dlit 4 0] /\
  particles64 good (ppts 1) (ppts 2) (ppts 3) = [(dlit 5 (-2), d_one, dlit 8 0)] /\ particles64 good (ppts 1) (ppts 2) (ppts 1) = [(dlit 5 (-2), d_one, dlit 5 (-2))].
Proof. repeat split. Qed.
Local Open Scope R_scope.
Ltac dval := unfold val; vm_compute B2R; unfold F2R; cbn; lra.
Lemma unit_vals : val d_one = 1 /\ val (dlit 5 (-2)) = 5 / 4 /\ val (dlit 8 0) = 8 /\ val (dlit 5 (-1)) = 5 / 2 /\ val (dlit (-1) (-1)) = - / 2 /\ val (dlit 1 (-1)) = / 2 /\ val (dlit 3 (-1)) = 3 / 2 /\
  val (dlit 2 0) = 2 /\ val (dlit 3 0) = 3 /\ val (dlit 4 0) = 4.
Proof. repeat split; dval. Qed.
Lemma unit_mesh_ok : mesh64 0 d_one unit_mesh.
Proof.
  destruct unit_vals as (V1 & V2 & V3 & V4 & V5 & V6 & V7 & _). unfold mesh64. rewrite V1. change (length unit_mesh) with 4%nat. rewrite !p2.
  assert (b2 (-400) <= b2 0) by (apply bpow_le; lia). assert (b2 2 <= b2 400) by (apply bpow_le; lia). assert (b2 2 < b2 31) by (apply bpow_lt; lia). change (b2 0) with 1 in *. change (b2 2) with 4 in *. replace (INR 4) with 4 by (cbn; lra).
  split; [reflexivity|]. split; [lra|]. split; [lra|]. split; [lia|]. split; [lra|]. split; [lra|].
  intros [|[|[|[|k]]]] c E; cbn [nth_error unit_mesh] in E; try (destruct k; discriminate E);
    apply (f_equal (fun o => match o with Some z => z | None => NaN end)) in E; cbv beta iota in E; subst c; (split; [reflexivity|]); cbn [INR];
    [rewrite V5|rewrite V6|rewrite V7|rewrite V4]; match goal with |- Rabs ?e <= 0 => replace e with 0 by lra end; rewrite Rabs_R0; lra.
Qed.
Lemma good_inside v : inside 0 (INR (length unit_mesh) * val d_one) (mesh_top (val d_one) unit_mesh) (dlit 5 (-2), d_one, v).
Proof.
  destruct unit_vals as (V1 & V2 & V3 & V4 & _). unfold inside, mesh_top, blur, lower_end, upper_end, position, size. cbn [fst snd]. change (last unit_mesh NaN) with (dlit 5 (-1)).
  rewrite V1, V2, V4, !p2. change (length unit_mesh) with 4%nat. replace (INR 4) with 4 by (cbn; lra).
  assert (b2 (-400) <= b2 0) by (apply bpow_le; lia). assert (b2 (-50) <= b2 (-6)) by (apply bpow_le; lia). change (b2 0) with 1 in *. assert (b2 (-6) = / 64) by (cbn; lra).
  split; [reflexivity|]. split; [reflexivity|]. repeat split; lra.
Qed.
Lemma small_ordinary v : finite v -> 1 <= val v <= 8 -> ordinary v.
Proof.
  intros F B. assert (b2 (-400) <= b2 0) by (apply bpow_le; lia). assert (b2 3 <= b2 400) by (apply bpow_le; lia). change (b2 0) with 1 in *. change (b2 3) with 8 in *.
  unfold ordinary. rewrite !p2, Rabs_pos_eq by lra. split; [exact F|]. split; [right|]; lra.
Qed.
Lemma good_hyps : mesh64 0 d_one (contents good (pfull 0)) /\
  (forall p, In p (particles64 good (ppts 1) (ppts 2) (ppts 3)) -> inside 0 (INR (length (contents good (pfull 0))) * val d_one) (mesh_top (val d_one) (contents good (pfull 0))) p /\ ordinary (amount p)) /\
  INR (length (particles64 good (ppts 1) (ppts 2) (ppts 3))) <= powerRZ 2 50 /\ rsum (map (fun p => Rabs (val (amount p))) (particles64 good (ppts 1) (ppts 2) (ppts 3))) <= powerRZ 2 400 /\
  (forall p, In p (particles64 good (ppts 1) (ppts 2) (ppts 1)) -> inside 0 (INR (length (contents good (pfull 0))) * val d_one) (mesh_top (val d_one) (contents good (pfull 0))) p) /\
  Forall ordinary (contents good (pfull 5)).
Proof.
  destruct good_contents as (C0 & C5 & P3 & P1). rewrite C0, C5, P3, P1. destruct unit_vals as (V1 & V2 & V3 & V4 & _ & _ & _ & U2 & U3 & U4).
  split; [apply unit_mesh_ok|]. split; [|split; [|split; [|split]]].
  - intros p [<-|[]]. split; [apply good_inside|]. apply small_ordinary; [reflexivity|]. cbn [amount snd]. lra.
  - rewrite p2. assert (b2 0 <= b2 50) by (apply bpow_le; lia). change (b2 0) with 1 in *. cbn [length INR]. lra.
  - cbn [map rsum amount snd]. rewrite V3, p2, Rabs_pos_eq by lra. assert (b2 3 <= b2 400) by (apply bpow_le; lia). change (b2 3) with 8 in *. lra.
  - intros p [<-|[]]. apply good_inside.
  - repeat (constructor; [apply small_ordinary; [reflexivity|lra]|]). constructor.
Qed.
(** 1/4 of the particle in cell 1, 3/4 in cell 2 *)
Lemma good_shares : map (share (val d_one) (dlit 5 (-2), d_one, dlit 8 0)) [0; 1; 2; 3]%Z = [0; / 4; 3 / 4; 0].
Proof.
  destruct unit_vals as (V1 & V2 & _). cbn [map]. unfold share, common, lower_end, upper_end, position, size. cbn [fst snd]. rewrite V1, V2.
  repeat (apply (f_equal2 (@cons R)); [cbn; unfold Rmin, Rmax; repeat destruct (Rle_dec _ _); lra|]). reflexivity.
Qed.
Local Open Scope Z_scope.

(** Results compared through their representation. *)
Definition answer64 {T} (r : result dbl T) (f : field) : option (list SpecFloat.spec_float) :=
  match r with RDone h' _ => Some (map B2SF (contents h' f)) | _ => None end.
Lemma sf_inj (l l' : list dbl) : map B2SF l = map B2SF l' -> l = l'.
Proof. revert l'. induction l as [|a l IH]; intros [|b l'] E; cbn in E; try discriminate; [reflexivity|]. injection E as A B. f_equal; [apply B2SF_inj, A|apply IH, B]. Qed.
Lemma answer64_done (r : result dbl unit) f l : answer64 r f = Some (map B2SF l) -> exists h', r = RDone h' tt /\ contents h' f = l.
Proof. destruct r as [h' []| | |]; cbn; intros E; try discriminate. exists h'. split; [reflexivity|]. apply sf_inj. injection E as E. exact E. Qed.
Ltac leaves_list l := match goal with |- exists h', run ?p ?h = _ /\ contents _ ?f = _ => destruct (answer64_done (run p h) f l) as (h' & E & C); [vm_compute; reflexivity|exists h'; split; [exact E|exact C]] end.

Lemma good_deposit : exists h', run (particle_to_cell64 20 d_one (pfull 0) (ppts 1) (ppts 2) (ppts 3) (pfull 4)) good = RDone h' tt /\ contents h' (pfull 4) = [d_zero; dlit 2 0; dlit 6 0; d_zero].
Proof. leaves_list [d_zero; dlit 2 0; dlit 6 0; d_zero]. Qed.
Lemma good_collect : exists h', run (cell_to_particle64 20 d_one (pfull 0) (ppts 1) (ppts 2) (pfull 5) (ppts 6)) good = RDone h' tt /\ contents h' (ppts 6) = [dlit 11 (-2)].
Proof. leaves_list [dlit 11 (-2)]. Qed.

(** dx = 0.1, coordinates -0.05, 0.05, 0.15000000000000002, 0.25: a particle of size 0.1
    centred in cell 2 leaves 0.9999999999999999 of its value. *)
Definition tenth : dbl := dlit 3602879701896397 (-55).
Definition tenth_mesh : list dbl := [dlit (-3602879701896397) (-56); dlit 3602879701896397 (-56); dlit 1351079888211149 (-53); dlit 1 (-2)].
Definition short : heap dbl := e64 tenth_mesh (dlit 1351079888211149 (-53)) tenth d_one [].
Lemma short_sum : (exists h', run (particle_op64 20 (pfull 0)) short = RDone h' tenth) /\
  exists h', run (particle_to_cell64 20 tenth (pfull 0) (ppts 1) (ppts 2) (ppts 3) (pfull 4)) short = RDone h' tt /\
  contents h' (pfull 4) = [d_zero; d_zero; dlit 9007199254740991 (-53); d_zero].
Proof.
  split; [|leaves_list [d_zero; d_zero; dlit 9007199254740991 (-53); d_zero]].
  assert (Y : match run (particle_op64 20 (pfull 0)) short with RDone _ d => Some (B2SF d) | _ => None end = Some (B2SF tenth)) by (vm_compute; reflexivity).
  destruct (run (particle_op64 20 (pfull 0)) short) as [h1 d| | |]; try discriminate. exists h1. f_equal. apply B2SF_inj. injection Y as Y. exact Y.
Qed.
(** A particle much smaller than the spacing of doubles at its position leaves nothing. *)
Definition tiny : heap dbl := e64 unit_mesh d_one (dlit 1 (-60)) (dlit 8 0) [d_one; d_one; d_one; d_one].
Lemma tiny_lost : (exists h', run (particle_to_cell64 20 d_one (pfull 0) (ppts 1) (ppts 2) (ppts 3) (pfull 4)) tiny = RDone h' tt /\
  contents h' (pfull 4) = [d_zero; d_zero; d_zero; d_zero]) /\
  exists h', run (cell_to_particle64 20 d_one (pfull 0) (ppts 1) (ppts 2) (pfull 5) (ppts 6)) tiny = RDone h' tt /\ contents h' (ppts 6) = [d_zero].
Proof. split; [leaves_list [d_zero; d_zero; d_zero; d_zero]|leaves_list [d_zero]]. Qed.
(** On an accepted mesh a cell may receive a negative part of a positive value. *)
Definition bent_mesh : list dbl := [dlit (-1) (-1); dlit 1 (-1); dlit 1610612735 (-30); dlit 5 (-1)].
Definition bent : heap dbl := e64 bent_mesh (dlit 4831838207 (-31)) (dlit 1 (-1)) d_one [].
Lemma bent_negative : (exists h', run (particle_op64 20 (pfull 0)) bent = RDone h' d_one) /\
  exists h', run (particle_to_cell64 20 d_one (pfull 0) (ppts 1) (ppts 2) (ppts 3) (pfull 4)) bent = RDone h' tt /\
  contents h' (pfull 4) = [d_zero; d_zero; dlit (-1) (-30); dlit 1073741825 (-30)].
Proof.
  split; [|leaves_list [d_zero; d_zero; dlit (-1) (-30); dlit 1073741825 (-30)]].
  assert (Y : match run (particle_op64 20 (pfull 0)) bent with RDone _ d => Some (B2SF d) | _ => None end = Some (B2SF d_one)) by (vm_compute; reflexivity).
  destruct (run (particle_op64 20 (pfull 0)) bent) as [h1 d| | |]; try discriminate. exists h1. f_equal. apply B2SF_inj. injection Y as Y. exact Y.
Qed.
(** Coordinates that are not numbers are accepted; a position that is not a number
    is undefined behaviour. *)
Definition odd : heap dbl := e64 [dlit (-1) (-1); dlit 1 (-1); NaN; dlit 5 (-1)] NaN d_one d_one [].
Lemma odd_accepted : (exists h', run (particle_op64 20 (pfull 0)) odd = RDone h' d_one) /\
  run (particle_to_cell64 20 d_one (pfull 0) (ppts 1) (ppts 2) (ppts 3) (pfull 4)) odd = RUB.
Proof.
  split; [|vm_compute; reflexivity].
  assert (Y : match run (particle_op64 20 (pfull 0)) odd with RDone _ d => Some (B2SF d) | _ => None end = Some (B2SF d_one)) by (vm_compute; reflexivity).
  destruct (run (particle_op64 20 (pfull 0)) odd) as [h1 d| | |]; try discriminate. exists h1. f_equal. apply B2SF_inj. injection Y as Y. exact Y.
Qed.
