(** Proofs about valid ghosts and views. *)
From Verif Require Import Prelude WindowM WindowS WindowP GhostM FieldM FieldS FieldP InteriorS ViewS.

Section InStep.
Variables (f0 : field) (g : ghost).
Hypothesis W0 : fwin f0 = grown (fint f0) (gminus g) (gplus g).
Definition in_step (f : field) : Prop :=
  fwin f = grown (fint f0) (gminus (fvalid f)) (gplus (fvalid f)) /\ fint f = fint f0 /\ fghosts f = g /\ fbuf f = fbuf f0 /\ wglob (fwin f) = wglob (fint f0).
Lemma step_in f o : in_step f -> (forall u, o = VWindow u -> u = fwin f0) ->
  in_step (view_step f o) /\ fvalid (view_step f o) = valid_after g (fvalid f) [o].
Proof.
  intros (W & I & G & B & GL) H. destruct o as [u|h|n|]; cbn [view_step valid_after fold_left].
  - rewrite (H u eq_refl). unfold in_step, field_window; cbn [fwin fint fghosts fvalid fbuf]. rewrite G. repeat split; try assumption. rewrite W0. reflexivity.
  - unfold in_step, reset_valid_ghosts; cbn [fwin fint fghosts fvalid fbuf wglob]. rewrite W. repeat split; try assumption.
    apply win_ext; cbn; [reflexivity|iv_solve|iv_solve].
  - repeat split; assumption.
  - repeat split; assumption.
Qed.
Lemma views_in os : forall f, in_step f -> views_of (fwin f0) os -> in_step (view f os) /\ fvalid (view f os) = valid_after g (fvalid f) os.
Proof.
  induction os as [|o os IH]; intros f S V; [split; [exact S|reflexivity]|].
  destruct (step_in f o S) as (S1 & E1); [intros u ->; apply V; left; reflexivity|].
  destruct (IH (view_step f o) S1) as (S2 & E2); [intros u I; apply V; right; exact I|]. split; [exact S2|].
  unfold view in *. cbn [fold_left]. rewrite E2, E1. reflexivity.
Qed.
End InStep.

Lemma views_window dim bx by_ bz extra g buf nt os :
  full_3d dim -> iv_le iv_zero extra -> g_nonneg g ->
  let f0 := patch_field dim bx by_ bz extra g buf nt in
  views_of (fwin f0) os ->
  let f := view f0 os in let h := valid_after g g os in
  fvalid f = h /\ fwin f = grown (fint f0) (gminus h) (gplus h) /\ fint f = fint f0 /\ fghosts f = g /\ fbuf f = buf.
Proof.
  intros D E G f0 V f h. pose proof (patch_full_window dim bx by_ bz extra g buf nt D E G) as W. cbv zeta in W. fold f0 in W.
  destruct (views_in f0 g W os f0) as ((A & B & C & F & _) & X); [repeat split; try exact W; rewrite W; reflexivity|exact V|].
  fold f in A, B, C, F, X. change (fvalid f0) with g in X. fold h in X. rewrite X in A. repeat split; assumption.
Qed.

(** A view of the active window of a field whose valid ghosts were reduced
    counts them as valid again. *)
Lemma reduced_view : exists dim g h, full_3d dim /\ g_nonneg g /\ g_nonneg h /\ g_le h g /\
  let f := reset_valid_ghosts (patch_field dim false false false iv_zero g 0 1) h in
  let v := view f [VWindow (fwin f)] in
  fwin v = fwin f /\ fvalid v = g /\ h <> g /\ fwin (reset_valid_ghosts v h) <> fwin f.
Proof.
  exists (IV 4 5 6), (ghost_n 2), (ghost_n 1). unfold full_3d, g_nonneg, g_le, iv_le. cbn. repeat split; try lia; discriminate.
Qed.
