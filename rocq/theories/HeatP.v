(** Proofs for C65, over any element type: single assignments of the heat
    equation program. *)
From Verif Require Import Prelude WindowM WindowS GhostM FieldM FieldS FieldP MaskM NeboM NeboS NeboF StencilM StencilS StencilP StoreM StoreS ThinS ThinP ThinQ ThinR HeatM HeatS.

Section HeatP.
Variable V : Type.
Variable vadd vmul : V -> V -> V.
Notation assign fuel f e := (fst (nebo_assign V vadd vmul fuel f e)).

(** ** More fuel changes nothing *)
Lemma loop_fuel b e fuel : forall it w h h' fuel', (fuel <= fuel')%nat ->
  run (assign_loop V fuel b it e w) h = RDone h' tt -> run (assign_loop V fuel' b it e w) h = RDone h' tt.
Proof.
  induction fuel as [|fuel IH]; intros it w h h' fuel' F R.
  - destruct fuel'; cbn [assign_loop] in *; destruct (it_eqb it e); try discriminate; exact R.
  - destruct fuel' as [|fuel']; [lia|]. cbn [assign_loop] in *. destruct (it_eqb it e); [exact R|].
    rewrite (run_pbind V) in *. destruct (run (eval V w) h) as [h1 v| | |]; try discriminate.
    cbn [run] in *. destruct (bcells (h1 b) (icur it)); [|discriminate].
    apply IH; [lia|exact R].
Qed.
Lemma assign_fuel f e fuel fuel' h h' : (fuel <= fuel')%nat ->
  run (assign fuel f e) h = RDone h' tt -> run (assign fuel' f e) h = RDone h' tt.
Proof.
  intros F. unfold nebo_assign, sequential_assign. cbn [fst]. rewrite !(run_pbind V).
  destruct (run (lift (assign_ghosts V true f e)) h) as [h1 (rg & lg)| | |]; try discriminate.
  rewrite !(run_pbind V). destruct (run (init V vadd vmul false e (gminus rg) (gplus rg) iv_zero) h1) as [h2 w| | |]; try discriminate.
  unfold assign_walk. rewrite !(run_pbind V).
  destruct (run (lift _) h2) as [h3 it| | |]; try discriminate. rewrite !(run_pbind V).
  destruct (run (lift _) h3) as [h4 en| | |]; try discriminate. apply loop_fuel, F.
Qed.

(** The program ends in h', whatever the fuel, if it is enough. *)
Definition completes (c : nat -> prog V unit) (h h' : heap V) : Prop :=
  exists N, forall fuel, (N <= fuel)%nat -> run (c fuel) h = RDone h' tt.
Lemma completes_seq c1 c2 h h1 h2 : completes c1 h h1 -> completes c2 h1 h2 ->
  completes (fun fuel => let* _ := c1 fuel in c2 fuel) h h2.
Proof.
  intros (N1 & H1) (N2 & H2). exists (N1 + N2)%nat. intros fuel F. rewrite (run_pbind V), H1 by lia. apply H2. lia.
Qed.
Lemma completes_ret h : completes (fun _ => Ret tt) h h.
Proof. exists 0%nat. reflexivity. Qed.
Lemma completes_when (b : bool) c h h' : (b = true -> completes c h h') -> (b = false -> h' = h) -> completes (fun fuel => when V b (c fuel)) h h'.
Proof. intros A B. destruct b; [apply A; reflexivity|]. rewrite (B eq_refl). apply completes_ret. Qed.

Lemma assign_completes n a b h f e :
  thin_operands V n a b h e -> thin_destination V n a b h f -> alias_ok V f e ->
  covers_extra V (real_field n f) (real_expr V n e) ->
  (exists p, region V n (real_field n f) (real_expr V n e) p) ->
  exists h', completes (fun fuel => assign fuel f e) h h' /\
    assigned V h h' f (region V n (real_field n f) (real_expr V n e)) (denote V vadd vmul h e).
Proof.
  intros O D A C P. destruct (thin_assign_ok V vadd vmul n a b h f e O D A C P) as (N & H).
  destruct (H N (le_n N)) as (h' & R & S1). exists h'. split; [|exact S1].
  exists N. intros fuel F. exact (assign_fuel f e N fuel h h' F R).
Qed.

(** ** The fields *)
Variable n : ivec.
Variable bx by_ bz : bool.
Variable g : ghost.
Hypothesis Pn : iv_le (IV 1 1 1) n.
Hypothesis Pg : ghosts_ok n g.
Notation fat := (field_at V n bx by_ bz g).

Lemma g_ok : g_nonneg g /\ ginf g = false /\ declares n (gminus g) (gplus g) g.
Proof.
  destruct Pg as (I & G). pose proof (G XDIR) as X. pose proof (G YDIR) as Y. pose proof (G ZDIR) as Z. cbn [comp] in *.
  split; [|split; [exact I|]].
  - unfold g_nonneg, iv_le. cbn. lia.
  - unfold declares, declares1. intuition lia.
Qed.
Lemma pos_n : 1 <= ix n /\ 1 <= iy n /\ 1 <= iz n.
Proof. destruct Pn as (A & B & C). cbn in *. lia. Qed.
(** Types a program may use: no extra cell in a direction with one cell. *)
Definition usable (l : loc) : Prop := l = SVol \/ exists d, wide n d /\ l = face_of d.
Lemma usable_extra l : usable l -> no_thin_extra n bx by_ bz (bc_extra l) /\ iv_le iv_zero (bc_extra l).
Proof.
  intros [->|(d & W & ->)]; [|destruct d]; unfold no_thin_extra, iv_le, wide in *; cbn in *; intuition lia.
Qed.
Lemma fat_thin h l f : usable l -> fat h l f -> thin_field n (gminus g) (gplus g) f.
Proof.
  intros U ((buf & nt & ->) & _). destruct g_ok as (A & B & C). destruct (usable_extra l U) as (D & E).
  apply tf_make; assumption.
Qed.
Lemma fat_dest h l f : usable l -> fat h l f -> thin_destination V n (gminus g) (gplus g) h f.
Proof. intros U F. split; [exact (fat_thin h l f U F)|apply F]. Qed.
Lemma fat_read h l f : usable l -> fat h l f ->
  forall p, valid_cell n (real_field n f) p -> bcells (h (fbuf f)) (cell f p) = true.
Proof. intros U F p P. apply F. destruct F as ((buf & nt & ->) & _). exact P. Qed.
(** The number of extra cells above. *)
Definition xc (l : loc) : ivec := IV (if bx then ix (bc_extra l) else 0) (if by_ then iy (bc_extra l) else 0) (if bz then iz (bc_extra l) else 0).
Lemma fat_extra h l f : fat h l f -> has_extra (fbc f) = xc l /\ fvalid f = g /\ fghosts f = g.
Proof. intros ((buf & nt & ->) & _). split; [apply has_extra_make|split; reflexivity]. Qed.
Lemma fat_any h l f p : fat h l f -> (any_cell n (real_field n f) p <->
  in_region (iv_neg (drop n (gminus g))) (iv_add (iv_add n (xc l)) (drop n (gplus g))) p).
Proof. intros F. destruct (fat_extra h l f F) as (E & _ & G). unfold any_cell, reach. cbn. rewrite E, G. reflexivity. Qed.
Lemma fat_layers h l f : fat h l f -> layers (LField (real_field n f)) = (drop n (gminus g), iv_add (xc l) (drop n (gplus g))).
Proof. intros F. destruct (fat_extra h l f F) as (E & G & _). unfold layers. cbn. rewrite E, G. reflexivity. Qed.
Lemma fat_same h h' l f : (forall b i, bcells (h' b) i = bcells (h b) i) -> fat h l f -> fat h' l f.
Proof. intros E (A & B). split; [exact A|]. intros p P. rewrite E. exact (B p P). Qed.
Lemma drop_bounds : forall d, 0 <= comp d (drop n (gminus g)) /\ 0 <= comp d (drop n (gplus g)) /\
  (wide n d -> 1 <= comp d (drop n (gminus g)) /\ 1 <= comp d (drop n (gplus g))) /\
  comp d (drop n (gminus g)) <= comp d (gminus g) /\ comp d (drop n (gplus g)) <= comp d (gplus g).
Proof.
  intros d. destruct Pg as (_ & G). specialize (G d). unfold wide in *.
  destruct d; unfold drop, drop1; cbn [comp ix iy iz] in *;
    match goal with |- context [1 <? ?x] => destruct (1 <? x) eqn:E; [apply Z.ltb_lt in E|apply Z.ltb_ge in E] end; lia.
Qed.
Lemma xc_bounds l : usable l -> forall d, 0 <= comp d (xc l) <= (if loc_beq l (face_of d) then 1 else 0).
Proof. intros [->|(e & _ & ->)] d; [destruct d|destruct e, d]; unfold xc; cbn; destruct bx, by_, bz; lia. Qed.
End HeatP.
