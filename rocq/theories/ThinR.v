From Verif Require Import Prelude WindowM WindowS WindowP GhostM FieldM FieldS FieldP MaskM MaskS MaskP NeboM NeboS NeboP NeboQ NeboA NeboB NeboC NeboD NeboE NeboF ParM ParS ParP ParQ ThinS ThinP ThinQ.
#[local] Arguments has_extra : simpl never.

Section ThinR.
Variable V : Type.
Variable vadd vmul : V -> V -> V.
Notation expr := (expr V). Notation bexpr := (bexpr V). Notation heap := (heap V).
Variables n a b : ivec.

Definition fst_real (x : field * ivec) : field * ivec := (real_field n (fst x), snd x).
Definition fst_mask (x : mask * ivec) : mask * ivec := (real_mask n (fst x), snd x).
Lemma flat_map_map {A B C} (f : A -> list B) (g : B -> C) l : flat_map (fun x => map g (f x)) l = map g (flat_map f l).
Proof. induction l as [|x l IH]; cbn; [reflexivity|]. rewrite map_app, IH. reflexivity. Qed.
Lemma flat_map_same {A B} (f g : A -> list B) l : (forall x, f x = g x) -> flat_map f l = flat_map g l.
Proof. intros E. induction l as [|x l IH]; cbn; [reflexivity|]. rewrite E, IH. reflexivity. Qed.
Lemma reads_real :
  (forall e : expr, forall s, reads V (real_expr V n e) s = map fst_real (reads V e s)) /\
  (forall e : bexpr, forall s, breads V (real_bexpr V n e) s = map fst_real (breads V e s)).
Proof.
  apply expr_bexpr_ind; cbn [real_expr real_bexpr reads breads]; try reflexivity; intros; rewrite ?map_app; try congruence.
  - rewrite H, H0, H1. reflexivity.
  - rewrite H. f_equal. rewrite <- flat_map_map. apply flat_map_same. auto.
  - rewrite H. f_equal. rewrite <- flat_map_map. apply flat_map_same. auto.
  - apply f_equal2; [exact (H s)|exact (H0 s)].
Qed.
Lemma masks_real :
  (forall e : expr, forall s, masks V (real_expr V n e) s = map fst_mask (masks V e s)) /\
  (forall e : bexpr, forall s, bmasks V (real_bexpr V n e) s = map fst_mask (bmasks V e s)).
Proof.
  apply expr_bexpr_ind; cbn [real_expr real_bexpr masks bmasks]; try reflexivity; intros; rewrite ?map_app; try congruence.
  - rewrite H, H0, H1. reflexivity.
  - rewrite H. f_equal. rewrite <- flat_map_map. apply flat_map_same. auto.
  - rewrite H. f_equal. rewrite <- flat_map_map. apply flat_map_same. auto.
  - apply f_equal2; [exact (H s)|exact (H0 s)].
Qed.
Lemma singles_real :
  (forall e : expr, singles V (real_expr V n e) = singles V e) /\ (forall e : bexpr, bsingles V (real_bexpr V n e) = bsingles V e).
Proof.
  apply expr_bexpr_ind; cbn [real_expr real_bexpr singles bsingles]; intros; try congruence.
  - exact (f_equal2 (@app _) H (f_equal2 (@app _) H0 H1)).
  - exact (f_equal2 (@app _) H H0).
Qed.
Lemma leaf_real :
  (forall e : expr, has_leaf V (real_expr V n e) = has_leaf V e) /\ (forall e : bexpr, bhas_leaf V (real_bexpr V n e) = bhas_leaf V e).
Proof.
  apply expr_bexpr_ind; cbn [real_expr real_bexpr has_leaf bhas_leaf]; intros; try congruence.
  - exact (f_equal2 orb (f_equal2 orb H H0) H1).
  - exact (f_equal2 orb H H0).
Qed.
Lemma denote_real h :
  (forall e : expr, forall p, denote V vadd vmul h (real_expr V n e) p = denote V vadd vmul h e p) /\
  (forall e : bexpr, forall p, bdenote V vadd vmul h (real_bexpr V n e) p = bdenote V vadd vmul h e p).
Proof.
  apply expr_bexpr_ind; cbn [real_expr real_bexpr denote bdenote]; try reflexivity; intros; try congruence.
  - rewrite H, H0, H1. reflexivity.
  - apply fold_ext; [congruence|]. intros; congruence.
  - apply fold_ext; [congruence|]. intros; congruence.
  - rewrite H, H0. reflexivity.
Qed.
Lemma reads_thin :
  (forall e : expr, thin_expr V n a b e -> forall s f t, In (f, t) (reads V e s) -> thin_field n a b f) /\
  (forall e : bexpr, thin_bexpr V n a b e -> forall s f t, In (f, t) (breads V e s) -> thin_field n a b f).
Proof.
  apply expr_bexpr_ind; cbn [thin_expr thin_bexpr reads breads].
  - intros v _ s f t [].
  - intros f T s g t [E|[]]. congruence.
  - intros f _ s g t [].
  - intros op x IH T. apply IH, T.
  - intros op x IHx y IHy (T1 & T2) s f t I. apply in_app_iff in I. destruct I as [I|I]; [eapply IHx|eapply IHy]; eauto.
  - intros c IHc x IHx o IHo (T1 & T2 & T3) s f t I. rewrite !in_app_iff in I.
    destruct I as [I|[I|I]]; [eapply IHc|eapply IHx|eapply IHo]; eauto.
  - intros p0 c0 rest x IH (_ & _ & T) s f t I. apply in_app_iff in I. destruct I as [I|I]; [eapply IH; eauto|].
    apply in_flat_map in I. destruct I as (q & _ & I). eapply IH; eauto.
  - intros p0 rest x IH (_ & _ & T) s f t I. apply in_app_iff in I. destruct I as [I|I]; [eapply IH; eauto|].
    apply in_flat_map in I. destruct I as (q & _ & I). eapply IH; eauto.
  - intros v _ s f t [].
  - intros m _ s f t [].
  - intros c x IHx y IHy (T1 & T2) s f t I. apply in_app_iff in I. destruct I as [I|I]; [eapply IHx|eapply IHy]; eauto.
  - intros x IHx y IHy (T1 & T2) s f t I. apply in_app_iff in I. destruct I as [I|I]; [eapply IHx|eapply IHy]; eauto.
  - intros x IHx y IHy (T1 & T2) s f t I. apply in_app_iff in I. destruct I as [I|I]; [eapply IHx|eapply IHy]; eauto.
  - intros x IH T. apply IH, T.
  - intros p x IH (_ & T) s f t I. eapply IH; eauto.
Qed.
Lemma masks_thin :
  (forall e : expr, thin_expr V n a b e -> forall s f t, In (f, t) (masks V e s) -> thin_field n a b (mgeo f)) /\
  (forall e : bexpr, thin_bexpr V n a b e -> forall s f t, In (f, t) (bmasks V e s) -> thin_field n a b (mgeo f)).
Proof.
  apply expr_bexpr_ind; cbn [thin_expr thin_bexpr masks bmasks].
  - intros v _ s f t [].
  - intros f _ s g t [].
  - intros f _ s g t [].
  - intros op x IH T. apply IH, T.
  - intros op x IHx y IHy (T1 & T2) s f t I. apply in_app_iff in I. destruct I as [I|I]; [eapply IHx|eapply IHy]; eauto.
  - intros c IHc x IHx o IHo (T1 & T2 & T3) s f t I. rewrite !in_app_iff in I.
    destruct I as [I|[I|I]]; [eapply IHc|eapply IHx|eapply IHo]; eauto.
  - intros p0 c0 rest x IH (_ & _ & T) s f t I. apply in_app_iff in I. destruct I as [I|I]; [eapply IH; eauto|].
    apply in_flat_map in I. destruct I as (q & _ & I). eapply IH; eauto.
  - intros p0 rest x IH (_ & _ & T) s f t I. apply in_app_iff in I. destruct I as [I|I]; [eapply IH; eauto|].
    apply in_flat_map in I. destruct I as (q & _ & I). eapply IH; eauto.
  - intros v _ s f t [].
  - intros m T s f t [E|[]]. congruence.
  - intros c x IHx y IHy (T1 & T2) s f t I. apply in_app_iff in I. destruct I as [I|I]; [eapply IHx|eapply IHy]; eauto.
  - intros x IHx y IHy (T1 & T2) s f t I. apply in_app_iff in I. destruct I as [I|I]; [eapply IHx|eapply IHy]; eauto.
  - intros x IHx y IHy (T1 & T2) s f t I. apply in_app_iff in I. destruct I as [I|I]; [eapply IHx|eapply IHy]; eauto.
  - intros x IH T. apply IH, T.
  - intros p x IH (_ & T) s f t I. eapply IH; eauto.
Qed.

Lemma thin_writable f : thin_field n a b f -> freadonly f = false.
Proof. induction 1; auto. Qed.
Lemma operands_real h e : thin_operands V n a b h e -> operands_ok V n h (real_expr V n e).
Proof.
  intros (T & M & K & S1). split; [|split].
  - intros f s I. rewrite (proj1 reads_real) in I. apply in_map_iff in I. destruct I as ((g & t) & E & I).
    unfold fst_real in E. cbn in E. injection E as <- <-. split.
    + apply (user_field_on_patch n), (real_user n a b). eapply (proj1 reads_thin); eauto.
    + apply (M _ _ I).
  - intros m s I. rewrite (proj1 masks_real) in I. apply in_map_iff in I. destruct I as ((g & t) & E & I).
    unfold fst_mask in E. cbn in E. injection E as <- <-. split; [|apply (K _ _ I)].
    apply (user_field_on_patch n), (real_user n a b). eapply (proj1 masks_thin); eauto.
  - intros f I. rewrite (proj1 singles_real) in I. apply S1, I.
Qed.
Lemma destination_real h f : thin_destination V n a b h f -> destination_ok V n h (real_field n f).
Proof.
  intros (T & M). split; [apply (user_field_on_patch n), (real_user n a b), T|]. split; [exact (thin_writable f T)|exact M].
Qed.
Lemma alias_real f e : alias_ok V f e -> alias_ok V (real_field n f) (real_expr V n e).
Proof.
  intros A g s I. rewrite (proj1 reads_real) in I. apply in_map_iff in I. destruct I as ((k & t) & E & I).
  unfold fst_real in E. cbn in E. injection E as <- <-. apply (A _ _ I).
Qed.
Lemma assigned_real h h' f e R :
  assigned V h h' (real_field n f) R (denote V vadd vmul h (real_expr V n e)) -> assigned V h h' f R (denote V vadd vmul h e).
Proof.
  intros (A & B & C). split; [exact A|]. split; [|exact C]. intros p P. rewrite <- (proj1 (denote_real h)). apply (B p P).
Qed.

Lemma thin_assign_ok h f e :
  thin_operands V n a b h e -> thin_destination V n a b h f -> alias_ok V f e ->
  covers_extra V (real_field n f) (real_expr V n e) ->
  (exists p, region V n (real_field n f) (real_expr V n e) p) ->
  exists N, forall fuel, (N <= fuel)%nat -> exists h',
    run (fst (nebo_assign V vadd vmul fuel f e)) h = RDone h' tt /\
    assigned V h h' f (region V n (real_field n f) (real_expr V n e)) (denote V vadd vmul h e).
Proof.
  intros O D A C P.
  destruct (assign_correct V vadd vmul n h _ _ (operands_real h e O) (destination_real h f D) (alias_real f e A) C P) as (N & H).
  exists N. intros fuel F. destruct (H fuel F) as (h' & R & S1). exists h'. split; [|apply assigned_real, S1].
  unfold nebo_assign in *. cbn [fst] in *. rewrite (assign_same V vadd vmul n a b fuel f e); [exact R|apply D|apply O].
Qed.
Lemma thin_parallel_ok h f e :
  thin_operands V n a b h e -> thin_destination V n a b h f -> alias_ok V f e ->
  covers_extra V (real_field n f) (real_expr V n e) ->
  (exists p, region V n (real_field n f) (real_expr V n e) p) -> 0 < fparts f ->
  parallel_ok V vadd vmul h f e true (region V n (real_field n f) (real_expr V n e)).
Proof.
  intros O D A C P Q.
  destruct (assign_parallel V vadd vmul n h _ _ (operands_real h e O) (destination_real h f D) (alias_real f e A) C P Q) as (N & H).
  exists N. intros fuel F. destruct (H fuel F) as (jobs & h' & R & S1 & L & L' & J & B & ST). exists jobs, h'.
  split; [apply (jobs_same V vadd vmul n a b); [apply D|apply O|exact R]|].
  split; [rewrite (assign_same V vadd vmul n a b fuel f e); [exact S1|apply D|apply O]|].
  split; [exact L|]. split; [exact L'|]. split; [exact J|]. split; [exact B|].
  intros st RS. destruct (ST st RS) as (X1 & X2 & X3 & X4). split; [exact X1|]. split; [exact X2|]. split; [exact X3|].
  intros X. destruct (X4 X) as (Y1 & Y2). split; [exact Y1|]. apply assigned_real, Y2.
Qed.
Lemma thin_fold_ok h e :
  thin_operands V n a b h e -> has_leaf V e = true -> (exists p, expr_known V n (real_expr V n e) p) ->
  exists N p0 rest, lists_in_order (expr_known V n (real_expr V n e)) (p0 :: rest) /\
    (forall A (proc : A -> V -> A) a0 fuel, (N <= fuel)%nat ->
       run (nebo_fold V vadd vmul fuel proc a0 e) h
       = RDone h (fold_left (fun a p => proc a (denote V vadd vmul h e p)) (p0 :: rest) a0)) /\
    (forall (proc : V -> V -> V) fuel, (N <= fuel)%nat ->
       run (nebo_reduce V vadd vmul fuel proc e) h
       = RDone h (fold_left (fun a p => proc a (denote V vadd vmul h e p)) rest (denote V vadd vmul h e p0))).
Proof.
  intros O L P. assert (L' := L). rewrite <- (proj1 leaf_real) in L'.
  destruct (reduction_ok V vadd vmul n h _ (operands_real h e O) L' P) as (N & p0 & rest & LO & F & R).
  exists N, p0, rest. split; [exact LO|]. split.
  - intros A proc a0 fuel K. rewrite (fold_same V vadd vmul n a b) by (try apply O; exact L). rewrite (F A proc a0 fuel K). f_equal.
    apply fold_ext; [reflexivity|]. intros z p. rewrite (proj1 (denote_real h)). reflexivity.
  - intros proc fuel K. rewrite (reduce_same V vadd vmul n a b) by (try apply O; exact L). rewrite (R proc fuel K). f_equal.
    apply fold_ext; [apply (proj1 (denote_real h))|]. intros z p. rewrite (proj1 (denote_real h)). reflexivity.
Qed.

(** All interior cells are assigned if the operands have enough valid ghosts
    in the directions with more than one cell. *)
Lemma thin_interior h f e : thin_destination V n a b h f ->
  (forall p, interior_cell n f p -> expr_known V n (real_expr V n e) p) ->
  forall p, interior_cell n f p -> region V n (real_field n f) (real_expr V n e) p.
Proof. intros D K. exact (region_interior V n h (real_field n f) (real_expr V n e) (destination_real h f D) K). Qed.
(** The cells of such a field: its block has no layer beyond the single cell. *)
Lemma thin_cells f : thin_field n a b f ->
  glob_npts (fint f) = (ix n + ix (has_extra (fbc f)) + drop1 (ix n) (ix (gminus (fghosts f))) + drop1 (ix n) (ix (gplus (fghosts f)))) *
    (iy n + iy (has_extra (fbc f)) + drop1 (iy n) (iy (gminus (fghosts f))) + drop1 (iy n) (iy (gplus (fghosts f)))) *
    (iz n + iz (has_extra (fbc f)) + drop1 (iz n) (iz (gminus (fghosts f))) + drop1 (iz n) (iz (gplus (fghosts f)))).
Proof.
  intros T. destruct (user_field_on_patch n _ (real_user n a b f T)) as ((_ & _ & E & _) & G & _). cbn in E, G.
  unfold glob_npts. rewrite G. cbn. rewrite E. cbn. ring.
Qed.
End ThinR.
