(** Reductions over an expression with no field or mask never return. *)
From Verif Require Import Prelude WindowM WindowS GhostM FieldM MaskM NeboM NeboS NeboP.

Section NeboI.
Variable V : Type.
Variable vadd vmul : V -> V -> V.

(** A walk made of constants only. *)
Fixpoint still (w : walk V) : Prop :=
  match w with
  | WConst _ _ => True
  | WField _ _ _ _ => False
  | WOp1 _ _ a => still a
  | WOp2 _ _ a b => still a /\ still b
  | WCond _ c a b => bstill c /\ still a /\ still b
  end
with bstill (w : bwalk V) : Prop :=
  match w with
  | BWConst _ _ => True
  | BWMask _ _ _ _ => False
  | BWCmp _ _ a b => still a /\ still b
  | BWAnd _ a b | BWOr _ a b => bstill a /\ bstill b
  | BWNot _ a => bstill a
  end.

Fixpoint still_at_end (w : walk V) : still w -> at_end V w = false
with bstill_at_end (w : bwalk V) : bstill w -> bat_end V w = false.
Proof.
  - destruct w; cbn [still bstill at_end bat_end]; intros S; [reflexivity|destruct S|apply still_at_end; exact S| |].
    + destruct S as [A B]. rewrite (still_at_end _ A), (still_at_end _ B). reflexivity.
    + destruct S as (C & A & B). change ((bat_end V c || at_end V w1) || at_end V w2 = false). rewrite (bstill_at_end _ C), (still_at_end _ A), (still_at_end _ B). reflexivity.
  - destruct w; cbn [still bstill at_end bat_end]; intros S; [reflexivity|destruct S| | | |apply bstill_at_end; exact S].
    + destruct S as [A B]. change (at_end V a || at_end V b = false). rewrite (still_at_end _ A), (still_at_end _ B). reflexivity.
    + destruct S as [A B]. rewrite (bstill_at_end _ A), (bstill_at_end _ B). reflexivity.
    + destruct S as [A B]. rewrite (bstill_at_end _ A), (bstill_at_end _ B). reflexivity.
Qed.
Fixpoint still_next (w : walk V) : still w -> still (next V w)
with bstill_next (w : bwalk V) : bstill w -> bstill (bnext V w).
Proof.
  - destruct w; cbn [still bstill next bnext]; intros S; [exact I|destruct S|apply still_next; exact S| |].
    + destruct S as [A B]. split; apply still_next; assumption.
    + destruct S as (C & A & B). repeat split; [apply bstill_next|apply still_next|apply still_next]; assumption.
  - destruct w; cbn [still bstill next bnext]; intros S; [exact I|destruct S| | | |apply bstill_next; exact S].
    + destruct S as [A B]. split; apply still_next; assumption.
    + destruct S as [A B]. split; apply bstill_next; assumption.
    + destruct S as [A B]. split; apply bstill_next; assumption.
Qed.

(** What a program returns, if it returns. *)
Definition gives {R} (P : R -> Prop) (p : prog V R) : Prop := forall h h' r, run p h = RDone h' r -> P r.
Lemma run_bind {A B} (p : prog V A) (f : A -> prog V B) : forall h,
  run (pbind p f) h = match run p h with RDone h1 r => run (f r) h1 | RThrow => RThrow | RUB => RUB | RFuel => RFuel end.
Proof.
  induction p as [r| | | |b i k IH|b i v k IH]; intros h; cbn; try reflexivity;
    destruct (bcells (h b) i); [apply IH|reflexivity|apply IH|reflexivity].
Qed.
Lemma gives_bind {A B} (P : A -> Prop) (Q : B -> Prop) (p : prog V A) f :
  gives P p -> (forall a, P a -> gives Q (f a)) -> gives Q (pbind p f).
Proof.
  intros G F h h' r E. rewrite run_bind in E. destruct (run p h) as [h1 a| | |] eqn:D; try discriminate.
  exact (F a (G h h1 a D) h1 h' r E).
Qed.
Lemma gives_ret {R} (P : R -> Prop) r : P r -> gives P (Ret r).
Proof. intros A h h' x E. injection E as _ <-. exact A. Qed.

Lemma init_still red :
  (forall e, has_leaf V e = false -> forall m p s, gives still (init V vadd vmul red e m p s)) /\
  (forall e, bhas_leaf V e = false -> forall m p s, gives bstill (binit V vadd vmul red e m p s)).
Proof.
  apply expr_bexpr_ind; cbn [has_leaf bhas_leaf init binit]; try discriminate.
  - intros v _ m p s. apply gives_ret. exact I.
  - intros f _ m p s h h' r E. cbn in E. destruct (bcells _ _); [|discriminate]. injection E as _ <-. exact I.
  - intros op a IH L m p s. apply (gives_bind still); [apply IH; exact L|]. intros x X. apply gives_ret. exact X.
  - intros op a IHa b IHb L m p s. apply orb_false_iff in L. destruct L as [La Lb].
    apply (gives_bind still); [apply IHa; exact La|]. intros x X.
    apply (gives_bind still); [apply IHb; exact Lb|]. intros y Y. apply gives_ret. split; assumption.
  - intros c IHc x IHx o IHo L m p s. apply orb_false_iff in L. destruct L as [L Lo]. apply orb_false_iff in L. destruct L as [Lc Lx].
    apply (gives_bind bstill); [apply IHc; exact Lc|]. intros t T.
    apply (gives_bind still); [apply IHx; exact Lx|]. intros u U.
    apply (gives_bind still); [apply IHo; exact Lo|]. intros v W. apply gives_ret. repeat split; assumption.
  - intros p0 c0 rest a IH L m p s.
    assert (G : forall acc, gives still acc -> gives still (fold_left (fun acc pc =>
                   pbind acc (fun earlier => pbind (init V vadd vmul red a m p (iv_add s (fst pc)))
                     (fun x => Ret (WOp2 V vadd earlier (WOp2 V vmul x (WConst V (snd pc))))))) rest acc)).
    { induction rest as [|pc l IHl]; cbn; intros acc A; [exact A|]. apply IHl.
      apply (gives_bind still); [exact A|]. intros x X. apply (gives_bind still); [apply IH; exact L|].
      intros y Y. apply gives_ret. cbn. auto. }
    apply G. apply (gives_bind still); [apply IH; exact L|]. intros x X. apply gives_ret. cbn. auto.
  - intros p0 rest a IH L m p s.
    assert (G : forall acc, gives still acc -> gives still (fold_left (fun acc q =>
                   pbind acc (fun earlier => pbind (init V vadd vmul red a m p (iv_add s q))
                     (fun x => Ret (WOp2 V vadd earlier x)))) rest acc)).
    { induction rest as [|pc l IHl]; cbn; intros acc A; [exact A|]. apply IHl.
      apply (gives_bind still); [exact A|]. intros x X. apply (gives_bind still); [apply IH; exact L|].
      intros y Y. apply gives_ret. cbn. auto. }
    apply G. apply IH. exact L.
  - intros b _ m p s. apply gives_ret. exact I.
  - intros c a IHa b IHb L m p s. apply orb_false_iff in L. destruct L as [La Lb].
    apply (gives_bind still); [apply IHa; exact La|]. intros x X.
    apply (gives_bind still); [apply IHb; exact Lb|]. intros y Y. apply gives_ret. split; assumption.
  - intros a IHa b IHb L m p s. apply orb_false_iff in L. destruct L as [La Lb].
    apply (gives_bind bstill); [apply IHa; exact La|]. intros x X.
    apply (gives_bind bstill); [apply IHb; exact Lb|]. intros y Y. apply gives_ret. split; assumption.
  - intros a IHa b IHb L m p s. apply orb_false_iff in L. destruct L as [La Lb].
    apply (gives_bind bstill); [apply IHa; exact La|]. intros x X.
    apply (gives_bind bstill); [apply IHb; exact Lb|]. intros y Y. apply gives_ret. split; assumption.
  - intros a IH L m p s. apply (gives_bind bstill); [apply IH; exact L|]. intros x X. apply gives_ret. exact X.
  - intros q a IH L m p s. apply IH. exact L.
Qed.

Lemma loop_still {R} (proc : R -> V -> R) n : forall acc w, still w -> gives (fun _ => False) (fold_loop V n proc acc w).
Proof.
  induction n as [|n IH]; intros acc w S h h' r E; cbn in E; rewrite (still_at_end w S) in E; [discriminate|].
  revert h h' r E. apply (gives_bind (fun _ => True) (fun _ => False)); [intros ? ? ? _; exact I|]. intros v _. apply IH. apply still_next. exact S.
Qed.
Lemma fold_still {R} (proc : R -> V -> R) n g a e : has_leaf V e = false -> gives (fun _ => False) (fold_with V vadd vmul n g proc a e).
Proof. intros L. apply (gives_bind still); [apply init_still; exact L|]. intros w S. apply loop_still. exact S. Qed.
Lemma reduce_still proc n g e : has_leaf V e = false -> gives (fun _ => False) (reduce_with V vadd vmul n g proc e).
Proof.
  intros L. apply (gives_bind still); [apply init_still; exact L|]. intros w S.
  apply (gives_bind (fun _ => True)); [intros ? ? ? _; exact I|]. intros v _. apply loop_still. apply still_next. exact S.
Qed.

Lemma no_field h e : has_leaf V e = false -> forall fuel h',
  (forall R (proc : R -> V -> R) a r, run (nebo_fold V vadd vmul fuel proc a e) h <> RDone h' r /\
     run (nebo_fold_interior V vadd vmul fuel proc a e) h <> RDone h' r) /\
  (forall proc r, run (nebo_reduce V vadd vmul fuel proc e) h <> RDone h' r /\
     run (nebo_reduce_interior V vadd vmul fuel proc e) h <> RDone h' r).
Proof.
  intros L fuel h'. split; intros; split; intros E.
  - revert h h' r E. apply (gives_bind (fun _ => True) (fun _ => False)); [intros ? ? ? _; exact I|]. intros g _. apply fold_still. exact L.
  - exact (fold_still _ _ _ _ _ L _ _ _ E).
  - revert h h' r E. apply (gives_bind (fun _ => True) (fun _ => False)); [intros ? ? ? _; exact I|]. intros g _. apply reduce_still. exact L.
  - exact (reduce_still _ _ _ _ L _ _ _ E).
Qed.

Lemma loop_number h v (proc : V -> V -> V) n : forall acc, run (fold_loop V n proc acc (WConst V v)) h = RFuel.
Proof. induction n as [|n IH]; intros acc; [reflexivity|]. cbn. apply IH. Qed.
Lemma one_number h v proc fuel : run (nebo_reduce V vadd vmul fuel proc (EScalar V v)) h = RFuel.
Proof. unfold nebo_reduce, reduce_with. cbn. apply loop_number. Qed.
End NeboI.
