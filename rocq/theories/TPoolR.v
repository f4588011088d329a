(** The order in which a last-in-first-out pool starts its tasks (C30). *)
From Verif Require Import Prelude TPoolM TPoolS TPoolP TPoolQ.

Lemma subseq_drop {A} (q1 : list A) t q2 l : subseq (q1 ++ t :: q2) l -> subseq (q1 ++ q2) l.
Proof.
  revert l. induction q1 as [|x q1 IH]; cbn; intros l H.
  - remember (t :: q2) as q eqn:E. revert t q2 E. induction H as [|y a b H IH|y a b H IH]; intros t q2 E; [discriminate| |].
    + injection E as -> ->. constructor. exact H.
    + constructor. eapply IH, E.
  - remember (x :: q1 ++ t :: q2) as q eqn:E. revert E. induction H as [|y a b H IH2|y a b H IH2]; intros E; [discriminate| |].
    + injection E as -> ->. constructor. apply IH, H.
    + constructor. apply IH2, E.
Qed.
Lemma takes_subseq k q t q' l : takes k q t q' -> subseq q l -> subseq q' l.
Proof.
  intros [x y|x y|x y z _] H.
  - exact (subseq_drop [] _ _ _ H).
  - rewrite <- (app_nil_r y). exact (subseq_drop _ _ [] _ H).
  - exact (subseq_drop _ _ _ _ H).
Qed.
Lemma resize_pq st n st' : resize st n st' -> pq st' = pq st /\ gsched st' = gsched st.
Proof. intros []; split; reflexivity. Qed.
Lemma queue_step l a b : tstep l a b -> subseq (pq a) (gsched a) -> subseq (pq b) (gsched b).
Proof.
  intros St H. destruct St; try exact H; cbn.
  - eapply takes_subseq; eassumption.
  - eapply takes_subseq; eassumption.
  - destruct (pterm st); [subst; exact H|]. destruct (resize_pq _ _ _ H1) as [-> ->]. exact H.
  - apply subseq_app; [exact H|apply subseq_refl].
  - eapply subseq_nil, H.
  - destruct (resize_pq _ _ _ H1) as [-> ->]. exact H.
  - destruct wait; exact H.
Qed.
Lemma queue_order k tr st : run (pool_new k) tr st -> subseq (pq st) (scheduled tr).
Proof.
  intros R. destruct (run_ghost _ _ _ R) as (_ & e & _). rewrite <- e. clear e.
  induction R as [|tr l b c R IH St]; [constructor|]. eapply queue_step; eassumption.
Qed.
Lemma subseq_in {A} (q : list A) t l : subseq (q ++ [t]) l -> forall u, In u q -> exists a b c, l = a ++ u :: b ++ t :: c.
Proof.
  revert l. induction q as [|x q IH]; intros l H u; [intros []|]. cbn in H.
  remember (x :: q ++ [t]) as s eqn:E. induction H as [|y a b H IH2|y a b H IH2]; [discriminate| |].
  - injection E as -> ->. intros [<-|J].
    + assert (T : exists b1 c1, b = b1 ++ t :: c1).
      { assert (X : In t b). { clear -H. assert (J : In t (q ++ [t])) by (apply in_or_app; right; left; reflexivity).
          revert J. induction H; cbn; intuition. }
        apply in_split in X. exact X. }
      destruct T as (b1 & c1 & ->). exists [], b1, c1. reflexivity.
    + destruct (IH _ H _ J) as (a1 & b1 & c1 & ->). exists (x :: a1), b1, c1. reflexivity.
  - intros J. destruct (IH2 E J) as (a1 & b1 & c1 & ->). exists (y :: a1), b1, c1. reflexivity.
Qed.
Lemma lifo_order tr st t st' : run (pool_new Lifo) tr st -> tstep (LStart t) st st' ->
  pq st = pq st' ++ [t] /\ forall u, In u (pq st') -> exists a b c, scheduled tr = a ++ u :: b ++ t :: c.
Proof.
  intros R St. destruct (run_ghost _ _ _ R) as (e1 & _). pose proof (queue_order _ _ _ R) as S.
  assert (E : pq st = pq st' ++ [t]).
  { inversion St; subst; cbn; match goal with T : takes _ _ _ _ |- _ => rewrite e1 in T; inversion T; reflexivity end. }
  split; [exact E|]. rewrite E in S. apply subseq_in, S.
Qed.

(** Two tasks scheduled before a worker looks: the second one is started first. *)
Lemma lifo_example (t u : task) : exists tr st st', run (pool_new Lifo) tr st /\ scheduled tr = [u; t] /\ tstep (LStart t) st st' /\ pq st' = [u].
Proof.
  assert (R : exists tr st, run (pool_new Lifo) tr st /\ scheduled tr = [u; t] /\ pq st = [u; t] /\ pkind st = Lifo /\ pw st = [] ++ WEnter :: [] /\ pcount st <= ptarget st /\ must_wait st = false).
  { eexists. eexists. split.
    { eapply run_step. eapply run_step. eapply run_step. eapply run_step. apply run_0.
      - apply (ts_resize _ 1); [lia|]. apply (rz_grow _ 1 1); cbn; lia || reflexivity.
      - apply (ts_active _ 1). lia.
      - apply (ts_schedule _ u). cbn. apply n1_none. reflexivity.
      - apply (ts_schedule _ t). cbn. apply n1_none. reflexivity. }
    repeat split; cbn; lia || reflexivity. }
  destruct R as (tr & st & R & S & Q & K & W & C & M). exists tr, st, (take st [] [] t [u]). split; [exact R|]. split; [exact S|]. split; [|reflexivity].
  apply ts_enter_take; try assumption. rewrite K, Q. exact (takes_lifo t [u]).
Qed.
