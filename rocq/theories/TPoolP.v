(** Proofs about the thread pool: accounting. *)
From Coq Require Import Permutation.
From Verif Require Import Prelude TPoolM TPoolS.

Lemma zlength_app {A} (a b : list A) : zlength (a ++ b) = zlength a + zlength b.
Proof. unfold zlength. rewrite app_length. lia. Qed.
Lemma zlength_nonneg {A} (a : list A) : 0 <= zlength a.
Proof. unfold zlength. lia. Qed.
Lemma zlength_cons {A} (x : A) a : zlength (x :: a) = 1 + zlength a.
Proof. unfold zlength. cbn [length]. lia. Qed.

Definition b2z (b : bool) : Z := if b then 1 else 0.
Lemma num_app p a b : num p (a ++ b) = num p a + num p b.
Proof. unfold num. rewrite filter_app. apply zlength_app. Qed.
Lemma num_cons p w a : num p (w :: a) = b2z (p w) + num p a.
Proof. unfold num. cbn. destruct (p w); cbn [b2z]; [apply zlength_cons|lia]. Qed.
Lemma num_mid p l1 w l2 : num p (l1 ++ w :: l2) = b2z (p w) + (num p l1 + num p l2).
Proof. rewrite num_app, num_cons. lia. Qed.
Lemma num_nonneg p l : 0 <= num p l.
Proof. apply zlength_nonneg. Qed.
Lemma num_map p f l : (forall w, p (f w) = p w) -> num p (map f l) = num p l.
Proof. intros H. induction l as [|w l IH]; [reflexivity|]. cbn [map]. rewrite !num_cons, IH, H. reflexivity. Qed.
Lemma num_repeat p w n : num p (repeat w n) = b2z (p w) * Z.of_nat n.
Proof. induction n as [|n IH]; [cbn; lia|]. cbn [repeat]. rewrite num_cons, IH. lia. Qed.
Lemma num_le p q l : (forall w, b2z (p w) <= b2z (q w)) -> num p l <= num q l.
Proof. intros H. induction l as [|w l IH]; [reflexivity|]. rewrite !num_cons. specialize (H w). lia. Qed.
Lemma num_pos p l : 0 < num p l -> exists l1 w l2, l = l1 ++ w :: l2 /\ p w = true.
Proof.
  induction l as [|w l IH]; [cbn; lia|]. rewrite num_cons. destruct (p w) eqn:E.
  - intros _. exists [], w, l. auto.
  - cbn [b2z]. intros H. destruct IH as (l1 & x & l2 & -> & E2); [lia|]. exists (w :: l1), x, l2. auto.
Qed.
Lemma num_zero p l : num p l = 0 -> forall w, In w l -> p w = false.
Proof.
  intros H w I. destruct (p w) eqn:E; [|reflexivity]. apply in_split in I. destruct I as (l1 & l2 & ->).
  rewrite num_mid, E in H. cbn [b2z] in H. pose proof (num_nonneg p l1). pose proof (num_nonneg p l2). lia.
Qed.

(** counted as active: everything but waiting, woken and gone *)
Definition actv (w : wkr) : bool := match w with WEnter | WRun _ | WExit => true | _ => false end.
Definition alive (w : wkr) : bool := match w with WGone => false | _ => true end.
Definition runs (w : wkr) : bool := match w with WRun _ => true | _ => false end.
Definition run1 (w : wkr) : list task := match w with WRun t => [t] | _ => [] end.
Lemma running_num st : zlength (running st) = num runs (pw st).
Proof.
  unfold running. induction (pw st) as [|w l IH]; [reflexivity|]. cbn [flat_map]. rewrite zlength_app, IH, num_cons. destruct w; cbn; lia.
Qed.

Lemma notify1_num p l m : notify1 l m -> (p WWoken = p WWait) -> num p m = num p l.
Proof. intros [l1 l2|l' _] E; [rewrite !num_mid, E; reflexivity|reflexivity]. Qed.
Lemma notify1_run l m : notify1 l m -> flat_map run1 m = flat_map run1 l.
Proof. intros [l1 l2|l' _]; [rewrite !flat_map_app; reflexivity|reflexivity]. Qed.
Lemma wwake_run l : flat_map run1 (map wwake l) = flat_map run1 l.
Proof. induction l as [|[] l IH]; cbn; rewrite ?IH; reflexivity. Qed.
Lemma repeat_run n : flat_map run1 (repeat WEnter n) = [].
Proof. induction n; [reflexivity|assumption]. Qed.

(** Counts. *)
Record civ (st : pool) : Prop := CIv {
  c_active : pactive st = num actv (pw st);
  c_count : pcount st = num alive (pw st) }.
Lemma civ_resize st n st' : civ st -> resize st n st' -> civ st'.
Proof.
  intros [h1 h2] R. destruct R as [st n|st n k T L K1 K2|st n T L]; [constructor; assumption| |].
  - unfold grow. constructor; cbn; rewrite num_app, num_repeat; cbn [actv alive b2z]; lia.
  - constructor; cbn; rewrite num_map by (intros []; reflexivity); assumption.
Qed.
Ltac wk H := match type of H with pw ?st = _ => idtac end.
Ltac pcbn := cbn [pkind pq pcount ptarget pactive plimit pterm pw pc gsched gstart gdone gfail gclear with_workers with_clients with_active sleep take grow] in *.
Lemma civ_step l a b : civ a -> tstep l a b -> civ b.
Proof.
  intros H St. pose proof H as [h1 h2].
  destruct St; try (match goal with E : pw _ = _ |- _ => rewrite E in h1, h2 end); rewrite ?num_mid in *.
  all: try (constructor; pcbn; rewrite ?num_mid; cbn [actv alive b2z] in *; lia).
  - (* died *) assert (civ st1) by (constructor; subst st1; pcbn; rewrite ?num_mid; cbn [actv alive b2z] in *; lia).
    destruct (pterm st); [subst st'; assumption|eapply civ_resize; eassumption].
  - constructor; pcbn; rewrite (notify1_num _ _ _ H0) by reflexivity; assumption.
  - eapply civ_resize; eassumption.
  - destruct wait; constructor; pcbn; rewrite num_map by (intros []; reflexivity); assumption.
Qed.
Lemma civ_new k : civ (pool_new k).
Proof. constructor; reflexivity. Qed.

(** Tasks. *)
Record tiv (st : pool) : Prop := TIv {
  t_all : Permutation (gsched st) (pq st ++ running st ++ gdone st ++ gfail st ++ gclear st);
  t_start : Permutation (gstart st) (running st ++ gdone st ++ gfail st);
  t_fifo : pkind st = Fifo -> subseq (gstart st ++ pq st) (gsched st);
  t_fifo_eq : pkind st = Fifo -> gclear st = [] -> gsched st = gstart st ++ pq st }.

Lemma subseq_refl {A} (l : list A) : subseq l l.
Proof. induction l; constructor; assumption. Qed.
Lemma subseq_app {A} (a b c d : list A) : subseq a b -> subseq c d -> subseq (a ++ c) (b ++ d).
Proof. intros H1 H2. induction H1; cbn; [assumption|constructor; assumption|constructor; assumption]. Qed.
Lemma subseq_nil {A} (a b : list A) : subseq a b -> subseq [] b.
Proof. intros H. induction H; [constructor|constructor; assumption|constructor; assumption]. Qed.
Lemma subseq_prefix {A} (a b c : list A) : subseq (a ++ b) c -> subseq a c.
Proof.
  revert c. induction a as [|x a IH]; intros c H; cbn in *.
  - eapply subseq_nil, H.
  - remember (x :: a ++ b) as l eqn:E. revert x a b IH E. induction H as [|y a' b' H IH2|y a' b' H IH2]; intros x a b IH E.
    + discriminate E.
    + injection E as -> E. subst a'. constructor. eapply IH, H.
    + constructor. eapply IH2; eassumption.
Qed.
Lemma takes_perm k q t q' : takes k q t q' -> Permutation q (t :: q').
Proof.
  intros [x y|x y|x y z _].
  - reflexivity.
  - apply Permutation_sym, Permutation_cons_append.
  - apply Permutation_sym, Permutation_middle.
Qed.

Lemma takes_fifo_inv q t q' : takes Fifo q t q' -> q = t :: q'.
Proof. intros T. inversion T. reflexivity. Qed.
Lemma tiv_same st st' : tiv st -> pkind st' = pkind st -> pq st' = pq st -> running st' = running st ->
  gsched st' = gsched st -> gstart st' = gstart st -> gdone st' = gdone st -> gfail st' = gfail st -> gclear st' = gclear st -> tiv st'.
Proof. intros [h1 h2 h3 h4] E1 E2 E3 E4 E5 E6 E7 E8. constructor; rewrite ?E1, ?E2, ?E3, ?E4, ?E5, ?E6, ?E7, ?E8; assumption. Qed.
Lemma running_eq st : running st = flat_map run1 (pw st).
Proof. reflexivity. Qed.
Lemma run_mid l1 w l2 : flat_map run1 (l1 ++ w :: l2) = flat_map run1 l1 ++ run1 w ++ flat_map run1 l2.
Proof. rewrite flat_map_app. reflexivity. Qed.
Lemma tiv_resize st n st' : tiv st -> resize st n st' -> tiv st'.
Proof.
  intros H R. destruct R as [st n|st n k T L K1 K2|st n T L]; [assumption| |]; refine (tiv_same _ _ H _ _ _ _ _ _ _ _); try reflexivity;
    rewrite !running_eq; pcbn; rewrite ?flat_map_app, ?repeat_run, ?app_nil_r, ?wwake_run; reflexivity.
Qed.
(** taking a task *)
Lemma tiv_take st l1 w l2 t q : tiv st -> pw st = l1 ++ w :: l2 -> run1 w = [] -> takes (pkind st) (pq st) t q -> tiv (take st l1 l2 t q).
Proof.
  intros [h1 h2 h3 h4] E R T. rewrite running_eq, E, run_mid, R in *. pose proof (takes_perm _ _ _ _ T) as P.
  constructor; rewrite ?running_eq; pcbn; rewrite ?run_mid.
  - cbn [run1 app] in *. rewrite h1, P. cbn [app]. rewrite <- !app_assoc. cbn [app].
    rewrite (Permutation_app_comm q), (Permutation_app_comm q). rewrite <- !app_assoc. cbn [app]. apply Permutation_cons_app. rewrite <- ?app_assoc.
    reflexivity.
  - cbn [run1 app] in *. rewrite h2. rewrite <- Permutation_cons_append. rewrite <- !app_assoc. cbn [app]. apply Permutation_cons_app. reflexivity.
  - intros K. specialize (h3 K). rewrite K in T. apply takes_fifo_inv in T. rewrite <- app_assoc. cbn [app]. rewrite <- T. exact h3.
  - intros K C. specialize (h4 K C). rewrite K in T. apply takes_fifo_inv in T. rewrite <- app_assoc. cbn [app]. rewrite <- T. exact h4.
Qed.
Lemma tiv_step l a b : tiv a -> tstep l a b -> tiv b.
Proof.
  intros H St. destruct St; try (match goal with E : pw _ = _ |- _ => rename E into EW end).
  all: try (eapply tiv_take; [eassumption|eassumption|reflexivity|eassumption]).
  all: try (refine (tiv_same _ _ H _ _ _ _ _ _ _ _); try reflexivity; rewrite !running_eq; pcbn; rewrite ?EW, ?run_mid; reflexivity).
  - (* woken take *) refine (tiv_take (with_active st (pactive st + 1)) _ WWoken _ _ _ _ _ eq_refl _); [|exact EW|assumption].
    refine (tiv_same _ _ H _ _ _ _ _ _ _ _); reflexivity.
  - (* done *) destruct H as [h1 h2 h3 h4]. rewrite running_eq, EW, run_mid in *. constructor; rewrite ?running_eq; pcbn; rewrite ?run_mid; cbn [run1 app] in *; try assumption.
    + rewrite h1. apply Permutation_app_head. rewrite <- !app_assoc. cbn [app]. apply Permutation_app_head.
      rewrite (app_assoc (flat_map run1 l2)), (app_assoc (flat_map run1 l2)). apply Permutation_middle.
    + rewrite h2. rewrite <- !app_assoc. cbn [app]. apply Permutation_app_head. rewrite (app_assoc (flat_map run1 l2)), (app_assoc (flat_map run1 l2)). apply Permutation_middle.
  - (* died *) assert (G : tiv st1).
    { destruct H as [h1 h2 h3 h4]. rewrite running_eq, EW, run_mid in *. constructor; rewrite ?running_eq; subst st1; pcbn; rewrite ?run_mid; cbn [run1 app] in *; try assumption.
      + rewrite h1. apply Permutation_app_head. rewrite <- !app_assoc. cbn [app]. apply Permutation_app_head.
        rewrite (app_assoc (flat_map run1 l2)), (app_assoc (flat_map run1 l2)), (app_assoc _ (gfail st)), (app_assoc _ (gfail st)). apply Permutation_middle.
      + rewrite h2. rewrite <- !app_assoc. cbn [app]. apply Permutation_app_head. rewrite !app_assoc. apply Permutation_cons_append. }
    destruct (pterm st); [subst st'; assumption|eapply tiv_resize; eassumption].
  - (* schedule *) destruct H as [h1 h2 h3 h4]. rewrite running_eq in *. pose proof (notify1_run _ _ H0) as E. constructor; rewrite ?running_eq; pcbn; rewrite ?E; try assumption.
    + rewrite h1. etransitivity; [symmetry; apply Permutation_cons_append|]. rewrite <- (app_assoc (pq st)). cbn [app]. apply Permutation_middle.
    + intros K. rewrite app_assoc. apply subseq_app; [apply h3, K|apply subseq_refl].
    + intros K C. rewrite app_assoc. rewrite <- (h4 K C). reflexivity.
  - (* clear *) destruct H as [h1 h2 h3 h4]. rewrite running_eq in *. constructor; rewrite ?running_eq; pcbn; try assumption.
    + rewrite h1. cbn [app]. rewrite (Permutation_app_comm (pq st)). rewrite <- !app_assoc. reflexivity.
    + intros K. rewrite app_nil_r. eapply subseq_prefix, h3, K.
    + intros K C. apply app_eq_nil in C. destruct C as [C1 C2]. rewrite app_nil_r, (h4 K C1), C2, app_nil_r. reflexivity.
  - (* resize *) eapply tiv_resize; eassumption.
  - (* terminate *) destruct wait; refine (tiv_same _ _ H _ _ _ _ _ _ _ _); try reflexivity; rewrite !running_eq; pcbn; apply wwake_run.
Qed.
Lemma tiv_new k : tiv (pool_new k).
Proof. constructor; try reflexivity; intros; try constructor. Qed.

Lemma path_reach P a b : path P a b -> treach a b.
Proof. intros H. induction H; [constructor|econstructor; eassumption]. Qed.
Lemma reach_path a b : treach a b -> path (fun _ _ _ => True) a b.
Proof. intros H. induction H; [constructor|econstructor; try eassumption; exact I]. Qed.
Lemma civ_reach k st : treach (pool_new k) st -> civ st.
Proof. intros H. induction H; [apply civ_new|eapply civ_step; eassumption]. Qed.
Lemma tiv_reach k st : treach (pool_new k) st -> tiv st.
Proof. intros H. induction H; [apply tiv_new|eapply tiv_step; eassumption]. Qed.
