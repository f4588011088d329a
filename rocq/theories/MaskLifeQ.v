(** Proofs about the memory of masks: the objects. *)
From Coq Require Import Permutation.
From Verif Require Import Prelude WindowM WindowS WindowP MaskM MaskS MaskP ConsumerM MaskLifeM MaskLifeS MaskLifeP.

(** ** Lists of objects *)
Lemma alive_lt A (l : list (option A)) i o : alive l i = Some o -> (i < length l)%nat.
Proof. unfold alive. intros E. apply nth_error_Some. destruct (nth_error l i); congruence. Qed.
Lemma alive_app A (l : list (option A)) x i :
  alive (l ++ [x]) i = if (i =? length l)%nat then x else alive l i.
Proof.
  unfold alive. destruct (Nat.eqb_spec i (length l)) as [->|N].
  - rewrite nth_error_app2, Nat.sub_diag by lia. cbn. destruct x; reflexivity.
  - destruct (Nat.lt_ge_cases i (length l)) as [H|H].
    + rewrite nth_error_app1 by exact H. reflexivity.
    + rewrite (proj2 (nth_error_None (l ++ [x]) i)), (proj2 (nth_error_None l i)) by (try rewrite app_length; cbn; lia). reflexivity.
Qed.
Lemma replace_length A (l : list (option A)) i x : (i < length l)%nat -> length (replace l i x) = length l.
Proof. intros H. unfold replace. rewrite app_length, firstn_length, Nat.min_l by lia. cbn [length]. rewrite skipn_length. lia. Qed.
Lemma alive_replace A (l : list (option A)) i x j : (i < length l)%nat ->
  alive (replace l i x) j = if (j =? i)%nat then x else alive l j.
Proof.
  revert i j. unfold alive, replace. induction l as [|y l IH]; intros i j H; [cbn in H; lia|].
  destruct i as [|i].
  - destruct j as [|j]; cbn; [destruct x; reflexivity|reflexivity].
  - destruct j as [|j]; cbn [firstn skipn app nth_error Nat.eqb]; [reflexivity|]. cbn in H. apply IH. lia.
Qed.
Lemma alive_nil A j : alive ([] : list (option A)) j = None.
Proof. unfold alive. destruct j; reflexivity. Qed.

(** ** What an object owns and points to *)
Definition ptr (t : mtype) (p : option nat) : list (mtype * nat) := match p with Some a => [(t, a)] | None => [] end.
Definition home_ptr (o : bitf) : list (mtype * nat) :=
  match fst (f_home o) with LOCAL_RAM => ptr LOCAL_RAM (f_ram o) | EXTERNAL_CUDA_GPU => ptr EXTERNAL_CUDA_GPU (f_ext o) | OTHER_MEMORY => [] end.
Definition on_gpu (l : list (nat * nat)) : list (mtype * nat) := map (fun e => (EXTERNAL_CUDA_GPU, snd e)) l.
Definition owned (o : bitf) : list (mtype * nat) :=
  on_gpu (f_mine o) ++ (if f_bcpu o then ptr LOCAL_RAM (f_ram o) else []) ++ (if f_built o then home_ptr o else []).
Definition pointers (o : bitf) : list (mtype * nat) :=
  ptr LOCAL_RAM (f_ram o) ++ ptr EXTERNAL_CUDA_GPU (f_ext o) ++ on_gpu (f_cons o).
Definition owned1 (x : option bitf) : list (mtype * nat) := match x with Some o => owned o | None => [] end.
Definition all_owned (os : list (option bitf)) : list (mtype * nat) := flat_map owned1 os.

Lemma all_owned_app os x : all_owned (os ++ [x]) = all_owned os ++ owned1 x.
Proof. unfold all_owned. rewrite flat_map_app. cbn. rewrite app_nil_r. reflexivity. Qed.
Lemma all_owned_replace os i o x : alive os i = Some o ->
  exists rest, Permutation (all_owned os) (owned o ++ rest) /\ Permutation (all_owned (replace os i x)) (owned1 x ++ rest).
Proof.
  intros A. exists (all_owned (firstn i os) ++ all_owned (skipn (S i) os)).
  assert (E : os = replace os i (Some o)).
  { unfold replace, alive in *. revert i A. induction os as [|y os IH]; intros i A; [destruct i; discriminate|].
    destruct i; cbn in A; [destruct y; [injection A as ->; reflexivity|discriminate]|]. cbn. f_equal. apply IH. exact A. }
  assert (P : forall y, Permutation (all_owned (replace os i y)) (owned1 y ++ all_owned (firstn i os) ++ all_owned (skipn (S i) os))).
  { intros y. unfold replace, all_owned. rewrite flat_map_app. cbn [flat_map]. rewrite !app_assoc. apply Permutation_app_tail, Permutation_app_comm. }
  split; [rewrite E at 1; apply (P (Some o))|apply P].
Qed.

(** ** The invariant *)
Definition z_words (z : seen_mask) : list Z :=
  match bitfield_make (z_win z) (z_pts z) with Ok l => l | _ => [] end.

Section Refine.
Variable cuda : bool.

Record rel (o : bitf) (z : seen_mask) : Prop := {
  r_win : f_win o = z_win z;
  r_home : f_home o = z_home z;
  r_type : supported cuda (fst (z_home z));
  r_ram : has (f_ram o) = mtype_eqb (fst (z_home z)) LOCAL_RAM || z_cpu z;
  r_ext : has (f_ext o) = mtype_eqb (fst (z_home z)) EXTERNAL_CUDA_GPU;
  r_cpu : z_cpu z = true -> fst (z_home z) = EXTERNAL_CUDA_GPU;
  r_built : f_built o = match z_of z with None => true | Some _ => false end;
  r_bcpu : f_bcpu o = z_own_cpu z;
  r_own : z_own_cpu z = true -> z_cpu z = true;
  r_cons : forall k, has (mfind (f_cons o) k) = sent k (z_gpus z);
  r_mine : forall e, In e (f_mine o) -> In e (f_cons o);
  r_nocuda : cuda = false -> f_mine o = [] /\ f_bcpu o = false;
  r_dims : pos_dims (wglob (z_win z));
  r_pts : Forall (in_block (z_win z)) (z_pts z)
}.
Definition parent (os : list (option bitf)) (i : nat) (z : seen_mask) (oj : bitf) : Prop :=
  exists j, z_of z = Some j /\ (j < i)%nat /\ alive os j = Some oj.
Record hold (os : list (option bitf)) (i : nat) (o : bitf) (z : seen_mask) : Prop := {
  h_home : f_built o = true \/ exists oj, parent os i z oj /\ f_home oj = f_home o /\ home_ptr oj = home_ptr o;
  h_ram : forall a, fst (f_home o) = EXTERNAL_CUDA_GPU -> f_ram o = Some a -> f_bcpu o = true \/ exists oj, parent os i z oj /\ f_ram oj = Some a;
  h_cons : forall e, In e (f_cons o) -> In e (f_mine o) \/ exists oj, parent os i z oj /\ In e (f_cons oj)
}.
Definition holds_bits (s : mstate) (o : bitf) (z : seen_mask) : Prop :=
  forall t a, In (t, a) (pointers o) -> content s a (z_words z).
Definition obj_ok (s : mstate) (os : list (option bitf)) (i : nat) (x : option bitf) (y : option seen_mask) : Prop :=
  match x, y with
  | Some o, Some z => rel o z /\ hold os i o z /\ holds_bits s o z
  | None, None => True
  | _, _ => False
  end.
Record inv (leaked : list (mtype * nat)) (s : mstate) (os : list (option bitf)) (zs : masks) : Prop := {
  v_mem : mem_ok s (all_owned os ++ leaked);
  v_len : length os = length zs;
  v_obj : forall i, obj_ok s os i (alive os i) (alive zs i)
}.

Lemma inv_new : inv [] no_memory [] [].
Proof. constructor; [exact mem_ok_new|reflexivity|]. intros i. rewrite !alive_nil. exact I. Qed.

Lemma in_ptr t p x : In x (ptr t p) <-> exists a, p = Some a /\ x = (t, a).
Proof. destruct p; cbn; [|split; [tauto|intros (? & ? & _); discriminate]]. split; [intros [<-|[]]; eauto|intros (? & E & ->); injection E as ->; auto]. Qed.
Lemma in_gpu l x : In x (on_gpu l) <-> exists e, In e l /\ x = (EXTERNAL_CUDA_GPU, snd e).
Proof. unfold on_gpu. rewrite in_map_iff. split; intros (e & A & B); exists e; auto. Qed.

Lemma home_ptr_in o x : In x (home_ptr o) -> In x (pointers o).
Proof.
  unfold home_ptr, pointers. rewrite !in_app_iff. destruct (fst (f_home o)); intros H; [tauto|tauto|destruct H].
Qed.
Lemma owned_in os i o x : alive os i = Some o -> In x (owned o) -> In x (all_owned os).
Proof.
  intros A H. destruct (all_owned_replace os i o None A) as (rest & P & _). eapply Permutation_in; [symmetry; exact P|]. apply in_app_iff. auto.
Qed.
(** every pointer of a living object is owned by a living object *)
Lemma pointer_out leaked s os zs : inv leaked s os zs -> forall i o x, alive os i = Some o -> In x (pointers o) -> In x (all_owned os).
Proof.
  intros V i. induction i as [i IH] using (well_founded_induction Nat.lt_wf_0). intros o x A H.
  pose proof (v_obj _ _ _ _ V i) as Oi. rewrite A in Oi. destruct (alive zs i) as [z|]; [|destruct Oi]. destruct Oi as (R & [Hh Hr Hc] & _).
  assert (Pa : forall oj, parent os i z oj -> In x (pointers oj) -> In x (all_owned os)).
  { intros oj (j & _ & Lt & Aj) J. eapply IH; eauto. }
  assert (Hhome : In x (home_ptr o) -> In x (all_owned os)).
  { intros J. destruct Hh as [B|(oj & Pj & _ & E)].
    - eapply owned_in; [exact A|]. unfold owned. rewrite B, !in_app_iff. auto.
    - eapply Pa; [exact Pj|]. apply home_ptr_in. rewrite E. exact J. }
  unfold pointers in H. rewrite !in_app_iff in H. destruct H as [H|[H|H]].
  - apply in_ptr in H as (a & Ea & ->). destruct (r_type _ _ R) as [T|(T & _)]; rewrite <- (r_home _ _ R) in T.
    + apply Hhome. unfold home_ptr. rewrite T, Ea. cbn. auto.
    + destruct (Hr a T Ea) as [B|(oj & Pj & E)].
      * eapply owned_in; [exact A|]. unfold owned. rewrite B, Ea, !in_app_iff. cbn. auto.
      * eapply Pa; [exact Pj|]. unfold pointers. rewrite E. cbn. auto.
  - apply in_ptr in H as (a & Ea & ->). apply Hhome. pose proof (r_ext _ _ R) as Ex. rewrite Ea in Ex. cbn in Ex. symmetry in Ex.
    apply mtype_eqb_eq in Ex. unfold home_ptr. rewrite (r_home _ _ R), Ex, Ea. cbn. auto.
  - apply in_gpu in H as (e & He & ->). destruct (Hc e He) as [J|(oj & Pj & J)].
    + eapply owned_in; [exact A|]. unfold owned. rewrite !in_app_iff. left. apply in_gpu. eauto.
    + eapply Pa; [exact Pj|]. unfold pointers. rewrite !in_app_iff. right; right. apply in_gpu. eauto.
Qed.
Lemma pointer_mem leaked s os zs i o x : inv leaked s os zs -> alive os i = Some o -> In x (pointers o) ->
  In x (all_owned os ++ leaked).
Proof. intros V A H. apply in_app_iff. left. eapply pointer_out; eauto. Qed.

Lemma hold_app os x i o z : hold os i o z -> hold (os ++ [x]) i o z.
Proof.
  intros [H1 H2 H3]. assert (P : forall oj, parent os i z oj -> parent (os ++ [x]) i z oj).
  { intros oj (j & E & Lt & A). exists j. split; [exact E|]. split; [exact Lt|]. rewrite alive_app.
    pose proof (alive_lt _ _ _ _ A). destruct (Nat.eqb_spec j (length os)); [lia|exact A]. }
  constructor.
  - destruct H1 as [H|(oj & Pj & H)]; [auto|]. right. exists oj. auto.
  - intros a T E. destruct (H2 a T E) as [H|(oj & Pj & H)]; [auto|]. right. exists oj. auto.
  - intros e He. destruct (H3 e He) as [H|(oj & Pj & H)]; [auto|]. right. exists oj. auto.
Qed.
Lemma holds_bits_heap s s' o z : (forall a, In a (map snd (pointers o)) -> s_heap s' a = s_heap s a) ->
  holds_bits s o z -> holds_bits s' o z.
Proof.
  intros H B t a I. eapply content_heap; [|eapply B; exact I]. apply H. apply (in_map snd) in I. exact I.
Qed.

(** ** A new object *)
Lemma inv_append leaked leaked' s s' os zs x y : inv leaked s os zs ->
  mem_ok s' (all_owned (os ++ [x]) ++ leaked') ->
  (forall a, In a (map snd (all_owned os)) -> s_heap s' a = s_heap s a) ->
  obj_ok s' (os ++ [x]) (length os) x y ->
  inv leaked' s' (os ++ [x]) (zs ++ [y]).
Proof.
  intros V M H O. constructor; [exact M|rewrite !app_length, (v_len _ _ _ _ V); reflexivity|].
  intros i. rewrite !alive_app, <- (v_len _ _ _ _ V). destruct (Nat.eqb_spec i (length os)) as [->|N]; [exact O|].
  pose proof (v_obj _ _ _ _ V i) as Oi. destruct (alive os i) as [o|] eqn:A, (alive zs i) as [z|]; try exact Oi.
  destruct Oi as (R & Hd & B). split; [exact R|]. split; [apply hold_app; exact Hd|].
  eapply holds_bits_heap; [|exact B]. intros a I. apply H. apply in_map_iff in I as (p & <- & I).
  apply in_map. eapply pointer_out; eauto.
Qed.
(** ** One object changes and keeps what it points to *)
Lemma inv_update leaked s s' os zs i o z o' z' : inv leaked s os zs -> alive os i = Some o -> alive zs i = Some z ->
  mem_ok s' (all_owned (replace os i (Some o')) ++ leaked) ->
  (forall a, In a (map snd (all_owned os)) -> s_heap s' a = s_heap s a) ->
  rel o' z' -> z_of z' = z_of z -> f_home o' = f_home o -> home_ptr o' = home_ptr o -> f_built o' = f_built o ->
  (forall a, f_ram o = Some a -> f_ram o' = Some a) -> (forall e, In e (f_cons o) -> In e (f_cons o')) ->
  (forall a, fst (f_home o) = EXTERNAL_CUDA_GPU -> f_ram o' = Some a -> f_bcpu o' = true \/ (f_ram o = Some a /\ f_bcpu o' = f_bcpu o)) ->
  (forall e, In e (f_cons o') -> In e (f_mine o') \/ In e (f_cons o)) -> (forall e, In e (f_mine o) -> In e (f_mine o')) ->
  holds_bits s' o' z' ->
  inv leaked s' (replace os i (Some o')) (replace zs i (Some z')).
Proof.
  intros V A Z M Hp R' Zof Hm Hh Hb Kr Kc Nr Nc Km B'.
  pose proof (alive_lt _ _ _ _ A) as Li. pose proof (alive_lt _ _ _ _ Z) as Lz.
  constructor; [exact M|rewrite !replace_length by assumption; exact (v_len _ _ _ _ V)|].
  assert (Tr : forall k z0 oj, parent os k z0 oj -> exists oj', parent (replace os i (Some o')) k z0 oj' /\
     f_home oj' = f_home oj /\ home_ptr oj' = home_ptr oj /\ (forall a, f_ram oj = Some a -> f_ram oj' = Some a) /\ (forall e, In e (f_cons oj) -> In e (f_cons oj'))).
  { intros k z0 oj (j & E & Lt & Aj). destruct (Nat.eqb_spec j i) as [->|N].
    - rewrite A in Aj. injection Aj as <-. exists o'. split; [|auto]. exists i. rewrite alive_replace, Nat.eqb_refl by exact Li. auto.
    - exists oj. split; [|auto]. exists j. rewrite alive_replace by exact Li. destruct (Nat.eqb_spec j i); [contradiction|]. auto. }
  intros k. rewrite !alive_replace by assumption. pose proof (v_obj _ _ _ _ V k) as Ok0.
  destruct (Nat.eqb_spec k i) as [->|N].
  - rewrite A, Z in Ok0. destruct Ok0 as (R & [H1 H2 H3] & B). split; [exact R'|]. split; [|exact B'].
    assert (Tr' : forall oj, parent os i z oj -> exists oj', parent (replace os i (Some o')) i z' oj' /\
       f_home oj' = f_home oj /\ home_ptr oj' = home_ptr oj /\ (forall a, f_ram oj = Some a -> f_ram oj' = Some a) /\ (forall e, In e (f_cons oj) -> In e (f_cons oj'))).
    { intros oj Pj. destruct (Tr _ _ _ Pj) as (oj' & (j & E & X) & Y). exists oj'. split; [|exact Y]. exists j. rewrite Zof. auto. }
    constructor.
    + rewrite Hb. destruct H1 as [H|(oj & Pj & E1 & E2)]; [auto|]. right. destruct (Tr' _ Pj) as (oj' & Pj' & X1 & X2 & _). exists oj'. split; [exact Pj'|]. split; congruence.
    + intros a T E. rewrite Hm in T. destruct (Nr a T E) as [H|(Er & Eb)]; [auto|]. rewrite Eb. destruct (H2 a T Er) as [H|(oj & Pj & E1)]; [auto|].
      right. destruct (Tr' _ Pj) as (oj' & Pj' & _ & _ & X & _). exists oj'. auto.
    + intros e He. destruct (Nc e He) as [H|H]; [auto|]. destruct (H3 e H) as [J|(oj & Pj & E1)]; [left; auto|].
      right. destruct (Tr' _ Pj) as (oj' & Pj' & _ & _ & _ & X). exists oj'. auto.
  - destruct (alive os k) as [ok|] eqn:Ak, (alive zs k) as [zk|]; try exact Ok0.
    destruct Ok0 as (R & [H1 H2 H3] & B). split; [exact R|]. split.
    + constructor.
      * destruct H1 as [H|(oj & Pj & E1 & E2)]; [auto|]. right. destruct (Tr _ _ _ Pj) as (oj' & Pj' & X1 & X2 & _). exists oj'. split; [exact Pj'|]. split; congruence.
      * intros a T E. destruct (H2 a T E) as [H|(oj & Pj & E1)]; [auto|]. right. destruct (Tr _ _ _ Pj) as (oj' & Pj' & _ & _ & X & _). exists oj'. auto.
      * intros e He. destruct (H3 e He) as [H|(oj & Pj & E1)]; [auto|]. right. destruct (Tr _ _ _ Pj) as (oj' & Pj' & _ & _ & _ & X). exists oj'. auto.
    + eapply holds_bits_heap; [|exact B]. intros a I. apply Hp. apply in_map_iff in I as (p & <- & I). apply in_map. eapply pointer_out; eauto.
Qed.
(** ** An object without copies changes, or goes *)
Lemma inv_leave leaked s s' os zs i o z x y : inv leaked s os zs -> alive os i = Some o -> alive zs i = Some z ->
  ~ copied_from zs i ->
  mem_ok s' (all_owned (replace os i x) ++ leaked) -> s_heap s' = s_heap s ->
  match x, y with
  | Some o', Some z' => rel o' z' /\ holds_bits s' o' z' /\ z_of z' = z_of z /\ f_home o' = f_home o /\ home_ptr o' = home_ptr o /\ f_built o' = f_built o /\
      f_cons o' = [] /\ (forall a, fst (f_home o) = EXTERNAL_CUDA_GPU -> f_ram o' = Some a -> f_ram o = Some a /\ f_bcpu o = false)
  | None, None => True
  | _, _ => False
  end ->
  inv leaked s' (replace os i x) (replace zs i y).
Proof.
  intros V A Z NC M Hp X.
  pose proof (alive_lt _ _ _ _ A) as Li. pose proof (alive_lt _ _ _ _ Z) as Lz.
  constructor; [exact M|rewrite !replace_length by assumption; exact (v_len _ _ _ _ V)|].
  assert (Tr : forall k zk oj, alive zs k = Some zk -> parent os k zk oj -> parent (replace os i x) k zk oj).
  { intros k zk oj Zk (j & E & Lt & Aj). exists j. rewrite alive_replace by exact Li. destruct (Nat.eqb_spec j i) as [->|]; [|auto].
    destruct NC. exists k, zk. auto. }
  intros k. rewrite !alive_replace by assumption. pose proof (v_obj _ _ _ _ V k) as Ok0.
  destruct (Nat.eqb_spec k i) as [->|N].
  - rewrite A, Z in Ok0. destruct Ok0 as (R & [H1 H2 H3] & B). destruct x as [o'|], y as [z'|]; try exact X.
    destruct X as (R' & B' & Zof & Hm & Hh & Hb & Ec & Hr). split; [exact R'|]. split; [|exact B'].
    assert (Tr' : forall oj, parent os i z oj -> parent (replace os i (Some o')) i z' oj).
    { intros oj Pj. destruct (Tr i z oj Z Pj) as (j & E & Y). exists j. rewrite Zof. auto. }
    constructor.
    + rewrite Hb. destruct H1 as [H|(oj & Pj & E1 & E2)]; [auto|]. right. exists oj. split; [auto|]. split; congruence.
    + intros a T E. rewrite Hm in T. destruct (Hr a T E) as (Er & Eb). destruct (H2 a T Er) as [H|(oj & Pj & E1)]; [congruence|]. right. exists oj. auto.
    + rewrite Ec. intros e [].
  - destruct (alive os k) as [ok|] eqn:Ak, (alive zs k) as [zk|] eqn:Zk; try exact Ok0.
    destruct Ok0 as (R & [H1 H2 H3] & B). split; [exact R|]. split.
    + constructor.
      * destruct H1 as [H|(oj & Pj & E)]; [auto|]. right. exists oj. split; [eapply Tr; eauto|exact E].
      * intros a T E0. destruct (H2 a T E0) as [H|(oj & Pj & E)]; [auto|]. right. exists oj. split; [eapply Tr; eauto|exact E].
      * intros e He. destruct (H3 e He) as [H|(oj & Pj & E)]; [auto|]. right. exists oj. split; [eapply Tr; eauto|exact E].
    + eapply holds_bits_heap; [|exact B]. intros a I. rewrite Hp. reflexivity.
Qed.
End Refine.
