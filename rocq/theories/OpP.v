From Verif Require Import Prelude WindowM GhostM FieldM MaskM NeboM NeboS NeboB NeboC NeboF OpM OpTabM OpS.
From Coq Require Import String.

Section Ops.
Variable V : Type.
Variable A : arith V.
Variable vadd vmul : V -> V -> V.
Notation call := (call V A node_types overloads).
Notation comp := (compile V A node_types overloads).

Definition lift_num (l : level) (e : expr V) : term V := match l with OnField => TExpr V e | _ => TSExpr V e end.
Definition lift_log (l : level) (b : bexpr V) : term V := match l with OnField => TBExpr V b | _ => TBSExpr V b end.

Lemma call2 o x y a b : term_num V x = Some a -> term_num V y = Some b ->
  call (spell2 o) [x; y] =
  match join (term_level V x) (term_level V y) with
  | Constant => None
  | l => Some (lift_num l (EOp2 V (two_value V A o) a b))
  end.
Proof.
  destruct x; try discriminate; destruct y; try discriminate; intros [= <-] [= <-]; destruct o; vm_compute; reflexivity.
Qed.
Lemma callc o x y a b : term_num V x = Some a -> term_num V y = Some b ->
  call (spellc o) [x; y] =
  match join (term_level V x) (term_level V y) with
  | Constant => None
  | l => Some (lift_log l (BCmp V (ac A o) a b))
  end.
Proof.
  destruct x; try discriminate; destruct y; try discriminate; intros [= <-] [= <-]; destruct o; vm_compute; reflexivity.
Qed.
Lemma call1_ok o x a : term_num V x = Some a ->
  call (spell1 o) [x] =
  match term_level V x with
  | Constant => None
  | l => Some (lift_num l (EOp1 V (a1 A o) a))
  end.
Proof.
  destruct x; try discriminate; intros [= <-]; destruct o; vm_compute; reflexivity.
Qed.
Definition logic2 (l1 l2 : level) : bool :=
  match l1, l2 with OnField, OnField | OnField, Constant | Constant, OnField => true | _, _ => false end.
Lemma calland x y a b : term_log V x = Some a -> term_log V y = Some b ->
  call "operator&&"%string [x; y] = if logic2 (term_level V x) (term_level V y) then Some (TBExpr V (BAnd V a b)) else None.
Proof.
  destruct x; try discriminate; destruct y; try discriminate; intros [= <-] [= <-]; vm_compute; reflexivity.
Qed.
Lemma callor x y a b : term_log V x = Some a -> term_log V y = Some b ->
  call "operator||"%string [x; y] = if logic2 (term_level V x) (term_level V y) then Some (TBExpr V (BOr V a b)) else None.
Proof.
  destruct x; try discriminate; destruct y; try discriminate; intros [= <-] [= <-]; vm_compute; reflexivity.
Qed.
Lemma callnot x a : term_log V x = Some a ->
  call "operator!"%string [x] = match term_level V x with OnField => Some (TBExpr V (BNot V a)) | _ => None end.
Proof.
  destruct x; try discriminate; intros [= <-]; vm_compute; reflexivity.
Qed.

Lemma lift_num_is l e : l <> Constant -> term_num V (lift_num l e) = Some e /\ term_level V (lift_num l e) = l.
Proof. destruct l; cbn; [congruence|auto..]. Qed.
Lemma lift_log_is l e : l <> Constant -> term_log V (lift_log l e) = Some e /\ term_level V (lift_log l e) = l.
Proof. destruct l; cbn; [congruence|auto..]. Qed.

Lemma num_all t : match comp (write V t) with
  | Some T => num_ok V t /\ term_num V T = Some (num_tree V A t) /\ term_level V T = num_level V t
  | None => ~ num_ok V t
  end.
Proof.
  induction t as [v|f|f|e|o a IH|o a IHa b IHb]; cbn [write compile]; try (cbn; auto; fail).
  - destruct (comp (write V a)) as [x|]; [|cbn; tauto]. destruct IH as (O & N & L).
    rewrite (call1_ok o x _ N), L. destruct (num_level V a) eqn:E; cbn [num_ok num_tree num_level term_num term_level lift_num];
      rewrite E; repeat split; try assumption; try congruence. intros (_ & H). congruence.
  - destruct (comp (write V a)) as [x|]; [|cbn; tauto]. destruct (comp (write V b)) as [y|]; [|cbn; tauto].
    destruct IHa as (Oa & Na & La). destruct IHb as (Ob & Nb & Lb).
    rewrite (call2 o x y _ _ Na Nb), La, Lb.
    destruct (join (num_level V a) (num_level V b)) eqn:E; cbn [num_ok num_tree num_level term_num term_level lift_num];
      rewrite E; repeat split; try assumption; try congruence. intros (_ & _ & H). congruence.
Qed.
Lemma log_all t : match comp (lwrite V t) with
  | Some T => log_ok V t /\ term_log V T = Some (log_tree V A t) /\ term_level V T = log_level V t
  | None => ~ log_ok V t
  end.
Proof.
  induction t as [v|f|e|o a b|a IHa b IHb|a IHa b IHb|a IH]; cbn [lwrite compile]; try (cbn; auto; fail).
  - pose proof (num_all a) as IHa. pose proof (num_all b) as IHb.
    destruct (comp (write V a)) as [x|]; [|cbn; tauto]. destruct (comp (write V b)) as [y|]; [|cbn; tauto].
    destruct IHa as (Oa & Na & La). destruct IHb as (Ob & Nb & Lb).
    rewrite (callc o x y _ _ Na Nb), La, Lb.
    destruct (join (num_level V a) (num_level V b)) eqn:E; cbn [log_ok log_tree log_level term_log term_level lift_log];
      rewrite E; repeat split; try assumption; try congruence. intros (_ & _ & H). congruence.
  - destruct (comp (lwrite V a)) as [x|]; [|cbn; tauto]. destruct (comp (lwrite V b)) as [y|]; [|cbn; tauto].
    destruct IHa as (Oa & Na & La). destruct IHb as (Ob & Nb & Lb).
    rewrite (calland x y _ _ Na Nb), La, Lb. cbn [log_ok log_level log_tree].
    destruct (log_level V a), (log_level V b); cbn; intuition congruence.
  - destruct (comp (lwrite V a)) as [x|]; [|cbn; tauto]. destruct (comp (lwrite V b)) as [y|]; [|cbn; tauto].
    destruct IHa as (Oa & Na & La). destruct IHb as (Ob & Nb & Lb).
    rewrite (callor x y _ _ Na Nb), La, Lb. cbn [log_ok log_level log_tree].
    destruct (log_level V a), (log_level V b); cbn; intuition congruence.
  - destruct (comp (lwrite V a)) as [x|]; [|cbn; tauto]. destruct IH as (O & N & L).
    rewrite (callnot x _ N), L. cbn [log_ok log_level log_tree].
    destruct (log_level V a); cbn; intuition congruence.
Qed.

Lemma num_tree_value h p t : denote V vadd vmul h (num_tree V A t) p = num_value V A vadd vmul h p t.
Proof.
  induction t as [v|f|f|e|o a IH|o a IHa b IHb]; cbn; try reflexivity; rewrite ?IH, ?IHa, ?IHb; reflexivity.
Qed.
Lemma log_tree_value h p t : bdenote V vadd vmul h (log_tree V A t) p = log_value V A vadd vmul h p t.
Proof.
  induction t as [v|f|e|o a b|a IHa b IHb|a IHa b IHb|a IH]; cbn; try reflexivity; rewrite ?num_tree_value, ?IHa, ?IHb, ?IH; reflexivity.
Qed.

Lemma compiles t : (comp (write V t) <> None <-> num_ok V t) /\
  forall T, comp (write V t) = Some T -> term_level V T = num_level V t /\
  exists e, term_num V T = Some e /\ forall h p, denote V vadd vmul h e p = num_value V A vadd vmul h p t.
Proof.
  pose proof (num_all t) as H. destruct (comp (write V t)) as [T|].
  - destruct H as (O & N & L). split; [split; [auto|discriminate]|]. intros ? [= <-]. split; [exact L|].
    eexists; split; [exact N|]. intros. apply num_tree_value.
  - split; [split; [congruence|contradiction]|discriminate].
Qed.
Lemma lcompiles t : (comp (lwrite V t) <> None <-> log_ok V t) /\
  forall T, comp (lwrite V t) = Some T -> term_level V T = log_level V t /\
  exists b, term_log V T = Some b /\ forall h p, bdenote V vadd vmul h b p = log_value V A vadd vmul h p t.
Proof.
  pose proof (log_all t) as H. destruct (comp (lwrite V t)) as [T|].
  - destruct H as (O & N & L). split; [split; [auto|discriminate]|]. intros ? [= <-]. split; [exact L|].
    eexists; split; [exact N|]. intros. apply log_tree_value.
  - split; [split; [congruence|contradiction]|discriminate].
Qed.

Notation asg := (assignment V assign_overloads vadd vmul).
Lemma assign_term fuel (f : field) T e : term_num V T = Some e ->
  asg fuel "operator<<="%string (TField V f) T = Some (sequential_assign V vadd vmul fuel true f e) /\
  asg fuel "interior_assign"%string (TField V f) T = Some (sequential_assign V vadd vmul fuel false f e).
Proof. destruct T; try discriminate; intros [= <-]; split; reflexivity. Qed.
Lemma assign_single fuel (f : field) T e : term_num V T = Some e ->
  (asg fuel "operator<<="%string (TSingle V f) T =
   if match term_level V T with OnField => true | _ => false end then None else Some (sequential_assign V vadd vmul fuel true f e)) /\
  (asg fuel "interior_assign"%string (TSingle V f) T =
   if match term_level V T with OnField => true | _ => false end then None else Some (sequential_assign V vadd vmul fuel false f e)).
Proof. destruct T; try discriminate; intros [= <-]; split; reflexivity. Qed.

Notation statement fuel name lhs t := (statement V A node_types overloads assign_overloads vadd vmul fuel name lhs (write V t)).
Lemma statement_tree fuel f t : num_ok V t ->
  statement fuel "operator<<="%string (TField V f) t = Some (sequential_assign V vadd vmul fuel true f (num_tree V A t)) /\
  statement fuel "interior_assign"%string (TField V f) t = Some (sequential_assign V vadd vmul fuel false f (num_tree V A t)).
Proof.
  intros O. unfold OpM.statement. pose proof (num_all t) as H. destruct (comp (write V t)) as [T|]; [|contradiction].
  apply assign_term. apply H.
Qed.
Lemma statement_single fuel f t :
  (statement fuel "operator<<="%string (TSingle V f) t <> None <-> num_ok V t /\ num_level V t <> OnField) /\
  (statement fuel "interior_assign"%string (TSingle V f) t <> None <-> num_ok V t /\ num_level V t <> OnField).
Proof.
  unfold OpM.statement. pose proof (num_all t) as H. destruct (comp (write V t)) as [T|].
  - destruct H as (O & N & L). destruct (assign_single fuel f T _ N) as (-> & ->). rewrite L.
    destruct (num_level V t); split; split; try tauto; intuition congruence.
  - split; split; [congruence|tauto|congruence|tauto].
Qed.

Lemma assigned_value h h' f t R : assigned V h h' f R (denote V vadd vmul h (num_tree V A t)) ->
  assigned V h h' f R (fun p => num_value V A vadd vmul h p t).
Proof. intros (S1 & S2 & S3). split; [exact S1|]. split; [|exact S3]. intros p P. rewrite S2 by exact P. apply num_tree_value. Qed.
Lemma assign_formula n h f t :
  num_ok V t -> operands_ok V n h (num_tree V A t) -> destination_ok V n h f -> alias_ok V f (num_tree V A t) ->
  covers_extra V f (num_tree V A t) -> (exists p, region V n f (num_tree V A t) p) ->
  exists N, forall fuel, (N <= fuel)%nat -> exists q h',
    statement fuel "operator<<="%string (TField V f) t = Some q /\ run q h = RDone h' tt /\
    assigned V h h' f (region V n f (num_tree V A t)) (fun p => num_value V A vadd vmul h p t).
Proof.
  intros O1 O2 D Al C R. destruct (assign_correct V vadd vmul n h f _ O2 D Al C R) as (N & H). exists N. intros fuel L.
  destruct (H fuel L) as (h' & E & As). eexists; exists h'. split; [apply statement_tree; exact O1|]. split; [exact E|].
  apply assigned_value. exact As.
Qed.
Lemma interior_formula n h f t :
  num_ok V t -> operands_ok V n h (num_tree V A t) -> destination_ok V n h f -> alias_ok V f (num_tree V A t) ->
  (forall p, interior_cell n f p -> expr_known V n (num_tree V A t) p) ->
  exists N, forall fuel, (N <= fuel)%nat -> exists q h',
    statement fuel "interior_assign"%string (TField V f) t = Some q /\ run q h = RDone h' tt /\
    assigned V h h' f (interior_cell n f) (fun p => num_value V A vadd vmul h p t).
Proof.
  intros O1 O2 D Al C. destruct (interior_correct V vadd vmul n h f _ O2 D Al C) as (N & H). exists N. intros fuel L.
  destruct (H fuel L) as (h' & E & As). eexists; exists h'. split; [apply statement_tree; exact O1|]. split; [exact E|].
  apply assigned_value. exact As.
Qed.

Lemma max_false h p x y : ac A PGt (num_value V A vadd vmul h p x) (num_value V A vadd vmul h p y) = false ->
  num_value V A vadd vmul h p (N2 V Max x y) = num_value V A vadd vmul h p y.
Proof. cbn. intros ->. reflexivity. Qed.
End Ops.

(** Every call of a given name and argument types has one overload at most. *)
Definition same_call (a b : overload) : bool := (oname a =? oname b)%string && kinds_eqb (opars a) (opars b).
Fixpoint distinct (l : list overload) : bool :=
  match l with [] => true | o :: r => negb (existsb (same_call o) r) && distinct r end.
Lemma kinds_eqb_refl l : kinds_eqb l l = true.
Proof. induction l as [|k l IH]; cbn; [reflexivity|]. rewrite IH. destruct k; reflexivity. Qed.
Lemma distinct_nodup l : distinct l = true -> NoDup (map (fun o => (oname o, opars o)) l).
Proof.
  induction l as [|o r IH]; cbn; [constructor|]. intros H. apply andb_prop in H. destruct H as (N & D). constructor; [|auto].
  intros I. apply in_map_iff in I. destruct I as (q & [= E1 E2] & I).
  assert (X : existsb (same_call o) r = true); [|rewrite X in N; discriminate].
  apply existsb_exists. exists q. split; [exact I|]. unfold same_call. rewrite E1, E2, String.eqb_refl, kinds_eqb_refl. reflexivity.
Qed.
Lemma unambiguous : NoDup (map (fun o => (oname o, opars o)) overloads).
Proof. apply distinct_nodup. vm_compute. reflexivity. Qed.

Fixpoint body_eqb (a b : body) : bool :=
  match a, b with
  | Operand1, Operand1 | Operand2, Operand2 => true
  | Infix o a1 a2, Infix o' b1 b2 => (o =? o')%string && body_eqb a1 b1 && body_eqb a2 b2
  | Prefix o a, Prefix o' b => (o =? o')%string && body_eqb a b
  | Call1 o a, Call1 o' b => (o =? o')%string && body_eqb a b
  | Call2 o a1 a2, Call2 o' b1 b2 => (o =? o')%string && body_eqb a1 b1 && body_eqb a2 b2
  | Choose a a1 a2, Choose b b1 b2 => body_eqb a b && body_eqb a1 b1 && body_eqb a2 b2
  | _, _ => false
  end.
Lemma body_eqb_eq a : forall b, body_eqb a b = true -> a = b.
Proof.
  induction a; intros [] E; cbn in E; try discriminate; try reflexivity;
    repeat match goal with
    | H : _ && _ = true |- _ => apply andb_prop in H; destruct H
    | H : (_ =? _)%string = true |- _ => apply String.eqb_eq in H; subst
    end; f_equal; auto.
Qed.
Lemma modes : Forall (fun n => ngpu n = nseq n /\ nred n = nseq n) node_types.
Proof.
  assert (E : forallb (fun n => body_eqb (ngpu n) (nseq n) && body_eqb (nred n) (nseq n)) node_types = true) by (vm_compute; reflexivity).
  rewrite forallb_forall in E. apply Forall_forall. intros n I. specialize (E n I). apply andb_prop in E.
  destruct E as (X & Y). split; apply body_eqb_eq; assumption.
Qed.
