(** Proofs about conditional expressions. *)
From Verif Require Import Prelude WindowM WindowS GhostM FieldM FieldS MaskM MaskS NeboM NeboS NeboC NeboF CondM CondS.

Section CondP.
Variable V : Type.
Variable vadd vmul : V -> V -> V.
Notation denote := (denote V vadd vmul). Notation bdenote := (bdenote V vadd vmul).
Notation holds_at := (holds_at V vadd vmul). Notation value_at := (value_at V vadd vmul).
Notation first_true := (first_true V).
Notation ctest := (ctest V). Notation cval := (cval V).

Lemma ctest_den h p c : bdenote h (ctest c) p = holds_at h p c.
Proof. destruct c; reflexivity. Qed.
Lemma cval_den h p v : denote h (cval v) p = value_at h p v.
Proof. destruct v; reflexivity. Qed.

(** clauses of a chain, most recent first *)
Fixpoint clauses_of (l : chain V) : list (bexpr V * expr V) :=
  match l with Nil _ => [] | Chain _ t e o => (t, e) :: clauses_of o end.
Fixpoint sclauses_of (l : schain V) : list (bool * V) :=
  match l with SLast _ b d => [(b, d)] | SChain _ b d o => (b, d) :: sclauses_of o end.
Lemma convert_clauses s : clauses_of (convert V s) = map (fun bd => (BScalar V (fst bd), EScalar V (snd bd))) (sclauses_of s).
Proof. induction s as [b d|b d o IH]; cbn; [reflexivity|]. rewrite IH. reflexivity. Qed.

Fixpoint nest (l : list (bexpr V * expr V)) (r : expr V) : expr V :=
  match l with [] => r | (t, e) :: l => ECond V t e (nest l r) end.
Lemma nest_snoc l t e r : nest (l ++ [(t, e)]) r = nest l (ECond V t e r).
Proof. induction l as [|[t' e'] l IH]; cbn; [reflexivity|]. rewrite IH. reflexivity. Qed.
Lemma reverse_nest l r : reverse V l r = nest (rev (clauses_of l)) r.
Proof. revert r. induction l as [|t e o IH]; intros r; cbn; [reflexivity|]. rewrite IH, nest_snoc. reflexivity. Qed.

Lemma nest_den h p cls r :
  denote h (nest (map (fun cv => (ctest (fst cv), cval (snd cv))) cls) r) p
  = first_true (map (fun cv => (holds_at h p (fst cv), value_at h p (snd cv))) cls) (denote h r p).
Proof.
  induction cls as [|[c v] cls IH]; [reflexivity|]. cbn [map fst snd nest CondS.first_true].
  change (denote h (ECond V (ctest c) (cval v) (nest (map (fun cv => (ctest (fst cv), cval (snd cv))) cls) r)) p)
    with (if bdenote h (ctest c) p then denote h (cval v) p else denote h (nest (map (fun cv => (ctest (fst cv), cval (snd cv))) cls) r) p).
  rewrite ctest_den, cval_den, IH. reflexivity.
Qed.

(** simple chains *)
Fixpoint snest (l : list (bool * V)) (r : sfinal V) : sfinal V :=
  match l with [] => r | (b, d) :: l => SCond V b d (snest l r) end.
Lemma snest_snoc l b d r : snest (l ++ [(b, d)]) r = snest l (SCond V b d r).
Proof. induction l as [|[b' d'] l IH]; cbn; [reflexivity|]. rewrite IH. reflexivity. Qed.
Lemma sreverse_nest l r : sreverse V l r = snest (rev (sclauses_of l)) r.
Proof. revert r. induction l as [b d|b d o IH]; intros r; cbn; [reflexivity|]. rewrite IH, snest_snoc. reflexivity. Qed.
Lemma snest_eval l r : seval V (snest l r) = first_true l (seval V r).
Proof. induction l as [|[b d] l IH]; cbn; [reflexivity|]. rewrite IH. reflexivity. Qed.

(** the builder after a list of clauses: a simple builder exactly when all
    clauses so far were plain *)
Definition built (bd : builder V) (cls : list (carg V * varg V)) : Prop :=
  match bd with
  | BField _ cs => rev (clauses_of cs) = map (fun cv => (ctest (fst cv), cval (snd cv))) cls /\ forallb (plain_clause V) cls = false
  | BSimple _ cs => map (fun bd => (CBool (fst bd), VNum (snd bd))) (rev (sclauses_of cs)) = cls /\ forallb (plain_clause V) cls = true
  end.
Lemma built_start c v : built (cond_start V c v) [(c, v)].
Proof. destruct c, v; cbn; auto. Qed.
Lemma built_step bd cls c v : built bd cls -> built (cond_clause V bd c v) (cls ++ [(c, v)]).
Proof.
  destruct bd as [cs|cs].
  - intros (E & P). cbn [built cond_clause clauses_of rev]. rewrite E, map_app, forallb_app, P. split; reflexivity.
  - intros (E & P). assert (Ec : rev (clauses_of (convert V cs)) = map (fun cv => (ctest (fst cv), cval (snd cv))) cls).
    { rewrite convert_clauses, <- map_rev, <- E, map_map. reflexivity. }
    destruct c, v; cbn [built cond_clause clauses_of sclauses_of rev];
    rewrite ?forallb_app, ?map_app, ?P, ?E, ?Ec; split; reflexivity.
Qed.
Lemma built_fold rest bd cls : built bd cls ->
  built (fold_left (fun bd cv => cond_clause V bd (fst cv) (snd cv)) rest bd) (cls ++ rest).
Proof.
  revert bd cls. induction rest as [|[c v] rest IH]; intros bd cls B; cbn [fold_left fst snd].
  - rewrite app_nil_r. exact B.
  - replace (cls ++ (c, v) :: rest) with ((cls ++ [(c, v)]) ++ rest) by (rewrite <- app_assoc; reflexivity).
    apply IH, built_step, B.
Qed.

(** what cond returns *)
Lemma cond_call_cases cls final :
  (forallb (plain_clause V) cls && plain_value V final = true /\
   exists bs d, cls = map (fun bd => (CBool (fst bd), VNum (snd bd))) bs /\ final = VNum d /\
     cond_call V cls final = RNum (first_true bs d)) \/
  (forallb (plain_clause V) cls && plain_value V final = false /\
   cond_call V cls final = RExpr (nest (map (fun cv => (ctest (fst cv), cval (snd cv))) cls) (cval final))).
Proof.
  destruct cls as [|[c v] rest].
  - destruct final as [d|f|e]; cbn; [left|right|right]; [|auto..]. split; [reflexivity|]. exists [], d. auto.
  - unfold cond_call. pose proof (built_fold rest _ _ (built_start c v)) as B. cbn [app] in B.
    set (bd := fold_left _ _ _) in *. clearbody bd. set (cls := (c, v) :: rest) in *. clearbody cls.
    destruct bd as [cs|cs]; destruct B as (E & P); rewrite P; cbn [andb cond_finish].
    + right. split; [reflexivity|]. rewrite reverse_nest, E. reflexivity.
    + destruct final as [d|f|e]; cbn [plain_value]; [left|right|right]; (split; [reflexivity|]).
      * exists (rev (sclauses_of cs)), d. split; [symmetry; exact E|]. split; [reflexivity|].
        rewrite sreverse_nest, snest_eval. reflexivity.
      * rewrite reverse_nest, convert_clauses, <- map_rev, <- E, map_map. reflexivity.
      * rewrite reverse_nest, convert_clauses, <- map_rev, <- E, map_map. reflexivity.
Qed.

Lemma cond_first_true cls final h p :
  result_at V vadd vmul h p (cond_call V cls final)
  = first_true (map (fun cv => (holds_at h p (fst cv), value_at h p (snd cv))) cls) (value_at h p final).
Proof.
  destruct (cond_call_cases cls final) as [(_ & bs & d & -> & -> & E)|(_ & E)]; rewrite E; cbn [result_at].
  - rewrite map_map. cbn [fst snd CondS.holds_at CondS.value_at]. f_equal.
    clear E. induction bs as [|[b x] bs IH]; cbn; [reflexivity|f_equal; exact IH].
  - rewrite nest_den, cval_den. reflexivity.
Qed.

Lemma cond_kind cls final :
  (exists d, cond_call V cls final = RNum d) <-> forallb (plain_clause V) cls && plain_value V final = true.
Proof.
  destruct (cond_call_cases cls final) as [(P & bs & d & _ & _ & E)|(P & E)]; rewrite E, P; split; intros H; eauto; try discriminate.
  destruct H as (d & H). discriminate.
Qed.

(** where the result is known *)
Lemma known_self n l p : (forall q, iv_le (iv_sub p iv_zero) q -> iv_le q (iv_add p iv_zero) -> known n l q) <-> known n l p.
Proof.
  split.
  - intros H. apply H; unfold iv_le; cbn; lia.
  - intros H q A B. replace q with p; [exact H|]. unfold iv_le in *. cbn in *. destruct p, q; cbn in *. f_equal; lia.
Qed.
Lemma ctest_known n p c : bexpr_known V n (ctest c) p <-> carg_known V n p c.
Proof.
  destruct c as [b|e|m]; cbn [ctest carg_known]; [|reflexivity|]; unfold bexpr_known; cbn [NeboS.bdemands In]; (split; [intros H|intros H l x y [E|[]]; injection E as <- <- <-; apply known_self, H]);
  apply known_self, (H _ _ _ (or_introl eq_refl)).
Qed.
Lemma cval_known n p v : expr_known V n (cval v) p <-> varg_known V n p v.
Proof.
  destruct v as [b|e|m]; cbn [cval varg_known]; [| |reflexivity]; unfold expr_known; cbn [NeboS.demands In]; (split; [intros H|intros H l x y [E|[]]; injection E as <- <- <-; apply known_self, H]);
  apply known_self, (H _ _ _ (or_introl eq_refl)).
Qed.
Lemma cond_expr_known n p t e r : expr_known V n (ECond V t e r) p <->
  bexpr_known V n t p /\ expr_known V n e p /\ expr_known V n r p.
Proof.
  assert (E : demands V (ECond V t e r) iv_zero iv_zero = bdemands V t iv_zero iv_zero ++ demands V e iv_zero iv_zero ++ demands V r iv_zero iv_zero) by reflexivity.
  unfold expr_known, bexpr_known. rewrite E. split.
  - intros H. split; [|split]; intros l m u I; apply (H l m u); rewrite !in_app_iff; auto.
  - intros (H1 & H2 & H3) l m u I. rewrite !in_app_iff in I. destruct I as [I|[I|I]]; eauto.
Qed.
Lemma cond_known n p cls final e : cond_call V cls final = RExpr e ->
  (expr_known V n e p <-> (forall c v, In (c, v) cls -> carg_known V n p c /\ varg_known V n p v) /\ varg_known V n p final).
Proof.
  intros C. destruct (cond_call_cases cls final) as [(_ & bs & d & _ & _ & E)|(_ & E)]; rewrite C in E; [discriminate|injection E as ->].
  clear C. induction cls as [|[c v] cls IH]; cbn [map nest fst snd].
  - rewrite cval_known. split; [intros H; split; [intros c v []|exact H]|intros (_ & H); exact H].
  - rewrite cond_expr_known, ctest_known, cval_known, IH. split.
    + intros (A & B & C & D). split; [|exact D]. intros c' v' [X|X]; [injection X as <- <-; auto|auto].
    + intros (A & B). split; [apply (A c v); left; reflexivity|]. split; [apply (A c v); left; reflexivity|]. split; [|exact B].
      intros c' v' X. apply A. right. exact X.
Qed.

(** Assignment of a conditional expression (with C11) *)
Lemma cond_assign n h f cls final e : cond_call V cls final = RExpr e ->
  operands_ok V n h e -> destination_ok V n h f -> alias_ok V f e -> covers_extra V f e ->
  (exists p, region V n f e p) ->
  exists N, forall fuel, (N <= fuel)%nat -> exists h',
    run (fst (nebo_assign V vadd vmul fuel f e)) h = RDone h' tt /\
    forall p, any_cell n f p ->
      (forall c v, In (c, v) cls -> carg_known V n p c /\ varg_known V n p v) -> varg_known V n p final ->
      value V h' f p = first_true (map (fun cv => (holds_at h p (fst cv), value_at h p (snd cv))) cls) (value_at h p final).
Proof.
  intros C O D A X R. destruct (assign_correct V vadd vmul n h f e O D A X R) as (N & H). exists N. intros fuel F.
  destruct (H fuel F) as (h' & Rn & _ & As & _). exists h'. split; [exact Rn|]. intros p Pa K1 K2.
  rewrite As.
  - pose proof (cond_first_true cls final h p) as E. rewrite C in E. exact E.
  - split; [exact Pa|]. apply (cond_known n p cls final e C). auto.
Qed.
End CondP.
