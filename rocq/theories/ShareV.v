(** Threads that share the pool: the theorems. *)
From Verif Require Import Prelude WindowM WindowS WindowP GhostM FieldM FieldS FieldP MaskM NeboM NeboS NeboP NeboQ NeboA NeboB NeboC ParM ParS ParP ParQ TPoolM TPoolS TPoolP TPoolQ ShareM ShareS ShareP ShareQ ShareR ShareT ShareU.

Section Final.
Variable V : Type.
Variable vadd vmul : V -> V -> V.
Notation heap := (heap V).
Notation asg := (asg V).
Notation sys := (sys V).
Notation in_order := (in_order vadd vmul).
Variable dim : asg -> ivec.
Variable h0 : heap.
Variable cs : list (bool * list asg).
Hypothesis Ok : forall c a, In c cs -> In a (snd c) -> asg_ok dim h0 a.
Hypothesis Ind : independent cs.

Definition script (c : nat) : list asg := match nth_error cs c with Some x => snd x | None => [] end.
Definition rdc (c b : nat) (_ : Z) : Prop := read_of V (script c) b.
Definition wrc (c b : nat) (_ : Z) : Prop := dest_of V (script c) b.
Definition phs (fuel c : nat) : list (prog V (list (prog V unit))) := map (phase vadd vmul fuel) (script c).

Lemma script_in c a : In a (script c) -> exists x, nth_error cs c = Some x /\ In a (snd x).
Proof. unfold script. destruct (nth_error cs c) as [x|]; [eauto|intros []]. Qed.
Lemma fp_block c b x : fp (rdc c) (wrc c) b x <-> block_of V (script c) b.
Proof.
  unfold fp, rdc, wrc, read_of, dest_of, block_of, blocks. split.
  - intros [(a & I & J)|(a & I & ->)]; exists a; cbn; auto.
  - intros (a & I & [<-|J]); [right|left]; exists a; auto.
Qed.
Lemma separate c d b x : c <> d -> wrc c b x -> ~ fp (rdc d) (wrc d) b x.
Proof.
  intros N (a & I & ->) F. apply fp_block in F as (a' & I' & J). destruct (script_in _ _ I) as (y & E & I1). destruct (script_in _ _ I') as (z & E' & I2).
  exact (Ind c d y z a a' N E E' I1 I2 J).
Qed.

Lemma phases : exists N, forall fuel, (N <= fuel)%nat -> exists hp : nat -> nat -> heap,
  (forall c, hp c 0%nat = h0) /\
  (forall c k p, nth_error (phs fuel c) k = Some p -> phase_ok V (rdc c) (wrc c) p (hp c k) (hp c (S k))) /\
  (forall c k, (k <= length (script c))%nat -> in_order dim h0 (firstn k (script c)) (hp c k)).
Proof.
  assert (G : forall m, exists N, forall fuel, (N <= fuel)%nat -> exists hp : nat -> nat -> heap, forall c, (c < m)%nat ->
    hp c 0%nat = h0 /\ (forall k p, nth_error (phs fuel c) k = Some p -> phase_ok V (rdc c) (wrc c) p (hp c k) (hp c (S k))) /\
    (forall k, (k <= length (script c))%nat -> in_order dim h0 (firstn k (script c)) (hp c k))).
  { induction m as [|m (N1 & IH)]; [exists 0%nat; intros fuel _; exists (fun _ _ => h0); intros c Hc; lia|].
    destruct (script_phases V vadd vmul dim h0 (script m) (rdc m) (wrc m)) as (N2 & P).
    - intros a I. destruct (script_in _ _ I) as (x & E & J). eapply Ok; [eapply nth_error_In; exact E|exact J].
    - intros a b x I J. exists a. auto.
    - intros a x I. exists a. auto.
    - exists (Nat.max N1 N2). intros fuel Hf. destruct (IH fuel ltac:(lia)) as (hp & H). destruct (P fuel ltac:(lia) h0 (fun b x => eq_refl)) as (hm & Q).
      exists (fun c => if Nat.eqb c m then hm else hp c). intros c Hc. destruct (Nat.eqb_spec c m) as [->|Nc]; [exact Q|]. apply H. lia. }
  destruct (G (length cs)) as (N & P). exists N. intros fuel Hf. destruct (P fuel Hf) as (hp & H).
  exists (fun c => if Nat.ltb c (length cs) then hp c else fun _ => h0).
  assert (Emp : forall c, (length cs <= c)%nat -> script c = []).
  { intros c Hc. unfold script. destruct (nth_error cs c) eqn:E; [|reflexivity]. assert (c < length cs)%nat by (apply nth_error_Some; congruence). lia. }
  split; [|split].
  - intros c. destruct (Nat.ltb_spec c (length cs)) as [L|L]; [apply (H c L)|reflexivity].
  - intros c k p. destruct (Nat.ltb_spec c (length cs)) as [L|L]; [apply (H c L)|]. unfold phs. rewrite (Emp c L). destruct k; discriminate.
  - intros c k. destruct (Nat.ltb_spec c (length cs)) as [L|L]; [apply (H c L)|]. rewrite (Emp c L). intros Hk. cbn in Hk. replace k with 0%nat by lia. constructor.
Qed.

Section Fuel.
Variable fuel : nat.
Variable hp : nat -> nat -> heap.
Hypothesis H0 : forall c, hp c 0%nat = h0.
Hypothesis Ph : forall c k p, nth_error (phs fuel c) k = Some p -> phase_ok V (rdc c) (wrc c) p (hp c k) (hp c (S k)).
Hypothesis Or : forall c k, (k <= length (script c))%nat -> in_order dim h0 (firstn k (script c)) (hp c k).
Variable q : pool.
Notation sinv := (sinv V h0 (phs fuel) hp rdc wrc).
Notation start := (share_start vadd vmul fuel q h0 cs).

Lemma start_caller c k : nth_error (scall start) c = Some k -> exists x, nth_error cs c = Some x /\
  k = Caller (if fst x : bool then Unsubmitted else Own) Between 0 (phs fuel c).
Proof.
  cbn [share_start scall]. rewrite nth_error_map. unfold phs, script. destruct (nth_error cs c) as [x|]; [|discriminate]. cbn. intros X. injection X as <-. eauto.
Qed.
Lemma start_inv : sinv start.
Proof.
  constructor.
  - intros c k g n l E. destruct (start_caller c _ E) as (x & _ & X). injection X as -> -> -> ->. split; [reflexivity|]. cbn. rewrite H0. apply agree_refl.
  - intros i o m j E. destruct i; discriminate.
  - reflexivity.
  - reflexivity.
Qed.
Lemma reach_inv st : hpath any_step start st -> sinv st.
Proof. apply (sinv_reach V h0 (phs fuel) hp rdc wrc separate Ph). apply start_inv. Qed.

Definition counted (st : sys) : Prop := length (scall st) = length cs /\
  forall c k, nth_error (scall st) c = Some k -> (cnum k + length (cleft k) = length (script c))%nat.
Lemma counted_set st c k k' : counted st -> nth_error (scall st) c = Some k -> (cnum k' + length (cleft k') = cnum k + length (cleft k))%nat ->
  length (set_nth (scall st) c k') = length cs /\
  forall d x, nth_error (set_nth (scall st) c k') d = Some x -> (cnum x + length (cleft x) = length (script d))%nat.
Proof.
  intros (L & C) E X. split; [rewrite (set_length _ _ _ _ E); exact L|]. intros d x. rewrite (nth_set _ _ _ _ _ E).
  destruct (Nat.eqb_spec d c) as [->|N]; [|apply C]. intros Y. injection Y as <-. rewrite X. apply C, E.
Qed.
Lemma counted_step l st st' : counted st -> hstep l st st' -> counted st'.
Proof.
  intros C St. destruct St; try exact C; (eapply counted_set; [exact C|eassumption|]); cbn; lia.
Qed.
Lemma counted_reach st : hpath any_step start st -> counted st.
Proof.
  intros P. induction P as [|l a b P IH St _]; [|eapply counted_step; eassumption]. split.
  - cbn [share_start scall]. apply map_length.
  - intros c k E. destruct (start_caller c k E) as (x & _ & ->). unfold phs. cbn. apply map_length.
Qed.

Lemma between st c k : sinv st -> counted st -> nth_error (scall st) c = Some k -> cstage k = Between ->
  in_order dim h0 (firstn (cnum k) (script c)) (hp c (cnum k)) /\ forall b x, block_of V (script c) b -> bdata (sheap st b) x = bdata (hp c (cnum k) b) x.
Proof.
  intros [I1 _ _ _] (_ & C) E Eg. specialize (C _ _ E). destruct k as [k g n l]. cbn in *. subst g. destruct (I1 _ _ _ _ _ E) as (El & A). cbn in A.
  split; [apply Or; lia|]. intros b x B. apply A. apply fp_block. exact B.
Qed.
Lemma nth_script c x : nth_error cs c = Some x -> script c = snd x.
Proof. unfold script. intros ->. reflexivity. Qed.
Lemma dest_dec l b : {dest_of V l b} + {~ dest_of V l b}.
Proof.
  destruct (in_dec Nat.eq_dec b (map (fun a : asg => fbuf (adst a)) l)) as [I|I].
  - left. apply in_map_iff in I as (a & E & I). exists a. auto.
  - right. intros (a & J & ->). apply I. apply in_map_iff. eauto.
Qed.
Lemma rest_blocks st b x : sinv st -> (forall c, ~ dest_of V (script c) b) -> bdata (sheap st b) x = bdata (h0 b) x.
Proof. intros [_ _ _ R] N. apply R. intros c D. exact (N c D). Qed.

Lemma returned_result st : sinv st -> counted st -> all_returned st ->
  exists h', in_order dim h0 (concat (map snd cs)) h' /\ same_heap (sheap st) h'.
Proof.
  intros I0 C A. pose proof I0 as [I1 I2 I3 I4].
  assert (Full : forall c x, nth_error cs c = Some x -> in_order dim h0 (snd x) (hp c (length (snd x))) /\
    forall b y, block_of V (snd x) b -> bdata (sheap st b) y = bdata (hp c (length (snd x)) b) y).
  { intros c x E. destruct (nth_error (scall st) c) as [k|] eqn:Ek.
    - destruct (A k (nth_error_In _ _ Ek)) as (Eg & El). destruct (between st c k I0 C Ek Eg) as (O & M).
      pose proof (proj2 C c k Ek) as Cn. rewrite El, (nth_script _ _ E) in Cn. cbn in Cn. rewrite Nat.add_0_r in Cn.
      rewrite Cn, (nth_script _ _ E), firstn_all in O. rewrite Cn, (nth_script _ _ E) in M. auto.
    - apply nth_error_None in Ek. assert (c < length cs)%nat by (apply nth_error_Some; congruence). destruct C as (C & _). lia. }
  destruct (one_by_one V vadd vmul dim h0 (map snd cs) (fun c => hp c (length (script c)))) with (g := h0) as (g & O & E & R).
  - intros c s X. rewrite nth_error_map in X. destruct (nth_error cs c) as [x|] eqn:Ec; [|discriminate]. cbn in X. injection X as <-.
    rewrite (nth_script _ _ Ec). apply Full, Ec.
  - intros c d s t N X Y. rewrite nth_error_map in X, Y. destruct (nth_error cs c) as [x|] eqn:Ec; [|discriminate]. destruct (nth_error cs d) as [y|] eqn:Ed; [|discriminate].
    cbn in X, Y. injection X as <-. injection Y as <-. intros b (a & Ia & ->) (a' & Ia' & J). exact (Ind c d x y a a' N Ec Ed Ia Ia' J).
  - intros b x. reflexivity.
  - intros s b _ _ x. reflexivity.
  - exists g. split; [exact O|]. split; [intros b x; rewrite (order_cells V vadd vmul dim _ _ _ O); apply I3|].
    intros b x.
    assert (D : (exists c y, nth_error cs c = Some y /\ dest_of V (snd y) b) \/ forall c, ~ dest_of V (script c) b).
    { clear - h0. unfold script. induction cs as [|y l IH].
      - right. intros c (a & I & _). destruct c; destruct I.
      - destruct (dest_dec (snd y) b) as [D|D]; [left; exists 0%nat, y; auto|]. destruct IH as [(c & z & E & I)|N].
        + left. exists (S c), z. auto.
        + right. intros [|c]; [exact D|apply N]. }
    destruct D as [(c & y & Ec & D)|N].
    + assert (B : block_of V (snd y) b) by (destruct D as (a & I & ->); exists a; split; [exact I|left; reflexivity]).
      rewrite (proj2 (Full c y Ec) b x B). rewrite <- (nth_script _ _ Ec). apply (E c (snd y)); [|exact B]. rewrite nth_error_map, Ec. reflexivity.
    + rewrite (rest_blocks st b x I0 N). apply R. intros s I (a & J & ->). apply in_map_iff in I as (y & <- & I). apply In_nth_error in I as (c & Ec).
      apply (N c). rewrite (nth_script _ _ Ec). exists a. auto.
Qed.

Lemma calm_any (a st : sys) : hpath calm_step a st -> hpath any_step a st.
Proof. intros P. induction P; [constructor|]. eapply hp_step; [eassumption|eassumption|exact I]. Qed.
Lemma start_hosted : nhosted V start = on_pool cs.
Proof.
  unfold nhosted, on_pool. cbn [share_start scall]. unfold zlength. f_equal. clear. induction cs as [|[b s] l IH]; [reflexivity|]. cbn. destruct b; cbn; rewrite IH; reflexivity.
Qed.
Lemma hosted_path P st : hpath P start st -> nhosted V st = on_pool cs.
Proof. intros Pt. induction Pt as [|l a b Pt IH St _]; [apply start_hosted|]. rewrite <- IH. eapply nhosted_step. exact St. Qed.
Lemma pinv_path kd st : path calm (pool_new kd) q -> gsched q = [] -> hpath calm_step start st -> pinv V kd st.
Proof.
  intros Pq Gs P. induction P as [|l a b P IH St Ca].
  - pose proof (path_reach _ _ _ Pq) as Rq. destruct (tiv_reach _ _ Rq) as [T _ _ _]. rewrite Gs in T.
    apply Sorting.Permutation.Permutation_nil in T. apply app_eq_nil in T as (_ & T). apply app_eq_nil in T as (_ & T).
    apply app_eq_nil in T as (T1 & T). apply app_eq_nil in T as (T2 & T3).
    constructor; cbn [share_start spool stab]; try assumption.
    + rewrite T1. intros t [].
    + intros c i g n l E. destruct (start_caller c _ E) as (x & _ & X). destruct (fst x); discriminate.
    + intros i c X. destruct i; discriminate.
  - eapply (pinv_step V h0 (phs fuel) hp rdc wrc separate Ph kd); [|exact IH|exact St|exact Ca]. apply reach_inv, calm_any, P.
Qed.
Lemma rest_returned kd st : path calm (pool_new kd) q -> gsched q = [] -> hpath calm_step start st -> halted st ->
  1 <= plimit (spool st) -> 1 <= pcount (spool st) -> on_pool cs < Z.min (plimit (spool st)) (pcount (spool st)) -> all_returned st.
Proof.
  intros Pq Gs P H L1 L2 L3. eapply (halted_returned V h0 (phs fuel) hp rdc wrc separate Ph kd); [apply reach_inv, calm_any, P|eapply pinv_path; eassumption|exact H|exact L1|exact L2|].
  rewrite (hosted_path _ _ P). exact L3.
Qed.
End Fuel.

(** The memory of thread c, in terms of its script. *)
Theorem share_safe q : exists N, forall fuel, (N <= fuel)%nat -> forall st, hpath any_step (share_start vadd vmul fuel q h0 cs) st ->
  no_share_failure st /\ share_race_free st /\
  (forall c x k, nth_error cs c = Some x -> nth_error (scall st) c = Some k -> cstage k = Between ->
     exists h', in_order dim h0 (firstn (cnum k) (snd x)) h' /\
     forall a b i, In a (snd x) -> In b (blocks a) -> bdata (sheap st b) i = bdata (h' b) i) /\
  (forall b i, bcells (sheap st b) i = bcells (h0 b) i) /\
  (forall b i, (forall x a, In x cs -> In a (snd x) -> fbuf (adst a) <> b) -> bdata (sheap st b) i = bdata (h0 b) i).
Proof.
  destruct phases as (N & P). exists N. intros fuel Hf st R. destruct (P fuel Hf) as (hp & H0 & Ph & Or).
  pose proof (reach_inv fuel hp H0 Ph q st R) as I. assert (C : counted st) by (eapply counted_reach; eassumption).
  split; [apply (sinv_no_failure V h0 (phs fuel) hp rdc wrc st I)|]. split; [apply (sinv_race_free V h0 (phs fuel) hp rdc wrc separate st I)|].
  split; [|split; [apply (i_cells _ _ _ _ _ _ _ I)|]].
  - intros c x k Ec Ek Eg. assert (B := between). specialize (B fuel hp). edestruct B as (O & M); try eassumption. rewrite (nth_script _ _ Ec) in O, M. eexists. split; [exact O|].
    intros a b i Ia Ib. apply M. exists a. auto.
  - intros b i N'. eapply rest_blocks; try eassumption. intros c (a & Ia & E). destruct (script_in _ _ Ia) as (x & Ex & Ix).
    apply (N' x a (nth_error_In _ _ Ex) Ix). auto.
Qed.
Theorem share_result q : exists N, forall fuel, (N <= fuel)%nat -> forall st, hpath any_step (share_start vadd vmul fuel q h0 cs) st ->
  all_returned st -> exists h', in_order dim h0 (concat (map snd cs)) h' /\ same_heap (sheap st) h'.
Proof.
  destruct phases as (N & P). exists N. intros fuel Hf st R A. destruct (P fuel Hf) as (hp & H0 & Ph & Or).
  eapply returned_result; try eassumption; [eapply reach_inv; eassumption|eapply counted_reach; eassumption].
Qed.
Theorem share_bounded q : exists N, forall fuel, (N <= fuel)%nat -> forall st, hpath any_step (share_start vadd vmul fuel q h0 cs) st ->
  exists bound, forall n st', histeps n st st' -> (n <= bound)%nat.
Proof.
  destruct phases as (N & P). exists N. intros fuel Hf st R. destruct (P fuel Hf) as (hp & H0 & Ph & Or).
  exact (histeps_bounded V h0 (phs fuel) hp rdc wrc separate Ph st (reach_inv fuel hp H0 Ph q st R)).
Qed.
Theorem share_returns kd q : path calm (pool_new kd) q -> gsched q = [] ->
  exists N, forall fuel, (N <= fuel)%nat -> forall st, hpath calm_step (share_start vadd vmul fuel q h0 cs) st -> halted st ->
  1 <= plimit (spool st) -> 1 <= pcount (spool st) -> on_pool cs < Z.min (plimit (spool st)) (pcount (spool st)) -> all_returned st.
Proof.
  intros Pq Gs. destruct phases as (N & P). exists N. intros fuel Hf st R. destruct (P fuel Hf) as (hp & H0 & Ph & Or).
  eapply rest_returned; eassumption.
Qed.
End Final.
