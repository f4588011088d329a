(** The merge sort program: what it leaves in the array. *)
From Coq Require Import Lia Arith Permutation.
From Verif Require Import Prelude TPoolM TPoolS TPoolP TPoolQ SortM SortS SortP.
Local Open Scope nat_scope.
Local Arguments Nat.pow : simpl never.
Local Arguments Nat.mul : simpl never.

(** ** What the steps of the pool do *)
Lemma step_quiet l a b : l = LWorker \/ l = LClient \/ l = LSpurious -> tstep l a b ->
  pq b = pq a /\ running b = running a.
Proof.
  intros L St. rewrite !running_eq. destruct St; try (destruct L as [L|[L|L]]; discriminate L); pcbn; try (split; reflexivity);
    try (rewrite H, !run_mid; split; reflexivity).
Qed.
Lemma step_start t a b : tstep (LStart t) a b -> Permutation (pq a) (t :: pq b) /\ Permutation (running b) (t :: running a) /\ pc b = pc a.
Proof.
  intros St. rewrite !running_eq. inversion St; subst; pcbn;
    (match goal with T : takes _ _ _ _ |- _ => split; [exact (takes_perm _ _ _ _ T)|] end);
    (match goal with E : pw _ = _ |- _ => rewrite E, !run_mid end); (split; [|reflexivity]); cbn [run1 app]; symmetry; apply Permutation_middle.
Qed.
Lemma step_done t a b : tstep (LDone t) a b -> pq b = pq a /\ Permutation (running a) (t :: running b) /\ pc b = pc a.
Proof.
  intros St. rewrite !running_eq. inversion St; subst; pcbn. split; [reflexivity|]. split; [|reflexivity].
  match goal with E : pw _ = _ |- _ => rewrite E, !run_mid end. cbn [run1 app]. symmetry. apply Permutation_middle.
Qed.
Lemma step_schedule t a b : tstep (LSchedule t) a b -> pq b = pq a ++ [t] /\ running b = running a /\ pc b = pc a.
Proof.
  intros St. rewrite !running_eq. inversion St; subst; pcbn. split; [reflexivity|]. split; [|reflexivity]. apply notify1_run. assumption.
Qed.

Lemma made_pool n m st : (0 <= n)%Z -> (0 <= m)%Z -> pool_made n m st -> treach (pool_new Fifo) st /\ pq st = [] /\ running st = [] /\ pc st = [].
Proof.
  intros Hn Hm (a & I & R). pose proof (pool_init_reach _ _ _ Hn I) as T. split; [eapply tr_step; [exact T|exact (ts_resize _ _ _ Hm R)]|].
  rewrite running_eq. destruct I as [x X]. inversion X; subst; cbn in *; try discriminate; try lia.
  inversion R; subst; cbn in *; try discriminate; rewrite ?flat_map_app, ?repeat_run, ?wwake_run, ?repeat_run; auto.
Qed.

Section Sort.
Variable A : Type.
Variable content : A -> Z.
Variable e : nat.
Variable init : nat -> A.
Notation part := (part A).
Notation put := (put A).
Notation msort := (msort A content).
Notation merge := (merge A content).
Notation sys := (sys A).

(** Blocks of size 2^s: what is in block q before and after the round of step
    [S s]. *)
Definition after (s q : nat) : list A := msort s (part init (q * 2 ^ s) (2 ^ s)).
Definition before (s q : nat) : list A := after s (2 * q) ++ after s (2 * q + 1).
Lemma after_length s q : length (after s q) = 2 ^ s.
Proof. apply (msort_ok A content s). apply part_length. Qed.
Lemma after_asc s q : asc A content (after s q).
Proof. apply (msort_ok A content s). apply part_length. Qed.
Lemma before_length s q : length (before s q) = 2 ^ S s.
Proof. unfold before. rewrite app_length, !after_length, two_pow. reflexivity. Qed.
Lemma half s : 2 ^ S s / 2 = 2 ^ s.
Proof. rewrite two_pow. replace (2 ^ s + 2 ^ s) with (2 ^ s * 2) by lia. apply Nat.div_mul. lia. Qed.
Lemma before_first s q : firstn (2 ^ s) (before s q) = after s (2 * q).
Proof. unfold before. rewrite <- (after_length s (2 * q)) at 1. rewrite firstn_app, firstn_all, Nat.sub_diag. cbn. apply app_nil_r. Qed.
Lemma before_skip s q : skipn (2 ^ s) (before s q) = after s (2 * q + 1).
Proof. unfold before. rewrite <- (after_length s (2 * q)) at 1. rewrite skipn_app, skipn_all, Nat.sub_diag. reflexivity. Qed.
Lemma after_merge s q : after (S s) q = merge (after s (2 * q)) (after s (2 * q + 1)).
Proof.
  unfold after. cbn [SortP.msort]. rewrite two_pow, part_first, part_skip. f_equal; do 2 f_equal; nia.
Qed.
Lemma merged_before s q p : merged A content (Job p (2 ^ S s)) (before s q) = after (S s) q.
Proof. unfold merged. cbn [j_len]. rewrite half, before_first, before_skip, <- after_merge. reflexivity. Qed.

Definition blocks (s : nat) : nat := 2 ^ e / 2 ^ s.
Lemma blocks_eq s : s <= e -> blocks s = 2 ^ (e - s) /\ blocks s * 2 ^ s = 2 ^ e.
Proof.
  intros L. assert (E : 2 ^ e = 2 ^ (e - s) * 2 ^ s) by (rewrite <- Nat.pow_add_r; f_equal; lia).
  assert (B : blocks s = 2 ^ (e - s)) by (unfold blocks; rewrite E; apply Nat.div_mul; pose proof (pow_pos s); lia).
  split; [exact B|]. rewrite B, E. reflexivity.
Qed.
Lemma blocks_half s : S s <= e -> blocks s = 2 * blocks (S s).
Proof.
  intros L. rewrite (proj1 (blocks_eq s ltac:(lia))), (proj1 (blocks_eq (S s) L)). replace (e - s) with (S (e - S s)) by lia. rewrite two_pow. lia.
Qed.

Definition pending (P : pool) : list task := pq P ++ running P.
Definition ltask (x : task * job * list A) : task := fst (fst x).
Notation live := (list (task * job * list A)).

(** The round of step [S s], with p jobs scheduled; [b] jobs were before. *)
Record in_round (s b p : nat) (P : pool) (d : nat -> A) (js : list job) (lv : live) : Prop := InRound {
  r_step : S s <= e;
  r_p : p <= blocks (S s);
  r_len : length js = b + p;
  r_jobs : forall q, q < p -> nth_error js (b + q) = Some (Job (q * 2 ^ S s) (2 ^ S s));
  r_nodup : NoDup (pending P);
  r_tasks : forall t, In t (pending P) -> exists q, q < p /\ t = (b + q, 0%Z);
  r_live : Permutation (map ltask lv) (running P);
  r_snap : forall t j l, In (t, j, l) lv -> exists q, q < p /\ t = (b + q, 0%Z) /\ j = Job (q * 2 ^ S s) (2 ^ S s) /\ l = before s q;
  r_before : forall q, q < blocks (S s) -> p <= q \/ In (b + q, 0%Z) (pq P) -> part d (q * 2 ^ S s) (2 ^ S s) = before s q;
  r_after : forall q, q < p -> ~ In (b + q, 0%Z) (pending P) -> part d (q * 2 ^ S s) (2 ^ S s) = after (S s) q;
  r_frame : forall i, 2 ^ e <= i -> d i = init i }.

Definition sorted_now (d : nat -> A) : Prop := part d 0 (2 ^ e) = after e 0 /\ forall i, 2 ^ e <= i -> d i = init i.

Definition inv (x : state A) : Prop :=
  match x with
  | Undefined => False
  | Fine x =>
      treach (pool_new Fifo) (s_pool x) /\
      match s_main x with
      | MSched step p => exists s b, step = S s /\ length (pc (s_pool x)) = s /\ in_round s b p (s_pool x) (s_data x) (s_jobs x) (s_live x)
      | MWait step => exists s b, step = S s /\ length (pc (s_pool x)) = S s /\ in_round s b (blocks (S s)) (s_pool x) (s_data x) (s_jobs x) (s_live x) /\
          (nth_error (pc (s_pool x)) s = Some (CBack (CWait 0)) -> pending (s_pool x) = [])
      | MDone => sorted_now (s_data x) /\ s_live x = [] /\ pending (s_pool x) = []
      end
  end.

(** Disjoint blocks *)
Lemma block_apart s q q' : q <> q' -> q * 2 ^ s + 2 ^ s <= q' * 2 ^ s \/ q' * 2 ^ s + 2 ^ s <= q * 2 ^ s.
Proof. intros N. destruct (Nat.lt_ge_cases q q'); [left|right]; nia. Qed.
Lemma block_in s q : S s <= e -> q < blocks (S s) -> q * 2 ^ S s + 2 ^ S s <= 2 ^ e.
Proof. intros L H. destruct (blocks_eq (S s) L) as (_ & E). rewrite <- E. nia. Qed.

(** Same tasks, same array. *)
Lemma round_pool s b p P P' d js lv : in_round s b p P d js lv -> pq P' = pq P -> running P' = running P -> in_round s b p P' d js lv.
Proof.
  intros [H1 H2 H3 H4 H5 H6 H7 H8 H9 H10 H11] E1 E2. unfold pending in *. constructor; unfold pending; rewrite ?E1, ?E2; assumption.
Qed.
Lemma live_in s b p P d js lv t j l : in_round s b p P d js lv -> In (t, j, l) lv -> In t (running P).
Proof. intros R I. apply (Permutation_in _ (r_live _ _ _ _ _ _ _ R)). apply in_map_iff. exists (t, j, l). split; [reflexivity|exact I]. Qed.

Lemma round_schedule s b p P P' d js lv : in_round s b p P d js lv -> p < blocks (S s) -> tstep (LSchedule (length js, 0%Z)) P P' ->
  in_round s b (S p) P' d (js ++ [Job (p * 2 ^ S s) (2 ^ S s)]) lv.
Proof.
  intros R Hp St. destruct (step_schedule _ _ _ St) as (E1 & E2 & _). pose proof R as [H1 H2 H3 H4 H5 H6 H7 H8 H9 H10 H11].
  assert (Per : Permutation (pending P') ((b + p, 0%Z) :: pending P)).
  { unfold pending. rewrite E1, E2, <- app_assoc, H3. cbn. symmetry. apply Permutation_middle. }
  assert (Nw : ~ In (b + p, 0%Z) (pending P)).
  { intros I. destruct (H6 _ I) as (q & L & E). injection E as E. lia. }
  constructor.
  - exact H1.
  - lia.
  - rewrite app_length, H3. cbn. lia.
  - intros q L. destruct (Nat.eq_dec q p) as [->|N].
    + rewrite nth_error_app2 by lia. replace (b + p - length js) with 0 by lia. reflexivity.
    + rewrite nth_error_app1 by lia. apply H4. lia.
  - apply (Permutation_NoDup (Permutation_sym Per)). constructor; assumption.
  - intros t I. apply (Permutation_in _ Per) in I. destruct I as [<-|I]; [exists p; split; [lia|reflexivity]|].
    destruct (H6 t I) as (q & L & E). exists q. split; [lia|exact E].
  - rewrite E2. exact H7.
  - intros t j l I. destruct (H8 t j l I) as (q & L & E). exists q. split; [lia|exact E].
  - intros q L [G|G]; [apply (H9 q L); left; lia|]. rewrite E1 in G. apply in_app_or in G. destruct G as [G|[G|[]]].
    + apply (H9 q L). right. exact G.
    + injection G as G. apply (H9 q L). left. lia.
  - intros q L N. destruct (Nat.eq_dec q p) as [->|D].
    + exfalso. apply N. apply (Permutation_in _ (Permutation_sym Per)). left. reflexivity.
    + apply H10; [lia|]. intros I. apply N. apply (Permutation_in _ (Permutation_sym Per)). right. exact I.
  - exact H11.
Qed.

Lemma round_start_ok s b p P P' d js lv t j : in_round s b p P d js lv -> tstep (LStart t) P P' -> nth_error js (fst t) = Some j ->
  job_ok A content (2 ^ e) d (live_jobs A lv) j = true /\ in_round s b p P' d js (lv ++ [(t, j, part d (j_pos j) (j_len j))]).
Proof.
  intros R St J. destruct (step_start _ _ _ St) as (E1 & E2 & _). pose proof R as [H1 H2 H3 H4 H5 H6 H7 H8 H9 H10 H11].
  assert (Iq : In t (pq P)) by (apply (Permutation_in _ (Permutation_sym E1)); left; reflexivity).
  destruct (H6 t (in_or_app _ _ _ (or_introl Iq))) as (q & L & ->). cbn [fst] in J. rewrite (H4 q L) in J. injection J as <-. cbn [j_pos j_len].
  assert (Lq : q < blocks (S s)) by lia. pose proof (H9 q Lq (or_intror Iq)) as Bq.
  assert (Nl : forall t j l, In (t, j, l) lv -> exists q', q' <> q /\ j = Job (q' * 2 ^ S s) (2 ^ S s)).
  { intros t j l I. pose proof (live_in _ _ _ _ _ _ _ _ _ _ R I) as It. destruct (H8 t j l I) as (q' & L' & -> & -> & _). exists q'. split; [|reflexivity].
    intros ->. unfold pending in H5. apply in_split in Iq. destruct Iq as (l1 & l2 & Eq). rewrite Eq, <- app_assoc in H5. cbn in H5. apply NoDup_remove_2 in H5. apply H5.
    rewrite !in_app_iff. right. right. exact It. }
  split.
  - unfold job_ok. cbn [j_pos j_len]. rewrite half. rewrite !andb_true_iff. repeat split.
    + apply Nat.leb_le. apply block_in; assumption.
    + apply (in_order_asc A content). rewrite <- (part_first A d (q * 2 ^ S s) (2 ^ s) (2 ^ s)), <- two_pow, Bq, before_first. apply after_asc.
    + apply (in_order_asc A content). rewrite two_pow. replace (2 ^ s + 2 ^ s - 2 ^ s) with (2 ^ s) by lia. rewrite <- (part_skip A d (q * (2 ^ s + 2 ^ s)) (2 ^ s) (2 ^ s)), <- two_pow, Bq, before_skip. apply after_asc.
    + apply negb_true_iff. destruct (existsb _ _) eqn:X; [|reflexivity]. apply existsb_exists in X. destruct X as (j & I & O). unfold live_jobs in I. apply in_map_iff in I.
      destruct I as (((t & j') & l) & Ej & I). cbn in Ej. subst j'. destruct (Nl t j l I) as (q' & N & ->). unfold overlap in O. cbn [j_pos j_len] in O.
      apply andb_true_iff in O. destruct O as (O1 & O2). apply Nat.ltb_lt in O1, O2. destruct (block_apart (S s) q q' ltac:(lia)); lia.
  - rewrite Bq. assert (Per : Permutation (pending P') (pending P)).
    { unfold pending. rewrite E1, E2. cbn. symmetry. apply Permutation_middle. }
    constructor; try assumption.
    + apply (Permutation_NoDup (Permutation_sym Per)), H5.
    + intros t I. apply H6. apply (Permutation_in _ Per), I.
    + rewrite map_app. cbn [map ltask fst]. rewrite E2, <- H7. symmetry. apply Permutation_cons_append.
    + intros t j l I. apply in_app_or in I. destruct I as [I|[I|[]]]; [exact (H8 t j l I)|]. injection I as <- <- <-. exists q. auto.
    + intros q' L' G. apply (H9 q' L'). destruct G as [G|G]; [left; exact G|right]. apply (Permutation_in _ (Permutation_sym E1)). right. exact G.
    + intros q' L' N. apply (H10 q' L'). intros I. apply N. apply (Permutation_in _ (Permutation_sym Per)), I.
Qed.

Lemma round_change s b p P P' d d' js lv lv' q : in_round s b p P d js lv -> q < p -> In (b + q, 0%Z) (running P) ->
  (forall i, i < q * 2 ^ S s \/ q * 2 ^ S s + 2 ^ S s <= i -> d' i = d i) -> pq P' = pq P ->
  (forall t, In t (pending P) -> t = (b + q, 0%Z) \/ In t (pending P')) -> (forall t, In t (pending P') -> In t (pending P)) -> NoDup (pending P') ->
  Permutation (map ltask lv') (running P') -> (forall x, In x lv' -> In x lv) ->
  (~ In (b + q, 0%Z) (pending P') -> part d' (q * 2 ^ S s) (2 ^ S s) = after (S s) q) -> in_round s b p P' d' js lv'.
Proof.
  intros R L Iq D Eq S1 S2 Nd Pl Sl Dq. pose proof R as [H1 H2 H3 H4 H5 H6 H7 H8 H9 H10 H11].
  assert (O : forall q', q' <> q -> part d' (q' * 2 ^ S s) (2 ^ S s) = part d (q' * 2 ^ S s) (2 ^ S s)).
  { intros q' N. apply part_ext. intros i I. apply D. destruct (block_apart (S s) q' q N); lia. }
  constructor; try assumption.
  - intros t I. apply H6, S2, I.
  - intros t j l I. apply (H8 t j l), Sl, I.
  - intros q' L' G. rewrite Eq in G. assert (N : q' <> q).
    { intros ->. destruct G as [G|G]; [lia|]. unfold pending in H5. apply in_split in G. destruct G as (l1 & l2 & E). rewrite E, <- app_assoc in H5. cbn in H5.
      apply NoDup_remove_2 in H5. apply H5. rewrite !in_app_iff. auto. }
    rewrite (O q' N). apply (H9 q' L' G).
  - intros q' L' N. destruct (Nat.eq_dec q' q) as [->|Nq]; [exact (Dq N)|]. rewrite (O q' Nq). apply (H10 q' L'). intros I. destruct (S1 _ I) as [E|I']; [injection E as E; lia|contradiction].
  - intros i I. rewrite D; [apply H11, I|]. right. pose proof (block_in s q H1 ltac:(lia)). lia.
Qed.
Lemma round_write s b p P d js lv t j l i a : in_round s b p P d js lv -> In (t, j, l) lv -> j_pos j <= i < j_pos j + j_len j ->
  in_round s b p P (put d i [a]) js lv.
Proof.
  intros R I Hi. pose proof (live_in _ _ _ _ _ _ _ _ _ _ R I) as It. destruct (r_snap _ _ _ _ _ _ _ R t j l I) as (q & L & -> & -> & _). cbn [j_pos j_len] in Hi.
  apply (round_change s b p P P d _ js lv lv q R L It); auto.
  - intros k K. apply put_out. cbn [length]. lia.
  - exact (r_nodup _ _ _ _ _ _ _ R).
  - exact (r_live _ _ _ _ _ _ _ R).
  - intros N. exfalso. apply N. unfold pending. apply in_or_app. right. exact It.
Qed.
Lemma round_done s b p P P' d js lv1 lv2 t j l : in_round s b p P d js (lv1 ++ (t, j, l) :: lv2) -> tstep (LDone t) P P' ->
  in_round s b p P' (put d (j_pos j) (merged A content j l)) js (lv1 ++ lv2).
Proof.
  intros R St. destruct (step_done _ _ _ St) as (E1 & E2 & _). pose proof R as [H1 H2 H3 H4 H5 H6 H7 H8 H9 H10 H11].
  destruct (H8 t j l (in_elt _ _ _)) as (q & L & -> & -> & ->). rewrite merged_before. cbn [j_pos].
  assert (Per : Permutation (pending P) ((b + q, 0%Z) :: pending P')) by (unfold pending; rewrite E1, E2; symmetry; apply Permutation_middle).
  assert (Nd : NoDup ((b + q, 0%Z) :: pending P')) by (apply (Permutation_NoDup Per), H5).
  apply (round_change s b p P P' d _ js _ _ q R L).
  - apply (live_in _ _ _ _ _ _ _ _ _ _ R (in_elt _ _ _)).
  - intros i I. apply put_out. rewrite after_length. lia.
  - exact E1.
  - intros t I. apply (Permutation_in _ Per) in I. destruct I as [<-|I]; [left; reflexivity|right; exact I].
  - intros t I. apply (Permutation_in _ (Permutation_sym Per)). right. exact I.
  - inversion Nd; assumption.
  - apply (Permutation_cons_inv (a := (b + q, 0%Z))). rewrite <- E2, <- H7, !map_app. cbn [map ltask fst]. apply Permutation_middle.
  - intros x I. rewrite in_app_iff in *. cbn. tauto.
  - intros _. pose proof (part_put A content d (q * 2 ^ S s) (after (S s) q)) as X. rewrite after_length in X. exact X.
Qed.

(** The next round *)
Lemma round_next s b P d js lv : in_round s b (blocks (S s)) P d js lv -> pending P = [] ->
  lv = [] /\ (S (S s) <= e -> in_round (S s) (length js) 0 P d js lv) /\ (S s = e -> sorted_now d).
Proof.
  intros [H1 H2 H3 H4 H5 H6 H7 H8 H9 H10 H11] E.
  assert (Er : running P = []) by (unfold pending in E; apply app_eq_nil in E; apply E).
  assert (Ep : pq P = []) by (unfold pending in E; apply app_eq_nil in E; apply E).
  assert (El : lv = []) by (rewrite Er in H7; apply Permutation_sym, Permutation_nil, map_eq_nil in H7; exact H7).
  assert (Al : forall q, q < blocks (S s) -> part d (q * 2 ^ S s) (2 ^ S s) = after (S s) q) by (intros q L; apply (H10 q L); rewrite E; intros []).
  split; [exact El|]. split.
  - intros L. subst lv. constructor; try assumption; try (intros; lia).
    + rewrite E. intros t [].
    + intros t j l [].
    + intros q Hq _. pose proof (blocks_half (S s) L). rewrite (two_pow (S s)), part_app. unfold before. f_equal.
      * replace (q * (2 ^ S s + 2 ^ S s)) with (2 * q * 2 ^ S s) by nia. apply Al. lia.
      * replace (q * (2 ^ S s + 2 ^ S s) + 2 ^ S s) with ((2 * q + 1) * 2 ^ S s) by nia. apply Al. lia.
  - intros Es. destruct (blocks_eq (S s) ltac:(lia)) as (B & _).
    assert (L0 : 0 < blocks (S s)) by (rewrite B; apply pow_pos). specialize (Al 0 L0). rewrite Es in Al. split; [exact Al|exact H11].
Qed.

Lemma pool_same P P' l : tstep l P P' -> l = LWorker \/ l = LClient \/ l = LSpurious -> pending P' = pending P.
Proof. intros St L. destruct (step_quiet l P P' L St) as (E1 & E2). unfold pending. rewrite E1, E2. reflexivity. Qed.
Lemma pending_zero P : (zlength (pq P) + zlength (running P) <= 0)%Z -> pending P = [].
Proof. intros H. unfold pending. unfold zlength in H. destruct (pq P), (running P); cbn [length] in *; try reflexivity; lia. Qed.

Lemma start_same_pc t P P' : tstep (LStart t) P P' -> pc P' = pc P.
Proof. intros St. apply (step_start _ _ _ St). Qed.

Ltac back H := let X := fresh in intros X; apply H; congruence.
Lemma inv_step o x y : inv x -> sstep A content e o x y -> inv y.
Proof.
  intros I St. destruct St.
  - (* schedule *) destruct I as (T & s & b & -> & Lc & R). cbn [s_pool s_data s_jobs s_live s_main] in *. split; [eapply tr_step; eassumption|].
    exists s, b. split; [reflexivity|]. destruct (step_schedule _ _ _ H0) as (_ & _ & E). cbn [s_pool s_data s_jobs s_live]. rewrite E. split; [exact Lc|].
    eapply round_schedule; eassumption.
  - (* wait *) destruct I as (T & s & b & -> & Lc & R). cbn [s_pool s_data s_jobs s_live s_main] in *. split; [eapply tr_step; eassumption|].
    exists s, b. split; [reflexivity|]. cbn [s_pool s_data s_jobs s_live]. split; [lia|]. destruct (step_quiet _ _ _ (or_intror (or_introl eq_refl)) H0) as (E1 & E2).
    assert (p = blocks (S s)) as -> by (pose proof (r_p _ _ _ _ _ _ _ R); fold (blocks (S s)) in H; lia).
    split; [apply (round_pool _ _ _ P); assumption|]. intros B. rewrite (pool_same P P' _ H0) by auto. apply pending_zero.
    apply (wait_returned Fifo P LClient P' s (CWait 0) T H0 B). rewrite (proj2 (nth_error_None _ _)) by lia. discriminate.
  - (* next *) destruct I as (T & s & b & -> & Lc & R & B). cbn [s_pool s_data s_jobs s_live s_main] in *. replace (S s - 1) with s in H by lia. specialize (B H).
    destruct (round_next s b P d js lv R B) as (El & N1 & N2). split; [exact T|]. unfold round. cbn [s_main]. destruct (Nat.leb_spec (S (S s)) e) as [L|L].
    + exists (S s), (length js). split; [reflexivity|]. split; [exact Lc|]. apply N1, L.
    + split; [apply N2; pose proof (r_step _ _ _ _ _ _ _ R); lia|]. split; [exact El|exact B].
  - (* pool *) assert (L : l = LWorker \/ l = LClient \/ l = LSpurious) by (destruct o; intuition).
    destruct I as (T & I). cbn [s_pool s_data s_jobs s_live s_main] in *. split; [eapply tr_step; eassumption|]. cbn [s_main s_pool s_data s_jobs s_live].
    pose proof (pool_same _ _ _ H0 L) as Ep. destruct (step_quiet _ _ _ L H0) as (E1 & E2). destruct m as [step p|step|].
    + destruct I as (s & b & -> & Lc & R). exists s, b. split; [reflexivity|]. split; [lia|]. apply (round_pool _ _ _ P); assumption.
    + destruct I as (s & b & -> & Lc & R & B). exists s, b. split; [reflexivity|]. split; [lia|]. split; [apply (round_pool _ _ _ P); assumption|].
      intros N. rewrite Ep. destruct (nth_error (pc P) s) as [[g|g|g]|] eqn:X; [..|apply nth_error_None in X; lia].
      1, 2: apply pending_zero; apply (wait_returned Fifo P l P' s (CWait 0) T H0 N); rewrite X; discriminate.
      destruct (match g with CWait 0 => true | _ => false end) eqn:G; [destruct g as [[| |]|]; try discriminate G; apply B; reflexivity|].
      apply pending_zero. apply (wait_returned Fifo P l P' s (CWait 0) T H0 N). rewrite X. intros E. injection E as ->. discriminate G.
    + rewrite Ep. exact I.
  - (* start *) destruct I as (T & I). cbn [s_pool s_data s_jobs s_live s_main] in *. pose proof (start_same_pc _ _ _ H) as Ec. destruct m as [step p|step|].
    + destruct I as (s & b & -> & Lc & R). destruct (round_start_ok _ _ _ _ _ _ _ _ _ _ R H H0) as (Ok & R'). rewrite Ok.
      split; [eapply tr_step; eassumption|]. exists s, b. cbn [s_pool s_data s_jobs s_live]. rewrite Ec. auto.
    + destruct I as (s & b & -> & Lc & R & B). destruct (round_start_ok _ _ _ _ _ _ _ _ _ _ R H H0) as (Ok & R'). rewrite Ok.
      split; [eapply tr_step; eassumption|]. exists s, b. cbn [s_pool s_data s_jobs s_live]. rewrite Ec. split; [reflexivity|]. split; [exact Lc|]. split; [exact R'|].
      intros N. specialize (B N). destruct (step_start _ _ _ H) as (E1 & _). unfold pending in B. apply app_eq_nil in B. destruct B as (B & _). rewrite B in E1.
      apply Permutation_nil in E1. discriminate E1.
    + destruct I as (_ & _ & B). destruct (step_start _ _ _ H) as (E1 & _). unfold pending in B. apply app_eq_nil in B. destruct B as (B & _). rewrite B in E1.
      apply Permutation_nil in E1. discriminate E1.
  - (* write *) destruct I as (T & I). cbn [s_pool s_data s_jobs s_live s_main] in *. split; [exact T|]. cbn [s_pool s_data s_jobs s_live s_main]. destruct m as [step p|step|].
    + destruct I as (s & b & -> & Lc & R). exists s, b. split; [reflexivity|]. split; [exact Lc|]. apply (round_write _ _ _ _ _ _ _ _ _ _ _ a R H H0).
    + destruct I as (s & b & -> & Lc & R & B). exists s, b. split; [reflexivity|]. split; [exact Lc|]. split; [|exact B]. apply (round_write _ _ _ _ _ _ _ _ _ _ _ a R H H0).
    + destruct I as (_ & -> & _). destruct H.
  - (* done *) destruct I as (T & I). cbn [s_pool s_data s_jobs s_live s_main] in *. split; [eapply tr_step; eassumption|]. cbn [s_pool s_data s_jobs s_live s_main].
    destruct (step_done _ _ _ H) as (E1 & E2 & Ec). rewrite ?Ec. destruct m as [step p|step|].
    + destruct I as (s & b & -> & Lc & R). exists s, b. split; [reflexivity|]. split; [exact Lc|]. apply (round_done _ _ _ P P' d js lv1 lv2 t j l); assumption.
    + destruct I as (s & b & -> & Lc & R & B). exists s, b. split; [reflexivity|]. split; [exact Lc|]. split; [apply (round_done _ _ _ P P' d js lv1 lv2 t j l); assumption|].
      intros N. specialize (B N). unfold pending in *. apply app_eq_nil in B. destruct B as (B1 & B2). rewrite B2 in E2. apply Permutation_nil in E2. discriminate E2.
    + destruct I as (_ & L & _). destruct lv1; discriminate L.
Qed.

Lemma inv_start n m x : (0 <= n)%Z -> (0 <= m)%Z -> prog_start A e n m init x -> inv x.
Proof.
  intros Hn Hm [st H]. destruct (made_pool n m st Hn Hm H) as (T & E1 & E2 & E3). split; [exact T|]. cbn [s_pool s_data s_jobs s_live s_main].
  assert (Ep : pending st = []) by (unfold pending; rewrite E1, E2; reflexivity).
  unfold round. destruct (Nat.leb_spec 1 e) as [L|L].
  - exists 0, 0. split; [reflexivity|]. rewrite E3. split; [reflexivity|]. constructor; rewrite ?Ep, ?E2; try reflexivity; try (intros; lia); try assumption.
    + constructor.
    + intros t [].
    + intros t j l [].
    + intros q _ _. unfold before, after. cbn [SortP.msort]. change (2 ^ 1) with (1 + 1). change (2 ^ 0) with 1. rewrite part_app.
      f_equal; f_equal; lia.
  - assert (e = 0) as E0 by lia. split; [|auto]. split; [|reflexivity]. unfold after. rewrite E0. reflexivity.
Qed.
Lemma inv_reach n m x y : (0 <= n)%Z -> (0 <= m)%Z -> prog_start A e n m init x -> sreach A content e x y -> inv y.
Proof. intros Hn Hm S R. induction R as [|o b c R IH St]; [exact (inv_start n m _ Hn Hm S)|exact (inv_step o b c IH St)]. Qed.

Theorem sort_safe n m x : (0 <= n)%Z -> (0 <= m)%Z -> prog_start A e n m init x -> ~ sreach A content e x Undefined.
Proof. intros Hn Hm S R. exact (inv_reach n m x _ Hn Hm S R). Qed.
Theorem sort_sorted n m x y : (0 <= n)%Z -> (0 <= m)%Z -> prog_start A e n m init x -> sreach A content e x (Fine y) -> s_main y = MDone ->
  sorts content (part init 0 (2 ^ e)) (part (s_data y) 0 (2 ^ e)) /\ s_live y = [] /\ (forall i, 2 ^ e <= i -> s_data y i = init i).
Proof.
  intros Hn Hm S R D. destruct (inv_reach n m x _ Hn Hm S R) as (_ & I). rewrite D in I. destruct I as ((I & F) & L & _). split; [|split; assumption].
  rewrite I. unfold after. apply msort_sorts. apply part_length.
Qed.
End Sort.
