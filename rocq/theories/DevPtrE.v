(** Shared pointers to GPU memory: what legal programs observe, and what goes wrong
    in others. *)
From Coq Require Import Permutation.
From Verif Require Import Prelude PoolM PtrM PtrS PtrP DevPtrM DevPtrS DevPtrP DevPtrQ DevPtrR.

Lemma nodup_entries {A} (m : amap A) : NoDup (map fst m) -> NoDup m.
Proof. apply NoDup_map_inv. Qed.
Lemma amap_perm {A} (m m' : amap A) : NoDup (map fst m) -> NoDup (map fst m') -> (forall k, aget m k = aget m' k) -> Permutation m m'.
Proof.
  intros N N' E. apply NoDup_Permutation; [apply nodup_entries, N|apply nodup_entries, N'|].
  intros [k v]. split; intros J; apply aget_in; [rewrite <- E|rewrite E]; apply in_aget; assumption.
Qed.
Lemma filter_map_len {A B} (g : A -> B) (p : B -> bool) (q : A -> bool) l : (forall x, In x l -> p (g x) = q x) ->
  length (filter p (map g l)) = length (filter q l).
Proof.
  induction l as [|x l IH]; [reflexivity|]. intros H. cbn. rewrite H by (left; reflexivity).
  destruct (q x); cbn; rewrite IH; auto; intros y Y; apply H; right; exact Y.
Qed.
Lemma count_pointers n s st G rc dv b : ginv n s st G -> aget G rc = Some (dv, Some b) -> cntv (gvar st) rc = pointers_to s b.
Proof.
  intros I Eg. unfold pointers_to, cntv. pose proof (gi_nv _ _ _ _ I) as NV.
  rewrite (filter_perm_length _ (gto s) (map (fun e => (fst e, meaning (snd e))) (gvar st))).
  - symmetry. apply filter_map_len. intros [v P] J. cbn [snd]. unfold has_rc. cbn [snd].
    destruct (gi_var _ _ _ _ I v P (in_aget _ _ _ NV J)) as [->|(r & d & p & -> & A)]; [reflexivity|]. cbn.
    destruct (gi_sep _ _ _ _ I _ _ _ _ _ _ A Eg) as (_ & _ & U). destruct p as [c|].
    + destruct (Nat.eqb_spec c b) as [->|N]; destruct (Nat.eqb_spec r rc) as [->|M]; auto; exfalso.
      * apply M, U; [reflexivity|discriminate].
      * rewrite A in Eg. congruence.
    + destruct (Nat.eqb_spec r rc) as [->|]; [congruence|reflexivity].
  - apply amap_perm; [apply I| |].
    + rewrite map_map. cbn. exact NV.
    + intros k. rewrite aget_map. apply I.
Qed.
Lemma block_var n s st G v b : ginv n s st G -> gtarget s v = Some (Block b) ->
  exists rc dv, aget (gvar st) v = Some (DPtr (Some b) (Some rc) (Some dv)) /\ aget G rc = Some (dv, Some b).
Proof.
  intros I T. rewrite (target_meaning _ _ _ _ v I) in T. destruct (aget (gvar st) v) as [P|] eqn:E; [|discriminate]. injection T as T.
  destruct (gi_var _ _ _ _ I v P E) as [->|(r & d & p & -> & A)]; [discriminate|]. destruct p as [c|]; [|discriminate]. cbn in T. injection T as ->. eauto.
Qed.
Lemma group_var n s st G rc dv b : ginv n s st G -> aget G rc = Some (dv, Some b) -> exists v, gtarget s v = Some (Block b).
Proof.
  intros I A. destruct (gi_rc _ _ _ _ I _ _ _ A) as [_ C]. unfold cntv in C. destruct (filter (has_rc rc) (gvar st)) as [|[v P] l] eqn:E; [cbn in C; lia|].
  assert (J : In (v, P) (filter (has_rc rc) (gvar st))) by (rewrite E; left; reflexivity). apply filter_In in J as [J U].
  apply (in_aget _ _ _ (gi_nv _ _ _ _ I)) in J. exists v. rewrite (target_meaning _ _ _ _ v I), J. cbn. unfold has_rc in U. cbn in U.
  destruct (gi_var _ _ _ _ I v P J) as [->|(r & d & p & -> & B)]; [discriminate|]. cbn in *. apply Nat.eqb_eq in U. subst r. rewrite A in B. injection B as <- <-. reflexivity.
Qed.

Theorem g_never_fails n s st o : gprogram n s st -> glegal s st o -> exists st', gstep st o = Ok st'.
Proof. intros H L. destruct (program_inv _ _ _ H) as (G & I & R). destruct (step_inv _ _ _ _ _ I R L) as (st' & _ & E & _). eauto. Qed.
Theorem g_allocated n s st : gprogram n s st ->
  forall b, aget (gblk st) b <> None <-> In b (graw s) \/ exists v, gtarget s v = Some (Block b).
Proof.
  intros H b. destruct (program_inv _ _ _ H) as (G & I & R). rewrite (gi_blk _ _ _ _ I b). apply or_iff_compat_l. split.
  - intros (rc & dv & A). exact (group_var _ _ _ _ _ _ _ I A).
  - intros (v & T). destruct (block_var _ _ _ _ _ _ I T) as (rc & dv & _ & A). eauto.
Qed.
Theorem g_observe n s st v b : gprogram n s st -> gtarget s v = Some (Block b) ->
  g_isnull st v = Ok false /\ g_arrow st v = Ok (Some b) /\ g_refcount st v = Ok (Z.of_nat (pointers_to s b)) /\
  exists k, g_deviceID st v = Ok k /\ 0 <= k < n.
Proof.
  intros H T. destruct (program_inv _ _ _ H) as (G & I & R). destruct (block_var _ _ _ _ _ _ I T) as (rc & dv & E & A).
  unfold g_isnull, g_arrow, g_refcount, g_deviceID. rewrite E. cbn. split; [reflexivity|]. split; [reflexivity|]. split.
  - rewrite (proj1 (gi_rc _ _ _ _ I _ _ _ A)), (count_pointers _ _ _ _ _ _ _ I A). reflexivity.
  - destruct (gi_dv _ _ _ _ I _ _ _ A) as (k & B & C & _). exists k. rewrite B. auto.
Qed.
Theorem g_observe_null n s st v : gprogram n s st -> (gtarget s v = Some Null \/ gtarget s v = Some Unset) ->
  g_isnull st v = Ok true /\ g_arrow st v = Ok None /\ (gtarget s v = Some Unset -> g_refcount st v = UB /\ g_deviceID st v = UB) /\
  (gtarget s v = Some Null -> exists m k, g_refcount st v = Ok m /\ 1 <= m /\ g_deviceID st v = Ok k /\ 0 <= k < n).
Proof.
  intros H T. destruct (program_inv _ _ _ H) as (G & I & R). rewrite (target_meaning _ _ _ _ v I) in *.
  unfold g_isnull, g_arrow, g_refcount, g_deviceID. destruct (aget (gvar st) v) as [P|] eqn:E; [|destruct T; discriminate].
  destruct (gi_var _ _ _ _ I v P E) as [->|(r & d & p & -> & A)]; cbn.
  - split; [reflexivity|]. split; [reflexivity|]. split; [auto|]. discriminate.
  - destruct p as [c|]; [destruct T; discriminate|]. split; [reflexivity|]. split; [reflexivity|]. split; [discriminate|]. intros _.
    destruct (gi_rc _ _ _ _ I _ _ _ A) as [B C]. destruct (gi_dv _ _ _ _ I _ _ _ A) as (k & D & K & _). rewrite B, D. eexists _, k. repeat split; try lia.
Qed.
Theorem g_device n s st v b k : gprogram n s st -> gtarget s v = Some (Block b) -> aget (gfrom s) b = Some k ->
  g_deviceID st v = Ok k /\ aget (gblk st) b = Some k.
Proof.
  intros H T F. destruct (program_inv _ _ _ H) as (G & I & R). destruct (block_var _ _ _ _ _ _ I T) as (rc & dv & E & A).
  destruct (gi_dv _ _ _ _ I _ _ _ A) as (k2 & B & C & D). unfold g_deviceID. rewrite E. cbn. rewrite B, (D b k eq_refl F). split; [reflexivity|].
  destruct (aget (gblk st) b) as [k3|] eqn:X. 2:{ exfalso. apply (proj2 (gi_blk _ _ _ _ I b)); [right; eauto|exact X]. }
  rewrite (gi_from _ _ _ _ I _ _ _ X F). f_equal. exact (D b k eq_refl F).
Qed.
(** Assignments that change nothing. *)
Theorem g_same n s st v w : gprogram n s st -> g_in_scope s v ->
  (v = w \/ exists b, gtarget s v = Some (Block b) /\ gtarget s w = Some (Block b)) -> gstep st (GAssign v w) = Ok st.
Proof.
  intros H S C. destruct (program_inv _ _ _ H) as (G & I & R). cbn. unfold assign_ptr. destruct C as [<-|(b & T1 & T2)].
  - destruct (scope_get _ _ _ _ _ I S) as (P & E). rewrite E. rewrite (proj2 (dptr_eqb_iff P P)); auto.
  - destruct (block_var _ _ _ _ _ _ I T1) as (r1 & d1 & E1 & A1). destruct (block_var _ _ _ _ _ _ I T2) as (r2 & d2 & E2 & A2). rewrite E1, E2.
    destruct (gi_sep _ _ _ _ I _ _ _ _ _ _ A1 A2) as (_ & _ & U). assert (r1 = r2) as <- by (apply U; [reflexivity|discriminate]).
    rewrite A1 in A2. injection A2 as <-. rewrite (proj2 (dptr_eqb_iff _ _)); auto.
Qed.
(** Assigning a pointer that was never set. *)
Theorem g_unset_assign n s st v w : gprogram n s st -> g_in_scope s v -> gtarget s v <> Some Unset -> gtarget s w = Some Unset ->
  gstep st (GAssign v w) = UB.
Proof.
  intros H S N T. destruct (program_inv _ _ _ H) as (G & I & R). cbn. unfold assign_ptr. destruct (scope_get _ _ _ _ _ I S) as (P & EP). rewrite EP.
  rewrite (target_meaning _ _ _ _ v I), EP in N. rewrite (target_meaning _ _ _ _ w I) in T. destruct (aget (gvar st) w) as [Q|] eqn:EQ; [|discriminate].
  destruct (gi_var _ _ _ _ I w Q EQ) as [->|(r & d & p & -> & A)]; [|destruct p; discriminate]. destruct (dptr_eqb P _) eqn:B.
  { exfalso. apply (eqb_same _ _ _ _ _ _ _ _ I EP EQ) in B. subst P. apply N. reflexivity. }
  destruct (give_up_inv _ _ _ _ _ _ I EP) as (st1 & P1 & G1 & E & _). rewrite E. reflexivity.
Qed.
(** What is left when all pointers are gone. *)
Theorem g_left_over n s st : gprogram n s st -> (2 * gdead s <= length (gint st))%nat /\
  ((forall v, gtarget s v = None) -> length (gint st) = (2 * gdead s)%nat /\ forall b, aget (gblk st) b <> None <-> In b (graw s)).
Proof.
  intros H. split.
  - destruct (program_inv _ _ _ H) as (G & I & R). rewrite (gi_len _ _ _ _ I). lia.
  - intros T. split.
    + destruct (program_inv _ _ _ H) as (G & I & R). rewrite (gi_len _ _ _ _ I). destruct G as [|[rc [dv p]] G]; [cbn; lia|]. exfalso.
      assert (A : aget ((rc, (dv, p)) :: G) rc = Some (dv, p)) by (rewrite aget_cons, Nat.eqb_refl; reflexivity).
      destruct (gi_rc _ _ _ _ I _ _ _ A) as [_ C]. rewrite cntv_zero in C; [lia| |apply I]. intros v P E.
      pose proof (target_meaning _ _ _ _ v I) as X. rewrite T, E in X. discriminate.
    + intros b. rewrite (g_allocated _ _ _ H b). split; [intros [J|(v & X)]; [exact J|rewrite T in X; discriminate]|auto].
Qed.
(** The device recorded for a raw block, and the thread's device afterwards. *)
Theorem g_raw_device n s st v b c rc dv k st' : gprogram n s st -> glegal s st (GAssignRaw v (Some b) rc dv) ->
  gtarget s v = Some (Block c) -> g_deviceID st v = Ok k -> gstep st (GAssignRaw v (Some b) rc dv) = Ok st' ->
  g_deviceID st' v = Ok (gcur st') /\ gcur st' = if (pointers_to s c =? 1)%nat then k else gcur st.
Proof.
  intros H (S & F & X) T D E. destruct (program_inv _ _ _ H) as (G & I & R). destruct (block_var _ _ _ _ _ _ I T) as (r & d & EV & A).
  destruct (give_up_inv _ _ _ _ _ _ I EV) as (st1 & P1 & G1 & GU & GV & I1). cbn in E. unfold assign_raw in E. rewrite EV, GU in E. cbn [obind fst] in E.
  injection E as <-. unfold g_deviceID. gsimpl. rewrite aget_aset, Nat.eqb_refl. unfold g_read. cbn [ddev]. gsimpl. rewrite aget_aset, Nat.eqb_refl. split; [reflexivity|].
  destruct (gi_rc _ _ _ _ I _ _ _ A) as [B C]. rewrite (count_pointers _ _ _ _ _ _ _ I A) in *. unfold give_up in GU. cbn [drc ddev dp] in GU. rewrite B in GU.
  unfold g_deviceID in D. rewrite EV in D. cbn in D. destruct (aget (gint st) d) as [kk|] eqn:K; [|discriminate]. injection D as ->.
  assert (NE : d <> r) by (apply (gi_sep _ _ _ _ I _ _ _ _ _ _ A A)).
  destruct (Nat.eqb_spec (pointers_to s c) 1) as [Y|Y]; destruct (Z.eqb_spec (Z.of_nat (pointers_to s c) - 1) 0) as [W|W]; try lia.
  - cbn [g_int gint] in GU. rewrite aget_adel, aget_aset in GU. destruct (Nat.eqb_spec r d); [congruence|]. rewrite K in GU.
    unfold cuda_free, cuda_set_device in GU. destruct (_ && _); [|discriminate]. cbn [obind] in GU. destruct (aget _ c); [|discriminate]. injection GU as <- _. reflexivity.
  - injection GU as <- _. reflexivity.
Qed.
(** A device number that does not exist. *)
Theorem g_no_device st v b rc dv k : gdevs st <= k -> gstep st (GShared v b rc dv k) = Throw /\ gstep st (GMalloc b k) = Throw /\
  raw_error (gdevs st) k = Some RangeError /\ (shared_error (gdevs st) k = Some RangeError <-> k <> gdevs st).
Proof.
  intros K. cbn. unfold shared_error, raw_error. destruct (Z.leb_spec (gdevs st) k); [|lia].
  destruct (Z.ltb_spec (gdevs st) k); [repeat split; lia|]. destruct (Z.ltb_spec k (gdevs st)); [lia|]. repeat split; try discriminate. lia.
Qed.

(** A program on a machine with two devices: pointers 0 and 1 share block 50 of
    device 1, pointer 2 got the raw block 51 of device 1 while the thread's
    device was 0. *)
Fixpoint legal_run (s : gspec) (st : gmem) (os : list gop) : Prop :=
  match os with
  | [] => True
  | o :: os => glegal s st o /\ match gstep st o with Ok st1 => legal_run (gspec_step s o) st1 os | _ => False end
  end.
Lemma run_program n os s st st' : gprogram n s st -> legal_run s st os -> grun st os = Ok st' -> gprogram n (fold_left gspec_step os s) st'.
Proof.
  revert s st. induction os as [|o os IH]; intros s st H L E; cbn in *; [congruence|].
  destruct L as [L1 L2]. destruct (gstep st o) as [st1| |] eqn:S; [|destruct L2|destruct L2]. apply (IH _ st1); [eapply gp_step; eassumption|exact L2|exact E].
Qed.
Ltac run_step := match goal with |- context [gstep ?st ?o] =>
  let r := eval vm_compute in (gstep st o) in change (gstep st o) with r; cbn iota beta end.
Ltac run_fresh := intros P st1 P1 E F; cbn in E; injection E as <-; cbn in F; injection F as <- <-; repeat split; try reflexivity; discriminate.
Definition gops : list gop := [GShared 0 50 100 101 1; GCopy 1 0; GMalloc 51 1; GSetDevice 0; GDefault 2; GAssignRaw 2 (Some 51%nat) 102 103; GDefault 3].
Definition gs7 : gspec := Eval vm_compute in fold_left gspec_step gops gspec_new.
Definition gm7 : gmem := Eval vm_compute in match grun (gmem_new 2 0) gops with Ok st => st | _ => gmem_new 0 0 end.
Lemma gprog7 : gprogram 2 gs7 gm7.
Proof.
  change gs7 with (fold_left gspec_step gops gspec_new). apply (run_program 2 gops gspec_new (gmem_new 2 0) gm7); [apply gp_start; lia| |vm_compute; reflexivity].
  unfold gops. cbn [legal_run]. split.
  { cbn. unfold g_unused, valid_device, fresh_ints. cbn. repeat split; try reflexivity; try lia; discriminate. }
  run_step. split; [split; [reflexivity|discriminate]|]. run_step. split; [split; [unfold valid_device; cbn; lia|reflexivity]|].
  run_step. split; [cbn; unfold valid_device; cbn; lia|]. run_step. split; [reflexivity|]. run_step. split.
  { split; [discriminate|]. split; [|left; reflexivity]. run_fresh. }
  run_step. split; [reflexivity|]. run_step. exact Logic.I.
Qed.
(** A raw block is recorded as being on the thread's device. *)
Lemma wrong_device : exists s st v b k k', gprogram 2 s st /\ gtarget s v = Some (Block b) /\
  aget (gblk st) b = Some k /\ g_deviceID st v = Ok k' /\ k' <> k.
Proof. exists gs7, gm7, 2%nat, 51%nat, 1, 0. split; [exact gprog7|]. do 3 (split; [reflexivity|]). discriminate. Qed.
(** A raw block given to two pointers. *)
Definition twice : list gop := [GMalloc 50 0; GDefault 0; GDefault 1; GAssignRaw 0 (Some 50%nat) 100 101; GAssignRaw 1 (Some 50%nat) 102 103; GDestroy 0 104 105].
Definition twice_st : gmem := Eval vm_compute in match grun (gmem_new 2 0) twice with Ok st => st | _ => gmem_new 0 0 end.
Lemma given_twice : exists st, grun (gmem_new 2 0) twice = Ok st /\ g_arrow st 1 = Ok (Some 50%nat) /\ g_refcount st 1 = Ok 1 /\
  aget (gblk st) 50 = None /\ gstep st (GDestroy 1 106 107) = Throw.
Proof. exists twice_st. split; [vm_compute; reflexivity|]. repeat split; vm_compute; reflexivity. Qed.
