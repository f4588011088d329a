(** Property theorems about thread-parallel assignment: C15, C16, C29. *)
From Verif Require Import Prelude WindowM WindowS WindowP GhostM FieldM FieldS FieldP MaskM MaskS MaskP NeboM NeboS NeboP NeboQ NeboA NeboB NeboC NeboD NeboE NeboF ParM ParS ParP ParQ.

(** C15.  [parallel_ok] is in ParS, the transition system in ParM. *)
Theorem C15_parallel_assign : forall V (vadd vmul : V -> V -> V) n h f e,
  operands_ok V n h e -> destination_ok V n h f -> alias_ok V f e -> covers_extra V f e ->
  (exists p, region V n f e p) -> 0 < fparts f ->
  parallel_ok V vadd vmul h f e true (region V n f e).
Proof. exact assign_parallel. Qed.
Print Assumptions C15_parallel_assign.

Theorem C15_parallel_interior_assign : forall V (vadd vmul : V -> V -> V) n h f e,
  operands_ok V n h e -> destination_ok V n h f -> alias_ok V f e ->
  (forall p, interior_cell n f p -> expr_known V n e p) -> 0 < fparts f ->
  parallel_ok V vadd vmul h f e false (interior_cell n f).
Proof. exact interior_parallel. Qed.
Print Assumptions C15_parallel_interior_assign.

(** With no or a negative number of partitions the call returns at once and
    nothing is ever assigned. *)
Theorem C15_zero_partitions : forall V (vadd vmul : V -> V -> V) n h f e,
  operands_ok V n h e -> destination_ok V n h f -> covers_extra V f e ->
  (exists p, region V n f e p) -> fparts f <= 0 -> forall fuel,
  run (thread_parallel_jobs V vadd vmul fuel true f e) h = RDone h [] /\ returned (par_start h []) /\
  forall st, reachable (par_start h []) st -> pheap st = h.
Proof. exact zero_parts. Qed.
Print Assumptions C15_zero_partitions.

(** Assigning to a read-only field never returns to the caller: the exception
    is thrown on the worker threads, which then do not post. *)
Theorem C15_readonly_never_returns : forall V (vadd vmul : V -> V -> V) fuel ug f e h jobs,
  freadonly f = true -> run (thread_parallel_jobs V vadd vmul fuel ug f e) h = RDone h jobs -> (0 < length jobs)%nat ->
  forall st, reachable (par_start h jobs) st -> ~ returned st.
Proof. exact readonly_never. Qed.
Print Assumptions C15_readonly_never_returns.

Example C15_hyps_met :
  operands_ok Z xdim xheap xe /\ destination_ok Z xdim xheap xf /\ alias_ok Z xf xe /\
  covers_extra Z xf xe /\ region Z xdim xf xe (IV 3 1 0) /\ 0 < fparts xf /\
  (forall p, interior_cell xdim xf p -> expr_known Z xdim xe p) /\
  match run (thread_parallel_jobs Z Z.add Z.mul 100 true xf xe) xheap with RDone _ jobs => length jobs = 4%nat | _ => False end.
Proof.
  refine (conj x_operands (conj x_destination (conj x_alias (conj x_covers (conj x_region (conj _ (conj x_interior _))))))); vm_compute; reflexivity.
Qed.
Example C15_readonly_hyps_met :
  let f := Field (fwin xf) (fint xf) (fbc xf) (fghosts xf) (fvalid xf) (fbuf xf) true false 4 in
  freadonly f = true /\
  match run (thread_parallel_jobs Z Z.add Z.mul 100 true f xe) xheap with RDone _ jobs => length jobs = 4%nat | _ => False end.
Proof. vm_compute; split; reflexivity. Qed.

(** C16 *)
Theorem C16_partition_visits : forall s, pos_dims s ->
  let visit := map (fun k => Nat.iter k (fun l => next_partition l s) iv_zero) (seq 0 (Z.to_nat (partition_count s))) in
  NoDup visit /\ forall l, In l visit <-> in_box s l.
Proof. exact partition_visits. Qed.
Print Assumptions C16_partition_visits.

Theorem C16_partition_fits : forall ext tc, pos_dims ext -> 0 < tc ->
  let s := find_partition ext tc in
  pos_dims s /\ iv_le s ext /\ (partition_count s = tc \/ partition_count s = 1).
Proof. exact find_partition_ok. Qed.
Print Assumptions C16_partition_fits.

Example C16_hyps_met : pos_dims (IV 2 3 2) /\ pos_dims (IV 9 4 1) /\ find_partition (IV 9 4 1) 7 = IV 7 1 1.
Proof. vm_compute; intuition congruence. Qed.

(** C29, for arbitrary jobs *)
Theorem C29_returns_after_all_jobs : forall V (h : heap V) jobs st, reachable (par_start h jobs) st -> returned st ->
  length (plive st) = length jobs /\ forall i j, nth_error (plive st) i = Some j -> j = None.
Proof. exact returned_all_done. Qed.
Print Assumptions C29_returns_after_all_jobs.

(** The caller blocks for ever only when some job failed. *)
Theorem C29_blocked_only_by_failure : forall V (h : heap V) jobs st, reachable (par_start h jobs) st -> ~ returned st ->
  (forall st', ~ pstep st st') -> exists i j, nth_error (plive st) i = Some (Some j) /\ stuck_job (pheap st) j.
Proof. exact blocked_failure. Qed.
Print Assumptions C29_blocked_only_by_failure.

(** Two jobs, each with one store, the second finishing first. *)
Example C29_hyps_met :
  let h : heap Z := fun _ => Block (fun _ => true) (fun _ => 0) in
  let j i := Store 0%nat i i (Ret tt) in
  exists st, reachable (par_start h [j 1; j 2]) st /\ returned st /\ bdata (pheap st 0%nat) 2 = 2.
Proof.
  cbv zeta. eexists. split.
  - eapply reach_front; [apply ps_schedule|]. eapply reach_front; [apply ps_schedule|].
    eapply reach_front; [eapply (ps_store _ _ 1%nat); reflexivity|].
    eapply reach_front; [eapply (ps_post _ _ 1%nat); reflexivity|].
    eapply reach_front; [eapply (ps_store _ _ 0%nat); reflexivity|].
    eapply reach_front; [eapply (ps_post _ _ 0%nat); reflexivity|]. cbn.
    eapply reach_front; [apply ps_wait; reflexivity|]. eapply reach_front; [apply ps_wait; reflexivity|]. apply reach_refl.
  - split; [split; reflexivity|reflexivity].
Qed.
