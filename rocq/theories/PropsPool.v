(** Property theorems about the memory pool: C22-C24. *)
From Verif Require Import Prelude PoolM PoolS PoolP.

(** C22.  [wmem w'] are all blocks that exist, with their allocated size. *)
Theorem C22_get_exclusive : forall w a n, history w -> ~ In a (map fst (wmem w)) -> 0 <= n ->
  let '(p, w') := do_get w a n in
  ~ In p (wout w) /\ wout w' = p :: wout w /\ NoDup (map fst (wmem w')) /\
  exists k, In (p, k) (wmem w') /\ n <= k.
Proof. exact get_exclusive. Qed.
Print Assumptions C22_get_exclusive.

(** C23.  Counts, and no block lost: what the destructor frees together with what
    is handed out is every block, each once. *)
Theorem C23_accounting : forall w, history w ->
  pool_active (wpool w) = Z.of_nat (length (wout w)) /\
  pool_total (wpool w) = Z.of_nat (length (wmem w)) /\
  NoDup (wout w ++ pool_destroy (wpool w)) /\
  (forall p, In p (map fst (wmem w)) <-> In p (wout w ++ pool_destroy (wpool w))) /\
  forall k, count_size (wmem w) (map fst (wmem w)) k = wpeak w k.
Proof. exact accounting. Qed.
Print Assumptions C23_accounting.

(** Putting back a block that is handed out never fails; it becomes the next
    one to be reused for its size. *)
Theorem C23_put_accepted : forall w p, history w -> In p (wout w) -> exists w', do_put w p = Ok w' /\
  forall k, In (p, k) (wmem w) -> exists q, In (k, p :: q) (pfqm (wpool w')).
Proof. exact put_accepted. Qed.
Print Assumptions C23_put_accepted.

(** A history: three gets, one put, one more get that reuses the block. *)
Definition pool_w1 : world := snd (do_get (snd (do_get (snd (do_get world_new 10 100)) 20 50)) 30 300).
Definition pool_w2 : world := match do_put pool_w1 20 with Ok w => w | _ => world_new end.
Lemma pool_h1 : history pool_w1.
Proof. unfold pool_w1. repeat (apply h_get; [|cbn; intuition congruence|lia]). exact h_new. Qed.
Lemma pool_h2 : history pool_w2.
Proof. apply (h_put pool_w1 20); [exact pool_h1|cbn; auto|reflexivity]. Qed.
Example C22_C23_hyps_met :
  history pool_w2 /\ ~ In 40%nat (map fst (wmem pool_w2)) /\
  wout pool_w2 = [30; 10]%nat /\ wmem pool_w2 = [(30%nat, 310); (20%nat, 110); (10%nat, 110)] /\
  fst (do_get pool_w2 40 90) = 20%nat /\ In 30%nat (wout pool_w2).
Proof. split; [exact pool_h2|]. vm_compute. intuition congruence. Qed.

(** C24.  Histories with one illegal put at the end. *)
(** After putting a block back twice two gets return the same block. *)
Theorem C24_double_put : exists w p w1 w2, history w /\ In p (wout w) /\
  do_put w p = Ok w1 /\ ~ In p (wout w1) /\ do_put w1 p = Ok w2 /\
  forall a b n, 0 <= n <= 100 ->
    fst (do_get w2 a n) = p /\ fst (do_get (snd (do_get w2 a n)) b n) = p.
Proof. exact double_put. Qed.
Print Assumptions C24_double_put.

(** A pointer the pool never issued is accepted and handed out later, whatever
    its size: [p] is any address that is not a block of the pool. *)
Theorem C24_foreign_put : exists w, history w /\ forall p, ~ In p (map fst (wmem w)) ->
  exists w1, do_put w p = Ok w1 /\ forall a n, 0 <= n <= 100 -> fst (do_get w1 a n) = p.
Proof. exact foreign_put. Qed.
Print Assumptions C24_foreign_put.

(** In general: a put of any pointer succeeds as soon as the pool has been used. *)
Theorem C24_never_rejected : forall w p, history w -> wmem w <> [] -> exists w', do_put w p = Ok w'.
Proof. exact put_never_rejected. Qed.
Print Assumptions C24_never_rejected.

(** On an unused pool the same call dereferences end(). *)
Theorem C24_unused_pool : forall p, do_put world_new p = UB.
Proof. exact put_unused. Qed.
Print Assumptions C24_unused_pool.

(** After a double put active() is no longer the number of blocks handed out. *)
Theorem C24_active_wrong : exists w p w1 w2, history w /\ In p (wout w) /\
  do_put w p = Ok w1 /\ do_put w1 p = Ok w2 /\ wout w2 = [] /\ pool_active (wpool w2) = -1.
Proof. exact active_wrong. Qed.
Print Assumptions C24_active_wrong.

Example C24_hyps_met : history pool_w2 /\ wmem pool_w2 <> [].
Proof. split; [exact pool_h2|]. vm_compute. discriminate. Qed.
