(** C82: the memory pool when memory runs out. *)
From Verif Require Import Prelude PoolM PoolS PoolOomM PoolOomS PoolOomP PoolOomT.

(** What a request does in every history with failures anywhere: it is rounded up
    to a size k >= n, and served from the blocks of that size or by the system;
    it fails only if the system has no k elements, and then hands out, takes back
    and loses nothing (PoolOomS.outcome_of). *)
Theorem C82_get : forall cuda w d sys n, ohistory cuda w -> sys_ok cuda w d sys -> 0 <= n -> d = false \/ cuda = true ->
  exists k, rounded (ow_asked w d) (n + padding (n :: ow_reqs w)) k /\ n <= k /\ outcome_of w d sys n k (oget cuda w d sys n).
Proof. exact get_spec. Qed.
Print Assumptions C82_get.

(** Without CUDA a request for GPU memory is refused. *)
Theorem C82_no_gpu : forall cuda w sys n, cuda = false -> ohistory cuda w -> 0 <= n ->
  fst (oget cuda w true sys n) = None /\ ow_out (snd (oget cuda w true sys n)) = ow_out w /\ ow_mem (snd (oget cuda w true sys n)) = ow_mem w.
Proof. exact get_no_gpu. Qed.
Print Assumptions C82_no_gpu.

(** Every block handed out can be put back. *)
Theorem C82_put : forall cuda w d p, ohistory cuda w -> In p (ow_out w d) -> exists w', oput cuda w d p = Ok w' /\
  ow_out w' = on (ow_out w) d (remove1 p (ow_out w d)) /\ ow_mem w' = ow_mem w.
Proof. exact put_spec. Qed.
Print Assumptions C82_put.

(** No block is handed out twice, CPU and GPU blocks are not mixed up, and the
    destructor frees every block that is not handed out, once. *)
Theorem C82_blocks : forall cuda w, ohistory cuda w ->
  (forall d, NoDup (ow_out w d) /\ NoDup (map fst (ow_mem w d)) /\ incl (ow_out w d) (map fst (ow_mem w d))) /\
  (forall p, ~ (In p (map fst (ow_mem w true)) /\ In p (map fst (ow_mem w false)))) /\
  NoDup (map fst (destroy2 cuda (ow_pool w))) /\
  (forall p, In p (map fst (destroy2 cuda (ow_pool w))) <-> exists d k, idle w d p k).
Proof. exact blocks. Qed.
Print Assumptions C82_blocks.

(** A request made again after its block was put back succeeds without asking the
    system, whatever memory there is then. *)
Theorem C82_again : forall cuda w d sys n p w1 w2 sys2, ohistory cuda w -> sys_ok cuda w d sys -> 0 <= n -> d = false \/ cuda = true ->
  oget cuda w d sys n = (Some p, w1) -> oput cuda w1 d p = Ok w2 -> sys_ok cuda w2 d sys2 ->
  exists q w3, oget cuda w2 d sys2 n = (Some q, w3) /\ ow_asked w3 = ow_asked w2.
Proof. exact again. Qed.
Print Assumptions C82_again.

(** active() and total() count the CPU requests that failed, for ever. *)
Theorem C82_counts : forall cuda w, ohistory cuda w ->
  active2 (ow_pool w) = Z.of_nat (length (ow_out w false)) + ow_failed w false /\
  total2 (ow_pool w) = Z.of_nat (length (ow_mem w false)) + ow_failed w false.
Proof. exact counts. Qed.
Print Assumptions C82_counts.
(** So active() is not the number of blocks handed out. *)
Theorem C82_active_refuted : ohistory false oom2 /\ ow_out oom2 false = [1%nat] /\ active2 (ow_pool oom2) = 2.
Proof. exact active_wrong2. Qed.
Print Assumptions C82_active_refuted.

(** A size that the system was once asked for and never gave stands in the way of
    smaller requests: they ask for that size, and fail as long as it is not there. *)
Theorem C82_blocked : forall cuda w d sys n k, ohistory cuda w -> sys_ok cuda w d sys -> 0 <= n -> d = false \/ cuda = true ->
  rounded (ow_asked w d) (n + padding (n :: ow_reqs w)) k -> (forall p, ~ In (p, k) (ow_mem w d)) -> sys k = None ->
  fst (oget cuda w d sys n) = None.
Proof. exact blocked. Qed.
Print Assumptions C82_blocked.
(** So a request may fail although the system has the memory: with room for 1000
    elements, 200 can be had, but not after a failed request for 5000. *)
Theorem C82_blocked_refuted : ohistory false oom2 /\ sys_ok false oom2 false (small_system 3) /\
  small_system 3 (200 + padding (200 :: ow_reqs oom2)) = Some (3%nat, ByDelete) /\
  fst (oget false oom2 false (small_system 3) 200) = None /\
  fst (oget false oom1 false (small_system 3) 200) = Some 3%nat.
Proof. exact blocked_demo. Qed.
Print Assumptions C82_blocked_refuted.

(** The destructor frees each block the way its memory must be freed, provided
    that with CUDA no request for pinned memory was met with ordinary memory. *)
Theorem C82_freed : forall cuda w, ohistory cuda w -> (cuda = true -> ow_fell w = false) ->
  forall p how, In (p, how) (destroy2 cuda (ow_pool w)) -> how = ow_how w p.
Proof. exact freed_right. Qed.
Print Assumptions C82_freed.
(** After one such request, pinned memory is passed to delete[]. *)
Theorem C82_pinned_refuted : ohistory true pin3 /\ In (1%nat, ByDelete) (destroy2 true (ow_pool pin3)) /\ ow_how pin3 1 = ByFreeHost.
Proof. exact pinned_wrong. Qed.
Print Assumptions C82_pinned_refuted.

(** After a failed request: the next request of 100 elements is served; the
    size 5010 is in the way of one of 200. *)
Example C82_hyps_met : ohistory false oom2 /\ sys_ok false oom2 false (small_system 3) /\ ow_failed oom2 false = 1 /\
  rounded (ow_asked oom2 false) (200 + padding (200 :: ow_reqs oom2)) 5010 /\ (forall p, ~ In (p, 5010) (ow_mem oom2 false)) /\
  (exists w1 w2, oget false oom2 false (small_system 3) 100 = (Some 3%nat, w1) /\ oput false w1 false 3 = Ok w2 /\
     sys_ok false w2 false (fun _ => None)).
Proof.
  split; [exact oom2_ok|]. split; [apply blocked_demo|]. split; [vm_compute; reflexivity|]. split; [|split].
  - left. vm_compute. split; [auto|]. split; [discriminate|]. intros j [<-|[<-|[]]] H; [discriminate|destruct H; reflexivity].
  - intros p. vm_compute. intros [E|[]]. discriminate.
  - eexists. eexists. split; [vm_compute; reflexivity|]. split; [vm_compute; reflexivity|]. intros k a how E. discriminate.
Qed.
(** With CUDA: a GPU block and a pinned CPU block, both put back. *)
Example C82_hyps_met_cuda : exists w, ohistory true w /\ ow_fell w = false /\ (forall d, exists p k, idle w d p k).
Proof.
  pose (w1 := snd (oget true oworld_new true (fun _ => Some (1%nat, ByCudaFree)) 50)).
  pose (w2 := snd (oget true w1 false (fun _ => Some (2%nat, ByFreeHost)) 70)).
  pose (w3 := match oput true w2 true 1 with Ok w => w | _ => w2 end).
  pose (w4 := match oput true w3 false 2 with Ok w => w | _ => w3 end).
  assert (H1 : ohistory true w1).
  { apply oh_get; [constructor| |lia]. intros k a how E. injection E as <- <-. split; [intros e []|reflexivity]. }
  assert (H2 : ohistory true w2).
  { apply oh_get; [exact H1| |lia]. intros k a how E. injection E as <- <-. split; [|left; reflexivity].
    intros e. destruct e; vm_compute; [|tauto]. intros [E|[]]. discriminate. }
  assert (H3 : ohistory true w3) by (apply (oh_put true w2 true 1 w3 H2); [vm_compute; auto|reflexivity]).
  assert (H4 : ohistory true w4) by (apply (oh_put true w3 false 2 w4 H3); [vm_compute; auto|reflexivity]).
  exists w4. split; [exact H4|]. split; [reflexivity|].
  intros d. destruct d; [exists 1%nat, 55|exists 2%nat, 75]; split; vm_compute; tauto.
Qed.
