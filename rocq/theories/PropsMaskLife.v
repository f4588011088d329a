(** Property C78: masks, their copies and their copies on GPUs. *)
From Verif Require Import Prelude WindowM WindowS MaskM MaskS ConsumerM MaskLifeM MaskLifeS MaskLifeT MaskLifeE.

(** Every call on every mask of a program that keeps the rules replies what the
    specification (which knows no memory) says: no call is undefined. *)
Theorem C78_replies : forall cuda junk l, legal_history cuda [] l ->
  exists w, mrun cuda junk no_masks l = Go (w, observed cuda [] l) Done.
Proof. exact replies. Qed.
Print Assumptions C78_replies.

(** Reading a bit at any place, at any time: it throws, or says whether the
    point is among those the mask, or the mask it is a copy of, was made from. *)
Theorem C78_bits : forall cuda junk l i p q w ps,
  legal_history cuda [] (l ++ [ReadAt i p q]) -> nth i (origins [] l) None = Some (w, ps) ->
  exists s r, mrun cuda junk no_masks (l ++ [ReadAt i p q]) = Go (s, observed cuda [] l ++ [r]) Done /\
    (r = Threw \/ (r = Yes /\ In q ps) \/ (r = No /\ ~ In q ps)) /\
    (r = Threw <-> forall z, alive (after cuda [] l) i = Some z -> readable cuda z p = false).
Proof. exact bits. Qed.
Print Assumptions C78_bits.

(** operator() of a mask in CPU memory never throws. *)
Theorem C78_bits_on_cpu : forall cuda junk l i q w ps k,
  legal_history cuda [] (l ++ [At i q]) -> nth i (origins [] l) None = Some (w, ps) ->
  (forall z, alive (after cuda [] l) i = Some z -> z_home z = (LOCAL_RAM, k)) ->
  exists s r, mrun cuda junk no_masks (l ++ [At i q]) = Go (s, observed cuda [] l ++ [r]) Done /\
    ((r = Yes /\ In q ps) \/ (r = No /\ ~ In q ps)).
Proof. exact bits_at. Qed.
Print Assumptions C78_bits_on_cpu.

(** When all masks are gone the pool has every block back, once, in the queue
    of its own memory. *)
Theorem C78_returned : forall cuda junk l w rs, legal_history cuda [] l ->
  (forall w q ps k, ~ In (New w (q :: ps) (EXTERNAL_CUDA_GPU, k)) l) -> nobody (after cuda [] l) ->
  mrun cuda junk no_masks l = Go (w, rs) Done -> all_returned (fst w).
Proof. exact returned. Qed.
Print Assumptions C78_returned.

(** Without the rules.  A copy that outlives its original shows the points of
    another mask, on every window and for all points. *)
Theorem C78_copy_outlives_refuted : forall junk cuda w ps ps' q k,
  pos_dims (wglob w) -> Forall (in_block w) ps -> Forall (in_block w) ps' -> in_block w q ->
  exists s, mrun cuda junk no_masks
    [New w ps (LOCAL_RAM, k); Copy 0; Destroy 0; New w ps' (LOCAL_RAM, k); At 1 q] =
    Go (s, [Done; Done; Done; Done; yes (is_member q ps')]) Done.
Proof. exact copy_outlives. Qed.
Print Assumptions C78_copy_outlives_refuted.

(** Destroying a mask that was made on a GPU is undefined. *)
Theorem C78_gpu_destroy_refuted : forall junk w k,
  mrun true junk no_masks [New w [] (EXTERNAL_CUDA_GPU, k); Destroy 0] = Fail BadFree.
Proof. exact gpu_destroy. Qed.
Print Assumptions C78_gpu_destroy_refuted.

(** It can also go unnoticed: then its block is handed out as CPU memory. *)
Theorem C78_gpu_block_on_cpu_refuted : forall junk,
  mrun true junk no_masks [New e_win [] (LOCAL_RAM, 0%nat); New e_win [] (EXTERNAL_CUDA_GPU, 0%nat); Destroy 1; New e_win [] (LOCAL_RAM, 0%nat)] = Fail BadAccess.
Proof. exact gpu_block_on_cpu. Qed.
Print Assumptions C78_gpu_block_on_cpu_refuted.

(** Removing the consumers of a mask while a copy is left: the copy still says
    that it can be read on the GPU, and there it shows another mask. *)
Theorem C78_removed_under_copy_refuted : forall junk, exists s,
  mrun true junk no_masks [New e_win [IV 1 0 0] (LOCAL_RAM, 0%nat); Add 0 (EXTERNAL_CUDA_GPU, 0%nat); Copy 0; Remove 0;
                   New e_win [] (LOCAL_RAM, 0%nat); Add 2 (EXTERNAL_CUDA_GPU, 0%nat);
                   Find 1 (EXTERNAL_CUDA_GPU, 0%nat); ReadAt 1 (EXTERNAL_CUDA_GPU, 0%nat) (IV 1 0 0); At 1 (IV 1 0 0)] =
  Go (s, [Done; Done; Done; Done; Done; Done; Yes; No; Yes]) Done.
Proof. exact removed_under_copy. Qed.
Print Assumptions C78_removed_under_copy_refuted.

(** Making a mask with points on a GPU throws, and its block is lost. *)
Theorem C78_throw_leaks_refuted : forall junk w q ps k,
  exists s, mrun true junk no_masks [New w (q :: ps) (EXTERNAL_CUDA_GPU, k)] = Go ((s, [None]), [Threw]) Done /\
  exists b, s_heap s 0%nat = Some b /\ free_blocks (mp_cpu (s_pool s)) = [] /\ free_blocks (mp_gpu (s_pool s)) = [].
Proof. exact throw_leaks. Qed.
Print Assumptions C78_throw_leaks_refuted.

(** has_consumers says no although the mask is on another GPU than GPU 0. *)
Theorem C78_has_consumers_refuted : forall junk w ps k, pos_dims (wglob w) -> Forall (in_block w) ps -> k <> 0%nat ->
  exists s, mrun true junk no_masks [New w ps (LOCAL_RAM, 0%nat); Add 0 (EXTERNAL_CUDA_GPU, k); Has 0; Find 0 (EXTERNAL_CUDA_GPU, k)] =
    Go (s, [Done; Done; No; Yes]) Done.
Proof. exact has_only_first. Qed.
Print Assumptions C78_has_consumers_refuted.

(** A history with copies, GPU copies and reuse that keeps the rules. *)
Example C78_hyps_met : legal_history true [] e_hist /\ nobody (after true [] e_hist) /\
  observed true [] e_hist = [Done; Done; Done; Done; Yes; No; Threw; Done; Done; Done; No; Yes; Done; Done] /\
  nth 1 (origins [] e_hist) None = Some (e_win, [IV 1 1 0; IV 2 0 0]).
Proof. split; [exact e_legal|]. split; [exact e_returned|]. split; reflexivity. Qed.
