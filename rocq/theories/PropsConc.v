From Coq Require Import Sorting.Permutation.
From Verif Require Import Prelude PoolM PoolS PtrM ConcM ConcS ConcT ConcU ConcE.

(** C60.  [w]: what was done with the pool before; [progs]: what each thread does,
    with scratch fields only.  Nothing is undefined; the arrays of two handles are
    different unless they are copies of one another in one thread; no array was in
    use before; each is large enough; one thread at a time is inside the pool. *)
Theorem C60_exclusive : forall w progs, history w -> Forall (Forall store_op) progs ->
  forall st, creach (conc_start w progs) st ->
  ~ cstep st UB /\
  (forall i j t t' H H', nth_error (cthr st) i = Some t -> nth_error (cthr st) j = Some t' -> In H (handles t) -> In H' (handles t') ->
     hblk H = hblk H' -> i = j /\ hcnt H = hcnt H') /\
  (forall i t H, nth_error (cthr st) i = Some t -> In H (handles t) ->
     ~ In (hblk H) (wout w) /\ exists k, In (hblk H, k) (smem (csh st)) /\ hpts H <= k) /\
  (forall i j t t', nth_error (cthr st) i = Some t -> nth_error (cthr st) j = Some t' -> in_pool t -> in_pool t' -> i = j).
Proof. intros w progs Hw Hp st. exact (conc_exclusive w progs st Hw Hp). Qed.
Print Assumptions C60_exclusive.

(** While no thread is inside the pool, the pool is one that calls made one after
    the other give, with exactly the arrays of the threads handed out. *)
Theorem C60_as_if_in_turn : forall w progs, history w -> Forall (Forall store_op) progs ->
  forall st, creach (conc_start w progs) st -> (forall t, In t (cthr st) -> ~ in_pool t) ->
  exists w', history w' /\ wpool w' = spl (csh st) /\ wmem w' = smem (csh st) /\
             Permutation (wout w') (wout w ++ flat_map held (cthr st)).
Proof. intros w progs Hw Hp st. exact (conc_in_turn w progs st Hw Hp). Qed.
Print Assumptions C60_as_if_in_turn.

(** A thread that is not in the middle of an operation finds the number of copies
    in each counter. *)
Theorem C60_count : forall w progs, history w -> Forall (Forall store_op) progs ->
  forall st, creach (conc_start w progs) st ->
  forall t H, In t (cthr st) -> tpc t = PIdle -> In H (thdl t) ->
  aget (scnt (csh st)) (hcnt H) = Some (sharing (thdl t) (hcnt H)).
Proof. intros w progs Hw Hp st. exact (conc_count w progs st Hw Hp). Qed.
Print Assumptions C60_count.

(** When all handles have been dropped, all has been given back. *)
Theorem C60_all_returned : forall w progs, history w -> Forall (Forall store_op) progs ->
  forall st, creach (conc_start w progs) st -> (forall t, In t (cthr st) -> tpc t = PIdle /\ thdl t = []) ->
  scnt (csh st) = [] /\ pool_active (spl (csh st)) = pool_active (wpool w) /\
  exists w', history w' /\ wpool w' = spl (csh st) /\ Permutation (wout w') (wout w).
Proof. intros w progs Hw Hp st. exact (conc_returned w progs st Hw Hp). Qed.
Print Assumptions C60_all_returned.

(** A thread that has ended has the handles its program says ([leaves]), on the
    scratch fields its program says: two handles share an array exactly if one
    scratch field was obtained for both. *)
Theorem C60_handles : forall w progs, history w -> Forall (Forall store_op) progs ->
  forall st, creach (conc_start w progs) st ->
  forall i t p, nth_error (cthr st) i = Some t -> nth_error progs i = Some p -> ended t ->
  map hpts (thdl t) = map snd (leaves 0 [] p) /\
  forall j k H H' x y, nth_error (thdl t) j = Some H -> nth_error (thdl t) k = Some H' ->
    nth_error (leaves 0 [] p) j = Some x -> nth_error (leaves 0 [] p) k = Some y -> (hblk H = hblk H' <-> fst x = fst y).
Proof. intros w progs Hw Hp st. exact (conc_handles w progs st Hw Hp). Qed.
Print Assumptions C60_handles.

(** If every program drops all its handles, then at the end of every run all has
    been given back. *)
Theorem C60_balanced : forall w progs, history w -> Forall (Forall store_op) progs ->
  Forall (fun p => leaves 0 [] p = []) progs ->
  forall st, creach (conc_start w progs) st -> (forall t, In t (cthr st) -> ended t) ->
  scnt (csh st) = [] /\ pool_active (spl (csh st)) = pool_active (wpool w) /\
  exists w', history w' /\ wpool w' = spl (csh st) /\ Permutation (wout w') (wout w).
Proof. intros w progs Hw Hp Hb st. exact (conc_balanced w progs st Hw Hp Hb). Qed.
Print Assumptions C60_balanced.

(** No deadlock. *)
Theorem C60_progress : forall w progs, history w -> Forall (Forall store_op) progs ->
  forall st, creach (conc_start w progs) st -> (exists t, In t (cthr st) /\ ~ ended t) -> exists st', cstep st (Ok st').
Proof. intros w progs Hw Hp st. exact (conc_progress w progs st Hw Hp). Qed.
Print Assumptions C60_progress.

(** Every run ends. *)
Theorem C60_ends : forall w progs n st, csteps n (conc_start w progs) st -> (n <= 12 * list_sum (map (@length cop) progs))%nat.
Proof. exact conc_bounded. Qed.
Print Assumptions C60_ends.

(** Ordinary fields do not take the mutex: a scratch field and an ordinary field,
    or two ordinary fields, made at the same time may share their memory, or the
    pool may be left undefined. *)
Theorem C60_ordinary_fields_refuted :
  (exists w st t t' H b, history w /\ wout w = [] /\ creach (conc_start w [[SGet 10]; [FNew 10]]) st /\
     nth_error (cthr st) 0 = Some t /\ nth_error (cthr st) 1 = Some t' /\ ended t /\ ended t' /\
     handles t = [H] /\ tfld t' = [b] /\ hblk H = b) /\
  (exists w st, history w /\ creach (conc_start w [[SGet 10]; [FNew 10]]) st /\ cstep st UB) /\
  (exists w st t t' b, history w /\ wout w = [] /\ creach (conc_start w [[FNew 10]; [FNew 10]]) st /\
     nth_error (cthr st) 0 = Some t /\ nth_error (cthr st) 1 = Some t' /\ ended t /\ ended t' /\ tfld t = [b] /\ tfld t' = [b]).
Proof. exact (conj ordinary_same (conj ordinary_ub two_ordinary)). Qed.
Print Assumptions C60_ordinary_fields_refuted.

(** Copies of one handle that two threads drop: the array may never be given back;
    the behaviour may be undefined; the array may be given back twice and then
    handed out twice. *)
Theorem C60_shared_handle_refuted :
  (exists w st, history w /\ wout w = [0%nat] /\ creach (given w 0 7 10 []) st /\
     (forall t, In t (cthr st) -> ended t /\ thdl t = []) /\ pool_active (spl (csh st)) = 1) /\
  (exists w st, history w /\ wout w = [0%nat] /\ creach (given w 0 7 10 []) st /\ cstep st UB) /\
  (exists w st t t' H H', history w /\ wout w = [0%nat] /\ creach (given w 0 7 10 [[SGet 10]; [SGet 10]]) st /\
     nth_error (cthr st) 2 = Some t /\ nth_error (cthr st) 3 = Some t' /\ ended t /\ ended t' /\
     handles t = [H] /\ handles t' = [H'] /\ hblk H = hblk H' /\ hcnt H <> hcnt H').
Proof. exact (conj given_leak (conj given_ub given_twice)). Qed.
Print Assumptions C60_shared_handle_refuted.

Example C60_hyps_met : exists w st, history w /\ wout w = [] /\ Forall (Forall store_op) progs_ex /\ creach (conc_start w progs_ex) st /\
  (exists t t' H H' b, nth_error (cthr st) 0 = Some t /\ nth_error (cthr st) 1 = Some t' /\
     handles t = [H; Hdl b (hcnt H) 10] /\ hblk H = b /\ handles t' = [H'] /\ hblk H' <> b /\ ~ ended t /\ ~ ended t').
Proof. exact met. Qed.

Example C60_balanced_hyps_met :
  Forall (fun p => leaves 0 [] p = []) [[SGet 10; HCopy 0; HDrop 0; HDrop 0]; [SGet 20; SGet 10; HDrop 0; HDrop 0]] /\
  leaves 0 [] [SGet 10; HCopy 0; SGet 5; HDrop 0] = [(0%nat, 10); (1%nat, 5)].
Proof. split; [repeat constructor|reflexivity]. Qed.
