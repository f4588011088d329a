(** Specification vocabulary for assignment on a GPU. *)
From Verif Require Import Prelude WindowM GhostM FieldM MaskM NeboM NeboS ParM ParS GpuM.

Section GpuS.
Variable V : Type.
Variable vadd vmul : V -> V -> V.

Definition krace_free (st : kernel V) : Prop := forall i k a b x y, i <> k ->
  nth_error (kthreads st) i = Some a -> nth_error (kthreads st) k = Some b ->
  next_access a = Some x -> next_access b = Some y -> ~ races x y.
Definition kno_failure (st : kernel V) : Prop :=
  forall i p, nth_error (kthreads st) i = Some p -> ~ stuck_job (kheap st) p.

(** The kernel of f <<= e (ug = true; interior_assign: ug = false) launched on
    memory h.  In every interleaving of its threads: no thread fails, no two
    threads race, some thread can move until all have finished, the number of
    steps is bounded, and then memory is what f = e on R means. *)
Definition gpu_runs (h : heap V) (f : field) (e : expr V) (ug : bool) (R : ivec -> Prop) : Prop :=
  exists N, forall fuel, (N <= fuel)%nat -> exists threads,
    gpu_threads V vadd vmul fuel ug f e = Ok threads /\
    (exists bound, forall n st, ksteps n (Kern h threads) st -> (n <= bound)%nat) /\
    forall st, kreach (Kern h threads) st ->
      kno_failure st /\ krace_free st /\ (kdone st \/ exists st', kstep st st') /\
      (kdone st -> assigned V h (kheap st) f R (denote V vadd vmul h e)).
(** ... and memory is what the sequential assignment on the CPU leaves. *)
Definition gpu_like_cpu (h : heap V) (f : field) (e : expr V) (ug : bool) : Prop :=
  exists N, forall fuel, (N <= fuel)%nat -> exists threads h',
    gpu_threads V vadd vmul fuel ug f e = Ok threads /\
    run (sequential_assign V vadd vmul fuel ug f e) h = RDone h' tt /\
    forall st, kreach (Kern h threads) st -> kdone st -> same_heap (kheap st) h'.

(** Rounded up to a whole number of 16 x 16 thread blocks. *)
Definition launched (extent : Z) : Z := 16 * ((extent + 15) / 16).
(** The points of R that the launched threads reach: the first [launched]
    columns and rows of R, counted in the window f has before the assignment. *)
Definition reached (f : field) (R : ivec -> Prop) (p : ivec) : Prop :=
  R p /\ forall q, R q ->
    ix p - ix q < launched (ix (wext (fwin f))) /\ iy p - iy q < launched (iy (wext (fwin f))).

(** Single values do not share storage with the destination. *)
Definition singles_apart (f : field) (e : expr V) : Prop := forall g, In g (singles V e) -> fbuf g <> fbuf f.

(** Every field, mask and single value of e has a copy on device d. *)
Definition accessible (has : field -> place -> bool) (mhas : mask -> place -> bool) (e : expr V) (d : place) : Prop :=
  (forall g s, In (g, s) (reads V e iv_zero) -> has g d = true) /\
  (forall m s, In (m, s) (masks V e iv_zero) -> mhas m d = true) /\
  (forall g, In g (singles V e) -> has g d = true).
End GpuS.
Arguments krace_free {V}. Arguments kno_failure {V}.
