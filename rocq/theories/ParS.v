(** Specification vocabulary for parallel runs. *)
From Verif Require Import Prelude WindowM GhostM FieldM MaskM NeboM NeboS ParM.

Section ParS.
Variable V : Type.
(** The next memory access of a job. *)
Definition next_access (j : prog V unit) : option access :=
  match j with
  | Load b c _ => Some (ALoad b c)
  | Store b c _ _ => Some (AStore b c)
  | _ => None
  end.
(** Two accesses race: same element, at least one of them a store. *)
Definition races (a b : access) : Prop :=
  match a, b with
  | ALoad x i, AStore y j | AStore x i, ALoad y j | AStore x i, AStore y j => x = y /\ i = j
  | ALoad _ _, ALoad _ _ => False
  end.
Definition race_free (st : par V) : Prop := forall i k a b x y, i <> k ->
  nth_error (plive st) i = Some (Some a) -> nth_error (plive st) k = Some (Some b) ->
  next_access a = Some x -> next_access b = Some y -> ~ races x y.
(** No job has failed. *)
Definition no_failure (st : par V) : Prop :=
  forall i j, nth_error (plive st) i = Some (Some j) -> ~ stuck_job (pheap st) j.
(** No execution is longer than [bound] steps. *)
Definition bounded (st : par V) : Prop := exists bound, forall n st', psteps n st st' -> (n <= bound)%nat.
(** Elements stored by one job are not accessed by any other, whatever the timing. *)
Definition jobs_disjoint (h : heap V) (jobs : list (prog V unit)) : Prop := forall i k p q b c, i <> k ->
  nth_error jobs i = Some p -> nth_error jobs k = Some q -> In (AStore b c) (accesses V p h) ->
  ~ In (ALoad b c) (accesses V q h) /\ ~ In (AStore b c) (accesses V q h).
(** Two memories with the same elements and the same values. *)
Definition same_heap (h h' : heap V) : Prop :=
  (forall b i, bcells (h b) i = bcells (h' b) i) /\ forall b i, bdata (h b) i = bdata (h' b) i.
(** The thread-parallel assignment f <<= e (ug = true; interior_assign: ug =
    false) from memory h.  In every execution: no job fails, no two jobs race,
    the caller or a job can always move until the caller has returned, the
    number of steps is bounded, and then memory is what the sequential
    assignment leaves and what f = e on R means.  For fuel see NeboM: it only
    makes the loops total. *)
Definition parallel_ok (vadd vmul : V -> V -> V) (h : heap V) (f : field) (e : expr V) (ug : bool) (R : ivec -> Prop) : Prop :=
  exists N, forall fuel, (N <= fuel)%nat -> exists jobs h',
    run (thread_parallel_jobs V vadd vmul fuel ug f e) h = RDone h jobs /\
    run (sequential_assign V vadd vmul fuel ug f e) h = RDone h' tt /\
    (0 < length jobs)%nat /\ Z.of_nat (length jobs) <= fparts f /\
    jobs_disjoint h jobs /\ bounded (par_start h jobs) /\
    forall st, reachable (par_start h jobs) st ->
      no_failure st /\ race_free st /\ (returned st \/ exists st', pstep st st') /\
      (returned st -> same_heap (pheap st) h' /\ assigned V h (pheap st) f R (denote V vadd vmul h e)).
End ParS.
Arguments next_access {V}. Arguments race_free {V}. Arguments no_failure {V}. Arguments bounded {V}. Arguments jobs_disjoint {V}. Arguments same_heap {V}.
