(** Specification vocabulary for the wait with a time limit. *)
From Verif Require Import Prelude TPoolM TPoolS TimedM.

(** Histories, and histories that go on from a given moment. *)
Inductive tmreach (a : tsys) : tsys -> Prop :=
| tmr_0 : tmreach a a
| tmr_step l b c : tmreach a b -> tmstep l b c -> tmreach a c.

(** Call number i is under way in s. *)
Definition under_way (s : tsys) (i : nat) : Prop :=
  exists t, nth_error (tms s) i = Some t /\ (tmst t = TmIn \/ tmst t = TmExpired).
(** Call number i, with threshold k and time limit lim, has returned b. *)
Definition answered (s : tsys) (i : nat) (k lim : Z) (b : bool) : Prop :=
  exists t, nth_error (tms s) i = Some t /\ tmst t = TmAnswer b /\ tmk t = k /\ tmlim t = lim.
(** Tasks that are queued or being run. *)
Definition tasks (s : tsys) : Z := zlength (pq (tpool s)) + zlength (running (tpool s)).

(** Steps that only the thread in call number i makes: it tests the condition
    after it was woken, gives up, or returns. *)
Inductive by_caller (i : nat) (a b : tsys) : Prop :=
| bc_test t c1 g c2 : nth_error (tms a) i = Some t -> tmst t = TmIn -> pc (tpool a) = c1 ++ CWoken g :: c2 -> length c1 = tmid t ->
    b = TSys (with_clients (tpool a) (c1 ++ (if may_return (tpool a) g then CBack g else CAsleep g) :: c2)) (tnow a) (tms a) -> by_caller i a b
| bc_expire : tmstep (TmExpire i) a b -> by_caller i a b
| bc_return : tmstep (TmReturn i) a b -> by_caller i a b.
Inductive callers (i : nat) : nat -> tsys -> tsys -> Prop :=
| ca_0 a : callers i 0 a a
| ca_S n a b c : by_caller i a b -> callers i n b c -> callers i (S n) a c.

(** Histories all of whose steps of the pool satisfy [P label before after]. *)
Inductive tmpath (P : label -> pool -> pool -> Prop) (a : tsys) : tsys -> Prop :=
| tmp_0 : tmpath P a a
| tmp_step l b c : tmpath P a b -> tmstep l b c -> (forall l', l = TmPool l' -> P l' (tpool b) (tpool c)) -> tmpath P a c.
