(** What a user of the memory pool expects when memory may run out: a world with
    the truth about memory, for CPU ([false]) and GPU ([true]) memory. *)
From Verif Require Import Prelude PoolM PoolS PoolOomM.

(** For each kind: the blocks handed out, the blocks the system gave with their
    numbers of elements, the sizes the system was asked for, the requests that
    failed; how each block must be freed; all requests (the last first); and
    whether a request for pinned memory was met with ordinary memory. *)
Record oworld := OWorld {
  ow_pool : pool2; ow_out : bool -> list nat; ow_mem : bool -> list (nat * Z); ow_asked : bool -> list Z;
  ow_failed : bool -> Z; ow_how : nat -> release_by; ow_reqs : list Z; ow_fell : bool }.
Definition oworld_new : oworld :=
  OWorld pool2_new (fun _ => []) (fun _ => []) (fun _ => []) (fun _ => 0) (fun _ => ByDelete) [] false.

Section Cuda.
Variable cuda : bool.

(** a request for n elements, while the system would answer [sys] *)
Definition oget (w : oworld) (d : bool) (sys : system) (n : Z) : option nat * oworld :=
  let '(r, asked, pl) := get2 cuda (ow_pool w) d sys n in
  let out := match r with Some p => on (ow_out w) d (p :: ow_out w d) | None => ow_out w end in
  let fail := match r with Some _ => ow_failed w | None => on (ow_failed w) d (ow_failed w d + 1) end in
  match asked with
  | None => (r, OWorld pl out (ow_mem w) (ow_asked w) fail (ow_how w) (n :: ow_reqs w) (ow_fell w))
  | Some k =>
      let asks := on (ow_asked w) d (k :: ow_asked w d) in
      match sys k with
      | None => (r, OWorld pl out (ow_mem w) asks fail (ow_how w) (n :: ow_reqs w) (ow_fell w))
      | Some (a, how) =>
          (r, OWorld pl out (on (ow_mem w) d ((a, k) :: ow_mem w d)) asks fail
                     (fun p => if (p =? a)%nat then how else ow_how w p) (n :: ow_reqs w)
                     (ow_fell w || (cuda && negb d && match how with ByDelete => true | _ => false end)))
      end
  end.
Definition oput (w : oworld) (d : bool) (p : nat) : outcome oworld :=
  do pl <- put2 cuda (ow_pool w) d p;
  Ok (OWorld pl (on (ow_out w) d (remove1 p (ow_out w d))) (ow_mem w) (ow_asked w) (ow_failed w) (ow_how w) (ow_reqs w) (ow_fell w)).

(** what the system may answer: a new address, freed as such memory is *)
Definition sys_ok (w : oworld) (d : bool) (sys : system) : Prop :=
  forall k a how, sys k = Some (a, how) -> (forall e, ~ In a (map fst (ow_mem w e))) /\
    (if d then how = ByCudaFree else if cuda then how = ByFreeHost \/ how = ByDelete else how = ByDelete).
(** legal histories, with failures anywhere *)
Inductive ohistory : oworld -> Prop :=
| oh_new : ohistory oworld_new
| oh_get w d sys n : ohistory w -> sys_ok w d sys -> 0 <= n -> ohistory (snd (oget w d sys n))
| oh_put w d p w' : ohistory w -> In p (ow_out w d) -> oput w d p = Ok w' -> ohistory w'.

(** elements added to each request: a tenth of the first request of 10 or more *)
Fixpoint padding (reqs : list Z) : Z :=
  match reqs with
  | [] => 0
  | n :: older => if padding older =? 0 then Z.quot n 10 else padding older
  end.
(** the size a request for n elements (padding included) is rounded up to: the
    least size the system was asked for that is large enough, else n *)
Definition rounded (asked : list Z) (n k : Z) : Prop :=
  (In k asked /\ n <= k /\ forall j, In j asked -> n <= j -> k <= j) \/ (k = n /\ forall j, In j asked -> j < n).
(** blocks that are not handed out *)
Definition idle (w : oworld) (d : bool) (p : nat) (k : Z) : Prop := In (p, k) (ow_mem w d) /\ ~ In p (ow_out w d).
End Cuda.

(** What a request does whose size is rounded up to k: a block of that size that
    is not handed out is returned; if there is none the system is asked for k
    elements, and the request fails if it has none. *)
Inductive outcome_of (w : oworld) (d : bool) (sys : system) (n k : Z) : option nat * oworld -> Prop :=
| from_queue p w' : idle w d p k -> ow_out w' = on (ow_out w) d (p :: ow_out w d) -> ow_mem w' = ow_mem w -> ow_asked w' = ow_asked w ->
    ow_failed w' = ow_failed w -> outcome_of w d sys n k (Some p, w')
| from_system p how w' : (forall q, ~ idle w d q k) -> sys k = Some (p, how) -> ow_out w' = on (ow_out w) d (p :: ow_out w d) ->
    ow_mem w' = on (ow_mem w) d ((p, k) :: ow_mem w d) -> ow_asked w' = on (ow_asked w) d (k :: ow_asked w d) ->
    ow_failed w' = ow_failed w -> outcome_of w d sys n k (Some p, w')
| failed w' : (forall q, ~ idle w d q k) -> sys k = None -> ow_out w' = ow_out w -> ow_mem w' = ow_mem w ->
    ow_asked w' = on (ow_asked w) d (k :: ow_asked w d) -> ow_failed w' = on (ow_failed w) d (ow_failed w d + 1) ->
    outcome_of w d sys n k (None, w').

