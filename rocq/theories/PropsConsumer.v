(** C52: consumer copies of a field. *)
From Verif Require Import Prelude ConsumerM ConsumerS ConsumerP ConsumerQ ConsumerE.

(** One field object, however it was made and whatever is called on it: no call
    is undefined, and every reply is the one of the specification. *)
Theorem C52_replies : forall (V : Type) (cuda internal : bool) (m0 : cmem V) (home : place) (v0 : V) m o cs,
  construct cuda m0 internal home v0 = Some (m, o) ->
  replies cuda m o cs = Some (expected cuda (Seen home v0 [] false) cs).
Proof. exact replies_ok. Qed.
Print Assumptions C52_replies.

(** A read, in whatever memory, gives the values written last. *)
Theorem C52_latest : forall (V : Type) (cuda internal : bool) (m0 : cmem V) (home : place) (v0 : V) m o cs rs k p x,
  construct cuda m0 internal home v0 = Some (m, o) -> replies cuda m o cs = Some rs ->
  nth_error cs k = Some (Read p) -> nth_error rs k = Some (Value x) ->
  x = last_written v0 (firstn k (combine cs rs)).
Proof. exact latest. Qed.
Print Assumptions C52_latest.

(** A field can be read where it lives, and in every place that was added
    since the consumers were last removed. *)
Theorem C52_available : forall (V : Type) (cuda internal : bool) (m0 : cmem V) (home : place) (v0 : V) m o cs rs k p,
  construct cuda m0 internal home v0 = Some (m, o) -> replies cuda m o cs = Some rs ->
  nth_error cs k = Some (Read p) -> p = home \/ added p (firstn k (combine cs rs)) = true ->
  exists x, nth_error rs k = Some (Value x).
Proof. exact readable. Qed.
Print Assumptions C52_available.

(** While another place was added and the consumers were not removed, writes are refused. *)
Theorem C52_locked : forall (V : Type) (cuda internal : bool) (m0 : cmem V) (home : place) (v0 : V) m o cs1 p cs2 q v rs,
  construct cuda m0 internal home v0 = Some (m, o) -> p <> home -> ~ In Remove cs2 ->
  replies cuda m o (cs1 ++ Add p :: cs2 ++ [Write q v]) = Some rs ->
  nth_error rs (length cs1 + 1 + length cs2) = Some Threw.
Proof. exact locked_out. Qed.
Print Assumptions C52_locked.

(** Removing the consumers makes a field writable again if a copy was made, after any history. *)
Theorem C52_unlocked : forall (V : Type) (internal : bool) (m0 : cmem V) (home : place) (v0 : V) m o cs p v,
  construct true m0 internal home v0 = Some (m, o) -> fst p <> OTHER_MEMORY -> same_memory p home = false ->
  exists rs, replies true m o (cs ++ [Add p; Remove; Write home v; Read home]) = Some (rs ++ [Nothing; Nothing; Nothing; Value v]).
Proof. exact writable_again. Qed.
Print Assumptions C52_unlocked.

(** Without CUDA, asking for another place throws, and from then on the field
    can never be written again, even after remove_consumers. *)
Theorem C52_unlocked_refuted : forall (V : Type) (internal : bool) (m0 : cmem V) (home : place) (v0 : V) m o cs1 p cs2 q v,
  construct false m0 internal home v0 = Some (m, o) -> p <> home ->
  exists rs, replies false m o (cs1 ++ Add p :: cs2 ++ [Write q v]) = Some rs /\
    nth_error rs (length cs1) = Some Threw /\ nth_error rs (length cs1 + 1 + length cs2) = Some Threw.
Proof. exact locked_forever. Qed.
Print Assumptions C52_unlocked_refuted.

(** Any number of fields and shallow copies, any calls on them, in any order:
    no block is ever given back twice, or to the wrong owner; *)
Theorem C52_frees : forall (V : Type) (cuda : bool) (l : list (action V)), acts cuda no_objects l <> Fail BadFree.
Proof. exact never_bad_free. Qed.
Print Assumptions C52_frees.
(** and when all objects are gone, every block the library obtained was given back. *)
Theorem C52_all_freed : forall (V : Type) (cuda : bool) (l : list (action V)) (m : cmem V) os r,
  acts cuda no_objects l = Go (m, os) r -> (forall i, obj os i = None) ->
  forall a b, blocks m a = Some b -> cb_from b = FromUser.
Proof. exact all_returned. Qed.
Print Assumptions C52_all_freed.

(** Shallow copies break C52_latest: a copy made before a consumer was added
    still writes, and the consumer keeps the old values. *)
Theorem C52_copy_stale_refuted :
  exists l w, acts (V := nat) true no_objects l = Go w Nothing /\
    (exists w', act true w (Call 0 (Read (EXTERNAL_CUDA_GPU, 0%nat))) = Go w' (Value 1%nat)) /\
    (exists w', act true w (Call 0 (Read (LOCAL_RAM, 0%nat))) = Go w' (Value 2%nat)).
Proof. exact copy_stale. Qed.
Print Assumptions C52_copy_stale_refuted.

(** A copy made after a consumer was added keeps a pointer to it: once the
    original removes its consumers, the copy reads freed memory. *)
Theorem C52_copy_dangling_refuted :
  exists l w, acts (V := nat) true no_objects l = Go w Nothing /\
    act true w (Call 1 (Read (EXTERNAL_CUDA_GPU, 0%nat))) = Fail BadAccess.
Proof. exact copy_dangling. Qed.
Print Assumptions C52_copy_dangling_refuted.

(** The pointer returned for a GPU other than the first points to memory of the first GPU. *)
Theorem C52_device_refuted : forall (V : Type) (m0 : cmem V) v0 m o k, construct true m0 true (LOCAL_RAM, 0%nat) v0 = Some (m, o) ->
  exists m' o' a b, add_consumer true m o (EXTERNAL_CUDA_GPU, k) = Go (m', o') Nothing /\
    pointer true o' (EXTERNAL_CUDA_GPU, k) = Some a /\ blocks m' a = Some b /\ cb_at b = (EXTERNAL_CUDA_GPU, 0%nat).
Proof. exact wrong_device. Qed.
Print Assumptions C52_device_refuted.

(** has_consumers misses a consumer on a GPU other than the first. *)
Theorem C52_has_consumers_refuted : forall (V : Type) internal (m0 : cmem V) v0 m o k,
  construct true m0 internal (LOCAL_RAM, 0%nat) v0 = Some (m, o) -> k <> 0%nat ->
  replies true m o [Add (EXTERNAL_CUDA_GPU, k); FindC (EXTERNAL_CUDA_GPU, k); HasC] = Some [Nothing; Yes; No].
Proof. exact missed_consumer. Qed.
Print Assumptions C52_has_consumers_refuted.

(** A field in RAM with copies on two GPUs, written before and after. *)
Example C52_hyps_met :
  exists m o, construct (V := nat) true empty_mem true (LOCAL_RAM, 0%nat) 5%nat = Some (m, o) /\
    replies true m o [Write (LOCAL_RAM, 0%nat) 6%nat; Read (EXTERNAL_CUDA_GPU, 0%nat); Add (EXTERNAL_CUDA_GPU, 0%nat);
                      Add (EXTERNAL_CUDA_GPU, 1%nat); HasC; Read (EXTERNAL_CUDA_GPU, 1%nat); Write (LOCAL_RAM, 0%nat) 7%nat;
                      Remove; Write (LOCAL_RAM, 0%nat) 8%nat; Read (EXTERNAL_CUDA_GPU, 0%nat); Read (LOCAL_RAM, 3%nat)]
      = Some [Nothing; Threw; Nothing; Nothing; Yes; Value 6%nat; Threw; Nothing; Nothing; Threw; Value 8%nat].
Proof. do 2 eexists. split; [reflexivity|]. vm_compute. reflexivity. Qed.
(** Several objects, all destroyed. *)
Example C52_hyps_met_objects :
  match acts (V := nat) true no_objects
    [New true (EXTERNAL_CUDA_GPU, 1%nat) 5%nat; Copy 0; Call 1 (Add (LOCAL_RAM, 0%nat)); Call 0 (Add (EXTERNAL_CUDA_GPU, 0%nat));
     Copy 1; Call 2 (Read (LOCAL_RAM, 0%nat)); New false (LOCAL_RAM, 0%nat) 3%nat; Destroy 0; Destroy 2; Destroy 1; Destroy 3] with
  | Go (m, os) _ => forallb (fun x => match x with None => true | _ => false end) os
  | Fail _ => false
  end = true.
Proof. vm_compute. reflexivity. Qed.
