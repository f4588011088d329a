(** Specification of shared pointers to GPU memory: pointers are names for blocks. *)
From Verif Require Import Prelude PoolM PtrM PtrS DevPtrM.

(** A pointer was never set, is null, or refers to a block. *)
Inductive refers := Unset | Null | Block (b : nat).
(** What each pointer variable in scope refers to; the blocks the program got from
    get_raw_pointer and has not yet given to a pointer; the blocks that came from
    get_shared_pointer with the device that was asked for; and how many pointer
    variables have gone out of scope so far. *)
Record gspec := GSpec { gto : amap refers; graw : list nat; gfrom : amap Z; gdead : nat }.
Definition gspec_new : gspec := GSpec [] [] [] 0.
Definition gtarget (s : gspec) (v : nat) : option refers := aget (gto s) v.

Definition gspec_step (s : gspec) (o : gop) : gspec :=
  match o with
  | GMalloc b _ => GSpec (gto s) (b :: graw s) (adel (gfrom s) b) (gdead s)
  | GShared v b _ _ k => GSpec (aset (gto s) v (Block b)) (graw s) (aset (gfrom s) b k) (gdead s)
  | GDefault v => GSpec (aset (gto s) v Unset) (graw s) (gfrom s) (gdead s)
  | GCopy v w | GAssign v w =>
      GSpec (aset (gto s) v (match gtarget s w with Some r => r | None => Unset end)) (graw s) (gfrom s) (gdead s)
  | GAssignRaw v None _ _ | GDetach v _ _ => GSpec (aset (gto s) v Null) (graw s) (gfrom s) (gdead s)
  | GAssignRaw v (Some b) _ _ => GSpec (aset (gto s) v (Block b)) (drop b (graw s)) (gfrom s) (gdead s)
  | GDestroy v _ _ => GSpec (adel (gto s) v) (graw s) (gfrom s) (S (gdead s))
  | GSetDevice _ => s
  end.

Definition g_unused (s : gspec) (v : nat) := gtarget s v = None.
Definition g_in_scope (s : gspec) (v : nat) := gtarget s v <> None.
(** new and cudaMalloc return addresses that are not in use when they are called;
    operator= calls new after giving up the old block. *)
Definition fresh_ints (st : gmem) (rc dv : nat) := rc <> dv /\ aget (gint st) rc = None /\ aget (gint st) dv = None.
Definition fresh_ints_after (st : gmem) (v rc dv : nat) :=
  forall P st1 P1, aget (gvar st) v = Some P -> give_up st P = Ok (st1, P1) -> fresh_ints st1 rc dv.
Definition valid_device (st : gmem) (k : Z) := 0 <= k < gdevs st.

(** Legal uses: a raw block is given to one pointer only, and pointers that were
    never set are assigned only to such pointers. *)
Definition glegal (s : gspec) (st : gmem) (o : gop) : Prop :=
  match o with
  | GMalloc b k => valid_device st k /\ aget (gblk st) b = None
  | GShared v b rc dv k => g_unused s v /\ valid_device st k /\ aget (gblk st) b = None /\ fresh_ints st rc dv
  | GDefault v => g_unused s v
  | GCopy v w => g_unused s v /\ g_in_scope s w
  | GAssign v w => g_in_scope s v /\ g_in_scope s w /\ (gtarget s w = Some Unset -> gtarget s v = Some Unset)
  | GAssignRaw v x rc dv => g_in_scope s v /\ fresh_ints_after st v rc dv /\ match x with Some b => In b (graw s) | None => True end
  | GDetach v rc dv | GDestroy v rc dv => g_in_scope s v /\ fresh_ints_after st v rc dv
  | GSetDevice k => valid_device st k
  end.
(** Legal programs on a machine with n devices, and the memory they lead to. *)
Inductive gprogram (n : Z) : gspec -> gmem -> Prop :=
| gp_start cur : 0 <= cur < n -> gprogram n gspec_new (gmem_new n cur)
| gp_step s st o st' : gprogram n s st -> glegal s st o -> gstep st o = Ok st' -> gprogram n (gspec_step s o) st'.

(** The number of pointers that refer to block b. *)
Definition pointers_to (s : gspec) (b : nat) : nat :=
  length (filter (fun e => match snd e with Block c => (c =? b)%nat | _ => false end) (gto s)).
