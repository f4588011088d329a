(** What a user of raw GPU memory expects, told from the calls made and the
    answers given so far ([tr], the last call first). *)
From Verif Require Import Prelude PtrM GpuRawM.

Definition trace := list (rcall * rreply).

Section Spec.
Variable mc : machine.

Definition exists_dev (k : Z) : Prop := 0 <= k < mc_devs mc.

(** the device a call selects *)
Definition selects (c : rcall) : option Z :=
  match c with
  | RAlloc _ _ k _ | RFree _ k | RSet _ _ _ _ k | RTo _ _ _ k | RFrom _ _ _ k | RSetDevice k => Some k
  | _ => None
  end.
(** the current device: the last existing one a call selected, whether or not
    the call succeeded *)
Fixpoint current (tr : trace) : Z :=
  match tr with
  | [] => 0
  | (c, _) :: tr =>
      match selects c with
      | Some k => if (0 <=? k) && (k <? mc_devs mc) then k else current tr
      | None => current tr
      end
  end.

(** the device and the size of block b, if it is allocated *)
Fixpoint home (tr : trace) (b : nat) : option (Z * Z) :=
  match tr with
  | [] => None
  | (RAlloc c n k _, RDone) :: tr => if (c =? b)%nat then Some (k, n) else home tr b
  | (RFree (Some c) _, RDone) :: tr => if (c =? b)%nat then None else home tr b
  | _ :: tr => home tr b
  end.
(** the value last written to byte i of block b since it was allocated *)
Fixpoint last_written (tr : trace) (b : nat) (i : Z) : option Z :=
  match tr with
  | [] => None
  | (RAlloc c _ _ _, RDone) :: tr => if (c =? b)%nat then None else last_written tr b i
  | (RSet c off v n _, RDone) :: tr =>
      if (c =? b)%nat && (off <=? i) && (i <? off + n) then Some (v mod 256) else last_written tr b i
  | (RTo c off l _, RDone) :: tr =>
      if (c =? b)%nat && (off <=? i) && (i <? off + Z.of_nat (length l)) then nth_error l (Z.to_nat (i - off))
      else last_written tr b i
  | (RPeer c off _ e eoff _ n, RDone) :: tr =>
      if (c =? b)%nat && (off <=? i) && (i <? off + n) then last_written tr e (eoff + (i - off)) else last_written tr b i
  | _ :: tr => last_written tr b i
  end.
(** the memory of device k taken by blocks: what was allocated less what was released *)
Fixpoint taken (tr : trace) (k : Z) : Z :=
  match tr with
  | [] => 0
  | (RAlloc _ n j _, RDone) :: tr => (if j =? k then mc_takes mc n else 0) + taken tr k
  | (RFree (Some b) _, RDone) :: tr =>
      match home tr b with
      | Some (j, n) => taken tr k - (if j =? k then mc_takes mc n else 0)
      | None => taken tr k
      end
  | _ :: tr => taken tr k
  end.
Fixpoint others (tr : trace) (k : Z) : Z :=
  match tr with
  | [] => 0
  | (ROther j x, _) :: tr => if j =? k then x else others tr k
  | _ :: tr => others tr k
  end.
Definition free_mem (tr : trace) (k : Z) : Z := mc_total mc k - others tr k - taken tr k.

(** the calls before the last update_memory_statistics() *)
Fixpoint at_update (tr : trace) : option trace :=
  match tr with
  | [] => None
  | (RUpdate, _) :: tr => Some tr
  | _ :: tr => at_update tr
  end.
(** the figures of device k after the calls tr *)
Definition figures (tr : trace) (k : Z) : mstats :=
  MStats (free_mem tr k) (mc_total mc k) (mc_total mc k - free_mem tr k).

(** n bytes of block b from off on, the block being on device k *)
Definition owns (tr : trace) (b : nat) (off n k : Z) : Prop :=
  exists m, home tr b = Some (k, m) /\ 0 <= off /\ 0 <= n /\ off + n <= m.

(** the rules for the caller *)
Definition allowed (tr : trace) (c : rcall) : Prop :=
  match c with
  | RAlloc b n k _ => home tr b = None /\ 0 < n
  | RSet b off _ n k | RFrom b off n k => exists_dev k -> owns tr b off n k
  | RTo b off l k => exists_dev k -> owns tr b off (Z.of_nat (length l)) k
  | RPeer b off dk c coff sk n =>
      exists_dev dk -> exists_dev sk ->
      owns tr b off n dk /\ owns tr c coff n sk /\ (b = c -> off + n <= coff \/ coff + n <= off)
  | _ => True
  end.

(** the answer r to the call c after the calls tr *)
Definition answers (tr : trace) (c : rcall) (r : rreply) : Prop :=
  let done_iff (ok : Prop) := (r = RDone /\ ok) \/ (r = RThrew /\ ~ ok) in
  match c with
  | RAlloc b n k grant => done_iff (exists_dev k /\ grant = true /\ mc_takes mc n <= free_mem tr k)
  | RFree p k => done_iff (exists_dev k /\ match p with Some b => home tr b <> None | None => True end)
  | RSet _ _ _ _ k | RTo _ _ _ k | RSetDevice k => done_iff (exists_dev k)
  | RPeer _ _ dk _ _ sk _ => done_iff (exists_dev dk /\ exists_dev sk)
  | RFrom b off n k =>
      (exists_dev k /\ exists l, r = RBytes l /\ Z.of_nat (length l) = n /\
         forall i, 0 <= i < n -> nth_error l (Z.to_nat i) = Some (last_written tr b (off + i)))
      \/ (r = RThrew /\ ~ exists_dev k)
  | RUpdate | ROther _ _ => r = RDone
  | RStat k =>
      (exists_dev k /\
       r = RStats (match at_update tr with None => MStats 0 0 0 | Some tr0 => figures tr0 (current tr0) end))
      \/ (r = RThrew /\ ~ exists_dev k)
  | RCount => r = RBytes [Some (mc_devs mc)]
  end.
(** every call of a trace was answered that way *)
Fixpoint all_answered (tr : trace) : Prop :=
  match tr with [] => True | (c, r) :: tr => answers tr c r /\ all_answered tr end.
End Spec.
