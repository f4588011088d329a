(** Specification vocabulary for the semaphore. *)
From Verif Require Import Prelude SemM.

Definition count_ops (o : sop) (os : list sop) : Z :=
  Z.of_nat (length (filter (fun x => match o, x with SPost, SPost | SWait, SWait => true | _, _ => false end) os)).
(** Calls of post() and wait() in all scripts. *)
Definition total_posts (scripts : list (list sop)) : Z := fold_right (fun os n => count_ops SPost os + n) 0 scripts.
Definition total_waits (scripts : list (list sop)) : Z := fold_right (fun os n => count_ops SWait os + n) 0 scripts.

(** A thread that has made all its calls. *)
Definition finished (t : thr) : Prop := t = TAt [].
(** A thread that has been woken up, or is at or past the test in wait(), or is
    about to notify. *)
Definition on_its_way (t : thr) : Prop :=
  match t with TWoken _ | TWait2 _ | TWait3 _ | TPost3 _ => True | _ => False end.
(** A thread inside post() or wait() that holds the mutex. *)
Definition holds (t : thr) : bool :=
  match t with TPost2 _ | TPost3 _ | TPost4 _ | TWait2 _ | TWait3 _ | TWait4 _ => true | _ => false end.
Definition stuck (st : sem) : Prop := forall st', ~ sstep st st'.
(** A script in which no post() comes after a wait(). *)
Fixpoint posts_first (os : list sop) : bool :=
  match os with [] => true | SPost :: r => posts_first r | SWait :: r => Z.eqb (count_ops SPost r) 0 end.
(** A thread between the beginning and the end of a call of post(). *)
Definition inside_post (t : thr) : bool :=
  match t with TPost2 _ | TPost3 _ | TPost4 _ => true | _ => false end.
(** The calls a thread has still to make. *)
Definition pending (t : thr) : list sop :=
  match t with TAt os | TPost2 os | TPost3 os | TPost4 os | TWait2 os | TWait3 os | TWait4 os | TSleep os | TWoken os => os end.
