(** Executions of futures: the hypotheses of C53 are met, and what C53 does not promise. *)
From Verif Require Import Prelude FutureM FutureS FutureP FutureQ.

Lemma fs_cons' (V : Type) (s : fut V) es s' log es' s'' : fstep s es s' -> log = es ++ es' -> fsteps s' es' s'' -> fsteps s log s''.
Proof. intros H -> H'. exact (fs_cons _ _ _ _ _ H H'). Qed.
Ltac task H := eapply fs_cons'; [apply f_task; eapply H; reflexivity|cbn; reflexivity|cbn].
Ltac thread l H := eapply fs_cons'; [eapply (f_client _ l); [reflexivity|eapply H; try reflexivity; auto]|cbn; reflexivity|cbn].
Ltac late l := eapply fs_cons'; [eapply (f_timeout _ l); reflexivity|cbn; reflexivity|cbn].
Ltac returns v := eapply fs_cons'; [apply f_task; apply (t_return _ v); reflexivity|cbn; reflexivity|cbn].
Ltac stop := apply fs_nil.

(** The task from the start to the value being there. *)
Ltac upto_ready v := task (@t_start Z); task (@t_check Z); task (@t_invoke Z); returns v;
  task (@t_lock Z); task (@t_store Z); task (@t_publish Z); task (@t_notify Z).

(** get() sleeps before the value is there and ready() and cancel() come after. *)
Example normal : exists s, fsteps (fnew true [[Get]; [Ready; IsCancelled; Cancel]])
  [EStart; EInvoke; EReturn 7; EEnd 0 Get (AVal (Some 7)); EEnd 1 Ready (ABool true); EEnd 1 IsCancelled (ABool false); EEnd 1 Cancel (ABool false)] s
  /\ quiet s.
Proof.
  eexists. split.
  - thread (@nil client) (@c_wait Z). upto_ready 7. thread (@nil client) (@c_wait Z). thread (@nil client) (@c_read Z).
    thread [Client PAt []] (@c_ready Z). thread [Client PAt []] (@c_is_cancelled Z). thread [Client PAt []] (@c_cancel Z).
    task (@t_close Z). thread [Client PAt []] (@c_cancel_false Z). stop.
  - split.
    + intros es s' H. inversion H; discriminate.
    + intros l1 c l2 c' b rs E H. destruct l1 as [|x [|y [|z l1]]]; inversion E; subst; inversion H.
Qed.

(** cancel() answers true while the task is about to end, and get() has the value all the same. *)
Example cancelled_value : exists s, fsteps (fnew true [[Cancel; IsCancelled; Get]])
  [EStart; EInvoke; EReturn 7; EEnd 0 Cancel (ABool true); EEnd 0 IsCancelled (ABool true); EEnd 0 Get (AVal (Some 7))] s.
Proof.
  eexists. upto_ready 7. thread (@nil client) (@c_cancel Z). thread (@nil client) (@c_cancel_exec Z). thread (@nil client) (@c_cancel_mark Z).
  thread (@nil client) (@c_is_cancelled Z). thread (@nil client) (@c_wait Z). thread (@nil client) (@c_read Z). stop.
Qed.

(** cancel() answers true before the function is called, and it is called. *)
Example cancelled_invoked : exists s, fsteps (fnew true [[Cancel]; [Wait]])
  [EStart; EEnd 0 Cancel (ABool true); EInvoke; EReturn 7] s.
Proof.
  eexists. task (@t_start Z). task (@t_check Z). thread (@nil client) (@c_cancel Z). thread (@nil client) (@c_cancel_mark Z).
  task (@t_invoke Z). returns 7. stop.
Qed.

(** A thread waits, another cancels: the waiting thread stays asleep. *)
Example cancelled_waiter : exists s, fsteps (fnew true [[Wait]; [Cancel]]) [EEnd 1 Cancel (ABool true); EStart] s /\
  quiet s /\ fclients (V := Z) s = [Client PSleep [Wait]; Client PAt []].
Proof.
  eexists. split; [|split].
  - thread (@nil client) (@c_wait Z). thread [Client PSleep [Wait]] (@c_cancel Z). thread [Client PSleep [Wait]] (@c_cancel_mark Z).
    task (@t_start Z). task (@t_check Z). task (@t_close Z). stop.
  - split.
    + intros es s' H. inversion H; discriminate.
    + intros l1 c l2 c' b rs E H. destruct l1 as [|x [|y [|z l1]]]; inversion E; subst; inversion H; subst; try discriminate.
      intuition discriminate.
  - reflexivity.
Qed.

(** timed_wait() answers false after ready() has answered true. *)
Example timed_late : exists s, fsteps (fnew true [[Timed]; [Ready]])
  [EStart; EInvoke; EReturn 7; EEnd 1 Ready (ABool true); EEnd 0 Timed (ABool false)] s.
Proof.
  eexists. thread (@nil client) (@c_wait Z). late (@nil client). upto_ready 7.
  thread [Client PTimedOut [Timed]] (@c_ready Z). thread (@nil client) (@c_timed_out Z). stop.
Qed.

(** A function that throws leaves the waiting thread asleep. *)
Example thrown_waiter : exists s, fsteps (fnew true [[Get]]) [EStart; EInvoke; EThrow] s /\
  quiet s /\ fclients (V := Z) s = [Client PSleep [Get]].
Proof.
  eexists. split; [|split].
  - thread (@nil client) (@c_wait Z). task (@t_start Z). task (@t_check Z). task (@t_invoke Z). task (@t_throw Z). stop.
  - split.
    + intros es s' H. inversion H; discriminate.
    + intros l1 c l2 c' b rs E H. destruct l1 as [|x [|y l1]]; inversion E; subst; inversion H; subst; try discriminate.
      intuition discriminate.
  - reflexivity.
Qed.
