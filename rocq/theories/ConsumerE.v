(** Consumer copies: the statements about constructed fields, and examples. *)
From Verif Require Import Prelude ConsumerM ConsumerS ConsumerP ConsumerQ.

Section S.
Variable V : Type.
Lemma home_kind cuda (m0 : cmem V) internal home v0 m o :
  construct cuda m0 internal home v0 = Some (m, o) -> fst home <> OTHER_MEMORY.
Proof. unfold construct. destruct (fst home); [discriminate..|congruence]. Qed.

Lemma replies_ok : forall cuda internal (m0 : cmem V) home (v0 : V) m o cs,
  construct cuda m0 internal home v0 = Some (m, o) ->
  replies cuda m o cs = Some (expected cuda (Seen home v0 [] false) cs).
Proof. intros. eapply replies_expected, construct_R. eassumption. Qed.

Lemma latest : forall cuda internal (m0 : cmem V) home (v0 : V) m o cs rs k p x,
  construct cuda m0 internal home v0 = Some (m, o) -> replies cuda m o cs = Some rs ->
  nth_error cs k = Some (Read p) -> nth_error rs k = Some (Value x) ->
  x = last_written v0 (firstn k (combine cs rs)).
Proof.
  intros cuda internal m0 home v0 m o cs rs k p x HC E H1 H2.
  rewrite (replies_expected V cuda cs _ _ _ _ (construct_R _ _ _ _ _ _ _ _ HC)) in E. injection E as <-.
  apply (read_latest V cuda (Seen home v0 [] false) cs k p x H1 H2).
Qed.
Lemma readable : forall cuda internal (m0 : cmem V) home (v0 : V) m o cs rs k p,
  construct cuda m0 internal home v0 = Some (m, o) -> replies cuda m o cs = Some rs ->
  nth_error cs k = Some (Read p) -> p = home \/ added p (firstn k (combine cs rs)) = true ->
  exists x, nth_error rs k = Some (Value x).
Proof.
  intros cuda internal m0 home v0 m o cs rs k p HC E H1 H2.
  rewrite (replies_expected V cuda cs _ _ _ _ (construct_R _ _ _ _ _ _ _ _ HC)) in E. injection E as <-.
  pose proof (home_kind _ _ _ _ _ _ _ HC) as HK.
  destruct H2 as [->|H2]; [apply home_read; assumption|apply (added_read V cuda (Seen home v0 [] false) cs k p HK H1 H2)].
Qed.
Lemma locked_out : forall cuda internal (m0 : cmem V) home (v0 : V) m o cs1 p cs2 q v rs,
  construct cuda m0 internal home v0 = Some (m, o) -> p <> home -> ~ In Remove cs2 ->
  replies cuda m o (cs1 ++ Add p :: cs2 ++ [Write q v]) = Some rs ->
  nth_error rs (length cs1 + 1 + length cs2) = Some Threw.
Proof.
  intros cuda internal m0 home v0 m o cs1 p cs2 q v rs HC Hp HN E.
  rewrite (replies_expected V cuda _ _ _ _ _ (construct_R _ _ _ _ _ _ _ _ HC)) in E. injection E as <-.
  apply write_refused; assumption.
Qed.
Lemma writable_again : forall internal (m0 : cmem V) home (v0 : V) m o cs p v,
  construct true m0 internal home v0 = Some (m, o) -> fst p <> OTHER_MEMORY -> same_memory p home = false ->
  exists rs, replies true m o (cs ++ [Add p; Remove; Write home v; Read home]) = Some (rs ++ [Nothing; Nothing; Nothing; Value v]).
Proof.
  intros internal m0 home v0 m o cs p v HC Hk Hn.
  rewrite (replies_expected V true _ _ _ _ _ (construct_R _ _ _ _ _ _ _ _ HC)).
  destruct (unlocked V true (Seen home v0 [] false) cs p v) as (rs & E).
  - apply (home_kind _ _ _ _ _ _ _ HC).
  - unfold supported. destruct (fst p); [reflexivity..|congruence].
  - exact Hn.
  - exists rs. f_equal. exact E.
Qed.
Lemma locked_forever : forall internal (m0 : cmem V) home (v0 : V) m o cs1 p cs2 q v,
  construct false m0 internal home v0 = Some (m, o) -> p <> home ->
  exists rs, replies false m o (cs1 ++ Add p :: cs2 ++ [Write q v]) = Some rs /\
    nth_error rs (length cs1) = Some Threw /\ nth_error rs (length cs1 + 1 + length cs2) = Some Threw.
Proof.
  intros internal m0 home v0 m o cs1 p cs2 q v HC Hp.
  rewrite (replies_expected V false _ _ _ _ _ (construct_R _ _ _ _ _ _ _ _ HC)).
  eexists. split; [reflexivity|].
  apply (write_refused_forever V false (Seen home v0 [] false)); [reflexivity|reflexivity|exact Hp].
Qed.
Lemma wrong_device : forall (m0 : cmem V) v0 m o k, construct true m0 true (LOCAL_RAM, 0%nat) v0 = Some (m, o) ->
  exists m' o' a b, add_consumer true m o (EXTERNAL_CUDA_GPU, k) = Go (m', o') Nothing /\
    pointer true o' (EXTERNAL_CUDA_GPU, k) = Some a /\ blocks m' a = Some b /\ cb_at b = (EXTERNAL_CUDA_GPU, 0%nat).
Proof.
  intros m0 v0 m o k HC. cbn in HC. injection HC as <- <-.
  assert (E : Nat.eqb (nextb m0) (S (nextb m0)) = false) by (apply Nat.eqb_neq; lia).
  assert (E1 : Nat.eqb k k = true) by apply Nat.eqb_refl.
  assert (E2 : Nat.eqb (nextb m0) (nextb m0) = true) by apply Nat.eqb_refl.
  eexists _, _, (S (nextb m0)), _. split.
  - unfold add_consumer. cbn. unfold mset, mfind. cbn. rewrite E1. cbn. unfold memcpy. cbn.
    rewrite E2, E. reflexivity.
  - split; [cbn; unfold mfind; cbn; rewrite E1; reflexivity|]. split; [cbn; rewrite E2; reflexivity|reflexivity].
Qed.
Lemma missed_consumer : forall internal (m0 : cmem V) v0 m o k,
  construct true m0 internal (LOCAL_RAM, 0%nat) v0 = Some (m, o) -> k <> 0%nat ->
  replies true m o [Add (EXTERNAL_CUDA_GPU, k); FindC (EXTERNAL_CUDA_GPU, k); HasC] = Some [Nothing; Yes; No].
Proof.
  intros internal m0 v0 m o k HC Hk.
  rewrite (replies_expected V true _ _ _ _ _ (construct_R _ _ _ _ _ _ _ _ HC)).
  destruct k as [|k]; [congruence|]. cbn. unfold available. cbn. rewrite Nat.eqb_refl. reflexivity.
Qed.
End S.

Definition reach (l : list (action nat)) : world nat :=
  match acts true no_objects l with Go w _ => w | Fail _ => no_objects end.
Definition arrived (l : list (action nat)) : bool := match acts true no_objects l with Go _ _ => true | _ => false end.
Lemma acts_done cuda l : forall (w w' : world nat) r, acts cuda w l = Go w' r -> r = Nothing.
Proof.
  induction l as [|a l IH]; intros w w' r; cbn; [intros [= _ <-]; reflexivity|].
  destruct (act cuda w a); [apply IH|discriminate].
Qed.
Lemma reach_ok l : arrived l = true -> acts true no_objects l = Go (reach l) Nothing.
Proof.
  unfold arrived, reach. intros H. destruct (acts true no_objects l) as [w r|f] eqn:E; [|discriminate].
  rewrite (acts_done _ _ _ _ _ E). reflexivity.
Qed.
Definition reply_to (w : world nat) (a : action nat) : reply nat := match act true w a with Go _ r => r | Fail _ => Threw end.
Lemma reply_to_value w a v : reply_to w a = Value v -> exists w', act true w a = Go w' (Value v).
Proof. unfold reply_to. destruct (act true w a) as [w' r|f]; [intros ->; eexists; reflexivity|discriminate]. Qed.

Lemma copy_stale :
  exists l w, acts (V := nat) true no_objects l = Go w Nothing /\
    (exists w', act true w (Call 0 (Read (EXTERNAL_CUDA_GPU, 0%nat))) = Go w' (Value 1%nat)) /\
    (exists w', act true w (Call 0 (Read (LOCAL_RAM, 0%nat))) = Go w' (Value 2%nat)).
Proof.
  exists [New true (LOCAL_RAM, 0%nat) 1%nat; Copy 0; Call 0 (Add (EXTERNAL_CUDA_GPU, 0%nat)); Call 1 (Write (LOCAL_RAM, 0%nat) 2%nat)].
  eexists. split; [apply reach_ok; vm_compute; reflexivity|].
  split; apply reply_to_value; vm_compute; reflexivity.
Qed.
Lemma copy_dangling :
  exists l w, acts (V := nat) true no_objects l = Go w Nothing /\
    act true w (Call 1 (Read (EXTERNAL_CUDA_GPU, 0%nat))) = Fail BadAccess.
Proof.
  exists [New true (LOCAL_RAM, 0%nat) 1%nat; Call 0 (Add (EXTERNAL_CUDA_GPU, 0%nat)); Copy 0; Call 0 Remove].
  eexists. split; [apply reach_ok; vm_compute; reflexivity|]. vm_compute. reflexivity.
Qed.
