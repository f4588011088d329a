From Coq Require Import Sorting.Permutation.
From Verif Require Import Prelude PoolM PoolS PoolP PtrM PtrP ConcM ConcS ConcP ConcQ ConcR ConcT.

(** Runs a schedule: the numbers of the threads that move. *)
Definition new_addr (s : shared) : nat := S (list_max (map fst (smem s) ++ map fst (scnt s))).
Definition play1 (st : cstate) (i : nat) : option (outcome cstate) :=
  match nth_error (cthr st) i with
  | None => None
  | Some t => match move (new_addr (csh st)) (csh st) t with
              | Some (Ok (s', t')) => Some (Ok (CState s' (cset (cthr st) i t')))
              | Some UB => Some UB
              | _ => None
              end
  end.
Fixpoint play (l : list nat) (st : cstate) : option (outcome cstate) :=
  match l with
  | [] => Some (Ok st)
  | i :: r => match play1 st i with Some (Ok st') => play r st' | x => x end
  end.
Lemma new_addr_fresh s : fresh s (new_addr s).
Proof.
  unfold new_addr. set (l := map fst (smem s) ++ map fst (scnt s)).
  assert (N : ~ In (S (list_max l)) l). { intros I. pose proof (proj1 (list_max_le l (list_max l)) (le_n _)) as F. rewrite Forall_forall in F. specialize (F _ I). lia. }
  unfold l in N. rewrite in_app_iff in N. split; [tauto|]. apply aget_none. tauto.
Qed.
Lemma play1_step st i x : play1 st i = Some x -> cstep st x.
Proof.
  unfold play1. destruct st as [s ts]. cbn. destruct (nth_error ts i) as [t|] eqn:Hi; [|discriminate].
  destruct (move (new_addr s) s t) as [[[s' t']| |]|] eqn:E; try discriminate; intros [= <-].
  - exact (cs_ok s ts i t _ s' t' Hi (new_addr_fresh s) E).
  - exact (cs_ub s ts i t _ Hi (new_addr_fresh s) E).
Qed.
Lemma creach_trans a b c : creach a b -> creach b c -> creach a c.
Proof. intros R1 R2. induction R2; [exact R1|]. econstructor; eassumption. Qed.
Lemma play_reach l : forall st st', play l st = Some (Ok st') -> creach st st'.
Proof.
  induction l as [|i r IH]; cbn; intros st st'.
  - intros [= <-]. constructor.
  - destruct (play1 st i) as [[x| |]|] eqn:E; try discriminate. intros P. apply play1_step in E.
    eapply creach_trans; [|exact (IH _ _ P)]. econstructor; [constructor|exact E].
Qed.
Lemma play_ub l : forall st, play l st = Some UB -> exists st', creach st st' /\ cstep st' UB.
Proof.
  induction l as [|i r IH]; cbn; intros st; [discriminate|]. destruct (play1 st i) as [[x| |]|] eqn:E; try discriminate.
  - intros P. apply play1_step in E. destruct (IH _ P) as (y & R & U). exists y. split; [|exact U].
    eapply creach_trans; [|exact R]. econstructor; [constructor|exact E].
  - intros _. exists st. split; [constructor|]. exact (play1_step _ _ _ E).
Qed.

(** Two arrays made, both given back. *)
Definition w_a := snd (do_get world_new 0 10).
Definition w_b := snd (do_get w_a 1 10).
Lemma h_a : history w_a.
Proof. apply h_get; [constructor|intros []|lia]. Qed.
Lemma h_b : history w_b.
Proof. apply h_get; [exact h_a|intros [E|[]]; discriminate E|lia]. Qed.
Definition p_two : pool := Pool [(11, [1; 0]%nat)] [(1%nat, 11); (0%nat, 11)] 1 2.
Lemma two_free : exists w, history w /\ wpool w = p_two /\ wout w = [] /\ wmem w = [(1%nat, 11); (0%nat, 11)].
Proof.
  set (w1 := World (Pool [(11, [0%nat])] [(1%nat, 11); (0%nat, 11)] 1 2) [1%nat] [(1%nat, 11); (0%nat, 11)] (wpeak w_b)).
  assert (H1 : history w1). { apply (h_put w_b 0); [exact h_b|right; left; reflexivity|]. unfold do_put, w1. vm_compute. reflexivity. }
  set (w2 := World p_two [] [(1%nat, 11); (0%nat, 11)] (wpeak w_b)).
  exists w2. split; [|repeat split; reflexivity]. apply (h_put w1 1); [exact H1|left; reflexivity|reflexivity].
Qed.

(** A scratch field and an ordinary field made at the same time. *)
Lemma ordinary_same : exists w st t t' H b, history w /\ wout w = [] /\ creach (conc_start w [[SGet 10]; [FNew 10]]) st /\
  nth_error (cthr st) 0 = Some t /\ nth_error (cthr st) 1 = Some t' /\ ended t /\ ended t' /\
  handles t = [H] /\ tfld t' = [b] /\ hblk H = b.
Proof.
  destruct two_free as (w & Hw & Ew & Eo & Em). exists w.
  set (st := conc_start w [[SGet 10]; [FNew 10]]).
  assert (P : exists s t t', play [0;0;0;0;0;0;1;1;1;1;1;0;1;0;1;0;1]%nat st = Some (Ok (CState s [t; t'])) /\
      ended t /\ ended t' /\ handles t = [Hdl 1 2 10] /\ tfld t' = [1%nat]).
  { unfold st, conc_start. rewrite Ew, Em. vm_compute. eexists _, _, _. split; [reflexivity|]. repeat split; reflexivity. }
  destruct P as (s & t & t' & P & A & B & C & D). exists (CState s [t; t']), t, t', (Hdl 1 2 10), 1%nat.
  repeat split; try assumption; try reflexivity; try apply A; try apply B. exact (play_reach _ _ _ P).
Qed.
Lemma ordinary_ub : exists w st, history w /\ creach (conc_start w [[SGet 10]; [FNew 10]]) st /\ cstep st UB.
Proof.
  set (w := World (Pool [(11, [0%nat])] [(0%nat, 11)] 1 1) [] [(0%nat, 11)] (wpeak w_a)).
  assert (Hw : history w). { apply (h_put w_a 0); [exact h_a|left; reflexivity|]. unfold do_put, w. vm_compute. reflexivity. }
  exists w. assert (P : play [0;0;0;0;0;0;1;1;1;1;1;0;1;0;1]%nat (conc_start w [[SGet 10]; [FNew 10]]) = Some UB) by (vm_compute; reflexivity).
  destruct (play_ub _ _ P) as (st & R & U). exists st. auto.
Qed.
Lemma two_ordinary : exists w st t t' b, history w /\ wout w = [] /\ creach (conc_start w [[FNew 10]; [FNew 10]]) st /\
  nth_error (cthr st) 0 = Some t /\ nth_error (cthr st) 1 = Some t' /\ ended t /\ ended t' /\ tfld t = [b] /\ tfld t' = [b].
Proof.
  destruct two_free as (w & Hw & Ew & Eo & Em). exists w.
  set (st := conc_start w [[FNew 10]; [FNew 10]]).
  assert (P : exists s t t', play [0;0;0;0;0;1;1;1;1;1;0;1;0;1;0;1]%nat st = Some (Ok (CState s [t; t'])) /\
      ended t /\ ended t' /\ tfld t = [1%nat] /\ tfld t' = [1%nat]).
  { unfold st, conc_start. rewrite Ew, Em. vm_compute. eexists _, _, _. split; [reflexivity|]. repeat split; reflexivity. }
  destruct P as (s & t & t' & P & A & B & C & D). exists (CState s [t; t']), t, t', 1%nat.
  repeat split; try assumption; try reflexivity; try apply A; try apply B. exact (play_reach _ _ _ P).
Qed.

Lemma given_leak : exists w st, history w /\ wout w = [0%nat] /\ creach (given w 0 7 10 []) st /\
  (forall t, In t (cthr st) -> ended t /\ thdl t = []) /\ pool_active (spl (csh st)) = 1.
Proof.
  exists w_a. assert (P : exists s t t', play [0;1;0;1;0;1;0;1]%nat (given w_a 0 7 10 []) = Some (Ok (CState s [t; t'])) /\
      pool_active (spl s) = 1 /\ ended t /\ ended t' /\ thdl t = [] /\ thdl t' = []).
  { vm_compute. eexists _, _, _. split; [reflexivity|]. repeat split; reflexivity. }
  destruct P as (s & t & t' & P & A & B & C & D & E). exists (CState s [t; t']). split; [exact h_a|]. split; [reflexivity|].
  split; [exact (play_reach _ _ _ P)|]. split; [|exact A]. intros u [<-|[<-|[]]]; auto.
Qed.
Lemma given_ub : exists w st, history w /\ wout w = [0%nat] /\ creach (given w 0 7 10 []) st /\ cstep st UB.
Proof.
  exists w_a. assert (P : play [0;0;0;1;1;1;0;0;0;0;0;0;0;1]%nat (given w_a 0 7 10 []) = Some UB) by (vm_compute; reflexivity).
  destruct (play_ub _ _ P) as (st & R & U). exists st. split; [exact h_a|]. split; [reflexivity|]. auto.
Qed.
(** Both give the array back; it is then handed out twice. *)
Lemma given_twice : exists w st t t' H H', history w /\ wout w = [0%nat] /\
  creach (given w 0 7 10 [[SGet 10]; [SGet 10]]) st /\
  nth_error (cthr st) 2 = Some t /\ nth_error (cthr st) 3 = Some t' /\ ended t /\ ended t' /\
  handles t = [H] /\ handles t' = [H'] /\ hblk H = hblk H' /\ hcnt H <> hcnt H'.
Proof.
  exists w_a.
  assert (P : exists s t0 t1 t t', play ([0;0;0;1;1;1;0;1] ++ [0;0;0;0;0] ++ [1;1;1;1;1] ++ repeat 2 9 ++ repeat 3 9)%nat (given w_a 0 7 10 [[SGet 10]; [SGet 10]]) =
      Some (Ok (CState s [t0; t1; t; t'])) /\ ended t /\ ended t' /\ handles t = [Hdl 0 8 10] /\ handles t' = [Hdl 0 9 10]).
  { vm_compute. eexists _, _, _, _, _. split; [reflexivity|]. repeat split; reflexivity. }
  destruct P as (s & t0 & t1 & t & t' & P & A & B & C & D). exists (CState s [t0; t1; t; t']), t, t', (Hdl 0 8 10), (Hdl 0 9 10).
  repeat split; try assumption; try reflexivity; try apply A; try apply B; try exact h_a; try exact (play_reach _ _ _ P); try discriminate.
Qed.

(** A run with several threads. *)
Definition progs_ex : list (list cop) := [[SGet 10; HCopy 0; HDrop 0; SGet 5; HDrop 0; HDrop 0]; [SGet 3; SGet 20]].
Lemma met : exists w st, history w /\ wout w = [] /\ Forall (Forall store_op) progs_ex /\ creach (conc_start w progs_ex) st /\
  (exists t t' H H' b, nth_error (cthr st) 0 = Some t /\ nth_error (cthr st) 1 = Some t' /\
     handles t = [H; Hdl b (hcnt H) 10] /\ hblk H = b /\ handles t' = [H'] /\ hblk H' <> b /\ ~ ended t /\ ~ ended t').
Proof.
  destruct two_free as (w & Hw & Ew & Eo & Em). exists w.
  set (st := conc_start w progs_ex).
  assert (P : exists s t t', play [0;1;0;0;0;0;0;0;0;0;1;1;0;1;1;0;1;1;0;1;1;1]%nat st = Some (Ok (CState s [t; t'])) /\ ~ ended t /\ ~ ended t' /\
      handles t = [Hdl 1 2 10; Hdl 1 2 10] /\ handles t' = [Hdl 0 3 3]).
  { unfold st, conc_start. rewrite Ew, Em. vm_compute. eexists _, _, _. split; [reflexivity|]. repeat split; try reflexivity; try (intros [X Y]; discriminate). }
  destruct P as (s & t & t' & P & A & B & C & D). exists (CState s [t; t']).
  split; [exact Hw|]. split; [exact Eo|]. split; [repeat constructor; cbn; lia|]. split; [exact (play_reach _ _ _ P)|].
  exists t, t', (Hdl 1 2 10), (Hdl 0 3 3), 1%nat. repeat split; try assumption; try discriminate.
Qed.
