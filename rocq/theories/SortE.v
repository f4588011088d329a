(** A run of the merge sort program. *)
From Coq Require Import Lia Arith Permutation.
From Verif Require Import Prelude TPoolM TPoolS TPoolP TPoolQ SortM SortS SortP SortQ SortR.
Local Open Scope nat_scope.

(** Elements are a key and a mark; two elements, one worker. *)
Definition two (i : nat) : Z * nat := match i with 0 => (3%Z, 0) | 1 => (1%Z, 1) | _ => (0%Z, 2) end.
Definition pl (q : list task) (act : Z) (ws : list wkr) (cs : list client) (gs gt gd : list task) : pool :=
  Pool Fifo q 1 1 act 1 false ws cs gs gt gd [] [].
Definition p0 := pl [] 1 [WEnter] [] [] [] [].
Definition s0 : sys (Z * nat) := Sys p0 two [] [] (MSched 1 0).
Definition tk : task := (0, 0%Z).
Definition s6 : sys (Z * nat) :=
  Sys (pl [] 0 [WWait] [CBack (CWait 0)] [tk] [tk] [tk]) (put _ two 0 [(1%Z, 1); (3%Z, 0)]) [Job 0 2] [] MDone.
Lemma start0 : prog_start _ 1 1 1 two (Fine s0).
Proof.
  apply (ps _ 1 1 1 two p0). exists p0. split.
  - refine (pi Fifo 1 (grow (pool_new Fifo) 1 1) _). apply (rz_grow (pool_new Fifo) 1 1); cbn; try reflexivity; lia.
  - apply (rz_grow p0 1 0); cbn; try reflexivity; lia.
Qed.
Lemma run0 : sreach _ fst 1 (Fine s0) (Fine s6).
Proof.
  assert (H1 : sstep _ fst 1 true (Fine s0) (Fine (Sys (pl [tk] 1 [WEnter] [] [tk] [] []) two [Job 0 2] [] (MSched 1 1)))).
  { refine (ss_schedule _ fst 1 p0 _ two [] [] 1 0 _ _); [cbn; lia|]. apply (ts_schedule p0 tk [WEnter]). constructor. reflexivity. }
  assert (H2 : sstep _ fst 1 true (Fine (Sys (pl [tk] 1 [WEnter] [] [tk] [] []) two [Job 0 2] [] (MSched 1 1)))
                 (Fine (Sys (pl [] 1 [WRun tk] [] [tk] [tk] []) two [Job 0 2] [(tk, Job 0 2, [(3%Z, 0); (1%Z, 1)])] (MSched 1 1)))).
  { refine (ss_start _ fst 1 _ (pl [] 1 [WRun tk] [] [tk] [tk] []) two [Job 0 2] [] (MSched 1 1) tk (Job 0 2) _ eq_refl).
    apply (ts_enter_take (pl [tk] 1 [WEnter] [] [tk] [] []) [] [] tk []); cbn; try reflexivity; try lia. constructor. }
  assert (H3 : sstep _ fst 1 true (Fine (Sys (pl [] 1 [WRun tk] [] [tk] [tk] []) two [Job 0 2] [(tk, Job 0 2, [(3%Z, 0); (1%Z, 1)])] (MSched 1 1)))
                 (Fine (Sys (pl [] 1 [WEnter] [] [tk] [tk] [tk]) (put _ two 0 [(1%Z, 1); (3%Z, 0)]) [Job 0 2] [] (MSched 1 1)))).
  { refine (ss_done _ fst 1 _ (pl [] 1 [WEnter] [] [tk] [tk] [tk]) two [Job 0 2] [] [] (MSched 1 1) tk (Job 0 2) _ _).
    apply (ts_done (pl [] 1 [WRun tk] [] [tk] [tk] []) [] tk []). reflexivity. }
  assert (H4 : sstep _ fst 1 true (Fine (Sys (pl [] 1 [WEnter] [] [tk] [tk] [tk]) (put _ two 0 [(1%Z, 1); (3%Z, 0)]) [Job 0 2] [] (MSched 1 1)))
                 (Fine (Sys (pl [] 0 [WWait] [] [tk] [tk] [tk]) (put _ two 0 [(1%Z, 1); (3%Z, 0)]) [Job 0 2] [] (MSched 1 1)))).
  { refine (ss_pool _ fst 1 (pl [] 1 [WEnter] [] [tk] [tk] [tk]) (pl [] 0 [WWait] [] [tk] [tk] [tk]) _ _ _ _ LWorker true (or_introl eq_refl) _ eq_refl).
    apply (ts_enter_sleep (pl [] 1 [WEnter] [] [tk] [tk] [tk]) [] []); cbn; try reflexivity; lia. }
  assert (H5 : sstep _ fst 1 true (Fine (Sys (pl [] 0 [WWait] [] [tk] [tk] [tk]) (put _ two 0 [(1%Z, 1); (3%Z, 0)]) [Job 0 2] [] (MSched 1 1)))
                 (Fine (Sys (pl [] 0 [WWait] [CBack (CWait 0)] [tk] [tk] [tk]) (put _ two 0 [(1%Z, 1); (3%Z, 0)]) [Job 0 2] [] (MWait 1)))).
  { refine (ss_wait _ fst 1 (pl [] 0 [WWait] [] [tk] [tk] [tk]) (pl [] 0 [WWait] [CBack (CWait 0)] [tk] [tk] [tk]) _ _ _ 1 1 _ _ eq_refl _); [cbn; lia| |cbn; auto].
    apply (ts_wait_call (pl [] 0 [WWait] [] [tk] [tk] [tk]) 0). lia. }
  assert (H6 : sstep _ fst 1 true (Fine (Sys (pl [] 0 [WWait] [CBack (CWait 0)] [tk] [tk] [tk]) (put _ two 0 [(1%Z, 1); (3%Z, 0)]) [Job 0 2] [] (MWait 1))) (Fine s6)).
  { refine (ss_next _ fst 1 _ _ _ _ 1 _). reflexivity. }
  exact (sr_step _ _ _ _ _ _ _ (sr_step _ _ _ _ _ _ _ (sr_step _ _ _ _ _ _ _ (sr_step _ _ _ _ _ _ _ (sr_step _ _ _ _ _ _ _ (sr_step _ _ _ _ _ _ _ (sr_0 _ _ _ _) H1) H2) H3) H4) H5) H6).
Qed.
Lemma stuck6 z : ~ sstep _ fst 1 true (Fine s6) z.
Proof.
  intros St. inversion St; subst; try discriminate.
  - destruct H6 as [->| ->]; inversion H7; subst; cbn in *;
      try (match goal with E : [_] = ?a ++ _ :: _ |- _ => destruct a as [|? [|? ?]]; discriminate E end); discriminate H8.
  - match goal with T : tstep (LStart _) _ _ |- _ => inversion T; subst; cbn in * end;
      match goal with E : [_] = ?a ++ _ :: _ |- _ => destruct a as [|? [|? ?]]; discriminate E end.
  - destruct lv1; discriminate.
Qed.
(** The program as written, with any number of threads asked for by resize *)
Definition hung (m : Z) : pool := Pool Fifo [] m m m 0 false (repeat WEnter (Z.to_nat m)) [] [] [] [] [] [].
Lemma start_hung : prog_start _ 7 0 5 two (Fine (Sys (hung 5) two [] [] (MSched 1 0))).
Proof.
  apply (ps _ 7 0 5 two (hung 5)). exists (hung 0). split.
  - refine (pi Fifo 0 (grow (pool_new Fifo) 0 0) _). apply (rz_grow (pool_new Fifo) 0 0); cbn; try reflexivity; lia.
  - apply (rz_grow (hung 0) 5 5); cbn; try reflexivity; lia.
Qed.
