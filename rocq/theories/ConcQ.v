From Coq Require Import Sorting.Permutation.
From Verif Require Import Prelude PoolM PoolS PoolP PtrM PtrP ConcM ConcS ConcP.

(** The handles that the counters count. *)
Definition counted (t : thr) : list hdl :=
  match tpc t with
  | PTest k | PLock (CRestore k) | PIn (CRestore k) _ | PDelete k => remove_nth (thdl t) k
  | _ => thdl t
  end.
Definition last_one (t : thr) (k : nat) : Prop :=
  exists H, nth_error (thdl t) k = Some H /\ sharing (remove_nth (thdl t) k) (hcnt H) = 0.
Definition pc_ok (s : shared) (t : thr) : Prop :=
  match tpc t with
  | PIdle => True
  | PLock (CGet n) | PIn (CGet n) _ => 0 <= n
  | PLoad _ k | PTest k => exists H, nth_error (thdl t) k = Some H
  | PStore _ k z => exists H, nth_error (thdl t) k = Some H /\ aget (scnt s) (hcnt H) = Some z
  | PLock (CRestore k) | PIn (CRestore k) _ | PDelete k => last_one t k
  | _ => False
  end.
Record thread_ok (s : shared) (w : world) (t : thr) : Prop := {
  k_fld : tfld t = [];
  k_ops : Forall store_op (tops t);
  k_size : forall H, In H (thdl t) -> exists k, In (hblk H, k) (wmem w) /\ hpts H <= k;
  k_same : forall H H', In H (thdl t) -> In H' (thdl t) -> (hcnt H = hcnt H' <-> hblk H = hblk H');
  k_cnt : forall H, In H (thdl t) -> aget (scnt s) (hcnt H) = Some (sharing (counted t) (hcnt H));
  k_pc : pc_ok s t
}.
Definition busy (w : world) (s : shared) (t : thr) : Prop :=
  match tpc t with
  | PIn (CGet n) q => at_get w n q s
  | PIn (CRestore k) q => exists H, nth_error (thdl t) k = Some H /\ at_put w (hblk H) q s
  | _ => False
  end.
Definition lock_inv (s : shared) (ts : list thr) (w : world) : Prop :=
  if smut s
  then exists i t, nth_error ts i = Some t /\ busy w s t /\ forall j t', nth_error ts j = Some t' -> in_pool t' -> j = i
  else (forall j t', nth_error ts j = Some t' -> ~ in_pool t') /\ spl s = wpool w /\ smem s = wmem w.
Record cinv (w0 : world) (s : shared) (ts : list thr) (w : world) : Prop := {
  c_hist : history w;
  c_thr : forall i t, nth_error ts i = Some t -> thread_ok s w t;
  c_sep : forall i j t t' H H', i <> j -> nth_error ts i = Some t -> nth_error ts j = Some t' ->
            In H (thdl t) -> In H' (thdl t') -> hcnt H <> hcnt H';
  c_dom : forall c, aget (scnt s) c <> None -> exists i t H, nth_error ts i = Some t /\ In H (thdl t) /\ hcnt H = c;
  c_out : Permutation (wout w) (wout w0 ++ flat_map held ts);
  c_mem : incl (wmem w0) (wmem w);
  c_lock : lock_inv s ts w
}.

Lemma upd w0 s ts w s' w' i t t' : cinv w0 s ts w -> nth_error ts i = Some t ->
  thread_ok s' w' t' ->
  (forall c, (forall H, In H (thdl t) -> hcnt H <> c) -> aget (scnt s) c <> None -> aget (scnt s') c = aget (scnt s) c) ->
  (forall H', In H' (thdl t') -> (exists H, In H (thdl t) /\ hcnt H = hcnt H') \/ aget (scnt s) (hcnt H') = None) ->
  (forall c, aget (scnt s') c <> None -> (exists H, In H (thdl t') /\ hcnt H = c) \/
     (aget (scnt s) c <> None /\ forall H, In H (thdl t) -> hcnt H <> c)) ->
  incl (wmem w) (wmem w') -> history w' -> Permutation (held t' ++ wout w) (held t ++ wout w') ->
  lock_inv s' (cset ts i t') w' ->
  cinv w0 s' (cset ts i t') w'.
Proof.
  intros [Hh Ht Hs Hd Ho Hm Hl] Hi Ht' Fr Nw Dm Inc Hw Pm Lk. constructor; try assumption.
  - intros j u. rewrite (cset_nth _ _ _ _ _ Hi). destruct (Nat.eqb_spec i j) as [<-|N]; [intros [= <-]; exact Ht'|].
    intros Hj. destruct (Ht j u Hj) as [K1 K2 K3 K4 K5 K6].
    assert (Same : forall H, In H (thdl u) -> aget (scnt s') (hcnt H) = aget (scnt s) (hcnt H)).
    { intros H I. apply Fr; [|rewrite (K5 H I); discriminate]. intros H0 I0. exact (Hs i j t u H0 H N Hi Hj I0 I). }
    constructor; try assumption.
    + intros H I. destruct (K3 H I) as (k & I1 & L). eauto.
    + intros H I. rewrite (Same H I). exact (K5 H I).
    + unfold pc_ok in *. destruct (tpc u) as [|j0|j0 q0|up k|up k z|k|k]; try assumption.
      destruct K6 as (H & E1 & E2). exists H. split; [exact E1|]. rewrite (Same H); [exact E2|]. eapply nth_error_In; exact E1.
  - assert (One : forall j u H H', i <> j -> nth_error ts j = Some u -> In H (thdl t') -> In H' (thdl u) -> hcnt H <> hcnt H').
    { intros j u H H' N Hj I I'. destruct (Nw H I) as [(H0 & I0 & <-)|Nn].
      - exact (Hs i j t u H0 H' N Hi Hj I0 I').
      - intros E. rewrite E, (k_cnt _ _ _ (Ht j u Hj) H' I') in Nn. discriminate. }
    intros j1 j2 u1 u2 H H' N. rewrite !(cset_nth _ _ _ _ _ Hi).
    destruct (Nat.eqb_spec i j1) as [<-|N1]; destruct (Nat.eqb_spec i j2) as [<-|N2].
    + contradiction.
    + intros [= <-] Hj. eauto.
    + intros Hj [= <-] I I' E. exact (One j1 u1 H' H N1 Hj I' I (eq_sym E)).
    + intros Hj1 Hj2. eauto.
  - intros c Nn. destruct (Dm c Nn) as [(H & I & E)|[N0 No]].
    + exists i, t', H. rewrite (cset_nth _ _ _ _ _ Hi), Nat.eqb_refl. auto.
    + destruct (Hd c N0) as (j & u & H & Hj & I & E). exists j, u, H. rewrite (cset_nth _ _ _ _ _ Hi).
      destruct (Nat.eqb_spec i j) as [<-|N]; [|auto]. exfalso. rewrite Hi in Hj. injection Hj as <-. exact (No H I E).
  - destruct (cset_split ts i t Hi) as (a & b & -> & _ & E). rewrite E. rewrite flat_map_app in Ho |- *. cbn [flat_map] in Ho |- *.
    apply (Permutation_app_inv_l (held t)). rewrite <- Pm. rewrite Ho. clear.
    rewrite (Permutation_app_comm (wout w0)), (Permutation_app_comm (wout w0)). rewrite <- !app_assoc.
    rewrite (Permutation_app_comm (flat_map held a)), (Permutation_app_comm (flat_map held a)). rewrite <- !app_assoc.
    rewrite !app_assoc. do 3 apply Permutation_app_tail. apply Permutation_app_comm.
  - exact (incl_tran Hm Inc).
Qed.

Lemma busy_in w s t : busy w s t -> in_pool t.
Proof. unfold busy, in_pool. destruct (tpc t) as [|j|j q| | | |]; try contradiction. eauto. Qed.
Lemma busy_ext w s s' t : spl s' = spl s -> smem s' = smem s -> busy w s t -> busy w s' t.
Proof.
  unfold busy. intros E1 E2. destruct (tpc t) as [|j|j q| | | |]; try contradiction. destruct j as [n|k|n|k]; try contradiction.
  - unfold at_get. rewrite E1, E2. auto.
  - unfold at_put. rewrite E1, E2. auto.
Qed.
Lemma lock_frame s ts w s' i t t' : lock_inv s ts w -> nth_error ts i = Some t -> ~ in_pool t -> ~ in_pool t' ->
  smut s' = smut s -> spl s' = spl s -> smem s' = smem s -> lock_inv s' (cset ts i t') w.
Proof.
  unfold lock_inv. intros L Hi N N' E1 E2 E3. rewrite E1. destruct (smut s).
  - destruct L as (i0 & t0 & H0 & B & O). exists i0, t0. rewrite (cset_nth _ _ _ _ _ Hi).
    destruct (Nat.eqb_spec i i0) as [->|Ni]; [rewrite H0 in Hi; injection Hi as ->; destruct (N (busy_in _ _ _ B))|].
    split; [exact H0|]. split; [exact (busy_ext _ _ _ _ E2 E3 B)|]. intros j u. rewrite (cset_nth _ _ _ _ _ Hi).
    destruct (Nat.eqb_spec i j) as [->|Nj]; [intros [= <-] I; contradiction|]. apply O.
  - destruct L as (L1 & L2 & L3). rewrite E2, E3. split; [|auto]. intros j u. rewrite (cset_nth _ _ _ _ _ Hi).
    destruct (Nat.eqb_spec i j) as [->|Nj]; [intros [= <-]; exact N'|]. apply L1.
Qed.
Lemma lock_held s ts w i t : lock_inv s ts w -> nth_error ts i = Some t -> in_pool t -> smut s = true /\ busy w s t /\
  forall j t', nth_error ts j = Some t' -> in_pool t' -> j = i.
Proof.
  unfold lock_inv. intros L Hi I. destruct (smut s).
  - destruct L as (i0 & t0 & H0 & B & O). pose proof (O i t Hi I) as ->. rewrite H0 in Hi. injection Hi as ->. auto.
  - destruct L as (L1 & _). destruct (L1 i t Hi I).
Qed.
Lemma lock_keep s ts w s' i t t' : lock_inv s ts w -> nth_error ts i = Some t -> in_pool t ->
  smut s' = true -> busy w s' t' -> lock_inv s' (cset ts i t') w.
Proof.
  intros L Hi I E B. destruct (lock_held _ _ _ _ _ L Hi I) as (_ & _ & O). unfold lock_inv. rewrite E.
  exists i, t'. rewrite (cset_nth _ _ _ _ _ Hi), Nat.eqb_refl. split; [reflexivity|]. split; [exact B|].
  intros j u. rewrite (cset_nth _ _ _ _ _ Hi). destruct (Nat.eqb_spec i j) as [->|N]; [reflexivity|]. apply O.
Qed.
Lemma lock_take s ts w s' i t t' : lock_inv s ts w -> nth_error ts i = Some t -> smut s = false ->
  smut s' = true -> busy w s' t' -> lock_inv s' (cset ts i t') w.
Proof.
  unfold lock_inv. intros L Hi Ef E B. rewrite E. rewrite Ef in L. destruct L as (L1 & _).
  exists i, t'. rewrite (cset_nth _ _ _ _ _ Hi), Nat.eqb_refl. split; [reflexivity|]. split; [exact B|].
  intros j u. rewrite (cset_nth _ _ _ _ _ Hi). destruct (Nat.eqb_spec i j) as [->|N]; [reflexivity|]. intros Hj Iu. destruct (L1 j u Hj Iu).
Qed.
Lemma lock_leave s ts w s' w' i t t' : lock_inv s ts w -> nth_error ts i = Some t -> in_pool t -> ~ in_pool t' ->
  smut s' = false -> spl s' = wpool w' -> smem s' = wmem w' -> lock_inv s' (cset ts i t') w'.
Proof.
  intros L Hi I N' E E1 E2. destruct (lock_held _ _ _ _ _ L Hi I) as (_ & _ & O). unfold lock_inv. rewrite E. split; [|auto].
  intros j u. rewrite (cset_nth _ _ _ _ _ Hi). destruct (Nat.eqb_spec i j) as [->|N]; [intros [= <-]; exact N'|].
  intros Hj Iu. exact (N (eq_sym (O j u Hj Iu))).
Qed.

Lemma held_out w0 s ts w i t b : cinv w0 s ts w -> nth_error ts i = Some t -> In b (held t) -> In b (wout w).
Proof.
  intros C Hi I. apply (Permutation_in _ (Permutation_sym (c_out _ _ _ _ C))). apply in_or_app. right.
  apply in_flat_map. exists t. split; [eapply nth_error_In; exact Hi|exact I].
Qed.
