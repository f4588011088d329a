(** Proofs about field handles. *)
From Coq Require Import Permutation.
From Verif Require Import Prelude PoolM PoolS PoolP PtrM PtrS.

Lemma aget_cons {A} k0 (v : A) m k : aget ((k0, v) :: m) k = if (k0 =? k)%nat then Some v else aget m k.
Proof. unfold aget. cbn. destruct (k0 =? k)%nat; reflexivity. Qed.
Lemma aget_adel {A} (m : amap A) k j : aget (adel m k) j = if (k =? j)%nat then None else aget m j.
Proof.
  induction m as [|[a v] m IH]; cbn [adel filter fst]; [destruct (k =? j)%nat; reflexivity|].
  fold (adel m k). destruct (Nat.eqb_spec a k) as [->|N]; cbn [negb].
  - rewrite IH, aget_cons. destruct (k =? j)%nat; reflexivity.
  - rewrite !aget_cons, IH. destruct (Nat.eqb_spec a j) as [->|]; [|reflexivity].
    destruct (Nat.eqb_spec k j); [congruence|reflexivity].
Qed.
Lemma aget_aset {A} (m : amap A) k v j : aget (aset m k v) j = if (k =? j)%nat then Some v else aget m j.
Proof. unfold aset. rewrite aget_cons, aget_adel. destruct (k =? j)%nat; reflexivity. Qed.
Lemma adel_adel {A} (m : amap A) k : adel (adel m k) k = adel m k.
Proof.
  induction m as [|[a v] m IH]; [reflexivity|]. unfold adel in *. cbn. destruct (a =? k)%nat eqn:E; cbn; [exact IH|].
  rewrite E. cbn. rewrite IH. reflexivity.
Qed.
Lemma adel_aset {A} (m : amap A) k v : adel (aset m k v) k = adel m k.
Proof. unfold aset. unfold adel at 1. cbn. rewrite Nat.eqb_refl. cbn. apply adel_adel. Qed.
Lemma adel_none {A} (m : amap A) k : aget m k = None -> adel m k = m.
Proof.
  induction m as [|[a v] m IH]; [reflexivity|]. rewrite aget_cons. unfold adel in *. cbn. destruct (a =? k)%nat; [discriminate|].
  cbn. intros E. rewrite IH by exact E. reflexivity.
Qed.
Lemma nodup_adel {A} (m : amap A) k : NoDup (map fst m) -> NoDup (map fst (adel m k)).
Proof.
  induction m as [|[a v] m IH]; [auto|]. cbn [map fst]. intros N. apply NoDup_cons_iff in N as [N1 N2].
  unfold adel in *. cbn. destruct (a =? k)%nat; cbn; [auto|]. constructor; [|auto].
  intros I. apply N1. apply in_map_iff in I as (e & <- & I). apply filter_In in I as [I _]. apply in_map, I.
Qed.
Lemma aget_none {A} (m : amap A) k : aget m k = None <-> ~ In k (map fst m).
Proof.
  induction m as [|[a v] m IH]; [split; [intros _ []|reflexivity]|]. rewrite aget_cons. cbn. destruct (Nat.eqb_spec a k) as [->|N].
  - split; [discriminate|tauto].
  - rewrite IH. tauto.
Qed.
Lemma nodup_aset {A} (m : amap A) k v : NoDup (map fst m) -> NoDup (map fst (aset m k v)).
Proof.
  intros N. cbn. constructor; [|apply nodup_adel, N]. apply aget_none. rewrite aget_adel, Nat.eqb_refl. reflexivity.
Qed.
Lemma aget_in {A} (m : amap A) k v : aget m k = Some v -> In (k, v) m.
Proof.
  induction m as [|[a w] m IH]; [discriminate|]. rewrite aget_cons. destruct (Nat.eqb_spec a k) as [->|].
  - intros E. injection E as ->. left. reflexivity.
  - right. auto.
Qed.
Lemma in_aget {A} (m : amap A) k v : NoDup (map fst m) -> In (k, v) m -> aget m k = Some v.
Proof.
  induction m as [|[a w] m IH]; [intros _ []|]. cbn [map fst]. intros N. apply NoDup_cons_iff in N as [N1 N2].
  rewrite aget_cons. intros [E|I].
  - injection E as -> ->. rewrite Nat.eqb_refl. reflexivity.
  - destruct (Nat.eqb_spec a k) as [->|]; [|auto]. destruct N1. apply in_map with (f := fst) in I. exact I.
Qed.
Lemma adel_map {A B} (g : A -> B) (m : amap A) k : adel (map (fun e => (fst e, g (snd e))) m) k = map (fun e => (fst e, g (snd e))) (adel m k).
Proof.
  induction m as [|[a v] m IH]; [reflexivity|]. unfold adel in *. cbn. destruct (a =? k)%nat; cbn; rewrite IH; reflexivity.
Qed.
Lemma aget_map {A B} (g : A -> B) (m : amap A) k : aget (map (fun e => (fst e, g (snd e))) m) k = option_map g (aget m k).
Proof. induction m as [|[a v] m IH]; [reflexivity|]. cbn [map fst snd]. rewrite !aget_cons. destruct (a =? k)%nat; [reflexivity|exact IH]. Qed.

(** Removing an entry, as a permutation. *)
Lemma adel_perm {A} (m : amap A) k v : NoDup (map fst m) -> aget m k = Some v -> Permutation m ((k, v) :: adel m k).
Proof.
  induction m as [|[a w] m IH]; [discriminate|]. cbn [map fst]. intros N. apply NoDup_cons_iff in N as [N1 N2].
  rewrite aget_cons. unfold adel. cbn [filter fst]. fold (adel m k). destruct (Nat.eqb_spec a k) as [->|]; cbn [negb].
  - intros E. injection E as ->. rewrite adel_none by (apply aget_none; exact N1). reflexivity.
  - intros E. rewrite (IH N2 E) at 1. apply perm_swap.
Qed.

(** Number of handles that use counter c. *)
Definition uses (c : nat) (e : nat * handle) : bool :=
  match hc (snd e) with Some d => (d =? c)%nat | None => false end.
Definition cnt_of (hs : amap handle) (c : nat) : nat := length (filter (uses c) hs).
Lemma filter_perm_length {A} (g : A -> bool) l l' : Permutation l l' -> length (filter g l) = length (filter g l').
Proof.
  induction 1; cbn; [reflexivity| | |congruence].
  - destruct (g x); cbn; congruence.
  - destruct (g x), (g y); reflexivity.
Qed.
Lemma cnt_adel hs h H c : NoDup (map fst hs) -> aget hs h = Some H ->
  cnt_of hs c = ((match hc H with Some d => if (d =? c)%nat then 1 else 0 | None => 0 end) + cnt_of (adel hs h) c)%nat.
Proof.
  intros N E. unfold cnt_of. rewrite (filter_perm_length _ _ _ (adel_perm _ _ _ N E)). cbn [filter]. unfold uses at 1. cbn [snd].
  destruct (hc H) as [d|]; [destruct (d =? c)%nat|]; reflexivity.
Qed.
Lemma cnt_aset hs h H c : aget hs h = None ->
  cnt_of (aset hs h H) c = ((match hc H with Some d => if (d =? c)%nat then 1 else 0 | None => 0 end) + cnt_of hs c)%nat.
Proof.
  intros E. unfold cnt_of, aset. rewrite (adel_none _ _ E). cbn [filter]. unfold uses at 1. cbn [snd].
  destruct (hc H) as [d|]; [destruct (d =? c)%nat|]; reflexivity.
Qed.
Lemma cnt_pos hs c : NoDup (map fst hs) -> (0 < cnt_of hs c)%nat -> exists h H, aget hs h = Some H /\ hc H = Some c.
Proof.
  intros N L. unfold cnt_of in L. destruct (filter (uses c) hs) as [|[h H] l] eqn:E; [cbn in L; lia|].
  assert (I : In (h, H) (filter (uses c) hs)) by (rewrite E; left; reflexivity).
  apply filter_In in I as [I U]. exists h, H. split; [apply in_aget; assumption|]. unfold uses in U. cbn in U.
  destruct (hc H) as [d|]; [|discriminate]. apply Nat.eqb_eq in U. congruence.
Qed.
Lemma cnt_has hs h H c : NoDup (map fst hs) -> aget hs h = Some H -> hc H = Some c -> (0 < cnt_of hs c)%nat.
Proof. intros N E Hc. rewrite (cnt_adel hs h H c N E), Hc, Nat.eqb_refl. lia. Qed.

(** Pool side: the blocks handed out are those of the live fields. *)
Definition own_blocks (fld : amap hfield) : list nat :=
  map (fun e => fblock (snd e)) (filter (fun e => negb (fuser (snd e))) fld).
Definition pinv (p : pool) (fld : amap hfield) : Prop :=
  (exists w, history w /\ wpool w = p /\ Permutation (wout w) (own_blocks fld)) /\
  forall f x, aget fld f = Some x -> fbuilt x && fuser x = false.

Lemma own_perm l l' : Permutation l l' -> Permutation (own_blocks l) (own_blocks l').
Proof.
  intros P. unfold own_blocks. apply Permutation_map. induction P; cbn; [reflexivity| | |etransitivity; eauto].
  - destruct (fuser (snd x)); cbn; auto.
  - destruct (fuser (snd x)), (fuser (snd y)); cbn; try reflexivity. apply perm_swap.
Qed.
Lemma pinv_get p fld fa ba n bt : pinv p fld -> aget fld fa = None -> ~ In ba (map fst (pfsm p)) -> 0 <= n ->
  let '(b, _, p') := pool_get p ba n in pinv p' (aset fld fa (HField b bt false)).
Proof.
  intros [(w & Hw & <- & P) K] Nf Fr Hn. rewrite (i_fsm _ (history_inv w Hw)) in Fr.
  pose proof (h_get w ba n Hw Fr Hn) as H2.
  revert H2. unfold do_get. destruct (pool_get (wpool w) ba n) as [[b al] p']. cbn [snd]. intros H2.
  split; [|intros f x E; rewrite aget_aset in E; destruct (fa =? f)%nat; [injection E as <-; apply andb_false_r|eauto]].
  eexists. split; [exact H2|]. split; [reflexivity|]. cbn [wout]. unfold aset. rewrite (adel_none _ _ Nf). cbn. constructor. exact P.
Qed.

Lemma pinv_put p fld f x : NoDup (map fst fld) -> pinv p fld -> aget fld f = Some x -> fuser x = false ->
  exists p', pool_put p (fblock x) = Ok p' /\ pinv p' (adel fld f).
Proof.
  intros N [(w & Hw & <- & P) K] E U. pose proof (own_perm _ _ (adel_perm _ _ _ N E)) as Po.
  unfold own_blocks at 2 in Po. cbn [filter snd] in Po. rewrite U in Po. cbn [negb map snd] in Po. fold (own_blocks (adel fld f)) in Po.
  assert (Ib : In (fblock x) (wout w)).
  { eapply Permutation_in; [symmetry; exact P|]. eapply Permutation_in; [symmetry; exact Po|]. left; reflexivity. }
  destruct (put_inv w (fblock x) (history_inv w Hw) Ib) as (w' & Ew & _ & Eo & _).
  pose proof (h_put w (fblock x) w' Hw Ib Ew) as H2. unfold do_put in Ew.
  destruct (pool_put (wpool w) (fblock x)) as [p'| |]; [|discriminate|discriminate]. cbn in Ew.
  exists p'. split; [reflexivity|]. split; [|intros g y G; rewrite aget_adel in G; destruct (f =? g)%nat; [discriminate|eauto]].
  exists w'. split; [exact H2|]. split; [injection Ew as <-; reflexivity|].
  rewrite Eo. apply (Permutation_cons_inv (a := fblock x)). rewrite <- (remove1_perm _ _ Ib), P. exact Po.
Qed.
Lemma pinv_user p fld f x : NoDup (map fst fld) -> pinv p fld -> aget fld f = Some x -> fuser x = true -> pinv p (adel fld f).
Proof.
  intros N [(w & Hw & <- & P) K] E U. split; [|intros g y G; rewrite aget_adel in G; destruct (f =? g)%nat; [discriminate|eauto]].
  exists w. split; [exact Hw|]. split; [reflexivity|]. rewrite P.
  rewrite (own_perm _ _ (adel_perm _ _ _ N E)). unfold own_blocks at 1. cbn [filter snd]. rewrite U. reflexivity.
Qed.
Lemma pinv_wrap p fld f b : pinv p fld -> aget fld f = None -> pinv p (aset fld f (HField b false true)).
Proof.
  intros [(w & Hw & <- & P) K] E. split; [|intros g x G; rewrite aget_aset in G; destruct (f =? g)%nat; [injection G as <-; reflexivity|eauto]].
  exists w. split; [exact Hw|]. split; [reflexivity|]. unfold aset. rewrite (adel_none _ _ E). exact P.
Qed.

(** Handle side. *)
Record hinv (fld : amap hfield) (cnt : amap Z) (hs : amap handle) (raws : list nat) : Prop := HInv {
  n_f : NoDup (map fst fld); n_c : NoDup (map fst cnt); n_h : NoDup (map fst hs);
  e_null : forall h H, aget hs h = Some H -> hc H = None -> hf H = None;
  e_cnt : forall h H c, aget hs h = Some H -> hc H = Some c -> aget cnt c <> None;
  e_val : forall c n, aget cnt c = Some n -> n = Z.of_nat (cnt_of hs c) /\ 0 < n;
  e_same : forall h1 H1 h2 H2 c, aget hs h1 = Some H1 -> aget hs h2 = Some H2 -> hc H1 = Some c -> hc H2 = Some c -> H1 = H2;
  e_uniq : forall h1 H1 h2 H2 f, aget hs h1 = Some H1 -> aget hs h2 = Some H2 -> hf H1 = Some f -> hf H2 = Some f -> hc H1 = hc H2;
  e_live : forall h H f, aget hs h = Some H -> hf H = Some f ->
    exists x, aget fld f = Some x /\ hst H = negb (fbuilt x || fuser x) /\ ~ In f raws;
  e_st : forall h H c, aget hs h = Some H -> hc H = Some c -> hf H = None ->
    hst H = false /\ forall h' H', aget hs h' = Some H' -> hc H' = Some c -> h' = h;
  e_own : forall f x, aget fld f = Some x -> In f raws \/ exists h H, aget hs h = Some H /\ hf H = Some f;
  e_raw : forall f, In f raws -> exists x, aget fld f = Some x /\ fbuilt x || fuser x = true }.

Ltac ag := repeat match goal with
  | E : context [aget (aset _ ?k _) ?j] |- _ => rewrite aget_aset in E
  | E : context [aget (adel _ ?k) ?j] |- _ => rewrite aget_adel in E
  | |- context [aget (aset _ ?k _) ?j] => rewrite aget_aset
  | |- context [aget (adel _ ?k) ?j] => rewrite aget_adel
  | E : context [(?k =? ?j)%nat] |- _ => destruct (Nat.eqb_spec k j); try subst
  | |- context [(?k =? ?j)%nat] => destruct (Nat.eqb_spec k j); try subst
  | E : Some ?a = Some ?b |- _ => is_var b; injection E as E; subst b
  | E : None = Some _ |- _ => discriminate E
  | E : Some _ = None |- _ => discriminate E
  end.

Lemma inv_start : hinv [] [] [] [].
Proof. constructor; try (constructor); try discriminate; intros; contradiction. Qed.

Section Steps.
Variables (fld : amap hfield) (cnt : amap Z) (hs : amap handle) (raws : list nat).
Hypothesis I : hinv fld cnt hs raws.

Lemma add_null h b : aget hs h = None -> hinv fld cnt (aset hs h (Handle None None b)) raws.
Proof.
  intros Nh. destruct I as [i1 i2 i3 i4 i5 i6 i7 i8 i9 i10 i11 i12]. constructor; auto using nodup_aset.
  - intros k H E X. ag; cbn in *; eauto.
  - intros k H c E X. ag; cbn in *; [discriminate|eauto].
  - intros c n E. rewrite cnt_aset by exact Nh. cbn. auto.
  - intros h1 H1 h2 H2 c E1 E2 X1 X2. ag; cbn in *; try discriminate; eauto.
  - intros h1 H1 h2 H2 f E1 E2 X1 X2. ag; cbn in *; try discriminate; eauto.
  - intros k H f E X. ag; cbn in *; [discriminate|eauto].
  - intros k H c E X Y. ag; cbn in *; [discriminate|]. split; [eapply i10; eauto|]. intros h' H' E' X'. ag; cbn in *; [discriminate|]. eapply i10; eauto.
  - intros f x E. destruct (i11 f x E) as [?|(k & H & E1 & X)]; [auto|]. right. exists k, H. split; [|exact X].
    ag; congruence.
Qed.

Lemma add_copy h g G c n : aget hs h = None -> aget hs g = Some G -> hf G <> None -> hc G = Some c -> aget cnt c = Some n ->
  hinv fld (aset cnt c (n + 1)) (aset hs h G) raws.
Proof.
  intros Nh Eg Fg Cg En. destruct I as [i1 i2 i3 i4 i5 i6 i7 i8 i9 i10 i11 i12]. constructor; auto using nodup_aset.
  - intros k H E X. ag; eauto.
  - intros k H d E X. ag; try congruence; eauto.
  - intros d m E. rewrite cnt_aset by exact Nh. rewrite Cg. destruct (i6 c n En). ag; try congruence.
    + lia.
    + cbn. auto.
  - intros h1 H1 h2 H2 d E1 E2 X1 X2. ag; eauto.
  - intros h1 H1 h2 H2 f E1 E2 X1 X2. ag; eauto.
  - intros k H f E X. ag; eauto.
  - intros k H d E X Y. ag; [congruence|]. split; [eapply i10; eauto|]. intros h' H' E' X'. ag; [|eapply i10; eauto].
    assert (H = G) by (eapply i7; eauto). congruence.
  - intros f x E. destruct (i11 f x E) as [?|(k & H & E1 & X)]; [auto|]. right. exists k, H. split; [|exact X].
    ag; congruence.
Qed.

Lemma add_new h H ca : aget hs h = None -> aget cnt ca = None -> hc H = Some ca ->
  match hf H with Some f => In f raws | None => True end -> hst H = false ->
  hinv fld (aset cnt ca 1) (aset hs h H) (match hf H with Some f => drop f raws | None => raws end).
Proof.
  intros Nh Nc Ch Fh Sh. destruct I as [i1 i2 i3 i4 i5 i6 i7 i8 i9 i10 i11 i12].
  assert (Nca : forall k K, aget hs k = Some K -> hc K <> Some ca) by (intros k K E X; apply (i5 _ _ _ E X); exact Nc).
  assert (Z0 : cnt_of hs ca = 0%nat).
  { destruct (Nat.eq_dec (cnt_of hs ca) 0) as [E|N]; [exact E|]. destruct (cnt_pos hs ca i3) as (k & K & E & X); [lia|]. destruct (Nca k K E X). }
  assert (Dr : forall f, In f (match hf H with Some f0 => drop f0 raws | None => raws end) -> In f raws).
  { intros f. destruct (hf H); [|auto]. unfold drop. intros X. apply filter_In in X. tauto. }
  constructor; auto using nodup_aset.
  - intros k K E X. ag; [congruence|eauto].
  - intros k K d E X. ag; try congruence; eauto.
  - intros d m E. rewrite cnt_aset by exact Nh. rewrite Ch. ag; try congruence.
    + rewrite Z0. lia.
    + cbn. auto.
  - intros h1 H1 h2 H2 d E1 E2 X1 X2. ag; try congruence; eauto.
    + match goal with E : aget hs ?k = Some ?K |- _ => destruct (Nca k K E); congruence end.
    + match goal with E : aget hs ?k = Some ?K |- _ => destruct (Nca k K E); congruence end.
  - intros h1 H1 h2 H2 f E1 E2 X1 X2. ag; try congruence; eauto.
    + rewrite X2 in Fh. destruct (i9 _ _ _ E1 X1) as (? & _ & _ & C). contradiction.
    + rewrite X1 in Fh. destruct (i9 _ _ _ E2 X2) as (? & _ & _ & C). contradiction.
  - intros k K f E X. ag.
    + rewrite X in *. destruct (i12 f Fh) as (x & Ex & B). exists x. rewrite B. split; [exact Ex|]. split; [exact Sh|].
      unfold drop. intros C. apply filter_In in C as [_ C]. rewrite Nat.eqb_refl in C. discriminate.
    + destruct (i9 _ _ _ E X) as (x & Ex & B & C). exists x. split; [exact Ex|split; [exact B|]]. intros R. exact (C (Dr f R)).
  - intros k K d E X Y. ag.
    + split; [exact Sh|]. intros h' H' E' X'. ag; [reflexivity|]. destruct (Nca _ _ E'). congruence.
    + split; [eapply i10; eauto|]. intros h' H' E' X'. ag; [destruct (Nca _ _ E); congruence|]. eapply i10; eauto.
  - intros f x E. destruct (i11 f x E) as [R|(k & K & E1 & X)].
    + destruct (hf H) as [f0|] eqn:F0; [|auto]. destruct (Nat.eq_dec f f0) as [->|Nf].
      * right. exists h, H. split; [|exact F0]. ag; congruence.
      * left. apply filter_In. split; [exact R|]. destruct (Nat.eqb_spec f f0); [contradiction|reflexivity].
    + right. exists k, K. split; [|exact X]. ag; congruence.
Qed.

Lemma add_field fa x : aget fld fa = None -> fbuilt x || fuser x = true -> hinv (aset fld fa x) cnt hs (fa :: raws).
Proof.
  intros Nf B. destruct I as [i1 i2 i3 i4 i5 i6 i7 i8 i9 i10 i11 i12]. constructor; auto using nodup_aset.
  - intros k K f E X. destruct (i9 _ _ _ E X) as (y & Ey & S1 & C). exists y. ag; [congruence|]. split; [exact Ey|]. split; [exact S1|].
    intros [->|]; contradiction.
  - intros f y E. ag; [left; left; reflexivity|]. destruct (i11 f y E); [left; right; assumption|auto].
  - intros f [->|R].
    + exists x. ag; [auto|congruence].
    + destruct (i12 f R) as (y & Ey & By). exists y. ag; [congruence|auto].
Qed.

Lemma add_store h fa ca b : aget hs h = None -> aget fld fa = None -> aget cnt ca = None ->
  hinv (aset fld fa (HField b false false)) (aset cnt ca 1) (aset hs h (Handle (Some fa) (Some ca) true)) raws.
Proof.
  intros Nh Nf Nc. destruct I as [i1 i2 i3 i4 i5 i6 i7 i8 i9 i10 i11 i12].
  assert (Nca : forall k K, aget hs k = Some K -> hc K <> Some ca) by (intros k K E X; apply (i5 _ _ _ E X); exact Nc).
  assert (Z0 : cnt_of hs ca = 0%nat).
  { destruct (Nat.eq_dec (cnt_of hs ca) 0) as [E|N]; [exact E|]. destruct (cnt_pos hs ca i3) as (k & K & E & X); [lia|]. destruct (Nca k K E X). }
  assert (Nfa : forall k K, aget hs k = Some K -> hf K <> Some fa) by (intros k K E X; destruct (i9 _ _ _ E X) as (? & C & _); congruence).
  constructor; auto using nodup_aset.
  - intros k K E X. ag; [discriminate|eauto].
  - intros k K d E X. ag; cbn in *; try congruence; eauto.
  - intros d m E. rewrite cnt_aset by exact Nh. cbn [hc]. ag; try congruence.
    + rewrite Z0. lia.
    + cbn. auto.
  - intros h1 H1 h2 H2 d E1 E2 X1 X2. ag; cbn in *; try congruence; eauto.
    + match goal with E : aget hs ?k = Some ?K |- _ => destruct (Nca k K E); congruence end.
    + match goal with E : aget hs ?k = Some ?K |- _ => destruct (Nca k K E); congruence end.
  - intros h1 H1 h2 H2 f E1 E2 X1 X2. ag; cbn in *; try congruence; eauto.
    + match goal with E : aget hs ?k = Some ?K |- _ => destruct (Nfa k K E); congruence end.
    + match goal with E : aget hs ?k = Some ?K |- _ => destruct (Nfa k K E); congruence end.
  - intros k K f E X. ag; cbn in *.
    + eexists. split; [reflexivity|]. split; [reflexivity|]. intros R. destruct (i12 _ R) as (? & C & _). congruence.
    + congruence.
    + destruct (Nfa k K E). exact X.
    + eauto.
  - intros k K d E X Y. ag; [discriminate|]. split; [eapply i10; eauto|]. intros h' H' E' X'. ag; cbn in *; [destruct (Nca _ _ E); congruence|]. eapply i10; eauto.
  - intros f x E. ag.
    + right. exists h, (Handle (Some f) (Some ca) true). split; [|reflexivity]. ag; congruence.
    + destruct (i11 f x E) as [?|(k & K & E1 & X)]; [auto|]. right. exists k, K. split; [|exact X]. ag; congruence.
  - intros f R. destruct (i12 f R) as (y & Ey & By). exists y. ag; [congruence|auto].
Qed.

Lemma drop_null h H : aget hs h = Some H -> hc H = None -> hinv fld cnt (adel hs h) raws.
Proof.
  intros Eh Ch. destruct I as [i1 i2 i3 i4 i5 i6 i7 i8 i9 i10 i11 i12]. constructor; auto using nodup_adel.
  - intros k K E X. ag; eauto.
  - intros k K d E X. ag; eauto.
  - intros d n E. pose proof (cnt_adel hs h H d i3 Eh) as A. rewrite Ch in A. cbn in A. rewrite <- A. auto.
  - intros h1 H1 h2 H2 d E1 E2 X1 X2. ag; eauto.
  - intros h1 H1 h2 H2 f E1 E2 X1 X2. ag; eauto.
  - intros k K f E X. ag; eauto.
  - intros k K d E X Y. ag. split; [eapply i10; eauto|]. intros h' H' E' X'. ag. eapply i10; eauto.
  - intros f x E. destruct (i11 f x E) as [?|(k & K & E1 & X)]; [auto|]. right. exists k, K. split; [|exact X].
    ag; [|exact E1]. rewrite Eh in E1. injection E1 as ->. rewrite (i4 _ _ Eh Ch) in X. discriminate.
Qed.

Lemma drop_shared h H c n : aget hs h = Some H -> hc H = Some c -> aget cnt c = Some n -> n - 1 <> 0 ->
  hinv fld (aset cnt c (n - 1)) (adel hs h) raws.
Proof.
  intros Eh Ch En Nn. destruct I as [i1 i2 i3 i4 i5 i6 i7 i8 i9 i10 i11 i12].
  pose proof (cnt_adel hs h H c i3 Eh) as A. rewrite Ch, Nat.eqb_refl in A.
  destruct (i6 c n En) as [V P].
  destruct (cnt_pos (adel hs h) c (nodup_adel _ _ i3)) as (k & K & Ek & Ck); [lia|].
  assert (Ek' := Ek). rewrite aget_adel in Ek'. destruct (Nat.eqb_spec h k) as [|Nhk]; [discriminate|].
  assert (K = H) by (eapply i7; eauto). subst K.
  constructor; auto using nodup_adel, nodup_aset.
  - intros j K E X. ag; eauto.
  - intros j K d E X. ag; try congruence; eauto.
  - intros d m E. pose proof (cnt_adel hs h H d i3 Eh) as B. rewrite Ch in B. ag; try congruence.
    + lia.
    + cbn in B. rewrite <- B. auto.
  - intros h1 H1 h2 H2 d E1 E2 X1 X2. ag; eauto.
  - intros h1 H1 h2 H2 f E1 E2 X1 X2. ag; eauto.
  - intros j K f E X. ag; eauto.
  - intros j K d E X Y. ag. split; [eapply i10; eauto|]. intros h' H' E' X'. ag. eapply i10; eauto.
  - intros f x E. destruct (i11 f x E) as [?|(j & K & E1 & X)]; [auto|]. right.
    destruct (Nat.eq_dec h j) as [<-|].
    + rewrite Eh in E1. injection E1 as <-. exists k, H. auto.
    + exists j, K. split; [|exact X]. ag; congruence.
Qed.

Lemma drop_last h H c n : aget hs h = Some H -> hc H = Some c -> aget cnt c = Some n -> n - 1 = 0 ->
  hinv (match hf H with Some f => adel fld f | None => fld end) (adel cnt c) (adel hs h) raws.
Proof.
  intros Eh Ch En Nn. destruct I as [i1 i2 i3 i4 i5 i6 i7 i8 i9 i10 i11 i12].
  pose proof (cnt_adel hs h H c i3 Eh) as A. rewrite Ch, Nat.eqb_refl in A.
  destruct (i6 c n En) as [V P].
  assert (No : forall k K, aget hs k = Some K -> hc K = Some c -> k = h).
  { intros k K E X. destruct (Nat.eq_dec k h) as [|N]; [assumption|].
    assert (0 < cnt_of (adel hs h) c)%nat; [|lia]. apply (cnt_has _ k K); [apply nodup_adel, i3| |exact X]. ag; [congruence|exact E]. }
  assert (Nof : forall k K f, aget hs k = Some K -> hf K = Some f -> hf H = Some f -> k = h).
  { intros k K f E X Y. eapply No; [exact E|]. rewrite <- Ch. eapply i8; eauto. }
  constructor; auto using nodup_adel, nodup_aset.
  - destruct (hf H); auto using nodup_adel.
  - intros j K E X. ag; eauto.
  - intros j K d E X. ag; try congruence; eauto. specialize (No _ _ E X); congruence.
  - intros d m E. pose proof (cnt_adel hs h H d i3 Eh) as B. rewrite Ch in B. ag; try congruence.
    cbn in B. rewrite <- B. auto.
  - intros h1 H1 h2 H2 d E1 E2 X1 X2. ag; eauto.
  - intros h1 H1 h2 H2 f E1 E2 X1 X2. ag; eauto.
  - intros j K f E X. ag. destruct (i9 _ _ _ E X) as (x & Ex & B & C). exists x. split; [|auto].
    destruct (hf H) as [f0|] eqn:F0; [|exact Ex]. ag; [|exact Ex]. specialize (Nof j K f E X eq_refl). congruence.
  - intros j K d E X Y. ag. split; [eapply i10; eauto|]. intros h' H' E' X'. ag. eapply i10; eauto.
  - intros f x E. assert (E' : aget fld f = Some x /\ hf H <> Some f).
    { destruct (hf H) as [f0|]; [ag; split; congruence|split; [exact E|discriminate]]. }
    destruct E' as [E' Nf]. destruct (i11 f x E') as [?|(j & K & E1 & X)]; [auto|]. right. exists j, K. split; [|exact X].
    ag; congruence.
  - intros f R. destruct (i12 f R) as (x & Ex & B). exists x. split; [|exact B]. destruct (hf H) as [f0|] eqn:F0; [|exact Ex].
    ag; [|exact Ex]. destruct (i9 _ _ _ Eh F0) as (? & _ & _ & C). contradiction.
Qed.
End Steps.

(** The whole state. *)
Definition targets (hs : amap handle) : amap (option nat) := map (fun e => (fst e, hf (snd e))) hs.
Definition sinv (s : hspec) (st : mem) : Prop :=
  hinv (mfld st) (mcnt st) (mhs st) (sraw s) /\ pinv (mpool st) (mfld st) /\ starget s = targets (mhs st).

Lemma targets_set hs h H : targets (aset hs h H) = aset (targets hs) h (hf H).
Proof. unfold targets, aset. cbn [map fst snd]. rewrite adel_map. reflexivity. Qed.
Lemma targets_get hs h : aget (targets hs) h = option_map hf (aget hs h).
Proof. apply (aget_map hf). Qed.
Lemma aset_aset {A} (m : amap A) k v w : aset (aset m k v) k w = aset m k w.
Proof. unfold aset at 1 3. rewrite adel_aset. reflexivity. Qed.
Lemma adel_aset2 {A} (m : amap A) k w : aset (adel m k) k w = aset m k w.
Proof. unfold aset. rewrite adel_adel. reflexivity. Qed.

(** Dropping a share never fails and leaves a good state without that handle. *)
Lemma release_ok s st h H : sinv s st -> aget (mhs st) h = Some H ->
  exists st1 H1, release st H = Ok (st1, H1) /\ mhs st1 = mhs st /\
    hinv (mfld st1) (mcnt st1) (adel (mhs st) h) (sraw s) /\ pinv (mpool st1) (mfld st1) /\
    (H1 = Handle None None (hst H) \/ H1 = H) /\
    (hf H1 <> None -> H1 = H /\ exists h', h' <> h /\ aget (mhs st) h' = Some H).
Proof.
  intros (I & P & T) E. unfold release. destruct (hc H) as [c|] eqn:C.
  - destruct (aget (mcnt st) c) as [n|] eqn:N; [|destruct (e_cnt _ _ _ _ I _ _ _ E C N)].
    destruct (Z.eqb_spec (n - 1) 0) as [L|L].
    + pose proof (drop_last _ _ _ _ I h H c n E C N L) as D.
      destruct (hf H) as [f|] eqn:F.
      * destruct (e_live _ _ _ _ I _ _ _ E F) as (x & Ex & Sx & Nr).
        assert (Fin : exists p', (do st2 <- (if hst H then restore_field (set_cnt st (aset (mcnt st) c (n - 1))) (Some f)
                                              else Ok (set_cnt st (aset (mcnt st) c (n - 1))));
                                   delete_field st2 (Some f)) = Ok (Mem p' (adel (mfld st) f) (aset (mcnt st) c (n - 1)) (mhs st)) /\ pinv p' (adel (mfld st) f)).
        { rewrite Sx. destruct (fbuilt x) eqn:B, (fuser x) eqn:U; cbn [orb negb].
          - destruct P as [_ K]. specialize (K _ _ Ex). rewrite B, U in K. discriminate.
          - destruct (pinv_put _ _ _ _ (n_f _ _ _ _ I) P Ex U) as (p' & Ep & Pp). exists p'.
            cbn [obind delete_field mfld mpool set_cnt]. rewrite Ex, B, Ep. cbn. auto.
          - exists (mpool st). cbn [obind delete_field mfld mpool set_cnt]. rewrite Ex, B. cbn. split; [reflexivity|].
            eapply pinv_user; eauto. exact (n_f _ _ _ _ I).
          - destruct (pinv_put _ _ _ _ (n_f _ _ _ _ I) P Ex U) as (p' & Ep & Pp). exists p'.
            unfold restore_field. cbn [mfld mpool set_cnt]. rewrite Ex, Ep. cbn [obind delete_field mfld mpool set_pool set_cnt]. rewrite Ex, B. cbn. auto. }
        destruct Fin as (p' & Ef & Pp).
        do 2 eexists. split.
        { destruct (if hst H then _ else _) as [st2| |]; [|discriminate Ef|discriminate Ef]. cbn [obind] in Ef |- *. rewrite Ef. cbn [obind]. reflexivity. }
        cbn [mfld mcnt mhs mpool set_cnt]. rewrite adel_aset.
        split; [reflexivity|]. split; [exact D|]. split; [exact Pp|]. split; [auto|]. cbn. congruence.
      * rewrite (proj1 (e_st _ _ _ _ I _ _ _ E C F)). cbn [obind delete_field]. do 2 eexists. split; [reflexivity|].
        cbn [mfld mcnt mhs mpool set_cnt]. rewrite adel_aset.
        split; [reflexivity|]. split; [exact D|]. split; [exact P|]. split; [auto|]. cbn. congruence.
    + do 2 eexists. split; [reflexivity|]. cbn [mfld mcnt mhs mpool set_cnt]. split; [reflexivity|].
      split; [eapply drop_shared; eauto|]. split; [exact P|]. split; [auto|]. intros _. split; [reflexivity|].
      destruct (e_val _ _ _ _ I _ _ N) as [V _]. pose proof (cnt_adel _ h H c (n_h _ _ _ _ I) E) as A. rewrite C, Nat.eqb_refl in A.
      destruct (cnt_pos (adel (mhs st) h) c (nodup_adel _ _ (n_h _ _ _ _ I))) as (k & K & Ek & Ck); [lia|].
      rewrite aget_adel in Ek. destruct (Nat.eqb_spec h k) as [|Nk]; [discriminate|].
      exists k. split; [auto|]. rewrite Ek. f_equal. eapply (e_same _ _ _ _ I); eauto.
  - do 2 eexists. split; [reflexivity|]. split; [reflexivity|]. split; [eapply drop_null; eauto|]. split; [exact P|]. split; [auto|].
    rewrite (e_null _ _ _ _ I _ _ E C). congruence.
Qed.

Lemma target_get s st h : sinv s st -> target s h = match aget (mhs st) h with Some H => hf H | None => None end.
Proof.
  intros (_ & _ & T). unfold target. rewrite T, targets_get. destruct (aget (mhs st) h) as [H|]; cbn; [|reflexivity].
  destruct (hf H); reflexivity.
Qed.
Lemma unused_get s st h : sinv s st -> unused s h -> aget (mhs st) h = None.
Proof. intros (_ & _ & T) U. unfold unused in U. rewrite T, targets_get in U. destruct (aget (mhs st) h); [discriminate|reflexivity]. Qed.
Lemma scope_get s st h : sinv s st -> in_scope s h -> exists H, aget (mhs st) h = Some H.
Proof. intros (_ & _ & T) U. unfold in_scope in U. rewrite T, targets_get in U. destruct (aget (mhs st) h) as [H|]; [eauto|destruct U; reflexivity]. Qed.

Lemma step_ok s st o : sinv s st -> legal s st o -> exists st', hstep st o = Ok st' /\ sinv (spec_step s o) st'.
Proof.
  intros SI L. pose proof SI as (I & P & T). destruct o as [h fa ca ba n|fa ba n|fa b|h f ca|h|h g|h g|h f ca|h|h]; cbn [legal] in L.
  - destruct L as (U & F & C & B & Hn). apply (unused_get _ _ _ SI) in U. cbn [hstep].
    pose proof (pinv_get _ _ fa ba n false P F B Hn) as Pg. destruct (pool_get (mpool st) ba n) as [[b al] p'].
    eexists. split; [reflexivity|]. split; [|split].
    + apply add_store; assumption.
    + exact Pg.
    + cbn [starget spec_step mhs]. rewrite targets_set, T. reflexivity.
  - destruct L as (F & B & Hn). cbn [hstep].
    pose proof (pinv_get _ _ fa ba n true P F B Hn) as Pg. destruct (pool_get (mpool st) ba n) as [[b al] p'].
    eexists. split; [reflexivity|]. split; [|split].
    + apply add_field; [assumption|exact F|reflexivity].
    + exact Pg.
    + exact T.
  - cbn [hstep]. eexists. split; [reflexivity|]. split; [|split].
    + apply add_field; [assumption|exact L|reflexivity].
    + apply pinv_wrap; assumption.
    + exact T.
  - destruct f as [f|].
    + destruct L as (U & C & R). apply (unused_get _ _ _ SI) in U. cbn [hstep].
      destruct (e_raw _ _ _ _ I _ R) as (x & Ex & _). rewrite Ex. eexists. split; [reflexivity|]. split; [|split].
      * apply (add_new _ _ _ _ I h (Handle (Some f) (Some ca) false) ca U C eq_refl R eq_refl).
      * exact P.
      * cbn [starget spec_step mhs set_cnt set_hs]. rewrite targets_set, T. reflexivity.
    + destruct L as (U & C). apply (unused_get _ _ _ SI) in U. cbn [hstep]. eexists. split; [reflexivity|]. split; [|split].
      * apply (add_new _ _ _ _ I h (Handle None (Some ca) false) ca U C eq_refl Logic.I eq_refl).
      * exact P.
      * cbn [starget spec_step mhs set_cnt set_hs]. rewrite targets_set, T. reflexivity.
  - apply (unused_get _ _ _ SI) in L. cbn [hstep]. eexists. split; [reflexivity|]. split; [|split].
    + apply add_null; assumption.
    + exact P.
    + cbn [starget spec_step mhs set_cnt set_hs]. rewrite targets_set, T. reflexivity.
  - destruct L as (U & G). apply (unused_get _ _ _ SI) in U. cbn [hstep]. cbn [spec_step]. rewrite (target_get _ _ _ SI) in G |- *.
    destruct (aget (mhs st) g) as [K|] eqn:Eg; [|congruence]. destruct (hc K) as [c|] eqn:Ck; [|rewrite (e_null _ _ _ _ I _ _ Eg Ck) in G; congruence].
    unfold count_up. destruct (aget (mcnt st) c) as [n|] eqn:En; [|destruct (e_cnt _ _ _ _ I _ _ _ Eg Ck En)]. cbn [obind].
    eexists. split; [reflexivity|]. split; [|split].
    + eapply add_copy; eauto.
    + exact P.
    + cbn [starget mhs set_cnt set_hs]. rewrite targets_set, T. reflexivity.
  - destruct L as (Sc & G & Sh). destruct (scope_get _ _ _ SI Sc) as [H Eh]. cbn [hstep spec_step]. rewrite Eh.
    destruct (release_ok s st h H SI Eh) as (st1 & H1 & Er & Hs & I1 & P1 & _ & D). rewrite Er. cbn [obind].
    rewrite Hs. pose proof (target_get _ _ g SI) as Tg. rewrite Tg in G |- *.
    destruct (aget (mhs st) g) as [K|] eqn:Eg; [|congruence].
    assert (Ka : exists g', aget (adel (mhs st) h) g' = Some K /\ aget (aset (mhs st) h H1) g = Some K).
    { destruct (Nat.eq_dec h g) as [<-|N].
      - rewrite Eh in Eg. injection Eg as <-. destruct (Sh eq_refl) as (h' & Nh & Tn & Te).
        rewrite (target_get _ _ _ SI) in Tn, Te. rewrite (target_get _ _ _ SI), Eh in Te.
        destruct (aget (mhs st) h') as [H'|] eqn:Eh'; [|congruence].
        destruct (hf H') as [f|] eqn:F'; [|congruence]. symmetry in Te.
        assert (Cc : hc H = hc H') by (eapply (e_uniq _ _ _ _ I); eauto).
        destruct (hc H) as [c|] eqn:Ch; [|rewrite (e_null _ _ _ _ I _ _ Eh Ch) in Te; congruence].
        assert (H = H') by (eapply (e_same _ _ _ _ I); eauto). subst H'.
        exists h'. rewrite aget_adel, aget_aset, Nat.eqb_refl. destruct (Nat.eqb_spec h h'); [congruence|]. split; [exact Eh'|].
        f_equal. apply D. intros X. revert Er. unfold release. rewrite Ch.
        destruct (aget (mcnt st) c) as [m|] eqn:En; [|discriminate]. destruct (e_val _ _ _ _ I _ _ En) as [V _].
        pose proof (cnt_adel _ h H c (n_h _ _ _ _ I) Eh) as A. rewrite Ch, Nat.eqb_refl in A.
        assert (0 < cnt_of (adel (mhs st) h) c)%nat.
        { apply (cnt_has _ h' H); [apply nodup_adel, (n_h _ _ _ _ I)| |exact Ch]. rewrite aget_adel. destruct (Nat.eqb_spec h h'); [congruence|exact Eh']. }
        destruct (Z.eqb_spec (m - 1) 0); [lia|]. intros E. injection E as _ E. congruence.
      - exists g. rewrite aget_adel, aget_aset. destruct (Nat.eqb_spec h g); [congruence|]. auto. }
    destruct Ka as (g' & Eg' & Ek). cbn [mhs set_hs]. rewrite Ek.
    destruct (hc K) as [c|] eqn:Ck; [|rewrite (e_null _ _ _ _ I _ _ Eg Ck) in G; congruence].
    unfold count_up. cbn [mcnt set_hs].
    destruct (aget (mcnt st1) c) as [n|] eqn:En; [|destruct (e_cnt _ _ _ _ I1 _ _ _ Eg' Ck En)]. cbn [obind].
    eexists. split; [reflexivity|]. cbn [mhs set_cnt set_hs]. rewrite aset_aset. split; [|split].
    + cbn [mfld mcnt mhs set_cnt set_hs sraw]. rewrite <- (adel_aset2 (mhs st)). eapply add_copy; eauto.
      rewrite aget_adel, Nat.eqb_refl. reflexivity.
    + exact P1.
    + cbn [starget mhs set_cnt set_hs]. rewrite targets_set, T. reflexivity.
  - destruct L as (Sc & R & Fc). destruct (scope_get _ _ _ SI Sc) as [H Eh]. cbn [hstep spec_step] in *. rewrite Eh in *.
    destruct (release_ok s st h H SI Eh) as (st1 & H1 & Er & Hs & I1 & P1 & _). rewrite Er in *. cbn [obind] in *.
    specialize (Fc _ eq_refl). unfold fresh_counter in Fc. cbn [mcnt set_hs] in Fc.
    destruct (e_raw _ _ _ _ I1 _ R) as (x & Ex & _). rewrite Ex. eexists. split; [reflexivity|]. split; [|split].
    + cbn [mfld mcnt mhs set_cnt set_hs sraw]. rewrite Hs, <- (adel_aset2 (mhs st)).
      apply (add_new _ _ _ _ I1 h (Handle (Some f) (Some ca) false) ca); try reflexivity; try assumption.
      rewrite aget_adel, Nat.eqb_refl. reflexivity.
    + exact P1.
    + cbn [starget mhs set_cnt set_hs]. rewrite targets_set, Hs, T. reflexivity.
  - destruct L as (Sc & Sh). destruct (scope_get _ _ _ SI Sc) as [H Eh]. cbn [hstep spec_step]. rewrite Eh.
    destruct (release_ok s st h H SI Eh) as (st1 & H1 & Er & Hs & I1 & P1 & D1 & D). rewrite Er. cbn [obind].
    assert (F1 : hf H1 = None).
    { destruct (hf H1) as [f|] eqn:F1; [|reflexivity]. destruct D as (-> & h' & Nh & Eh'); [congruence|].
      destruct Sh. exists h'. rewrite !(target_get _ _ _ SI), Eh, Eh'. split; [exact Nh|]. split; [congruence|reflexivity]. }
    assert (H1n : hc H1 = None).
    { destruct D1 as [->| ->]; [reflexivity|]. destruct (hc H) as [c|] eqn:C; [|reflexivity]. exfalso.
      revert Er. unfold release. rewrite C. destruct (aget (mcnt st) c) as [n|] eqn:En; [|discriminate].
      destruct (Z.eqb_spec (n - 1) 0) as [Z0|Z0].
      - destruct (if hst H then _ else _) as [?| |]; [|discriminate|discriminate]. cbn [obind]. destruct (delete_field _ _); [|discriminate|discriminate].
        cbn [obind]. intros X. injection X as _ X. rewrite <- X in C. discriminate.
      - (* a shared null handle: impossible, null handles are never copied *)
        destruct (e_val _ _ _ _ I _ _ En) as [V _]. pose proof (cnt_adel _ h H c (n_h _ _ _ _ I) Eh) as A. rewrite C, Nat.eqb_refl in A.
        destruct (cnt_pos (adel (mhs st) h) c (nodup_adel _ _ (n_h _ _ _ _ I))) as (k & K & Ek & Ck); [lia|].
        rewrite aget_adel in Ek. destruct (Nat.eqb_spec h k) as [|Nk]; [discriminate|].
        destruct Nk. symmetry. eapply (e_st _ _ _ _ I); eauto. }
    eexists. split; [reflexivity|]. split; [|split].
    + cbn [mfld mcnt mhs set_hs sraw]. rewrite Hs, <- (adel_aset2 (mhs st)). destruct H1 as [f1 c1 s1]. cbn in F1, H1n. subst.
      apply add_null; [assumption|]. rewrite aget_adel, Nat.eqb_refl. reflexivity.
    + exact P1.
    + cbn [starget mhs set_cnt set_hs]. rewrite targets_set, Hs, T, F1. reflexivity.
  - destruct (scope_get _ _ _ SI L) as [H Eh]. cbn [hstep spec_step]. rewrite Eh.
    destruct (release_ok s st h H SI Eh) as (st1 & H1 & Er & Hs & I1 & P1 & _). rewrite Er. cbn [obind].
    eexists. split; [reflexivity|]. split; [|split].
    + cbn [mfld mcnt mhs set_hs sraw]. rewrite Hs. exact I1.
    + exact P1.
    + cbn [starget mhs set_hs]. rewrite Hs, T. unfold targets. apply adel_map.
Qed.
