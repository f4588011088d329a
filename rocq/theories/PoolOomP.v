(** Proofs about the memory pool when memory may run out. *)
From Coq Require Import Permutation Sorted.
From Verif Require Import Prelude PoolM PoolS PoolP PoolOomM PoolOomS.

Record binv (m : list (Z * list nat)) (out : list nat) (mem : list (nat * Z)) (asked : list Z) : Prop := BInv {
  b_sorted : StronglySorted Z.lt (keys m);
  b_nodup : NoDup (map fst mem);
  b_perm : Permutation (out ++ queued m) (map fst mem);
  b_sizes : forall k q p, In (k, q) m -> In p q -> In (p, k) mem;
  b_buckets : forall p k, In (p, k) mem -> exists q, In (k, q) m;
  b_asked : forall k, In k asked <-> In k (keys m) }.

Lemma in_keys m k : In k (keys m) <-> exists q, In (k, q) m.
Proof.
  unfold keys. rewrite in_map_iff. split.
  - intros ([k0 q] & <- & I). exists q. exact I.
  - intros (q & I). exists (k, q). split; [reflexivity|exact I].
Qed.
Lemma lb_least m n k q : StronglySorted Z.lt (keys m) -> lower_bound m n = Some (k, q) -> forall j, In j (keys m) -> n <= j -> k <= j.
Proof.
  unfold keys. induction m as [|[k0 q0] m IH]; cbn; [discriminate|]. intros S. apply StronglySorted_inv in S as [S F]. rewrite Forall_forall in F.
  destruct (Z.leb_spec n k0).
  - intros E j [->|I] L; [injection E; lia|]. injection E as -> _. specialize (F j I). lia.
  - intros E j [->|I] L; [lia|]. exact (IH S E j I L).
Qed.

(** The bucket a request goes to. *)
Definition bucket (m : list (Z * list nat)) (n : Z) : list (Z * list nat) * Z * list nat :=
  match lower_bound m n with None => (m ++ [(n, [])], n, []) | Some (k, q) => (m, k, q) end.
Lemma bucket_ok m out mem asked n : binv m out mem asked -> forall m' k fq, bucket m n = (m', k, fq) ->
  binv m' out mem (if In_dec Z.eq_dec k asked then asked else k :: asked) /\ In (k, fq) m' /\ n <= k /\ rounded asked n k.
Proof.
  intros [S N P Sz B A] m' k fq. unfold bucket. destruct (lower_bound m n) as [[k0 q0]|] eqn:L.
  - intros E. injection E as <- <- <-. pose proof (lb_least _ _ _ _ S L) as Le. apply lb_some in L as [L1 L2].
    assert (Ia : In k0 asked) by (apply A, in_keys; exists q0; exact L1).
    destruct (in_dec Z.eq_dec k0 asked) as [_|C]; [|destruct (C Ia)].
    split; [constructor; assumption|]. split; [exact L1|]. split; [exact L2|]. left. split; [exact Ia|split; [exact L2|]].
    intros j Ij. apply Le. apply A. exact Ij.
  - intros E. injection E as <- <- <-. pose proof (lb_none _ _ L) as Lt.
    assert (Lk : forall j, In j asked -> j < n) by (intros j Ij; apply A, in_keys in Ij as (q & Ij); exact (Lt j q Ij)).
    destruct (in_dec Z.eq_dec n asked) as [C|_]; [specialize (Lk n C); lia|].
    split; [|split; [apply in_app_iff; right; left; reflexivity|split; [lia|right; split; [reflexivity|exact Lk]]]].
    constructor.
    + apply sorted_snoc; assumption.
    + exact N.
    + rewrite queued_app. cbn. rewrite app_nil_r. exact P.
    + intros k q p I J. apply in_app_iff in I as [I|[I|[]]]; [eapply Sz; eauto|]. injection I as _ <-. destruct J.
    + intros p k I. destruct (B p k I) as (q & J). exists q. apply in_app_iff. left. exact J.
    + intros k. unfold keys. rewrite map_app, in_app_iff. cbn. fold (keys m). rewrite <- A. tauto.
Qed.
Lemma binv_asked m out mem a1 a2 : (forall k, In k a1 <-> In k a2) -> binv m out mem a1 -> binv m out mem a2.
Proof. intros E [S N P Sz B A]. constructor; auto. intros k. rewrite <- E. apply A. Qed.

(** a new block *)
Lemma binv_new m out mem asked k a : binv m out mem asked -> In (k, []) m -> ~ In a (map fst mem) -> binv m (a :: out) ((a, k) :: mem) asked.
Proof.
  intros [S N P Sz B A] I F. constructor; auto.
  - cbn. constructor; assumption.
  - cbn [map fst app]. constructor. exact P.
  - intros k1 q p I1 J. right. eapply Sz; eauto.
  - intros p k1 [E|I1]; [injection E as <- <-; eauto|]. eauto.
Qed.
(** a block from the queue *)
Lemma binv_pop m out mem asked k t q : binv m out mem asked -> In (k, t :: q) m ->
  binv (set_queue m k q) (t :: out) mem asked /\ In (t, k) mem /\ ~ In t out.
Proof.
  intros [S N P Sz B A] I. pose proof (set_queued_pop m k q t I S) as Pq.
  assert (Pt : Permutation ((t :: out) ++ queued (set_queue m k q)) (map fst mem)).
  { rewrite <- P. cbn [app]. rewrite <- Pq. apply Permutation_middle. }
  assert (It : In (t, k) mem) by (eapply Sz; [exact I|left; reflexivity]).
  split; [|split; [exact It|]].
  - constructor; auto.
    + rewrite set_keys. exact S.
    + intros k1 q1 p I1 J. apply (set_in _ _ _ _ _ S) in I1 as [(-> & ->)|(_ & I1)]; [|eapply Sz; eauto].
      eapply Sz; [exact I|right; exact J].
    + intros p k1 I1. destruct (B p k1 I1) as (q1 & J). apply in_keys. rewrite set_keys. apply in_keys. eauto.
    + intros j. rewrite set_keys. apply A.
  - assert (ND : NoDup ((t :: out) ++ queued (set_queue m k q))) by (eapply Permutation_NoDup; [symmetry; exact Pt|exact N]).
    cbn in ND. apply NoDup_cons_iff in ND as [X _]. intros J. apply X, in_app_iff. left. exact J.
Qed.
(** a block put back *)
Lemma binv_push m out mem asked k q p : binv m out mem asked -> In (k, q) m -> In (p, k) mem -> In p out ->
  binv (set_queue m k (p :: q)) (remove1 p out) mem asked.
Proof.
  intros [S N P Sz B A] I Im Io. constructor; auto.
  - rewrite set_keys. exact S.
  - rewrite (set_queued_push _ _ _ p I S). rewrite <- Permutation_middle.
    change (p :: remove1 p out ++ queued m) with ((p :: remove1 p out) ++ queued m).
    rewrite <- (remove1_perm p out Io). exact P.
  - intros k1 q1 x I1 J. apply (set_in _ _ _ _ _ S) in I1 as [(-> & ->)|(_ & I1)]; [|eapply Sz; eauto].
    destruct J as [<-|J]; [exact Im|eapply Sz; eauto].
  - intros x k1 I1. destruct (B x k1 I1) as (q1 & J). apply in_keys. rewrite set_keys. apply in_keys. eauto.
  - intros j. rewrite set_keys. apply A.
Qed.
(** nothing idle in an empty bucket *)
Lemma binv_none m out mem asked k p : binv m out mem asked -> In (k, []) m -> In (p, k) mem -> In p out.
Proof.
  intros [S N P Sz B A] I Im. assert (Ip : In p (out ++ queued m)) by (eapply Permutation_in; [symmetry; exact P|exact (in_map fst _ _ Im)]).
  apply in_app_iff in Ip as [Ip|Ip]; [exact Ip|]. apply queued_in in Ip as (k2 & q2 & I2 & J2).
  pose proof (Sz k2 q2 p I2 J2) as Im2. rewrite <- (size_in _ _ _ N Im) in I. rewrite <- (size_in _ _ _ N Im2) in I2.
  rewrite (key_unique m _ q2 [] S I2 I) in J2. destruct J2.
Qed.

Section Cuda.
Variable cuda : bool.
Notation oget := (oget cuda). Notation oput := (oput cuda). Notation ohistory := (ohistory cuda). Notation sys_ok := (sys_ok cuda).

Record oinv (w : oworld) : Prop := OInv {
  o_bank : forall d, binv (bk_fqm (p2_bank (ow_pool w) d)) (ow_out w d) (ow_mem w d) (ow_asked w d);
  o_apart : forall p, In p (map fst (ow_mem w true)) -> ~ In p (map fst (ow_mem w false));
  o_fsm : forall d p k, In (p, k) (ow_mem w d) -> fsm_get (p2_fsm (ow_pool w)) p = k /\ existsb (fun e => (fst e =? p)%nat) (p2_fsm (ow_pool w)) = true;
  o_high : forall d, d && negb cuda = false -> bk_high (p2_bank (ow_pool w) d) = Z.of_nat (length (ow_mem w d)) + ow_failed w d;
  o_pad : p2_pad (ow_pool w) = padding (ow_reqs w);
  o_pad0 : 0 <= padding (ow_reqs w);
  o_pin : cuda = true -> p2_pinned (ow_pool w) = negb (ow_fell w);
  o_how : forall d p, In p (map fst (ow_mem w d)) -> ow_how w p = if d then ByCudaFree else if cuda then if ow_fell w then ow_how w p else ByFreeHost else ByDelete;
  o_nogpu : cuda = false -> ow_mem w true = [] /\ ow_out w true = [] }.

Lemma oinv_new : oinv oworld_new.
Proof.
  constructor; cbn; try (intros; contradiction); try reflexivity; try lia; try (intros; split; reflexivity).
  intros d. constructor; cbn; try constructor; try (intros; contradiction).
Qed.
Lemma on_same {A} (f : bool -> A) d x : on f d x d = x.
Proof. unfold on. destruct d; reflexivity. Qed.
Lemma on_other {A} (f : bool -> A) d x e : e <> d -> on f d x e = f e.
Proof. unfold on. destruct d, e; intros N; try reflexivity; contradiction. Qed.
Ltac cases d e := destruct (Bool.bool_dec e d) as [->|?Ne]; [rewrite ?on_same|rewrite ?on_other by assumption].

Lemma quot10 n : 0 <= n -> 0 <= Z.quot n 10.
Proof. intros H. apply Z.quot_pos; lia. Qed.
Lemma pad_nonneg reqs n : 0 <= padding reqs -> 0 <= n -> 0 <= padding (n :: reqs).
Proof. intros H Hn. cbn [padding]. destruct (padding reqs =? 0); [apply quot10; exact Hn|exact H]. Qed.

Lemma get_step w d sys n : oinv w -> sys_ok w d sys -> 0 <= n -> d && negb cuda = false ->
  oinv (snd (oget w d sys n)) /\
  exists k, rounded (ow_asked w d) (n + padding (n :: ow_reqs w)) k /\ n <= k /\ outcome_of w d sys n k (oget w d sys n).
Proof.
  intros I Sy Hn Hd. pose proof I as [Ib Iap If Ih Ip Ip0 Ipin Ihow Ing].
  unfold PoolOomS.oget, get2. rewrite Hd, Ip.
  change (if padding (ow_reqs w) =? 0 then Z.quot n 10 else padding (ow_reqs w)) with (padding (n :: ow_reqs w)).
  pose proof (pad_nonneg _ n Ip0 Hn) as P0. set (pad := padding (n :: ow_reqs w)) in *.
  change (match lower_bound (bk_fqm (p2_bank (ow_pool w) d)) (n + pad) with
          | None => (bk_fqm (p2_bank (ow_pool w) d) ++ [(n + pad, [])], n + pad, [])
          | Some (k, q) => (bk_fqm (p2_bank (ow_pool w) d), k, q) end) with (bucket (bk_fqm (p2_bank (ow_pool w) d)) (n + pad)).
  destruct (bucket (bk_fqm (p2_bank (ow_pool w) d)) (n + pad)) as [[m' k] fq] eqn:Bu.
  destruct (bucket_ok _ _ _ _ _ (Ib d) _ _ _ Bu) as (Bi & Bin & Bk & Br).
  assert (Bi' : binv m' (ow_out w d) (ow_mem w d) (k :: ow_asked w d)).
  { revert Bi. apply binv_asked. intros j. destruct (in_dec Z.eq_dec k (ow_asked w d)) as [X|X]; [|reflexivity]. cbn.
    split; [auto|]. intros [<-|J]; assumption. }
  destruct fq as [|t q].
  - assert (Nid : forall q, ~ idle w d q k).
    { intros p (X1 & X2). apply X2. exact (binv_none _ _ _ _ _ _ Bi' Bin X1). }
    destruct (sys k) as [[a how]|] eqn:Sk; cbv beta iota zeta; rewrite ?Sk; cbn [snd].
    + destruct (Sy k a how Sk) as (Fr & Hh). split.
      * constructor; cbn [ow_pool ow_out ow_mem ow_asked ow_failed ow_how ow_reqs ow_fell p2_bank p2_fsm p2_pad p2_pinned].
        -- intros e. cases d e; [|apply Ib]. cbn [bk_fqm]. apply binv_new; [exact Bi'|exact Bin|apply Fr].
        -- intros p. destruct d.
           ++ rewrite on_same, on_other by discriminate. cbn. intros [<-|J]; [apply Fr|apply Iap; exact J].
           ++ rewrite on_same, on_other by discriminate. cbn. intros J [<-|J']; [exact (Fr true J)|exact (Iap p J J')].
        -- intros e p k0 J. cbn [fsm_get existsb fst]. destruct (Nat.eqb_spec a p) as [->|Na].
           ++ split; [|reflexivity]. revert J. cases d e.
              ** intros [E|J]; [injection E as <-; reflexivity|]. destruct (Fr d (in_map fst _ _ J)).
              ** intros J. destruct (Fr e (in_map fst _ _ J)).
           ++ cbn [orb]. apply (If e). revert J. cases d e; [|exact (fun J => J)]. intros [E|J]; [injection E; congruence|exact J].
        -- intros e He. cases d e; [|apply Ih; exact He]. cbn [bk_high length]. rewrite (Ih d Hd). lia.
        -- reflexivity.
        -- exact P0.
        -- intros C. rewrite (Ipin C). rewrite C in *. destruct d; cbn [negb andb].
           ++ rewrite Bool.orb_false_r. reflexivity.
           ++ destruct Hh as [-> | ->]; destruct (ow_fell w); reflexivity.
        -- intros e p J. destruct (Nat.eqb_spec p a) as [->|Na].
           ++ assert (e = d) as ->.
              { destruct (Bool.bool_dec e d) as [E|E]; [exact E|]. rewrite on_other in J by exact E. destruct (Fr e J). }
              destruct d; [exact Hh|]. destruct cuda; [|exact Hh]. cbn [negb andb]. destruct (ow_fell w); [reflexivity|].
              destruct Hh as [-> | ->]; reflexivity.
           ++ assert (J' : In p (map fst (ow_mem w e))).
              { revert J. cases d e; [|exact (fun J => J)]. cbn. intros [E|J]; [congruence|exact J]. }
              pose proof (Ihow e p J') as X. destruct e; [exact X|]. destruct cuda; [|exact X].
              destruct (ow_fell w); [reflexivity|]. cbn [orb]. destruct (true && negb d && _); [reflexivity|exact X].
        -- intros C. rewrite C in *. destruct d; [discriminate|]. rewrite !on_other by discriminate. apply Ing. reflexivity.
      * exists k. split; [exact Br|]. split; [lia|]. econstructor 2; try reflexivity; eassumption.
    + split.
      * constructor; cbn [ow_pool ow_out ow_mem ow_asked ow_failed ow_how ow_reqs ow_fell p2_bank p2_fsm p2_pad p2_pinned]; auto.
        -- intros e. cases d e; [exact Bi'|apply Ib].
        -- intros e He. cases d e; [|apply Ih; exact He]. cbn [bk_high]. rewrite (Ih d Hd). lia.
      * exists k. split; [exact Br|]. split; [lia|]. constructor 3; try reflexivity; assumption.
  - destruct (binv_pop _ _ _ _ _ _ _ Bi' Bin) as (Bp & It & No). cbn [snd].
    assert (Ka : In k (ow_asked w d)).
    { pose proof (b_asked _ _ _ _ (Ib d) k) as A. apply A. destruct (b_buckets _ _ _ _ (Ib d) t k It) as (q1 & J). apply in_keys. eauto. }
    split.
    + constructor; cbn [ow_pool ow_out ow_mem ow_asked ow_failed ow_how ow_reqs ow_fell p2_bank p2_fsm p2_pad p2_pinned]; auto.
      * intros e. cases d e; [|apply Ib]. cbn [bk_fqm]. revert Bp. apply binv_asked. intros j. cbn. split; [intros [<-|J]; assumption|auto].
      * intros e He. cases d e; [|apply Ih; exact He]. exact (Ih d Hd).
      * intros C. rewrite C in *. destruct d; [discriminate|]. rewrite !on_other by discriminate. apply Ing. reflexivity.
    + exists k. split; [exact Br|]. split; [lia|]. constructor 1; try reflexivity. split; assumption.
Qed.
(** GPU memory without CUDA *)
Lemma get_unsupported w d sys n : oinv w -> 0 <= n -> d && negb cuda = true ->
  oinv (snd (oget w d sys n)) /\ fst (oget w d sys n) = None /\ ow_out (snd (oget w d sys n)) = ow_out w /\ ow_mem (snd (oget w d sys n)) = ow_mem w /\
  ow_asked (snd (oget w d sys n)) = ow_asked w.
Proof.
  intros I Hn Hd. pose proof I as [Ib Iap If Ih Ip Ip0 Ipin Ihow Ing].
  unfold PoolOomS.oget, get2. rewrite Hd, Ip.
  change (if padding (ow_reqs w) =? 0 then Z.quot n 10 else padding (ow_reqs w)) with (padding (n :: ow_reqs w)).
  pose proof (pad_nonneg _ n Ip0 Hn) as P0. cbn [fst snd]. split; [|repeat split].
  constructor; cbn [ow_pool ow_out ow_mem ow_asked ow_failed ow_how ow_reqs ow_fell p2_bank p2_fsm p2_pad p2_pinned]; auto.
  intros e He. rewrite on_other; [exact (Ih e He)|]. intros ->. congruence.
Qed.
Lemma put_step w d p : oinv w -> In p (ow_out w d) -> exists w', oput w d p = Ok w' /\ oinv w' /\
  ow_out w' = on (ow_out w) d (remove1 p (ow_out w d)) /\ ow_mem w' = ow_mem w /\ ow_asked w' = ow_asked w /\ ow_failed w' = ow_failed w /\ ow_reqs w' = ow_reqs w.
Proof.
  intros I Io. pose proof I as [Ib Iap If Ih Ip Ip0 Ipin Ihow Ing].
  assert (Im : In p (map fst (ow_mem w d))) by (eapply Permutation_in; [exact (b_perm _ _ _ _ (Ib d))|apply in_app_iff; auto]).
  apply in_map_iff in Im as ([p' k] & E & Im). cbn in E; subst p'.
  assert (Hd : d && negb cuda = false).
  { destruct d; [|reflexivity]. destruct cuda; [reflexivity|]. destruct (Ing eq_refl) as [X _]. rewrite X in Im. destruct Im. }
  destruct (b_buckets _ _ _ _ (Ib d) p k Im) as (q & Iq). destruct (If d p k Im) as [F1 F2].
  unfold PoolOomS.oput, put2. rewrite Hd, F1, F2, (lb_key _ _ _ (b_sorted _ _ _ _ (Ib d)) Iq). cbn [obind].
  eexists. split; [reflexivity|]. split; [|repeat split].
  constructor; cbn [ow_pool ow_out ow_mem ow_asked ow_failed ow_how ow_reqs ow_fell p2_bank p2_fsm p2_pad p2_pinned]; auto.
  - intros e. cases d e; [|apply Ib]. cbn [bk_fqm]. apply binv_push; [apply Ib|exact Iq|exact Im|exact Io].
  - intros e He. cases d e; [|apply Ih; exact He]. exact (Ih d Hd).
  - intros C. rewrite C in *. destruct d; [discriminate|]. rewrite !on_other by discriminate. apply Ing. reflexivity.
Qed.
Lemma ohistory_inv w : ohistory w -> oinv w.
Proof.
  intros H. induction H as [|w d sys n H IH Sy Hn|w d p w' H IH Ip E].
  - apply oinv_new.
  - destruct (d && negb cuda) eqn:Hd; [exact (proj1 (get_unsupported w d sys n IH Hn Hd))|exact (proj1 (get_step w d sys n IH Sy Hn Hd))].
  - destruct (put_step w d p IH Ip) as (w2 & E2 & I2 & _). rewrite E in E2. injection E2 as ->. exact I2.
Qed.
End Cuda.
