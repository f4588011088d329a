(** Proofs about raw GPU memory. *)
From Verif Require Import Prelude PoolM PtrM PtrP GpuRawM GpuRawS.

Section Proofs.
Variable mc : machine.
Notation used_of := (used_of mc).
Notation current := (current mc).
Notation taken := (taken mc).

(** ** The memory in use *)
Definition takes_on (B : gblock) (k : Z) : Z := if gb_dev B =? k then mc_takes mc (gb_size B) else 0.
Lemma adel_absent {A} (m : amap A) b : ~ In b (map fst m) -> adel m b = m.
Proof.
  induction m as [|[a v] m IH]; [reflexivity|]. cbn [map fst In]. intros N. unfold adel in *. cbn [filter fst].
  destruct (Nat.eqb_spec a b) as [E|E]; [exfalso; apply N; left; exact E|]. cbn [negb]. f_equal. apply IH. tauto.
Qed.
Lemma adel_keys {A} (m : amap A) b x : In x (map fst (adel m b)) -> In x (map fst m) /\ x <> b.
Proof.
  induction m as [|[a v] m IH]; [intros []|]. unfold adel in *. cbn [filter fst].
  destruct (Nat.eqb_spec a b) as [E|E]; cbn [negb map fst In].
  - intros I. destruct (IH I). split; [right|]; assumption.
  - intros [<-|I]; [split; [left; reflexivity|exact E]|]. destruct (IH I). split; [right|]; assumption.
Qed.
Lemma adel_nodup {A} (m : amap A) b : NoDup (map fst m) -> NoDup (map fst (adel m b)).
Proof.
  induction m as [|[a v] m IH]; [intros H; exact H|]. intros H. inversion H as [|? ? N D]; subst.
  pose proof (IH D) as D'. unfold adel in *. cbn [filter fst].
  destruct (Nat.eqb_spec a b) as [E|E]; cbn [negb map fst]; [exact D'|].
  constructor; [|exact D']. intros I. apply N. exact (proj1 (adel_keys m b a I)).
Qed.
Lemma aset_nodup {A} (m : amap A) b v : NoDup (map fst m) -> NoDup (map fst (aset m b v)).
Proof.
  intros D. unfold aset. cbn [map fst]. constructor; [|apply adel_nodup; exact D].
  intros I. exact (proj2 (adel_keys m b b I) eq_refl).
Qed.
Lemma used_adel m b B k : NoDup (map fst m) -> aget m b = Some B -> used_of (adel m b) k = used_of m k - takes_on B k.
Proof.
  induction m as [|[a v] m IH]; [discriminate|]. intros D. inversion D as [|? ? N D']; subst.
  rewrite aget_cons. unfold adel. cbn [filter fst].
  destruct (Nat.eqb_spec a b) as [E|E]; cbn [negb].
  - intros X. injection X as ->. subst a. fold (adel m b). rewrite adel_absent by exact N.
    cbn [GpuRawM.used_of]. unfold takes_on. lia.
  - intros X. fold (adel m b). cbn [GpuRawM.used_of]. rewrite (IH D' X). lia.
Qed.
Lemma used_aset_new m b B k : aget m b = None -> used_of (aset m b B) k = takes_on B k + used_of m k.
Proof. intros N. apply aget_none in N. unfold aset. rewrite adel_absent by exact N. reflexivity. Qed.
Lemma used_aset_same m b B B' k : NoDup (map fst m) -> aget m b = Some B -> gb_dev B' = gb_dev B -> gb_size B' = gb_size B ->
  used_of (aset m b B') k = used_of m k.
Proof.
  intros D X E1 E2. unfold aset. cbn [GpuRawM.used_of]. rewrite (used_adel m b B k D X). unfold takes_on. rewrite E1, E2. lia.
Qed.

(** ** The state is what the trace says *)
Definition shown (tr : trace) : mstats :=
  match at_update tr with None => MStats 0 0 0 | Some tr0 => figures mc tr0 (current tr0) end.
Record tells (s : gpus) (tr : trace) : Prop := Tells {
  t_cur : gp_cur s = current tr;
  t_nodup : NoDup (map fst (gp_blk s));
  t_home : forall b, home tr b = option_map (fun B => (gb_dev B, gb_size B)) (aget (gp_blk s) b);
  t_val : forall b B i, aget (gp_blk s) b = Some B -> gb_val B i = last_written tr b i;
  t_used : forall k, used_of (gp_blk s) k = taken tr k;
  t_other : forall k, gp_other s k = others tr k;
  t_stats : gp_stats s = map (fun _ : nat => shown tr) (seq 0 (Z.to_nat (mc_devs mc))) }.

Lemma tells_start : tells (r_start mc) [].
Proof. constructor; try reflexivity; try (intros; discriminate); try constructor. Qed.

Lemma dev_ok_iff k : dev_ok mc k = true <-> exists_dev mc k.
Proof. unfold dev_ok, exists_dev. rewrite Bool.andb_true_iff, Z.leb_le, Z.ltb_lt. reflexivity. Qed.
Lemma dev_ok_not k : dev_ok mc k = false <-> ~ exists_dev mc k.
Proof. rewrite <- dev_ok_iff. destruct (dev_ok mc k); split; congruence. Qed.

Lemma free_is s tr k : tells s tr -> free_of mc s k = free_mem mc tr k.
Proof. intros H. unfold free_of, free_mem. rewrite (t_used _ _ H), (t_other _ _ H). reflexivity. Qed.

Lemma range_owns s tr b off n k : tells s tr ->
  (exists B, range_of s b off n k = Some B /\ aget (gp_blk s) b = Some B /\ owns tr b off n k) \/
  (range_of s b off n k = None /\ ~ owns tr b off n k).
Proof.
  intros H. unfold range_of, owns. pose proof (t_home _ _ H b) as E.
  destruct (aget (gp_blk s) b) as [B|]; cbn in E.
  - destruct ((gb_dev B =? k) && (0 <=? off) && (0 <=? n) && (off + n <=? gb_size B)) eqn:G.
    + left. exists B. repeat split; try reflexivity. exists (gb_size B).
      apply andb_prop in G as [G G4]. apply andb_prop in G as [G G3]. apply andb_prop in G as [G1 G2].
      apply Z.eqb_eq in G1. rewrite E, G1. repeat split; lia.
    + right. split; [reflexivity|]. intros (m & X & A1 & A2 & A3). rewrite E in X. injection X as X1 X2.
      apply Bool.not_true_iff_false in G. apply G. rewrite !Bool.andb_true_iff, Z.eqb_eq, !Z.leb_le. lia.
  - right. split; [reflexivity|]. intros (m & X & _). congruence.
Qed.

(** a call that neither allocates, releases nor writes *)
Definition quiet (c : rcall) (r : rreply) : Prop :=
  r = RThrew \/ match c with RFrom _ _ _ _ | RStat _ | RCount | RSetDevice _ | RFree None _ => True | _ => False end.
Lemma quiet_spec c r tr : quiet c r ->
  match c with ROther _ _ | RUpdate => False | _ => True end ->
  (forall b, home ((c, r) :: tr) b = home tr b) /\ (forall b i, last_written ((c, r) :: tr) b i = last_written tr b i) /\
  (forall k, taken ((c, r) :: tr) k = taken tr k) /\ (forall k, others ((c, r) :: tr) k = others tr k) /\
  at_update ((c, r) :: tr) = at_update tr.
Proof.
  intros Q N. destruct Q as [->|Q].
  - destruct c as [|[p|]| | | | | | | | |]; try contradiction; repeat split; reflexivity.
  - destruct c as [|[p|]| | | | | | | | |]; try contradiction; destruct r; repeat split; reflexivity.
Qed.
Lemma tells_quiet s tr c r x : tells s tr -> quiet c r -> match c with ROther _ _ | RUpdate => False | _ => True end ->
  x = current ((c, r) :: tr) -> tells (gp_set_cur s x) ((c, r) :: tr).
Proof.
  intros H Q N ->. destruct (quiet_spec c r tr Q N) as (A & B & C & D & E).
  constructor; cbn [gp_set_cur gp_cur gp_blk gp_other gp_stats].
  - reflexivity.
  - exact (t_nodup _ _ H).
  - intros b. rewrite A. apply (t_home _ _ H).
  - intros b X i G. rewrite B. exact (t_val _ _ H b X i G).
  - intros k. rewrite C. apply (t_used _ _ H).
  - intros k. rewrite D. apply (t_other _ _ H).
  - rewrite (t_stats _ _ H). unfold shown. rewrite E. reflexivity.
Qed.
Lemma same_cur s : gp_set_cur s (gp_cur s) = s.
Proof. destruct s. reflexivity. Qed.

Lemma cur_sel c r tr k : selects c = Some k -> dev_ok mc k = true -> k = current ((c, r) :: tr).
Proof. intros E D. cbn [GpuRawS.current]. rewrite E. unfold dev_ok in D. rewrite D. reflexivity. Qed.
Lemma cur_nosel c r tr k : selects c = Some k -> dev_ok mc k = false -> current tr = current ((c, r) :: tr).
Proof. intros E D. cbn [GpuRawS.current]. rewrite E. unfold dev_ok in D. rewrite D. reflexivity. Qed.
Lemma cur_none c r tr : selects c = None -> current tr = current ((c, r) :: tr).
Proof. intros E. cbn [GpuRawS.current]. rewrite E. reflexivity. Qed.

(** a call that writes n bytes of block b from off on *)
Lemma tells_write s tr c x b B off n g :
  tells s tr -> aget (gp_blk s) b = Some B -> x = current ((c, RDone) :: tr) ->
  (forall b, home ((c, RDone) :: tr) b = home tr b) -> (forall k, taken ((c, RDone) :: tr) k = taken tr k) ->
  (forall k, others ((c, RDone) :: tr) k = others tr k) -> at_update ((c, RDone) :: tr) = at_update tr ->
  (forall e i, last_written ((c, RDone) :: tr) e i =
     if (b =? e)%nat && (off <=? i) && (i <? off + n) then g (i - off) else last_written tr e i) ->
  tells (put_block (gp_set_cur s x) b B (store_bytes (gb_val B) off n g)) ((c, RDone) :: tr).
Proof.
  intros H G -> A C D E W. constructor; unfold put_block; cbn [gp_set_blk gp_set_cur gp_cur gp_blk gp_other gp_stats].
  - reflexivity.
  - apply aset_nodup. exact (t_nodup _ _ H).
  - intros e. rewrite A, (t_home _ _ H e), aget_aset. destruct (Nat.eqb_spec b e) as [<-|]; [|reflexivity].
    rewrite G. reflexivity.
  - intros e X i. rewrite aget_aset, W. destruct (Nat.eqb_spec b e) as [<-|].
    + intros Y. injection Y as <-. cbn [gb_val andb]. unfold store_bytes.
      rewrite (t_val _ _ H b B i G). reflexivity.
    + intros Y. cbn [andb]. exact (t_val _ _ H e X i Y).
  - intros k. rewrite C, <- (t_used _ _ H k). exact (used_aset_same (gp_blk s) b B _ k (t_nodup _ _ H) G eq_refl eq_refl).
  - intros k. rewrite D. apply (t_other _ _ H).
  - rewrite (t_stats _ _ H). unfold shown. rewrite E. reflexivity.
Qed.

Lemma nth_seq_map {A} (f : nat -> A) n i : (i < n)%nat -> nth_error (map f (seq 0 n)) i = Some (f i).
Proof.
  intros L. rewrite nth_error_map. replace (nth_error (seq 0 n) i) with (Some i); [reflexivity|].
  symmetry. rewrite (nth_error_nth' _ 0%nat) by (rewrite seq_length; exact L). rewrite seq_nth by exact L. reflexivity.
Qed.

(** ** One call *)
Lemma step_tells s tr c s' r : tells s tr -> rstep mc s c = Ok (s', r) -> tells s' ((c, r) :: tr) /\ answers mc tr c r.
Proof.
  intros H E. destruct c as [b n k grant|p k|b off v n k|b off l k|b off n k|b off dk c coff sk n| |k| |k|k x]; cbn [rstep] in E.
  - (* alloc *)
    destruct (Z.leb_spec (mc_devs mc) k) as [L|L].
    + injection E as <- <-. assert (D : dev_ok mc k = false) by (apply dev_ok_not; unfold exists_dev; lia). split.
      * rewrite <- (same_cur s). apply tells_quiet; [exact H|left; reflexivity|exact I|].
        rewrite (t_cur _ _ H). apply (cur_nosel _ _ _ k); [reflexivity|exact D].
      * right. split; [reflexivity|]. intros [X _]. apply dev_ok_not in D. exact (D X).
    + unfold r_malloc, set_device in E. destruct (dev_ok mc k) eqn:D.
      * cbn [gp_set_cur gp_blk] in E. pose proof (t_home _ _ H b) as HB.
        destruct (aget (gp_blk s) b) as [B|] eqn:G; [discriminate|].
        destruct (0 <? n) eqn:N0; [|discriminate].
        assert (F : free_of mc (gp_set_cur s k) k = free_mem mc tr k) by (rewrite <- (free_is s tr k H); reflexivity).
        rewrite F in E. destruct (grant && (mc_takes mc n <=? free_mem mc tr k)) eqn:GR; injection E as <- <-.
        -- apply andb_prop in GR as [G1 G2]. apply Z.leb_le in G2. split.
           ++ constructor; cbn [gp_set_blk gp_set_cur gp_cur gp_blk gp_other gp_stats].
              ** apply cur_sel; [reflexivity|exact D].
              ** apply aset_nodup. exact (t_nodup _ _ H).
              ** intros e. cbn [home]. rewrite aget_aset. destruct (b =? e)%nat; [reflexivity|apply (t_home _ _ H)].
              ** intros e X i. cbn [last_written]. rewrite aget_aset. destruct (b =? e)%nat.
                 --- intros Y. injection Y as <-. reflexivity.
                 --- intros Y. exact (t_val _ _ H e X i Y).
              ** intros j. cbn [GpuRawS.taken]. rewrite used_aset_new by exact G. rewrite (t_used _ _ H). reflexivity.
              ** apply (t_other _ _ H).
              ** exact (t_stats _ _ H).
           ++ left. split; [reflexivity|]. split; [apply dev_ok_iff; exact D|split; assumption].
        -- split.
           ++ apply tells_quiet; [exact H|left; reflexivity|exact I|]. apply cur_sel; [reflexivity|exact D].
           ++ right. split; [reflexivity|]. intros (_ & X1 & X2). rewrite X1 in GR. cbn in GR. apply Z.leb_gt in GR. lia.
      * injection E as <- <-. split.
        -- rewrite <- (same_cur s). apply tells_quiet; [exact H|left; reflexivity|exact I|].
           rewrite (t_cur _ _ H). apply (cur_nosel _ _ _ k); [reflexivity|exact D].
        -- right. split; [reflexivity|]. intros [X _]. apply dev_ok_not in D. exact (D X).
  - (* free *)
    unfold r_free, set_device in E. destruct (dev_ok mc k) eqn:D.
    + cbn [gp_set_cur gp_blk] in E. destruct p as [b|].
      * pose proof (t_home _ _ H b) as HB. destruct (aget (gp_blk s) b) as [B|] eqn:G; injection E as <- <-; cbn in HB.
        -- split.
           ++ constructor; cbn [gp_set_blk gp_set_cur gp_cur gp_blk gp_other gp_stats].
              ** apply cur_sel; [reflexivity|exact D].
              ** apply adel_nodup. exact (t_nodup _ _ H).
              ** intros e. cbn [home]. rewrite aget_adel. destruct (b =? e)%nat; [reflexivity|apply (t_home _ _ H)].
              ** intros e X i. cbn [last_written]. rewrite aget_adel. destruct (b =? e)%nat; [discriminate|]. apply (t_val _ _ H).
              ** intros j. cbn [GpuRawS.taken]. rewrite HB, (used_adel _ _ B) by (exact (t_nodup _ _ H) || exact G).
                 rewrite (t_used _ _ H). reflexivity.
              ** apply (t_other _ _ H).
              ** exact (t_stats _ _ H).
           ++ left. split; [reflexivity|]. split; [apply dev_ok_iff; exact D|]. rewrite HB. discriminate.
        -- split.
           ++ apply tells_quiet; [exact H|left; reflexivity|exact I|]. apply cur_sel; [reflexivity|exact D].
           ++ right. split; [reflexivity|]. intros [_ X]. exact (X HB).
      * injection E as <- <-. split.
        -- apply tells_quiet; [exact H|right; exact I|exact I|]. apply cur_sel; [reflexivity|exact D].
        -- left. split; [reflexivity|]. split; [apply dev_ok_iff; exact D|exact I].
    + injection E as <- <-. split.
      * rewrite <- (same_cur s). apply tells_quiet; [exact H|left; reflexivity|exact I|].
        rewrite (t_cur _ _ H). apply (cur_nosel _ _ _ k); [reflexivity|exact D].
      * right. split; [reflexivity|]. intros [X _]. apply dev_ok_not in D. exact (D X).
  - (* memset *)
    unfold r_memset, set_device in E. destruct (dev_ok mc k) eqn:D.
    + change (range_of (gp_set_cur s k) b off n k) with (range_of s b off n k) in E.
      destruct (range_owns s tr b off n k H) as [(B & R & G & O)|[R O]]; rewrite R in E; [|discriminate].
      injection E as <- <-. split; [|left; split; [reflexivity|apply dev_ok_iff; exact D]].
      apply (tells_write s tr (RSet b off v n k) k b B off n (fun _ => Some (v mod 256)) H G);
        try (intros; reflexivity). apply cur_sel; [reflexivity|exact D].
    + injection E as <- <-. split.
      * rewrite <- (same_cur s). apply tells_quiet; [exact H|left; reflexivity|exact I|].
        rewrite (t_cur _ _ H). apply (cur_nosel _ _ _ k); [reflexivity|exact D].
      * right. split; [reflexivity|]. apply dev_ok_not. exact D.
  - (* memcpy_to *)
    unfold r_memcpy_to, set_device in E. destruct (dev_ok mc k) eqn:D.
    + change (range_of (gp_set_cur s k) b off (Z.of_nat (length l)) k) with (range_of s b off (Z.of_nat (length l)) k) in E.
      destruct (range_owns s tr b off (Z.of_nat (length l)) k H) as [(B & R & G & O)|[R O]]; rewrite R in E; [|discriminate].
      injection E as <- <-. split; [|left; split; [reflexivity|apply dev_ok_iff; exact D]].
      apply (tells_write s tr (RTo b off l k) k b B off (Z.of_nat (length l)) (fun i => nth_error l (Z.to_nat i)) H G);
        try (intros; reflexivity). apply cur_sel; [reflexivity|exact D].
    + injection E as <- <-. split.
      * rewrite <- (same_cur s). apply tells_quiet; [exact H|left; reflexivity|exact I|].
        rewrite (t_cur _ _ H). apply (cur_nosel _ _ _ k); [reflexivity|exact D].
      * right. split; [reflexivity|]. apply dev_ok_not. exact D.
  - (* memcpy_from *)
    unfold r_memcpy_from, set_device in E. destruct (dev_ok mc k) eqn:D.
    + change (range_of (gp_set_cur s k) b off n k) with (range_of s b off n k) in E.
      destruct (range_owns s tr b off n k H) as [(B & R & G & O)|[R O]]; rewrite R in E; [|discriminate].
      injection E as <- <-. split.
      * apply tells_quiet; [exact H|right; exact I|exact I|]. apply cur_sel; [reflexivity|exact D].
      * left. split; [apply dev_ok_iff; exact D|]. destruct O as (m & _ & O1 & O2 & O3). eexists. split; [reflexivity|].
        split; [rewrite map_length, seq_length; lia|]. intros i Hi.
        rewrite nth_seq_map by lia. rewrite Z2Nat.id by lia. f_equal. exact (t_val _ _ H b B _ G).
    + injection E as <- <-. split.
      * rewrite <- (same_cur s). apply tells_quiet; [exact H|left; reflexivity|exact I|].
        rewrite (t_cur _ _ H). apply (cur_nosel _ _ _ k); [reflexivity|exact D].
      * right. split; [reflexivity|]. apply dev_ok_not. exact D.
  - (* memcpy_peer *)
    unfold r_memcpy_peer in E. destruct (dev_ok mc dk && dev_ok mc sk) eqn:D.
    + apply andb_prop in D as [D1 D2]. apply dev_ok_iff in D1, D2.
      destruct (range_owns s tr b off n dk H) as [(B & R & G & O)|[R O]]; rewrite R in E; [|discriminate].
      destruct (range_owns s tr c coff n sk H) as [(C & R' & G' & O')|[R' O']]; rewrite R' in E; [|discriminate].
      destruct ((b =? c)%nat && (off <? coff + n) && (coff <? off + n)); [discriminate|].
      injection E as <- <-. split; [|left; split; [reflexivity|split; assumption]].
      rewrite <- (same_cur s) at 1.
      apply (tells_write s tr (RPeer b off dk c coff sk n) (gp_cur s) b B off n (fun i => gb_val C (coff + i)) H G);
        try (intros; reflexivity).
      * rewrite (t_cur _ _ H). apply cur_none. reflexivity.
      * intros e i. cbn [last_written]. rewrite (t_val _ _ H c C _ G'). reflexivity.
    + injection E as <- <-. split.
      * rewrite <- (same_cur s). apply tells_quiet; [exact H|left; reflexivity|exact I|].
        rewrite (t_cur _ _ H). apply cur_none. reflexivity.
      * right. split; [reflexivity|]. intros [X1 X2]. apply dev_ok_iff in X1, X2. rewrite X1, X2 in D. discriminate.
  - (* update *)
    injection E as <- <-. split; [|reflexivity].
    constructor; cbn [r_update gp_set_stats gp_cur gp_blk gp_other gp_stats]; try apply H.
    unfold shown. cbn [at_update]. apply map_ext. intros _. unfold figures.
    rewrite (free_is s tr _ H), (t_cur _ _ H). reflexivity.
  - (* statistics *)
    unfold r_stat in E. destruct ((k <? 0) || (mc_devs mc <=? k)) eqn:D; cbn [obind] in E.
    + injection E as <- <-. apply Bool.orb_true_iff in D. rewrite Z.ltb_lt, Z.leb_le in D. split.
      * rewrite <- (same_cur s). apply tells_quiet; [exact H|left; reflexivity|exact I|]. rewrite (t_cur _ _ H). apply cur_none. reflexivity.
      * right. split; [reflexivity|]. unfold exists_dev. lia.
    + apply Bool.orb_false_iff in D as [D1 D2]. apply Z.ltb_ge in D1. apply Z.leb_gt in D2.
      rewrite (t_stats _ _ H), nth_seq_map in E by lia. cbn [obind] in E. injection E as <- <-. split.
      * rewrite <- (same_cur s). apply tells_quiet; [exact H|right; exact I|exact I|]. rewrite (t_cur _ _ H). apply cur_none. reflexivity.
      * left. split; [unfold exists_dev; lia|reflexivity].
  - (* count *)
    injection E as <- <-. split; [|reflexivity].
    rewrite <- (same_cur s). apply tells_quiet; [exact H|right; exact I|exact I|]. rewrite (t_cur _ _ H). apply cur_none. reflexivity.
  - (* set device *)
    unfold set_device in E. destruct (dev_ok mc k) eqn:D; injection E as <- <-.
    + split; [|left; split; [reflexivity|apply dev_ok_iff; exact D]].
      apply tells_quiet; [exact H|right; exact I|exact I|]. apply cur_sel; [reflexivity|exact D].
    + split; [|right; split; [reflexivity|apply dev_ok_not; exact D]].
      rewrite <- (same_cur s). apply tells_quiet; [exact H|left; reflexivity|exact I|].
      rewrite (t_cur _ _ H). apply (cur_nosel _ _ _ k); [reflexivity|exact D].
  - (* others *)
    injection E as <- <-. split; [|reflexivity].
    constructor; cbn [gp_set_other gp_cur gp_blk gp_other gp_stats]; try apply H.
    intros j. cbn [others]. rewrite (Z.eqb_sym j k). destruct (k =? j); [reflexivity|apply (t_other _ _ H)].
Qed.

Lemma run_tells cs : forall s tr s' tr', tells s tr -> all_answered mc tr -> rrun mc s tr cs = Ok (s', tr') ->
  tells s' tr' /\ all_answered mc tr' /\ map fst tr' = rev cs ++ map fst tr.
Proof.
  induction cs as [|c cs IH]; intros s tr s' tr' H A E; cbn [rrun] in E.
  - injection E as <- <-. repeat split; try apply H; assumption.
  - destruct (rstep mc s c) as [[s1 r]| |] eqn:S; try discriminate. cbn [obind fst snd] in E.
    destruct (step_tells s tr c s1 r H S) as [H1 A1].
    destruct (IH s1 ((c, r) :: tr) s' tr' H1 (conj A1 A) E) as (X & Y & Z0). split; [exact X|split; [exact Y|]].
    rewrite Z0. cbn [map fst rev]. rewrite <- app_assoc. reflexivity.
Qed.
Lemma run_answers cs s tr : rrun mc (r_start mc) [] cs = Ok (s, tr) -> map fst tr = rev cs /\ all_answered mc tr.
Proof.
  intros E. destruct (run_tells cs _ _ _ _ tells_start I E) as (_ & A & M). split; [|exact A].
  rewrite M. cbn [map]. apply app_nil_r.
Qed.

(** ** The rules suffice *)
Lemma step_allowed s tr c : tells s tr -> allowed mc tr c -> exists s' r, rstep mc s c = Ok (s', r).
Proof.
  intros H A. destruct c as [b n k grant|p k|b off v n k|b off l k|b off n k|b off dk c coff sk n| |k| |k|k x]; cbn [rstep]; cbn [allowed] in A.
  - destruct A as [A1 A2]. destruct (mc_devs mc <=? k); [eauto|]. unfold r_malloc, set_device.
    destruct (dev_ok mc k); [|eauto]. cbn [gp_set_cur gp_blk]. rewrite (t_home _ _ H b) in A1.
    destruct (aget (gp_blk s) b); [discriminate|]. destruct (Z.ltb_spec 0 n); [|lia].
    destruct (grant && _); eauto.
  - unfold r_free, set_device. destruct (dev_ok mc k); [|eauto]. destruct p; [|eauto]. cbn [gp_set_cur gp_blk].
    destruct (aget (gp_blk s) n); eauto.
  - unfold r_memset, set_device. destruct (dev_ok mc k) eqn:D; [|eauto]. apply dev_ok_iff in D.
    change (range_of (gp_set_cur s k) b off n k) with (range_of s b off n k).
    destruct (range_owns s tr b off n k H) as [(B & R & _)|[R O]]; [rewrite R; eauto|destruct (O (A D))].
  - unfold r_memcpy_to, set_device. destruct (dev_ok mc k) eqn:D; [|eauto]. apply dev_ok_iff in D.
    change (range_of (gp_set_cur s k) b off (Z.of_nat (length l)) k) with (range_of s b off (Z.of_nat (length l)) k).
    destruct (range_owns s tr b off (Z.of_nat (length l)) k H) as [(B & R & _)|[R O]]; [rewrite R; eauto|destruct (O (A D))].
  - unfold r_memcpy_from, set_device. destruct (dev_ok mc k) eqn:D; [|eauto]. apply dev_ok_iff in D.
    change (range_of (gp_set_cur s k) b off n k) with (range_of s b off n k).
    destruct (range_owns s tr b off n k H) as [(B & R & _)|[R O]]; [rewrite R; eauto|destruct (O (A D))].
  - unfold r_memcpy_peer. destruct (dev_ok mc dk && dev_ok mc sk) eqn:D; [|eauto]. apply andb_prop in D as [D1 D2].
    apply dev_ok_iff in D1, D2. destruct (A D1 D2) as (O1 & O2 & O3).
    destruct (range_owns s tr b off n dk H) as [(B & R & _)|[R O]]; [|destruct (O O1)].
    destruct (range_owns s tr c coff n sk H) as [(C & R' & _)|[R' O]]; [|destruct (O O2)].
    rewrite R, R'. destruct ((b =? c)%nat && (off <? coff + n) && (coff <? off + n)) eqn:G; [|eauto].
    apply andb_prop in G as [G G3]. apply andb_prop in G as [G1 G2]. apply Nat.eqb_eq in G1.
    apply Z.ltb_lt in G2, G3. destruct (O3 G1); lia.
  - eauto.
  - unfold r_stat. destruct ((k <? 0) || (mc_devs mc <=? k)) eqn:D; [cbn; eauto|].
    apply Bool.orb_false_iff in D as [D1 D2]. apply Z.ltb_ge in D1. apply Z.leb_gt in D2.
    rewrite (t_stats _ _ H), nth_seq_map by lia. cbn. eauto.
  - eauto.
  - unfold set_device. destruct (dev_ok mc k); eauto.
  - eauto.
Qed.
Lemma rrun_app cs1 cs2 : forall s tr, rrun mc s tr (cs1 ++ cs2) = (do x <- rrun mc s tr cs1; rrun mc (fst x) (snd x) cs2).
Proof.
  induction cs1 as [|c cs1 IH]; intros s tr; [reflexivity|]. cbn [app rrun].
  destruct (rstep mc s c) as [[s1 r]| |]; [|reflexivity|reflexivity]. cbn [obind fst snd]. apply IH.
Qed.
Lemma run_next cs s tr c : rrun mc (r_start mc) [] cs = Ok (s, tr) -> allowed mc tr c ->
  exists s' r, rrun mc (r_start mc) [] (cs ++ [c]) = Ok (s', (c, r) :: tr).
Proof.
  intros E A. destruct (run_tells cs _ _ _ _ tells_start I E) as (H & _ & _).
  destruct (step_allowed s tr c H A) as (s' & r & S). exists s', r. rewrite rrun_app, E. cbn [obind fst snd rrun]. rewrite S. reflexivity.
Qed.
End Proofs.
