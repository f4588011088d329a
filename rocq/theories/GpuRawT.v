(** Consequences: reading back, releasing everything, and the statistics. *)
From Verif Require Import Prelude PoolM PtrM PtrP GpuRawM GpuRawS GpuRawP.

Section More.
Variable mc : machine.

(** ** Reading back *)
(** calls that do not touch block b *)
Definition leaves (b : nat) (c : rcall) : Prop :=
  match c with
  | RAlloc e _ _ _ | RFree (Some e) _ | RSet e _ _ _ _ | RTo e _ _ _ | RPeer e _ _ _ _ _ _ => e <> b
  | _ => True
  end.
Lemma leaves_written b c r tr i : leaves b c -> last_written ((c, r) :: tr) b i = last_written tr b i.
Proof.
  destruct c as [e n k g|[e|] k|e off v n k|e off l k|e off n k|e off dk d coff sk n| |k| |k|k x]; cbn [leaves last_written];
    intros L; try reflexivity; destruct r; try reflexivity;
    apply Nat.eqb_neq in L; rewrite L; reflexivity.
Qed.
Lemma run_leaves b cs : forall s tr s' tr', Forall (leaves b) cs -> rrun mc s tr cs = Ok (s', tr') ->
  forall i, last_written tr' b i = last_written tr b i.
Proof.
  induction cs as [|c cs IH]; intros s tr s' tr' F E i; cbn [rrun] in E.
  - injection E as <- <-. reflexivity.
  - inversion F; subst. destruct (rstep mc s c) as [[s1 r]| |]; try discriminate. cbn [obind fst snd] in E.
    rewrite (IH _ _ _ _ ltac:(assumption) E i). apply leaves_written. assumption.
Qed.
Lemma nth_error_all {A} (l l' : list A) : length l = length l' -> (forall i, (i < length l)%nat -> nth_error l i = nth_error l' i) -> l = l'.
Proof.
  revert l'. induction l as [|a l IH]; intros [|a' l'] L H; try discriminate; [reflexivity|].
  pose proof (H 0%nat ltac:(cbn; lia)) as H0. cbn in H0. injection H0 as ->. f_equal. apply IH; [cbn in L; lia|].
  intros i Hi. exact (H (S i) ltac:(cbn; lia)).
Qed.
Lemma read_back cs1 b off l k cs2 k2 s tr :
  Forall (leaves b) cs2 -> exists_dev mc k -> exists_dev mc k2 ->
  rrun mc (r_start mc) [] (cs1 ++ RTo b off l k :: cs2 ++ [RFrom b off (Z.of_nat (length l)) k2]) = Ok (s, tr) ->
  hd_error tr = Some (RFrom b off (Z.of_nat (length l)) k2, RBytes (map Some l)).
Proof.
  intros F K K2 E. rewrite rrun_app in E.
  destruct (rrun mc (r_start mc) [] cs1) as [[s1 tr1]| |] eqn:E1; try discriminate. cbn [obind fst snd rrun] in E.
  destruct (run_tells mc cs1 _ _ _ _ (tells_start mc) I E1) as (H1 & _ & _).
  destruct (rstep mc s1 (RTo b off l k)) as [[s2 r]| |] eqn:S; try discriminate. cbn [obind fst snd] in E.
  destruct (step_tells mc s1 tr1 _ s2 r H1 S) as [H2 A2].
  destruct A2 as [[-> _]|[_ N]]; [|destruct (N K)].
  rewrite rrun_app in E.
  destruct (rrun mc s2 ((RTo b off l k, RDone) :: tr1) cs2) as [[s3 tr3]| |] eqn:E3; try discriminate. cbn [obind fst snd rrun] in E.
  destruct (rstep mc s3 (RFrom b off (Z.of_nat (length l)) k2)) as [[s4 r]| |] eqn:S'; try discriminate.
  cbn [obind fst snd] in E. injection E as <- <-.
  assert (H3 : tells mc s3 tr3).
  { clear - H2 E3. revert s2 H2 E3. generalize ((RTo b off l k, RDone) :: tr1). induction cs2 as [|c cs IH]; intros t s2 H E; cbn [rrun] in E.
    - injection E as <- <-. exact H.
    - destruct (rstep mc s2 c) as [[s5 r]| |] eqn:S; try discriminate. cbn [obind fst snd] in E.
      exact (IH _ s5 (proj1 (step_tells mc s2 t c s5 r H S)) E). }
  destruct (step_tells mc s3 tr3 _ s4 r H3 S') as [_ A4].
  destruct A4 as [(_ & l' & -> & L & V)|[_ N]]; [|destruct (N K2)].
  cbn [hd_error]. do 3 f_equal. apply nth_error_all; [rewrite map_length; lia|]. intros i Hi.
  specialize (V (Z.of_nat i) ltac:(lia)). rewrite Nat2Z.id in V. rewrite V, (run_leaves b cs2 _ _ _ _ F E3).
  cbn [last_written]. rewrite Nat.eqb_refl. cbn [andb].
  destruct (Z.leb_spec off (off + Z.of_nat i)); [|lia]. destruct (Z.ltb_spec (off + Z.of_nat i) (off + Z.of_nat (length l))); [|lia].
  cbn [andb]. replace (Z.to_nat (off + Z.of_nat i - off)) with i by lia. rewrite nth_error_map.
  destruct (nth_error l i) eqn:X; [reflexivity|]. apply nth_error_None in X. lia.
Qed.

(** ** Everything released *)
Lemma released cs s tr : rrun mc (r_start mc) [] cs = Ok (s, tr) -> (forall b, home tr b = None) -> forall k, taken mc tr k = 0.
Proof.
  intros E N k. destruct (run_tells mc cs _ _ _ _ (tells_start mc) I E) as (H & _ & _).
  rewrite <- (t_used _ _ _ H k). destruct (gp_blk s) as [|[b B] m] eqn:G; [reflexivity|].
  pose proof (t_home _ _ _ H b) as HB. rewrite N, G, aget_cons, Nat.eqb_refl in HB. discriminate.
Qed.
Lemma tells_nonneg s tr : (forall n, 0 <= mc_takes mc n) -> tells mc s tr -> forall k, 0 <= taken mc tr k.
Proof.
  intros P H k. rewrite <- (t_used _ _ _ H k). induction (gp_blk s) as [|[b B] m IH]; cbn [used_of]; [lia|].
  specialize (P (gb_size B)). destruct (gb_dev B =? k); lia.
Qed.

(** ** The statistics *)
Lemma current_exists tr : 0 < mc_devs mc -> exists_dev mc (current mc tr).
Proof.
  intros P. induction tr as [|[c r] tr IH]; cbn [current]; [unfold exists_dev; lia|].
  destruct (selects c) as [k|]; [|exact IH].
  destruct (Z.leb_spec 0 k); [|exact IH]. destruct (Z.ltb_spec k (mc_devs mc)); [|exact IH]. unfold exists_dev. cbn [andb]. lia.
Qed.
(** The figures given for device k are those of device k at the last update, if k
    was the current device then. *)
Lemma stats_of_current cs s tr k m tr0 : rrun mc (r_start mc) [] (cs ++ [RStat k]) = Ok (s, (RStat k, RStats m) :: tr) ->
  at_update tr = Some tr0 -> current mc tr0 = k -> m = figures mc tr0 k.
Proof.
  intros E U C. apply run_answers in E as [_ [A _]]. cbn [answers] in A. rewrite U, C in A.
  destruct A as [[_ X]|[X _]]; [injection X as ->; reflexivity|discriminate].
Qed.
Lemma stats_one_device cs s tr k r tr0 : mc_devs mc = 1 -> rrun mc (r_start mc) [] (cs ++ [RStat k]) = Ok (s, (RStat k, r) :: tr) ->
  at_update tr = Some tr0 -> (k = 0 /\ r = RStats (figures mc tr0 0)) \/ (k <> 0 /\ r = RThrew).
Proof.
  intros P E U. apply run_answers in E as [_ [A _]]. cbn [answers] in A. rewrite U in A.
  pose proof (current_exists tr0 ltac:(lia)) as X. unfold exists_dev in *. rewrite P in *.
  replace (current mc tr0) with 0 in A by lia. destruct A as [[K ->]|[-> K]]; [left|right]; split; try reflexivity; lia.
Qed.
(** Numbers of bytes are not negative. *)
Definition sizes_ok (c : rcall) : Prop := match c with ROther _ x => 0 <= x | _ => True end.
Definition sane_at (tr : trace) : Prop := forall t, at_update tr = Some t -> forall k, 0 <= taken mc t k /\ 0 <= others t k.
Lemma run_sane cs : (forall n, 0 <= mc_takes mc n) -> forall s tr s' tr', Forall sizes_ok cs -> tells mc s tr -> (forall k, 0 <= others tr k) ->
  sane_at tr -> rrun mc s tr cs = Ok (s', tr') -> sane_at tr'.
Proof.
  intros P. induction cs as [|c cs IH]; intros s tr s' tr' F H O A E; cbn [rrun] in E.
  - injection E as <- <-. exact A.
  - inversion F as [|? ? F1 F2]; subst. destruct (rstep mc s c) as [[s1 r]| |] eqn:S; try discriminate. cbn [obind fst snd] in E.
    refine (IH s1 ((c, r) :: tr) s' tr' F2 (proj1 (step_tells mc s tr c s1 r H S)) _ _ E).
    + intros k. destruct c; try exact (O k). cbn [others]. destruct (k0 =? k); [exact F1|exact (O k)].
    + intros t U. destruct c; try exact (A t U). cbn in U. injection U as <-. intros k. split; [exact (tells_nonneg s tr P H k)|exact (O k)].
Qed.
Lemma stats_sane cs s tr k m : (forall n, 0 <= mc_takes mc n) -> Forall sizes_ok cs ->
  rrun mc (r_start mc) [] (cs ++ [RStat k]) = Ok (s, (RStat k, RStats m) :: tr) ->
  0 <= ms_inuse m /\ ms_f m + ms_inuse m = ms_t m.
Proof.
  intros P F E. assert (W : sane_at ((RStat k, RStats m) :: tr)).
  { refine (run_sane (cs ++ [RStat k]) P _ _ _ _ _ (tells_start mc) _ _ E).
    - apply Forall_app. split; [exact F|constructor; [exact I|constructor]].
    - intros j. cbn. lia.
    - intros t U. discriminate. }
  apply run_answers in E as [_ [A _]]. cbn [answers] in A. destruct A as [[_ X]|[X _]]; [|discriminate].
  injection X as ->. destruct (at_update tr) as [t|] eqn:U; [|cbn; lia].
  specialize (W t U (current mc t)). unfold figures, free_mem. cbn. lia.
Qed.
End More.

(** Two devices of 1000 and 2000 bytes. *)
Definition two_gpus : machine := Machine 2 (fun k => if k =? 0 then 1000 else 2000) (fun n => n).
Definition stats_demo : list rcall := [RAlloc 0 100 0 true; RAlloc 1 300 1 true; RUpdate; RStat 0].
Lemma stats_wrong : exists s tr0,
  rrun two_gpus (r_start two_gpus) [] stats_demo = Ok (s, (RStat 0, RStats (MStats 1700 2000 300)) :: (RUpdate, RDone) :: tr0) /\
  figures two_gpus tr0 0 = MStats 900 1000 100.
Proof. eexists. eexists. split; vm_compute; reflexivity. Qed.
