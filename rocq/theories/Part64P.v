(** Proofs about the particle operators in double precision: what the loops do to
    memory, whatever the numbers. *)
From Coq Require Import Reals.
From Verif Require Import Prelude WindowM WindowS WindowP GhostM FieldM FieldS MaskM NeboM NeboS NeboF IterM IterS IterP RoundM RoundS RedM HeatM Cmp64M BCS Part64M Part64S.
Local Open Scope Z_scope.

Section Gen.
Variable V : Type.
Variable vadd vmul : V -> V -> V.
Lemma upd_same (h : heap V) b i v : bdata (upd h b i v b) i = v.
Proof. unfold upd. rewrite Nat.eqb_refl. cbn. rewrite Z.eqb_refl. reflexivity. Qed.
Lemma upd_other (h : heap V) b i v c j : c <> b \/ j <> i -> bdata (upd h b i v c) j = bdata (h c) j.
Proof.
  intros H. unfold upd. destruct (Nat.eqb_spec c b) as [->|N]; [|reflexivity]. cbn. destruct (Z.eqb_spec j i) as [->|N]; [|reflexivity].
  destruct H; congruence.
Qed.
Lemma upd_cells (h : heap V) b i v c j : bcells (upd h b i v c) j = bcells (h c) j.
Proof. unfold upd. destruct (Nat.eqb_spec c b) as [->|N]; reflexivity. Qed.
Lemma differs_trans (h h1 h2 : heap V) P : differs_only h h1 P -> differs_only h1 h2 P -> differs_only h h2 P.
Proof. intros (A & B) (C & D). split; [intros; rewrite C; apply A|]. intros b i N. rewrite D by exact N. apply B. exact N. Qed.
Lemma differs_refl (h : heap V) P : differs_only h h P. Proof. split; reflexivity. Qed.
Lemma differs_mono (h h1 : heap V) (P Q : nat -> Z -> Prop) : differs_only h h1 P -> (forall b i, P b i -> Q b i) -> differs_only h h1 Q.
Proof. intros (A & B) H. split; [exact A|]. intros b i N. apply B. intros X. apply N, H, X. Qed.
Lemma differs_upd (h : heap V) b i v (P : nat -> Z -> Prop) : P b i -> differs_only h (upd h b i v) P.
Proof.
  intros H. split; [intros; apply upd_cells|]. intros c j N. apply upd_other. destruct (Nat.eq_dec c b) as [->|E]; [right|left; exact E].
  intros ->. exact (N H).
Qed.

Lemma fill_ok n h f (v : V) : destination_ok V n h f -> finite_ghosts f -> pos_dims (wext (fwin f)) ->
  exists N, forall fuel, (N <= fuel)%nat -> exists h',
    run (fst (nebo_assign V vadd vmul fuel f (EScalar V v))) h = RDone h' tt /\
    (forall i, In i (cells_of f) -> bdata (h' (fbuf f)) i = v) /\ differs_only h h' (fun b i => b = fbuf f).
Proof.
  intros D FG P. pose proof D as (OP & RO & BE).
  assert (REG : forall p, any_cell n f p -> region V n f (EScalar V v) p).
  { intros p A. split; [exact A|]. intros l m u I q Q1 Q2. destruct I as [I|[]]. injection I as <- <- <-.
    unfold finite_ghosts, g_nonneg, iv_le in FG. unfold any_cell, reach, known, in_region, iv_le, layers in *. cbn in *. unfold GHOST_MAX. lia. }
  assert (CE : covers_extra V f (EScalar V v)).
  { intros l m u I. destruct I as [I|[]]. injection I as <- <- <-. unfold finite_ghosts, g_nonneg, iv_le in FG. unfold layers. cbn in *. unfold GHOST_MAX. lia. }
  assert (OK : operands_ok V n h (EScalar V v)) by (split; [|split]; cbn; tauto).
  assert (AL : alias_ok V f (EScalar V v)) by (intros g s []).
  assert (CELL : forall i, In i (cells_of f) -> exists p, any_cell n f p /\ i = cell f p).
  { intros i I. unfold cells_of in I. apply in_map_iff in I as (p & <- & I). apply in_box_points in I.
    exists (iv_sub p (gminus (fvalid f))). destruct OP as (_ & E0 & E & W & GN & GL & _).
    unfold cell. rewrite W in I |- *. clear - E0 E GN GL I.
    unfold any_cell, reach, g_le, g_nonneg, iv_le, in_box, in_region, grown, addr in *. cbn [wext wglob woff] in *. rewrite E in I.
    revert I GN GL E0. generalize (has_extra (fbc f)). intros e. cbn. intros. split; [lia|]. replace (iz (woff (fint f)) - iz (gminus (fvalid f)) + iz p) with (iz (woff (fint f)) + (iz p - iz (gminus (fvalid f)))) by lia. replace (iy (woff (fint f)) - iy (gminus (fvalid f)) + iy p) with (iy (woff (fint f)) + (iy p - iy (gminus (fvalid f)))) by lia. lia. }
  assert (EX : exists p, region V n f (EScalar V v) p).
  { destruct (CELL (kcell (fwin f) 0)) as (p & A & _); [|exists p; apply REG; exact A].
    apply in_cells; [exact P|]. exists 0. pose proof (npts_pos _ P). split; [lia|reflexivity]. }
  destruct (assign_correct V vadd vmul n h f (EScalar V v) OK D AL CE EX) as (N & H).
  exists N. intros fuel Hf. destruct (H fuel Hf) as (h' & R & A1 & A2 & A3). exists h'. split; [exact R|]. split.
  - intros i I. destruct (CELL i I) as (p & A & ->). specialize (A2 p (REG p A)). exact A2.
  - split; [exact A1|]. intros b i NB. apply A3. left. exact NB.
Qed.
End Gen.

(** The part of the particle that cell k gets: its ends, if it gets one. *)
Fixpoint piece (n : nat) (m : Z -> dbl) (dx : dbl) (i : Z) (l r : dbl) (k : Z) : option (dbl * dbl) :=
  if dltb l r then
    match n with
    | O => None
    | S n => if k =? i then Some (l, right_bound64 (m i) dx r) else piece n m dx (i + 1) (right_bound64 (m i) dx r) r k
    end
  else None.
Definition part_of (a : dbl) (p : dbl * dbl) (s : dbl) : dbl := ddiv (dmul a (dsub (snd p) (fst p))) s.
Definition plus_opt (old : dbl) (o : option dbl) : dbl := match o with Some x => dadd old x | None => old end.
Definition stops (m : Z -> dbl) (dx r : dbl) (j : Z) : Prop := dltb (dadd (m j) (ddiv dx d_two)) r = false.

Lemma ltb_irrefl r : dltb r r = false.
Proof.
  destruct (dltb r r) eqn:E; [|reflexivity]. unfold dltb, Bltb, SpecFloat.SFltb in E. pose proof (Bcompare_swap _ _ r r) as S.
  change (SpecFloat.SFcompare (B2SF r) (B2SF r)) with (Bcompare r r) in E. destruct (Bcompare r r) as [[]|]; discriminate.
Qed.
(** At cell j the loop ends. *)
Lemma bound_stops m dx r j : stops m dx r j -> dltb (right_bound64 (m j) dx r) r = false.
Proof. intros S. unfold right_bound64. destruct (dltb r _); [apply ltb_irrefl|exact S]. Qed.
Lemma piece_before n m dx r k : forall i l, k < i -> piece n m dx i l r k = None.
Proof.
  induction n as [|n IH]; intros i l H; cbn [piece]; destruct (dltb l r); try reflexivity.
  destruct (Z.eqb_spec k i); [lia|]. apply IH. lia.
Qed.

Lemma deposit_ends dx mesh dest v s r m j : fbuf mesh <> fbuf dest -> freadonly dest = false -> stops m dx r j ->
  forall fuel i l h, (Z.to_nat (j + 1 - i) <= fuel)%nat -> i <= j + 1 -> (i = j + 1 -> dltb l r = false) ->
  (forall k, i <= k <= j -> bcells (h (fbuf mesh)) k = true /\ bdata (h (fbuf mesh)) k = m k /\ bcells (h (fbuf dest)) k = true) ->
  IterP.ends (deposit64 fuel dx mesh dest i l r v s) h (fun h' _ =>
    (forall k, bdata (h' (fbuf dest)) k = plus_opt (bdata (h (fbuf dest)) k)
       (option_map (fun p => part_of v p s) (piece (Z.to_nat (j + 1 - i)) m dx i l r k))) /\
    differs_only h h' (fun b k => b = fbuf dest /\ i <= k <= j)).
Proof.
  intros S RO ST. induction fuel as [|fuel IH]; intros i l h Hf Hi Hl M.
  - assert (i = j + 1) as E by lia. specialize (Hl E). cbn [deposit64]. rewrite Hl. apply ends_ret. split; [|apply differs_refl].
    intros k. replace (Z.to_nat (j + 1 - i)) with 0%nat by lia. cbn [piece]. rewrite Hl. reflexivity.
  - cbn [deposit64]. destruct (dltb l r) eqn:LR.
    2:{ apply ends_ret. split; [|apply differs_refl]. intros k. destruct (Z.to_nat (j + 1 - i)); cbn [piece]; rewrite LR; reflexivity. }
    assert (i <> j + 1) by (intros E; discriminate (Hl E)). destruct (M i ltac:(lia)) as (M1 & M2 & M3).
    unfold get_elem, set_elem. rewrite RO. apply ends_bind, ends_load; [exact M1|]. apply ends_ret. rewrite M2.
    apply ends_bind, ends_load; [exact M3|]. apply ends_ret. apply ends_bind, ends_store; [exact M3|]. apply ends_ret.
    set (rb := right_bound64 (m i) dx r). set (h1 := upd h (fbuf dest) i _).
    assert (E : Z.to_nat (j + 1 - i) = Datatypes.S (Z.to_nat (j + 1 - (i + 1)))) by lia.
    eapply ends_mono; [|apply (IH (i + 1) rb h1)].
    + intros h' u (A & B). split.
      * intros k. rewrite A, E. cbn [piece]. rewrite LR. fold rb. destruct (Z.eqb_spec k i) as [->|NE].
        -- rewrite piece_before by lia. unfold h1. rewrite upd_same. reflexivity.
        -- unfold h1. rewrite upd_other by (right; exact NE). reflexivity.
      * eapply differs_trans; [apply (differs_upd dbl h (fbuf dest) i); split; [reflexivity|lia]|].
        eapply differs_mono; [exact B|]. intros b k (C1 & C2). split; [exact C1|lia].
    + lia.
    + lia.
    + intros E'. apply bound_stops. replace j with i in ST by lia. exact ST.
    + intros k Hk. destruct (M k ltac:(lia)) as (A & B & C). unfold h1. rewrite !upd_cells, upd_other by (left; exact S). auto.
Qed.

(** The other direction: the pieces are added up in order. *)
Fixpoint gathered (n : nat) (m : Z -> dbl) (src : Z -> dbl) (dx : dbl) (i : Z) (l r s : dbl) : list dbl :=
  if dltb l r then
    match n with
    | O => []
    | S n => part_of (src i) (l, right_bound64 (m i) dx r) s :: gathered n m src dx (i + 1) (right_bound64 (m i) dx r) r s
    end
  else [].
Lemma collect_ends dx mesh src b c s r m a j : fbuf mesh <> b -> fbuf src <> b -> stops m dx r j ->
  forall fuel i l h, (Z.to_nat (j + 1 - i) <= fuel)%nat -> i <= j + 1 -> (i = j + 1 -> dltb l r = false) -> bcells (h b) c = true ->
  (forall k, i <= k <= j -> bcells (h (fbuf mesh)) k = true /\ bdata (h (fbuf mesh)) k = m k /\
                            bcells (h (fbuf src)) k = true /\ bdata (h (fbuf src)) k = a k) ->
  IterP.ends (collect64 fuel dx mesh src b c i l r s) h (fun h' _ =>
    bdata (h' b) c = fold_left dadd (gathered (Z.to_nat (j + 1 - i)) m a dx i l r s) (bdata (h b) c) /\
    differs_only h h' (fun d k => d = b /\ k = c)).
Proof.
  intros S1 S2 ST. induction fuel as [|fuel IH]; intros i l h Hf Hi Hl BC M.
  - assert (i = j + 1) as E by lia. specialize (Hl E). cbn [collect64]. rewrite Hl. apply ends_ret. split; [|apply differs_refl].
    replace (Z.to_nat (j + 1 - i)) with 0%nat by lia. cbn [gathered]. rewrite Hl. reflexivity.
  - cbn [collect64]. destruct (dltb l r) eqn:LR.
    2:{ apply ends_ret. split; [|apply differs_refl]. destruct (Z.to_nat (j + 1 - i)); cbn [gathered]; rewrite LR; reflexivity. }
    assert (i <> j + 1) by (intros E; discriminate (Hl E)). destruct (M i ltac:(lia)) as (M1 & M2 & M3 & M4).
    unfold get_elem. apply ends_bind, ends_load; [exact M1|]. apply ends_ret. rewrite M2.
    apply ends_bind, ends_load; [exact M3|]. apply ends_ret. rewrite M4. apply ends_load; [exact BC|]. apply ends_store; [exact BC|].
    set (rb := right_bound64 (m i) dx r). set (h1 := upd h b c _).
    assert (E : Z.to_nat (j + 1 - i) = Datatypes.S (Z.to_nat (j + 1 - (i + 1)))) by lia.
    eapply ends_mono; [|apply (IH (i + 1) rb h1)].
    + intros h' u (A & B). split.
      * rewrite A, E. cbn [gathered]. rewrite LR. fold rb. cbn [fold_left]. unfold h1. rewrite upd_same. reflexivity.
      * eapply differs_trans; [|exact B]. apply differs_upd. auto.
    + lia.
    + lia.
    + intros E'. apply bound_stops. replace j with i in ST by lia. exact ST.
    + unfold h1. rewrite upd_cells. exact BC.
    + intros k Hk. destruct (M k ltac:(lia)) as (A & B & C & D). unfold h1. rewrite !upd_cells, !upd_other by auto. auto.
Qed.
