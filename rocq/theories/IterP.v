(** Proof rules for loops over fields. *)
From Verif Require Import Prelude WindowM WindowS WindowP GhostM FieldM MaskM NeboM IterM IterS.

Section Rules.
Variable V : Type.
Notation heap := (heap V).

(** Total correctness: p run on h ends normally in a state satisfying Q. *)
Definition ends {R} (p : prog V R) (h : heap) (Q : heap -> R -> Prop) : Prop :=
  exists h' r, run p h = RDone h' r /\ Q h' r.
Lemma ends_ret {R} (r : R) h (Q : heap -> R -> Prop) : Q h r -> ends (Ret r) h Q.
Proof. intros H. exists h, r. split; [reflexivity|exact H]. Qed.
Lemma run_bind {A B} (p : prog V A) (f : A -> prog V B) h h1 a : run p h = RDone h1 a -> run (pbind p f) h = run (f a) h1.
Proof.
  revert h. induction p; cbn; intros h E; try discriminate; [injection E as <- <-; reflexivity| |].
  - destruct (bcells (h b) i); [|discriminate]. apply H. exact E.
  - destruct (bcells (h b) i); [|discriminate]. apply IHp. exact E.
Qed.
Lemma ends_bind {A B} (p : prog V A) (f : A -> prog V B) h (Q : heap -> B -> Prop) :
  ends p h (fun h' a => ends (f a) h' Q) -> ends (pbind p f) h Q.
Proof. intros (h1 & a & E & h2 & b & E2 & H). exists h2, b. split; [rewrite (run_bind p f h h1 a E); exact E2|exact H]. Qed.
Lemma ends_load {R} b i (k : V -> prog V R) h Q : bcells (h b) i = true -> ends (k (bdata (h b) i)) h Q -> ends (Load b i k) h Q.
Proof. intros C (h' & r & E & H). exists h', r. split; [cbn; rewrite C; exact E|exact H]. Qed.
Lemma ends_store {R} b i v (k : prog V R) h Q : bcells (h b) i = true -> ends k (upd h b i v) Q -> ends (Store b i v k) h Q.
Proof. intros C (h' & r & E & H). exists h', r. split; [cbn; rewrite C; exact E|exact H]. Qed.
Lemma ends_mono {R} (p : prog V R) h (Q Q' : heap -> R -> Prop) : (forall h' r, Q h' r -> Q' h' r) -> ends p h Q -> ends p h Q'.
Proof. intros H (h' & r & E & A). exists h', r. auto. Qed.

(** Rule for loops from begin() to end(). *)
Lemma for_iter_rule {S} (w : window) (body : iter -> S -> prog V (S * bool)) (Inv : Z -> heap -> S -> Prop) (Q : heap -> S -> Prop) :
  0 < ix (wext w) -> 0 < iy (wext w) -> fits w ->
  (forall k h s, 0 <= k < local_npts w -> Inv k h s ->
     ends (body (iter_at 0 w k) s) h (fun h' r => if snd r then Q h' (fst r) else Inv (k + 1) h' (fst r))) ->
  (forall h s, Inv (local_npts w) h s -> Q h s) ->
  forall n k fuel h s, 0 <= k -> k + Z.of_nat n = local_npts w -> (n <= fuel)%nat -> Inv k h s ->
  ends (for_iter fuel (iter_at 0 w k) (iter_at 0 w (local_npts w)) s body) h Q.
Proof.
  intros Ex Ey F B E. induction n as [|n IH]; intros k fuel h s Hk Hn Hf I.
  - assert (k = local_npts w) as -> by lia. destruct fuel; cbn [for_iter]; rewrite iter_at_eqb by (assumption || lia || (destruct F as (? & ? & ?); lia));
    rewrite Z.eqb_refl; apply ends_ret, E, I.
  - destruct fuel as [|fuel]; [lia|]. cbn [for_iter]. rewrite iter_at_eqb by (assumption || lia || (destruct F as (? & ? & ?); lia)).
    destruct (Z.eqb_spec k (local_npts w)); [lia|]. apply ends_bind. eapply ends_mono; [|apply B; [lia|exact I]].
    intros h' (s' & brk) H. cbn [fst snd] in *. destruct brk; [apply ends_ret; exact H|].
    rewrite iter_at_incr by (assumption || (destruct F as (? & ? & ?); lia)). apply (IH (k + 1) fuel); lia || assumption.
Qed.

(** A loop whose body is undefined in round K. *)
Lemma run_bind_ub {A B} (p : prog V A) (f : A -> prog V B) h : run p h = RUB -> run (pbind p f) h = RUB.
Proof.
  revert h. induction p; cbn; intros h E; try discriminate; [reflexivity| |].
  - destruct (bcells (h b) i); [|reflexivity]. apply H. exact E.
  - destruct (bcells (h b) i); [|reflexivity]. apply IHp. exact E.
Qed.
Lemma for_iter_ub {S} (w : window) (body : iter -> S -> prog V (S * bool)) (Inv : Z -> heap -> S -> Prop) K :
  0 < ix (wext w) -> 0 < iy (wext w) -> fits w -> 0 <= K < local_npts w ->
  (forall k h s, 0 <= k < K -> Inv k h s ->
     ends (body (iter_at 0 w k) s) h (fun h' r => snd r = false /\ Inv (k + 1) h' (fst r))) ->
  (forall h s, Inv K h s -> run (body (iter_at 0 w K) s) h = RUB) ->
  forall n k fuel h s, 0 <= k -> k + Z.of_nat n = K -> (n < fuel)%nat -> Inv k h s ->
  run (for_iter fuel (iter_at 0 w k) (iter_at 0 w (local_npts w)) s body) h = RUB.
Proof.
  intros Ex Ey F HK B E. induction n as [|n IH]; intros k fuel h s Hk Hn Hf I; (destruct fuel as [|fuel]; [lia|]);
    cbn [for_iter]; rewrite iter_at_eqb by (assumption || lia || (destruct F as (? & ? & ?); lia)); (destruct (Z.eqb_spec k (local_npts w)); [lia|]).
  - assert (k = K) as -> by lia. apply run_bind_ub. apply E. exact I.
  - destruct (B k h s ltac:(lia) I) as (h' & (s' & brk) & R & Z0 & I'). cbn [snd fst] in *. subst brk. rewrite (run_bind _ _ _ _ _ R). cbn [snd fst].
    rewrite iter_at_incr by (assumption || (destruct F as (? & ? & ?); lia)). apply IH; lia || assumption.
Qed.
End Rules.
Arguments ends {V R}.

(** ** Cells in iteration order *)
Definition kcell (w : window) (k : Z) : Z := addr w (dec (ix (wext w)) (iy (wext w)) k).
Lemma icur_at w k : icur (iter_at 0 w k) = kcell w k.
Proof. reflexivity. Qed.
Lemma cells_kcell f : pos_dims (wext (fwin f)) -> cells_of f = map (kcell (fwin f)) (zrange (local_npts (fwin f))).
Proof.
  intros (A & B & C). unfold cells_of, kcell, local_npts. destruct (wext (fwin f)) as [a b c] eqn:E. cbn [ix iy iz] in *.
  rewrite box_points_dec by lia. rewrite map_map. reflexivity.
Qed.
Lemma npts_pos w : pos_dims (wext w) -> 0 < local_npts w.
Proof. intros (A & B & C). unfold local_npts. apply Z.mul_pos_pos; [apply Z.mul_pos_pos|]; assumption. Qed.
Lemma contents_kcell {V} (h : heap V) f : pos_dims (wext (fwin f)) ->
  contents h f = map (fun k => bdata (h (fbuf f)) (kcell (fwin f) k)) (zrange (local_npts (fwin f))).
Proof. intros P. unfold contents. rewrite cells_kcell, map_map by exact P. reflexivity. Qed.
Lemma live_cell {V} (h : heap V) f k : live h f -> 0 <= k < local_npts (fwin f) -> bcells (h (fbuf f)) (kcell (fwin f) k) = true.
Proof. intros (P & _ & L) R. apply L. rewrite cells_kcell by exact P. apply in_map_iff. exists k. split; [reflexivity|apply in_zrange; exact R]. Qed.
Lemma kcell_inj w j k : pos_dims (wext w) -> fits w -> 0 <= j -> 0 <= k -> kcell w j = kcell w k -> j = k.
Proof.
  intros (A & B & C) F Hj Hk E. assert (H : it_eqb (iter_at 0 w j) (iter_at 0 w k) = true) by (unfold it_eqb; rewrite !icur_at; lia).
  rewrite iter_at_eqb in H by (assumption || (destruct F as (? & ? & ?); lia)). lia.
Qed.
Lemma in_cells f i : pos_dims (wext (fwin f)) -> In i (cells_of f) <-> exists k, 0 <= k < local_npts (fwin f) /\ i = kcell (fwin f) k.
Proof.
  intros P. rewrite cells_kcell by exact P. rewrite in_map_iff. split.
  - intros (k & <- & I). exists k. split; [apply in_zrange; exact I|reflexivity].
  - intros (k & R & ->). exists k. split; [reflexivity|apply in_zrange; exact R].
Qed.
(** In a field covering its block, the k-th cell is element k. *)
Lemma kcell_whole f k : whole_block f -> pos_dims (wext (fwin f)) -> 0 <= k -> kcell (fwin f) k = k.
Proof.
  intros (O & W) (A & B & C) Hk. unfold kcell, addr. rewrite O, <- W. unfold iv_zero. cbn [ix iy iz]. rewrite !Z.add_0_l.
  unfold dec. cbn [ix iy iz]. symmetry. apply flat_decomp; assumption.
Qed.
Lemma cells_whole f : whole_block f -> pos_dims (wext (fwin f)) -> cells_of f = zrange (local_npts (fwin f)).
Proof.
  intros W P. rewrite cells_kcell by exact P. rewrite <- (map_id (zrange _)) at 2. apply map_ext_in. intros k I.
  apply in_zrange in I. apply kcell_whole; [exact W|exact P|lia].
Qed.

(** begin(), end(), ++ *)
Section Ends.
Variable V : Type.
Lemma cbegin_ok f : pos_dims (wext (fwin f)) -> field_cbegin f = Ok (iter_at 0 (fwin f) 0).
Proof. intros (A & B & C). unfold field_cbegin, it_begin. rewrite iter_at_0 by assumption. reflexivity. Qed.
Lemma cend_ok f : pos_dims (wext (fwin f)) -> field_cend f = Ok (iter_at 0 (fwin f) (local_npts (fwin f))).
Proof. intros (A & B & C). unfold field_cend. rewrite it_end_at by (assumption || lia). reflexivity. Qed.
Lemma begin_ok f : freadonly f = false -> pos_dims (wext (fwin f)) -> field_begin f = Ok (iter_at 0 (fwin f) 0).
Proof. intros RO (A & B & C). unfold field_begin, it_begin. rewrite RO. rewrite iter_at_0 by assumption. reflexivity. Qed.
Lemma end_ok f : pos_dims (wext (fwin f)) -> field_end f = Ok (iter_at 0 (fwin f) (local_npts (fwin f))).
Proof. intros (A & B & C). unfold field_end. rewrite it_end_at by (assumption || lia). reflexivity. Qed.
Lemma incr_ok w k : pos_dims (wext w) -> it_incr (iter_at 0 w k) = iter_at 0 w (k + 1).
Proof. intros (A & B & C). apply iter_at_incr; assumption. Qed.
End Ends.
