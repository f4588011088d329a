(** Proofs about element access, copying and setting values. *)
From Verif Require Import Prelude WindowM WindowS WindowP GhostM FieldM FieldS MaskM NeboM IterM IterS IterP AccessM AccessS.

Section Access.
Variable V : Type.
Notation heap := (heap V).

Lemma upd_same (h : heap) b i v : bdata (upd h b i v b) i = v.
Proof. unfold upd. rewrite Nat.eqb_refl. cbn. rewrite Z.eqb_refl. reflexivity. Qed.
Lemma upd_other (h : heap) b i v c j : c <> b \/ j <> i -> bdata (upd h b i v c) j = bdata (h c) j.
Proof.
  intros N. unfold upd. destruct (Nat.eqb_spec c b) as [->|]; [|reflexivity]. cbn.
  destruct (Z.eqb_spec j i); [destruct N; congruence|reflexivity].
Qed.
Lemma upd_cells (h : heap) b i v c j : bcells (upd h b i v c) j = bcells (h c) j.
Proof. unfold upd. destruct (Nat.eqb c b); reflexivity. Qed.
Lemma upd_differs (h : heap) b i v : differs_only h (upd h b i v) (fun c j => c = b /\ j = i).
Proof.
  split; [intros; apply upd_cells|]. intros c j N. apply upd_other.
  destruct (Nat.eq_dec c b) as [->|]; [|auto]. right. intros ->. apply N. auto.
Qed.

(** ** operator() *)
Lemma rank_range e p : in_box e p -> 0 <= rank e p < ix e * iy e * iz e.
Proof.
  intros (A & B & C). unfold rank. assert (0 <= iy p + iy e * iz p <= iy e * iz e - 1) by nia. nia.
Qed.
Lemma rank_kcell w p : in_box (wext w) p -> kcell w (rank (wext w) p) = addr w p.
Proof. intros (A & B & C). unfold kcell, rank. rewrite dec_flat by lia. destruct p; reflexivity. Qed.
Lemma contents_nth (h : heap) f k : pos_dims (wext (fwin f)) -> 0 <= k < local_npts (fwin f) ->
  nth_error (contents h f) (Z.to_nat k) = Some (bdata (h (fbuf f)) (kcell (fwin f) k)).
Proof.
  intros P R. rewrite contents_kcell by exact P. rewrite nth_error_map.
  assert (nth_error (zrange (local_npts (fwin f))) (Z.to_nat k) = Some k) as ->; [|reflexivity].
  unfold zrange. rewrite nth_error_map. rewrite (nth_error_nth' _ 0%nat) by (rewrite seq_length; lia). rewrite seq_nth by lia. cbn. f_equal. lia.
Qed.
Lemma box_live (h : heap) f p : live h f -> in_box (wext (fwin f)) p -> bcells (h (fbuf f)) (addr (fwin f) p) = true.
Proof. intros L B. rewrite <- rank_kcell by exact B. apply live_cell; [exact L|]. apply rank_range. exact B. Qed.

Lemma get_at_run (h : heap) f p : live h f -> in_box (wext (fwin f)) p -> run (get_at f p) h = RDone h (bdata (h (fbuf f)) (addr (fwin f) p)).
Proof. intros L B. unfold get_at. cbn. rewrite flat_index_addr by (apply L || exact B). rewrite (box_live h f p L B). reflexivity. Qed.
Lemma get_at_ok (h : heap) f p : live h f -> in_box (wext (fwin f)) p ->
  exists v, run (get_at f p) h = RDone h v /\ nth_error (contents h f) (Z.to_nat (rank (wext (fwin f)) p)) = Some v.
Proof.
  intros L B. exists (bdata (h (fbuf f)) (addr (fwin f) p)). split; [apply get_at_run; assumption|].
  rewrite contents_nth; [rewrite rank_kcell by exact B; reflexivity|apply L|apply rank_range; exact B].
Qed.
Lemma set_at_ok (h : heap) f p v : live h f -> in_box (wext (fwin f)) p -> freadonly f = false ->
  exists h', run (set_at f p v) h = RDone h' tt /\ run (get_at f p) h' = RDone h' v /\
    (forall q, in_box (wext (fwin f)) q -> q <> p -> forall x, run (get_at f q) h = RDone h x -> run (get_at f q) h' = RDone h' x) /\
    differs_only h h' (fun b i => b = fbuf f /\ nth_error (cells_of f) (Z.to_nat (rank (wext (fwin f)) p)) = Some i).
Proof.
  intros L B RO. exists (upd h (fbuf f) (addr (fwin f) p) v). pose proof L as (P & F & C).
  assert (L' : live (upd h (fbuf f) (addr (fwin f) p) v) f) by (split; [exact P|split; [exact F|intros i I; rewrite upd_cells; apply C, I]]).
  split; [|split; [|split]].
  - unfold set_at. rewrite RO. cbn. rewrite flat_index_addr by assumption. rewrite (box_live h f p L B). reflexivity.
  - rewrite get_at_run by assumption. rewrite upd_same. reflexivity.
  - intros q Q N x E. rewrite get_at_run in E |- * by assumption. injection E as <-. rewrite upd_other; [reflexivity|].
    right. intros E. apply N. apply (addr_inj (fwin f)); assumption.
  - destruct (upd_differs h (fbuf f) (addr (fwin f) p) v) as (D1 & D2). split; [exact D1|]. intros b i N. apply D2. intros (-> & ->). apply N. split; [reflexivity|].
    rewrite cells_kcell by exact P. rewrite nth_error_map. unfold zrange. rewrite nth_error_map.
    pose proof (rank_range _ _ B) as R. unfold local_npts. rewrite (nth_error_nth' _ 0%nat) by (rewrite seq_length; lia). rewrite seq_nth by lia. cbn.
    replace (Z.of_nat (Z.to_nat (rank (wext (fwin f)) p))) with (rank (wext (fwin f)) p) by lia. rewrite rank_kcell by exact B. reflexivity.
Qed.
Lemma readonly_refuses (h : heap) f p i v : freadonly f = true -> run (set_at f p v) h = RThrow /\ run (set_elem f i v) h = RThrow.
Proof. intros RO. unfold set_at, set_elem. rewrite RO. auto. Qed.

(** operator[] *)
Lemma elem_ok (h : heap) f i : live h f -> whole_block f -> 0 <= i < local_npts (fwin f) ->
  exists v, run (get_elem f i) h = RDone h v /\ nth_error (contents h f) (Z.to_nat i) = Some v.
Proof.
  intros L W R. exists (bdata (h (fbuf f)) i). pose proof (live_cell h f i L R) as C. rewrite kcell_whole in C by (assumption || apply L || lia).
  split; [cbn; rewrite C; reflexivity|]. rewrite contents_nth by (apply L || exact R). rewrite kcell_whole by (assumption || apply L || lia). reflexivity.
Qed.

(** the assertions *)
Lemma asserts_spec f p : index_asserts f p = true <-> in_box (wext (fwin f)) p /\ iv_le (woff (fwin f)) p.
Proof. unfold index_asserts, in_box, iv_le. rewrite !andb_true_iff. lia. Qed.
Lemma asserts_origin f p : woff (fwin f) = iv_zero -> index_asserts f p = true <-> in_box (wext (fwin f)) p.
Proof. intros O. rewrite asserts_spec, O. unfold in_box, iv_le. cbn. lia. Qed.
Lemma debug_ok (h : heap) f p : live h f -> index_asserts f p = true ->
  exists v, run (get_at_debug f p) h = RDone h v /\ nth_error (contents h f) (Z.to_nat (rank (wext (fwin f)) p)) = Some v.
Proof. intros L A. unfold get_at_debug. rewrite A. apply get_at_ok; [exact L|]. apply (proj1 (asserts_spec f p) A). Qed.
Lemma debug_view (h : heap) f : live h f -> woff (fwin f) <> iv_zero -> in_box (wext (fwin f)) iv_zero /\ run (get_at_debug (V:=V) f iv_zero) h = RUB.
Proof.
  intros (P & F & _) N. split; [destruct P as (? & ? & ?); unfold in_box; cbn; lia|]. unfold get_at_debug.
  destruct (index_asserts f iv_zero) eqn:A; [|reflexivity]. exfalso. apply asserts_spec in A as (_ & A). apply N.
  destruct F as (? & ? & ?). destruct A as (? & ? & ?). destruct (woff (fwin f)) as [a b c]. cbn in *. unfold iv_zero. f_equal; lia.
Qed.

(** ** operator= *)
Lemma copy_elems_ok src dst n : src <> dst -> forall i (h : heap), (forall j, i <= j < i + Z.of_nat n -> bcells (h src) j = true /\ bcells (h dst) j = true) ->
  ends (copy_elems src dst i n) h (fun h' _ => (forall j, i <= j < i + Z.of_nat n -> bdata (h' dst) j = bdata (h src) j) /\
    differs_only h h' (fun b j => b = dst /\ i <= j < i + Z.of_nat n)).
Proof.
  intros N. induction n as [|n IH]; intros i h C; cbn [copy_elems].
  - apply ends_ret. split; [lia|]. split; reflexivity.
  - apply ends_load; [apply C; lia|]. apply ends_store; [apply C; lia|]. eapply ends_mono; [|apply IH].
    + intros h' _ (A & D1 & D2). split.
      * intros j J. destruct (Z.eq_dec j i) as [->|].
        -- rewrite D2 by lia. rewrite upd_same. reflexivity.
        -- rewrite A by lia. apply upd_other. auto.
      * split; [intros b j; rewrite D1; apply upd_cells|]. intros b j M. rewrite D2 by (intros (-> & J); apply M; split; [reflexivity|lia]).
        apply upd_other. destruct (Nat.eq_dec b dst) as [->|]; [|auto]. right. intros ->. apply M. split; [reflexivity|lia].
    + intros j J. rewrite !upd_cells. apply C. lia.
Qed.
Lemma win_eqb_spec a b : win_eqb a b = true <-> a = b.
Proof.
  unfold win_eqb, iv_eqb. destruct a as [[] [] []], b as [[] [] []]. cbn. rewrite !andb_true_iff, !Z.eqb_eq. split.
  - intros H. repeat f_equal; lia.
  - intros H. injection H. intros. subst. lia.
Qed.
Lemma block_live (h : heap) f : pos_dims (wext (fwin f)) -> fits (fwin f) -> block_exists h f -> live h f.
Proof.
  intros P F B. split; [exact P|]. split; [exact F|]. intros i I. apply B. unfold cells_of in I. apply in_map_iff in I as (p & <- & I).
  apply in_box_points in I. apply addr_range; assumption.
Qed.
Lemma assign_ok (h : heap) f o : pos_dims (wext (fwin f)) -> fits (fwin f) -> block_exists h f -> block_exists h o ->
  freadonly f = false -> fwin f = fwin o ->
  exists h', run (field_copy_assign f o) h = RDone h' tt /\ contents h' f = contents h o /\ contents h' o = contents h o /\
    differs_only h h' (fun b i => b = fbuf f /\ 0 <= i < glob_npts (fwin f)).
Proof.
  intros P F Bf Bo RO W. unfold field_copy_assign. rewrite RO. assert (win_eqb (fwin f) (fwin o) = true) as -> by (apply win_eqb_spec; exact W). cbn [negb].
  destruct (Nat.eqb_spec (fbuf f) (fbuf o)) as [E|N].
  - exists h. split; [reflexivity|]. split; [unfold contents, cells_of; rewrite W, E; reflexivity|]. split; [reflexivity|]. split; reflexivity.
  - assert (G : 0 <= glob_npts (fwin o)) by (rewrite <- W; destruct F as (? & ? & ?), P as (? & ? & ?); unfold glob_npts; repeat apply Z.mul_nonneg_nonneg; lia).
    destruct (copy_elems_ok (fbuf o) (fbuf f) (Z.to_nat (glob_npts (fwin o))) ltac:(congruence) 0 h) as (h' & [] & E & A & D).
    { intros j J. split; [apply Bo; lia|apply Bf; rewrite W; lia]. }
    exists h'. split; [exact E|]. assert (CR : forall i, In i (cells_of f) -> 0 <= i < glob_npts (fwin f)).
    { intros i I. unfold cells_of in I. apply in_map_iff in I as (p & <- & I). apply in_box_points in I. apply addr_range; assumption. }
    split; [|split].
    + unfold contents. assert (cells_of o = cells_of f) as -> by (unfold cells_of; rewrite W; reflexivity). apply map_ext_in. intros i I. apply A. specialize (CR i I). rewrite W in CR. lia.
    + unfold contents. apply map_ext. intros i. apply (proj2 D). intros (Q & _). congruence.
    + destruct D as (D1 & D2). split; [exact D1|]. intros b i M. apply D2. intros (-> & J). apply M. split; [reflexivity|rewrite W; lia].
Qed.
Lemma assign_all (h : heap) f o : glob_npts (fwin f) >= 0 -> block_exists h f -> block_exists h o -> freadonly f = false -> fwin f = fwin o ->
  exists h', run (field_copy_assign f o) h = RDone h' tt /\ forall i, 0 <= i < glob_npts (fwin f) -> bdata (h' (fbuf f)) i = bdata (h (fbuf o)) i.
Proof.
  intros G Bf Bo RO W. unfold field_copy_assign. rewrite RO. assert (win_eqb (fwin f) (fwin o) = true) as -> by (apply win_eqb_spec; exact W). cbn [negb].
  destruct (Nat.eqb_spec (fbuf f) (fbuf o)) as [E|N].
  - exists h. split; [reflexivity|]. rewrite E. reflexivity.
  - destruct (copy_elems_ok (fbuf o) (fbuf f) (Z.to_nat (glob_npts (fwin o))) ltac:(congruence) 0 h) as (h' & [] & E & A & D).
    { intros j J. split; [apply Bo; lia|apply Bf; rewrite W; lia]. }
    exists h'. split; [exact E|]. intros i I. apply A. rewrite <- W. lia.
Qed.
Lemma assign_refused (h : heap) f o : freadonly f = true \/ fwin f <> fwin o -> run (field_copy_assign f o) h = RThrow.
Proof.
  intros C. unfold field_copy_assign. destruct (freadonly f) eqn:RO; [reflexivity|]. destruct C as [C|C]; [discriminate|].
  destruct (win_eqb (fwin f) (fwin o)) eqn:E; [apply win_eqb_spec in E; contradiction|reflexivity].
Qed.

(** ** reset_values *)
Section Reset.
Variable zero : V.
Lemma reset_array (h : heap) f b i : live h f -> freadonly f = false -> b <> fbuf f ->
  (forall j, i <= j < i + local_npts (fwin f) -> bcells (h b) j = true) ->
  exists N, forall fuel, (N <= fuel)%nat -> exists h', run (reset_values zero fuel f (Some (b, i))) h = RDone h' tt /\
    contents h' f = map (fun k => bdata (h b) (i + k)) (zrange (local_npts (fwin f))) /\
    differs_only h h' (fun c j => c = fbuf f /\ In j (cells_of f)).
Proof.
  intros L RO N A. pose proof L as (P & F & _). pose proof (npts_pos _ P). set (w := fwin f) in *. exists (Z.to_nat (local_npts w)). intros fuel Hf.
  assert (E : ends (reset_values zero fuel f (Some (b, i))) h (fun h' _ =>
    (forall k, 0 <= k < local_npts w -> bdata (h' (fbuf f)) (kcell w k) = bdata (h b) (i + k)) /\ differs_only h h' (fun c j => c = fbuf f /\ In j (cells_of f)))).
  { unfold reset_values. rewrite begin_ok, end_ok by (exact P || exact RO). cbn [lift pbind]. apply ends_bind. fold w. eapply ends_mono.
    2:{ apply (for_iter_rule V w _ (fun k h' j => j = i + k /\ (forall m, 0 <= m < k -> bdata (h' (fbuf f)) (kcell w m) = bdata (h b) (i + m)) /\
               differs_only h h' (fun c j => c = fbuf f /\ In j (cells_of f)))
             (fun h' _ => (forall m, 0 <= m < local_npts w -> bdata (h' (fbuf f)) (kcell w m) = bdata (h b) (i + m)) /\ differs_only h h' (fun c j => c = fbuf f /\ In j (cells_of f))))
          with (n := Z.to_nat (local_npts w)); try lia; try apply P; try exact F.
        - intros k h' j Hk (-> & I & D1 & D2). apply ends_load; [rewrite D1; apply A; lia|]. rewrite icur_at.
          apply ends_store; [rewrite D1; apply live_cell; assumption|]. apply ends_ret. cbn [fst snd]. split; [lia|]. split; [|split].
          + intros m Hm. destruct (Z.eq_dec m k) as [->|].
            * rewrite upd_same. apply D2. intros (Q & _). contradiction.
            * rewrite upd_other; [apply I; lia|]. right. intros Q. apply n. apply (kcell_inj w); assumption || lia.
          + intros c m. rewrite upd_cells. apply D1.
          + intros c m M. rewrite upd_other; [apply D2; exact M|]. destruct (Nat.eq_dec c (fbuf f)) as [->|]; [|auto]. right. intros ->.
            apply M. split; [reflexivity|]. apply in_cells; [exact P|]. exists k. auto.
        - intros h' j (_ & I & D). auto.
        - split; [lia|]. split; [lia|]. split; reflexivity. }
    intros h' ? H'. apply ends_ret. exact H'. }
  destruct E as (h' & [] & E & I & D). exists h'. split; [exact E|]. split; [|exact D].
  rewrite contents_kcell by exact P. apply map_ext_in. intros k K. apply in_zrange in K. apply I. exact K.
Qed.
Lemma reset_null (h : heap) f : live h f -> freadonly f = false ->
  exists N, forall fuel, (N <= fuel)%nat -> exists h', run (reset_values zero fuel f None) h = RDone h' tt /\
    contents h' f = map (fun _ => zero) (zrange (local_npts (fwin f))) /\
    differs_only h h' (fun c j => c = fbuf f /\ In j (cells_of f)).
Proof.
  intros L RO. pose proof L as (P & F & _). pose proof (npts_pos _ P). set (w := fwin f) in *. exists (Z.to_nat (local_npts w)). intros fuel Hf.
  assert (E : ends (reset_values zero fuel f None) h (fun h' _ =>
    (forall k, 0 <= k < local_npts w -> bdata (h' (fbuf f)) (kcell w k) = zero) /\ differs_only h h' (fun c j => c = fbuf f /\ In j (cells_of f)))).
  { unfold reset_values. rewrite begin_ok, end_ok by (exact P || exact RO). cbn [lift pbind]. fold w.
    apply (for_iter_rule V w _ (fun k h' _ => (forall m, 0 <= m < k -> bdata (h' (fbuf f)) (kcell w m) = zero) /\
               differs_only h h' (fun c j => c = fbuf f /\ In j (cells_of f))))
          with (n := Z.to_nat (local_npts w)); try lia; try apply P; try exact F.
        - intros k h' j Hk (I & D1 & D2). rewrite icur_at.
          apply ends_store; [rewrite D1; apply live_cell; assumption|]. apply ends_ret. cbn [fst snd]. split; [|split].
          + intros m Hm. destruct (Z.eq_dec m k) as [->|]; [apply upd_same|].
            rewrite upd_other; [apply I; lia|]. right. intros Q. apply n. apply (kcell_inj w); assumption || lia.
          + intros c m. rewrite upd_cells. apply D1.
          + intros c m M. rewrite upd_other; [apply D2; exact M|]. destruct (Nat.eq_dec c (fbuf f)) as [->|]; [|auto]. right. intros ->.
            apply M. split; [reflexivity|]. apply in_cells; [exact P|]. exists k. auto.
        - intros h' j D. exact D.
        - split; [lia|]. split; reflexivity. }
  destruct E as (h' & [] & E & I & D). exists h'. split; [exact E|]. split; [|exact D].
  rewrite contents_kcell by exact P. apply map_ext_in. intros k K. apply in_zrange in K. apply I. exact K.
Qed.
Lemma reset_readonly (h : heap) f v fuel : freadonly f = true -> run (reset_values zero fuel f v) h = RThrow.
Proof. intros RO. unfold reset_values, field_begin. rewrite RO. reflexivity. Qed.
End Reset.
End Access.
