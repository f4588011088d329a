(** Proofs about the operator database. *)
From Coq Require Import Permutation.
From Verif Require Import Prelude OpDBM OpDBS.

Definition indexed_from (k : nat) (rs : list nat) : list (Z * nat) := combine (map Z.of_nat (seq k (length rs))) rs.
Definition indexed := indexed_from 1.
Definition store_of (t : nat) (rs : list nat) : opstore := OpStore t (Z.of_nat (length rs)) (indexed rs).

Lemma indexed_snoc rs : forall k op, indexed_from k (rs ++ [op]) = indexed_from k rs ++ [(Z.of_nat (k + length rs), op)].
Proof.
  unfold indexed_from. induction rs as [|a rs IH]; intros k op; cbn; [f_equal; f_equal; lia|].
  f_equal. rewrite IH. f_equal. f_equal. f_equal. lia.
Qed.
Lemma indexed_keys rs : forall k x, existsb (fun e : Z * nat => fst e =? x) (indexed_from k rs) = (Z.of_nat k <=? x) && (x <? Z.of_nat (k + length rs)).
Proof.
  unfold indexed_from. induction rs as [|a rs IH]; intros k x; cbn [length seq map combine existsb fst].
  - lia.
  - rewrite IH. lia.
Qed.
Lemma indexed_find rs : forall k x, map_find (indexed_from k rs) x =
  if (Z.of_nat k <=? x) then nth_error rs (Z.to_nat (x - Z.of_nat k)) else None.
Proof.
  unfold indexed_from, map_find. induction rs as [|a rs IH]; intros k x; cbn [length seq map combine find fst].
  - destruct (Z.of_nat k <=? x); [|reflexivity]. destruct (Z.to_nat _); reflexivity.
  - destruct (Z.eqb_spec (Z.of_nat k) x) as [<-|N].
    + rewrite Z.leb_refl, Z.sub_diag. reflexivity.
    + rewrite IH. destruct (Z.leb_spec (Z.of_nat k) x), (Z.leb_spec (Z.of_nat (S k)) x); try lia; [|reflexivity].
      replace (Z.to_nat (x - Z.of_nat k)) with (S (Z.to_nat (x - Z.of_nat (S k)))) by lia. reflexivity.
Qed.
Lemma indexed_vals rs : forall k, map snd (indexed_from k rs) = rs.
Proof. unfold indexed_from. induction rs as [|a rs IH]; intros k; cbn; [reflexivity|]. rewrite IH. reflexivity. Qed.
Lemma indexed_length rs k : length (indexed_from k rs) = length rs.
Proof. rewrite <- (map_length snd), indexed_vals. reflexivity. Qed.

Lemma add_store_of t rs op : store_add (store_of t rs) op = (store_of t (rs ++ [op]), Z.of_nat (length rs) + 1).
Proof.
  unfold store_add, store_of, map_insert. cbn [sctr smap stype]. unfold indexed at 1. rewrite indexed_keys.
  destruct (Z.ltb_spec (Z.of_nat (length rs) + 1) (Z.of_nat (1 + length rs))); [lia|]. rewrite andb_false_r.
  unfold indexed. rewrite indexed_snoc, app_length. cbn [length]. f_equal. f_equal; [lia|]. f_equal. f_equal. f_equal. lia.
Qed.
Lemma get_store_of t rs id : rs <> [] -> store_get (store_of t rs) id = lookup rs id.
Proof.
  intros N. unfold store_get, lookup. cbn [smap store_of]. destruct (Z.eqb_spec id (-1)) as [->|N1].
  - unfold indexed. rewrite indexed_length. destruct rs as [|a [|b rs]]; [congruence|reflexivity|reflexivity].
  - unfold indexed. rewrite indexed_find. change (Z.of_nat 1) with 1. destruct (Z.leb_spec 1 id), (Z.leb_spec id 0); try lia; reflexivity.
Qed.

Lemma find_none db t : db_find db t = None -> ~ In t (map stype db).
Proof.
  induction db as [|s db IH]; cbn; [intros _ []|]. destruct (Nat.eqb_spec (stype s) t); [discriminate|].
  destruct (db_find db t); [discriminate|]. intros _ [E|E]; [congruence|]. exact (IH eq_refl E).
Qed.
Lemma find_some db t : forall i d, db_find db t = Some i -> (i < length db)%nat /\ stype (nth i db d) = t.
Proof.
  induction db as [|s db IH]; cbn; [discriminate|]. intros i d. destruct (Nat.eqb_spec (stype s) t) as [E|].
  - intros X. injection X as <-. split; [lia|exact E].
  - destruct (db_find db t) as [j|]; [|discriminate]. intros X. injection X as <-. destruct (IH j d eq_refl). split; [lia|assumption].
Qed.

Record dinv (db : opdb) (R : nat -> list nat) : Prop := DInv {
  d_nodup : NoDup (map stype db);
  d_store : forall s, In s db -> s = store_of (stype s) (R (stype s));
  d_types : forall t, In t (map stype db) <-> R t <> [] }.

Definition upd (R : nat -> list nat) (t op : nat) : nat -> list nat := fun u => if (t =? u)%nat then R u ++ [op] else R u.

Lemma set_nth_types db : forall i s d, (i < length db)%nat -> stype s = stype (nth i db d) -> map stype (set_nth db i s) = map stype db.
Proof.
  induction db as [|x db IH]; intros [|i] s d; cbn; intros L E; try lia; [congruence|]. f_equal. apply (IH i s d); [lia|exact E].
Qed.
Lemma set_nth_in db : forall i s x, NoDup (map stype db) -> In x (set_nth db i s) -> x = s \/ (In x db /\ (forall d, (i < length db)%nat -> stype x <> stype (nth i db d))).
Proof.
  induction db as [|y db IH]; intros [|i] s x; cbn; intros N; try tauto; apply NoDup_cons_iff in N as [N1 N2].
  - intros [E|I]; [auto|]. right. split; [auto|]. intros _ _ E. apply N1. rewrite <- E. apply in_map, I.
  - intros [<-|I].
    + right. split; [auto|]. intros d L E. apply N1. rewrite E. apply in_map, nth_In. lia.
    + destruct (IH i s x N2 I) as [?|[I2 X]]; [auto|]. right. split; [auto|]. intros d L. apply X. lia.
Qed.

Lemma register_inv db R t op : dinv db R ->
  dinv (fst (db_register db t op)) (upd R t op) /\ snd (db_register db t op) = Z.of_nat (length (R t)) + 1.
Proof.
  intros [N S T]. unfold db_register. destruct (db_find db t) as [i|] eqn:F.
  - destruct (find_some db t i (OpStore t 0 []) F) as [L E]. set (s := nth i db (OpStore t 0 [])) in *.
    assert (Is : In s db) by (apply nth_In; exact L). rewrite (S s Is), E, add_store_of. cbn [fst snd]. split; [|reflexivity].
    constructor.
    + rewrite (set_nth_types db i _ (OpStore t 0 [])); [exact N|exact L|]. cbn. symmetry. exact E.
    + intros x I. apply (set_nth_in db i _ x N) in I as [->|[I X]].
      * cbn [stype store_of]. unfold upd. rewrite Nat.eqb_refl. reflexivity.
      * specialize (X (OpStore t 0 []) L). fold s in X. unfold upd. destruct (Nat.eqb_spec t (stype x)); [congruence|]. apply S, I.
    + intros u. rewrite (set_nth_types db i _ (OpStore t 0 [])); [|exact L|cbn; symmetry; exact E]. unfold upd.
      destruct (Nat.eqb_spec t u) as [<-|]; [|apply T]. split; [|intros _; rewrite <- E; apply in_map, Is]. intros _ X. destruct (R t); discriminate.
  - change (OpStore t 0 []) with (store_of t []). rewrite add_store_of. cbn [fst snd app].
    pose proof (find_none _ _ F) as Nt. assert (Rt : R t = []).
    { destruct (R t) eqn:E; [reflexivity|]. destruct Nt. apply T. congruence. }
    rewrite Rt. split; [|reflexivity]. constructor.
    + rewrite map_app. cbn. apply Permutation_NoDup with (l := t :: map stype db); [apply Permutation_cons_append|]. constructor; assumption.
    + intros x I. apply in_app_iff in I as [I|[<-|[]]].
      * unfold upd. destruct (Nat.eqb_spec t (stype x)) as [->|]; [|apply S, I]. destruct Nt. apply in_map, I.
      * change (stype (store_of t [op])) with t. unfold upd. rewrite Nat.eqb_refl, Rt. reflexivity.
    + intros u. rewrite map_app, in_app_iff. cbn. unfold upd. destruct (Nat.eqb_spec t u) as [<-|Nu].
      * rewrite Rt. split; [discriminate|auto].
      * rewrite T. split; [intros [?|[?|[]]]; [assumption|contradiction]|auto].
Qed.

Lemma run_inv_gen os : forall db del R, dinv db R -> exists R', dinv (fst (fold_left db_step os (db, del))) R' /\
  forall t, R' t = regs_from t (R t) os.
Proof.
  induction os as [|[t op|] os IH]; intros db del R I; cbn [fold_left].
  - exists R. auto.
  - cbn [db_step]. destruct (register_inv db R t op I) as [I2 _]. destruct (IH _ del _ I2) as (R' & I' & E).
    exists R'. split; [exact I'|]. intros u. rewrite E. cbn [regs_from]. unfold upd. reflexivity.
  - cbn [db_step db_empty]. destruct (IH [] (del ++ flat_map (fun s => map snd (smap s)) db) (fun _ => [])) as (R' & I' & E).
    { constructor; [constructor|intros s []|]. intros t. split; [intros []|congruence]. }
    exists R'. split; [exact I'|]. intros u. rewrite E. reflexivity.
Qed.
Lemma run_inv os : dinv (fst (db_run os)) (fun t => regs t os).
Proof.
  destruct (run_inv_gen os [] [] (fun _ => [])) as (R' & [A B C] & E).
  { constructor; [constructor|intros s []|]. intros t. split; [intros []|congruence]. }
  constructor.
  - exact A.
  - intros s I. unfold regs. rewrite <- E. apply B, I.
  - intros t. unfold regs. rewrite <- E. apply C.
Qed.

Lemma retrieve_spec os t id : db_retrieve (fst (db_run os)) t id = lookup (regs t os) id.
Proof.
  destruct (run_inv os) as [N S T]. unfold db_retrieve. destruct (db_find (fst (db_run os)) t) as [i|] eqn:F.
  - destruct (find_some _ t i (OpStore t 0 []) F) as [L E]. set (s := nth i _ _) in *.
    assert (Is : In s (fst (db_run os))) by (apply nth_In; exact L). rewrite (S s Is), E. apply get_store_of. apply T. rewrite <- E. apply in_map, Is.
  - pose proof (find_none _ _ F) as Nt. assert (Rt : regs t os = []).
    { destruct (regs t os) eqn:E; [reflexivity|]. destruct Nt. apply T. congruence. }
    rewrite Rt. unfold lookup. destruct (id =? -1); [reflexivity|]. destruct (id <=? 0); [reflexivity|]. destruct (Z.to_nat _); reflexivity.
Qed.
Lemma regs_from_app t os : forall acc os2, regs_from t acc (os ++ os2) = regs_from t (regs_from t acc os) os2.
Proof. induction os as [|[u op|] os IH]; intros acc os2; cbn; auto. Qed.
Lemma register_id os t op : let '(db', id) := db_register (fst (db_run os)) t op in
  id = Z.of_nat (length (regs t os)) + 1 /\ db_retrieve db' t id = Ok op.
Proof.
  pose proof (proj2 (register_inv _ _ t op (run_inv os))) as E.
  pose proof (retrieve_spec (os ++ [DReg t op]) t (Z.of_nat (length (regs t os)) + 1)) as G.
  unfold db_run in G. rewrite fold_left_app in G. fold (db_run os) in G. cbn [fold_left db_step] in G.
  destruct (db_run os) as [db del]. cbn [fst db_step] in *. destruct (db_register db t op) as [db' id]. cbn [fst snd] in *.
  subst id. split; [reflexivity|]. rewrite G. unfold regs. rewrite regs_from_app. fold (regs t os). cbn. rewrite Nat.eqb_refl.
  unfold lookup. destruct (Z.eqb_spec (Z.of_nat (length (regs t os)) + 1) (-1)); [lia|].
  destruct (Z.leb_spec (Z.of_nat (length (regs t os)) + 1) 0); [lia|].
  replace (Z.to_nat _) with (length (regs t os)) by lia. rewrite nth_error_app2 by lia. rewrite Nat.sub_diag. reflexivity.
Qed.

Lemma regs_grow os2 : forall t acc, ~ In DEmpty os2 -> exists more, regs_from t acc os2 = acc ++ more.
Proof.
  induction os2 as [|[u op|] os2 IH]; intros t acc N; cbn.
  - exists []. rewrite app_nil_r. reflexivity.
  - destruct (IH t (if (u =? t)%nat then acc ++ [op] else acc)) as (m & ->); [intros X; apply N; right; exact X|].
    destruct (u =? t)%nat; [|eauto]. exists (op :: m). rewrite <- app_assoc. reflexivity.
  - destruct N. left. reflexivity.
Qed.
Lemma stable os os2 t id op : id <> -1 -> ~ In DEmpty os2 ->
  db_retrieve (fst (db_run os)) t id = Ok op -> db_retrieve (fst (db_run (os ++ os2))) t id = Ok op.
Proof.
  rewrite !retrieve_spec. unfold regs. rewrite regs_from_app. fold (regs t os). intros N1 N2.
  destruct (regs_grow os2 t (regs t os) N2) as (m & ->). unfold lookup.
  destruct (Z.eqb_spec id (-1)); [contradiction|]. destruct (id <=? 0); [discriminate|].
  destruct (nth_error (regs t os) (Z.to_nat (id - 1))) as [o|] eqn:E; [|discriminate].
  rewrite nth_error_app1; [rewrite E; auto|]. apply nth_error_Some. congruence.
Qed.

(** Deleting. *)
Definition contents (db : opdb) : list nat := flat_map (fun s => map snd (smap s)) db.
Lemma set_nth_contents db : forall i s d op, (i < length db)%nat ->
  map snd (smap s) = map snd (smap (nth i db d)) ++ [op] -> Permutation (contents (set_nth db i s)) (op :: contents db).
Proof.
  induction db as [|x db IH]; intros [|i] s d op; cbn; intros L E; try lia.
  - rewrite E. rewrite <- app_assoc. symmetry. apply Permutation_middle.
  - unfold contents in IH. rewrite (IH i s d op); [|lia|exact E]. symmetry. apply Permutation_middle.
Qed.
Lemma register_contents db R t op : dinv db R -> Permutation (contents (fst (db_register db t op))) (op :: contents db).
Proof.
  intros [N S T]. unfold db_register. destruct (db_find db t) as [i|] eqn:F.
  - destruct (find_some db t i (OpStore t 0 []) F) as [L E]. set (s := nth i db (OpStore t 0 [])) in *.
    assert (Is : In s db) by (apply nth_In; exact L).
    assert (Es := S s Is). rewrite E in Es. rewrite Es at 1. rewrite add_store_of. cbn [fst].
    apply (set_nth_contents db i _ (OpStore t 0 []) op L). fold s. rewrite Es. cbn. unfold indexed. rewrite !indexed_vals. reflexivity.
  - cbn. unfold contents. rewrite flat_map_app. cbn. symmetry. apply Permutation_cons_append.
Qed.
Lemma deleted os : let '(db, del) := db_run os in Permutation (del ++ snd (db_empty db)) (registered os).
Proof.
  assert (G : forall os db del R, dinv db R -> let '(db', del') := fold_left db_step os (db, del) in
    Permutation (del' ++ contents db') (del ++ contents db ++ registered os)).
  { clear os. induction os as [|[t op|] os IH]; intros db del R I; cbn [fold_left registered].
    - rewrite app_nil_r. reflexivity.
    - cbn [db_step]. destruct (register_inv db R t op I) as [I2 _]. pose proof (register_contents db R t op I) as P.
      specialize (IH _ del _ I2). destruct (fold_left db_step os _) as [db' del']. rewrite IH. apply Permutation_app_head. rewrite P.
      cbn. rewrite <- Permutation_middle. reflexivity.
    - assert (I0 : dinv [] (fun _ => [])) by (constructor; [constructor|intros s []|]; intros t; split; [intros []|congruence]).
      specialize (IH [] (del ++ contents db) _ I0). cbn [db_step db_empty].
      change (flat_map (fun s => map snd (smap s)) db) with (contents db). cbn [contents flat_map app] in IH.
      rewrite <- app_assoc in IH. exact IH. }
  assert (I0 : dinv [] (fun _ => [])) by (constructor; [constructor|intros s []|]; intros t; split; [intros []|congruence]).
  exact (G os [] [] _ I0).
Qed.
