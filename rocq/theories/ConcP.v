From Coq Require Import Sorting.Permutation.
From Verif Require Import Prelude PoolM PoolS PoolP PtrM PtrP ConcM ConcS.

(** ** Lists *)
Lemma cset_nth {A} (l : list A) i t t0 j : nth_error l i = Some t0 ->
  nth_error (cset l i t) j = if (i =? j)%nat then Some t else nth_error l j.
Proof.
  unfold cset. revert l j. induction i as [|i IH]; intros [|x l] j Hn; try discriminate Hn.
  - destruct j; reflexivity.
  - destruct j as [|j]; [reflexivity|]. cbn [firstn skipn app nth_error Nat.eqb]. exact (IH l j Hn).
Qed.
Lemma cset_split {A} (l : list A) i t0 : nth_error l i = Some t0 -> exists a b, l = a ++ t0 :: b /\ length a = i /\ forall t, cset l i t = a ++ t :: b.
Proof.
  intros Hn. destruct (nth_error_split l i Hn) as (a & b & -> & L). exists a, b. split; [reflexivity|]. split; [exact L|]. intros t. unfold cset.
  subst i. rewrite firstn_app, Nat.sub_diag, firstn_all. cbn [firstn]. rewrite app_nil_r. f_equal. f_equal.
  rewrite skipn_app. rewrite skipn_all2 by lia. replace (S (length a) - length a)%nat with 1%nat by lia. reflexivity.
Qed.
Lemma remove_nth_split {A} (l : list A) i x : nth_error l i = Some x -> exists a b, l = a ++ x :: b /\ remove_nth l i = a ++ b.
Proof.
  intros Hn. destruct (nth_error_split l i Hn) as (a & b & -> & L). exists a, b. split; [reflexivity|]. unfold remove_nth.
  subst i. rewrite firstn_app, Nat.sub_diag, firstn_all. cbn [firstn]. rewrite app_nil_r. f_equal.
  rewrite skipn_app. rewrite skipn_all2 by lia. replace (S (length a) - length a)%nat with 1%nat by lia. reflexivity.
Qed.
Lemma remove_nth_incl {A} (l : list A) i : incl (remove_nth l i) l.
Proof.
  destruct (nth_error l i) as [x|] eqn:E.
  - destruct (remove_nth_split l i x E) as (a & b & -> & ->). intros y. rewrite !in_app_iff. cbn. tauto.
  - unfold remove_nth. apply nth_error_None in E. rewrite firstn_all2 by lia. rewrite skipn_all2 by lia. rewrite app_nil_r. apply incl_refl.
Qed.
Lemma sharing_app l l' c : sharing (l ++ l') c = sharing l c + sharing l' c.
Proof. unfold sharing. rewrite filter_app, app_length. lia. Qed.
Lemma sharing_cons H l c : sharing (H :: l) c = (if (hcnt H =? c)%nat then 1 else 0) + sharing l c.
Proof. unfold sharing. cbn [filter]. destruct (hcnt H =? c)%nat; cbn [length]; lia. Qed.
Lemma sharing_pos l c : 0 <= sharing l c.
Proof. unfold sharing. lia. Qed.
Lemma sharing_in l H : In H l -> 0 < sharing l (hcnt H).
Proof.
  intros I. apply in_split in I. destruct I as (a & b & ->). rewrite sharing_app, sharing_cons, Nat.eqb_refl.
  pose proof (sharing_pos a (hcnt H)). pose proof (sharing_pos b (hcnt H)). lia.
Qed.
Lemma sharing_ex l c : 0 < sharing l c -> exists H, In H l /\ hcnt H = c.
Proof.
  unfold sharing. induction l as [|H l IH]; cbn; [lia|]. destruct (Nat.eqb_spec (hcnt H) c) as [E|E].
  - intros _. exists H. auto.
  - intros L. destruct (IH L) as (H' & I & E'). exists H'. auto.
Qed.
Lemma sharing_remove l k H c : nth_error l k = Some H -> sharing l c = sharing (remove_nth l k) c + (if (hcnt H =? c)%nat then 1 else 0).
Proof. intros Hn. destruct (remove_nth_split l k H Hn) as (a & b & -> & ->). rewrite !sharing_app, sharing_cons. lia. Qed.
Lemma arrays_in l b : In b (arrays l) <-> exists H, In H l /\ hblk H = b.
Proof. unfold arrays. rewrite nodup_In, in_map_iff. firstorder. Qed.
Lemma arrays_perm l l' : (forall b, In b (map hblk l) <-> In b (map hblk l')) -> Permutation (arrays l) (arrays l').
Proof. intros E. apply NoDup_Permutation; try apply NoDup_nodup. intros b. unfold arrays. rewrite !nodup_In. apply E. Qed.
Lemma arrays_new l H : ~ In (hblk H) (map hblk l) -> Permutation (arrays (l ++ [H])) (hblk H :: arrays l).
Proof.
  intros N. apply NoDup_Permutation; [apply NoDup_nodup| |].
  - constructor; [|apply NoDup_nodup]. unfold arrays. rewrite nodup_In. exact N.
  - intros b. unfold arrays. cbn [In]. rewrite !nodup_In, map_app, in_app_iff. cbn. tauto.
Qed.

(** ** The pool's code, against the pool's operations *)
Lemma queue_lb m n k q : lower_bound m n = Some (k, q) -> queue m k = q.
Proof.
  unfold queue. induction m as [|[k0 q0] m IH]; cbn; [discriminate|]. destruct (Z.leb_spec n k0) as [L|L].
  - intros [= -> ->]. rewrite Z.eqb_refl. reflexivity.
  - intros E. destruct (Z.eqb_spec k0 k) as [->|Nk].
    + apply lb_some in E. lia.
    + exact (IH E).
Qed.
Lemma queue_end m n : lower_bound m n = None -> queue (m ++ [(n, [])]) n = [].
Proof.
  intros E. pose proof (lb_none m n E) as L. unfold queue. clear E. induction m as [|[k0 q0] m IH]; cbn.
  - rewrite Z.eqb_refl. reflexivity.
  - destruct (Z.eqb_spec k0 n) as [->|Nk].
    + specialize (L n q0 (or_introl eq_refl)). lia.
    + apply IH. intros k q I. exact (L k q (or_intror I)).
Qed.

Definition pad1 (p : pool) (n : Z) : Z := if ppad p =? 0 then Z.quot n 10 else ppad p.
Definition slot (p : pool) (n : Z) : list (Z * list nat) * Z * list nat :=
  match lower_bound (pfqm p) n with
  | None => (pfqm p ++ [(n, [])], n, [])
  | Some (k, q) => (pfqm p, k, q)
  end.
Lemma slot_queue p n m k fq : slot p n = (m, k, fq) -> queue m k = fq.
Proof.
  unfold slot. destruct (lower_bound (pfqm p) n) as [[k0 q0]|] eqn:E; intros [= <- <- <-].
  - eapply queue_lb; exact E.
  - apply queue_end; exact E.
Qed.
Lemma get_slot p a n m k fq : slot p (n + pad1 p n) = (m, k, fq) ->
  pool_get p a n = match fq with
    | [] => (a, Some k, Pool m ((a, k) :: pfsm p) (pad1 p n) (phigh p + 1))
    | t :: q => (t, None, Pool (set_queue m k q) (pfsm p) (pad1 p n) (phigh p))
    end.
Proof.
  unfold slot, pool_get. fold (pad1 p n). destruct (lower_bound (pfqm p) (n + pad1 p n)) as [[k0 q0]|]; intros [= <- <- <-]; reflexivity.
Qed.

Definition at_get (w : world) (n : Z) (q : qpc) (s : shared) : Prop :=
  let p0 := wpool w in
  let n1 := n + pad1 p0 n in
  let padded := Pool (pfqm p0) (pfsm p0) (pad1 p0 n) (phigh p0) in
  let m0 := wmem w in
  match q with
  | QPad m => m = n /\ spl s = p0 /\ smem s = m0
  | QPadSet m => m = n /\ ppad p0 = 0 /\ spl s = p0 /\ smem s = m0
  | QAdd m => m = n /\ spl s = padded /\ smem s = m0
  | QFind m => m = n1 /\ spl s = padded /\ smem s = m0
  | QInsert m => m = n1 /\ lower_bound (pfqm p0) n1 = None /\ spl s = padded /\ smem s = m0
  | QEmpty k => exists m fq, slot p0 n1 = (m, k, fq) /\ spl s = Pool m (pfsm p0) (pad1 p0 n) (phigh p0) /\ smem s = m0
  | QHigh k => exists m, slot p0 n1 = (m, k, []) /\ spl s = Pool m (pfsm p0) (pad1 p0 n) (phigh p0) /\ smem s = m0
  | QNew k => exists m, slot p0 n1 = (m, k, []) /\ spl s = Pool m (pfsm p0) (pad1 p0 n) (phigh p0 + 1) /\ smem s = m0
  | QFsm k b => exists m, slot p0 n1 = (m, k, []) /\ spl s = Pool m (pfsm p0) (pad1 p0 n) (phigh p0 + 1) /\
      smem s = (b, k) :: m0 /\ ~ In b (map fst m0)
  | QTop k => exists m b r, slot p0 n1 = (m, k, b :: r) /\ spl s = Pool m (pfsm p0) (pad1 p0 n) (phigh p0) /\ smem s = m0
  | QPop k b => exists m r, slot p0 n1 = (m, k, b :: r) /\ spl s = Pool m (pfsm p0) (pad1 p0 n) (phigh p0) /\ smem s = m0
  | QGot b => exists a, ~ In a (map fst m0) /\ fst (do_get w a n) = b /\ wpool (snd (do_get w a n)) = spl s /\
      wmem (snd (do_get w a n)) = smem s
  | _ => False
  end.
Definition at_put (w : world) (b : nat) (q : qpc) (s : shared) : Prop :=
  let p0 := wpool w in
  let fsm := if existsb (fun e => (fst e =? b)%nat) (pfsm p0) then pfsm p0 else (b, 0) :: pfsm p0 in
  let p1 := Pool (pfqm p0) fsm (ppad p0) (phigh p0) in
  smem s = wmem w /\
  match q with
  | QSize b' => b' = b /\ spl s = p0
  | QSlot b' n => b' = b /\ n = fsm_get (pfsm p0) b /\ spl s = p1
  | QPush b' k => b' = b /\ (exists r, lower_bound (pfqm p0) (fsm_get (pfsm p0) b) = Some (k, r)) /\ spl s = p1
  | QPut => pool_put p0 b = Ok (spl s)
  | _ => False
  end.

Lemma get_move w n q s a : at_get w n q s -> ~ In a (map fst (smem s)) -> (forall b, q <> QGot b) ->
  exists s' q', pool_move a s q = Ok (s', q') /\ at_get w n q' s' /\ smut s' = smut s /\ scnt s' = scnt s.
Proof.
  intros A Fr Ng. destruct s as [mt p c mem]. destruct q as [m|m|m|m|m|k|k|k|k b|k|k b|b|b|b m|b k|]; cbn in A, Fr |- *; try contradiction.
  - destruct A as (-> & -> & ->). eexists _, _. split; [reflexivity|]. split; [|auto].
    destruct (Z.eqb_spec (ppad (wpool w)) 0) as [E|E]; cbn; [auto|].
    unfold pad1. destruct (Z.eqb_spec (ppad (wpool w)) 0); [contradiction|]. destruct (wpool w); auto.
  - destruct A as (-> & E & -> & ->). eexists _, _. split; [reflexivity|]. split; [|auto]. cbn. unfold pad1. rewrite E. auto.
  - destruct A as (-> & -> & ->). eexists _, _. split; [reflexivity|]. split; [|auto]. cbn. auto.
  - destruct A as (-> & -> & ->). eexists _, _. split; [reflexivity|]. split; [|auto]. cbn [pfqm].
    destruct (lower_bound (pfqm (wpool w)) (n + pad1 (wpool w) n)) as [[k r]|] eqn:E; cbn.
    + unfold slot. rewrite E. eauto.
    + auto.
  - destruct A as (-> & E & -> & ->). eexists _, _. split; [reflexivity|]. split; [|auto]. cbn. unfold slot. rewrite E. eauto.
  - destruct A as (m & fq & E & -> & ->). eexists _, _. split; [reflexivity|]. split; [|auto]. cbn [pfqm].
    rewrite (slot_queue _ _ _ _ _ E). destruct fq as [|b r]; cbn; eauto 8.
  - destruct A as (m & E & -> & ->). eexists _, _. split; [reflexivity|]. split; [|auto]. cbn. eauto.
  - destruct A as (m & E & -> & ->). eexists _, _. split; [reflexivity|]. split; [|auto]. cbn. eauto 6.
  - destruct A as (m & E & -> & -> & Nb). eexists _, _. split; [reflexivity|]. split; [|auto]. cbn.
    exists b. split; [exact Nb|]. unfold do_get. rewrite (get_slot _ b _ _ _ _ E). auto.
  - destruct A as (m & b & r & E & -> & ->). cbn. rewrite (slot_queue _ _ _ _ _ E). eexists _, _. split; [reflexivity|]. split; [|auto]. cbn. eauto.
  - destruct A as (m & r & E & -> & ->). cbn. rewrite (slot_queue _ _ _ _ _ E). eexists _, _. split; [reflexivity|]. split; [|auto]. cbn.
    exists a. split; [exact Fr|]. unfold do_get. rewrite (get_slot _ a _ _ _ _ E). auto.
  - destruct (Ng b eq_refl).
Qed.
Lemma fsm_get_new fsm b : fsm_get (if existsb (fun e => (fst e =? b)%nat) fsm then fsm else (b, 0) :: fsm) b = fsm_get fsm b.
Proof.
  destruct (existsb _ fsm) eqn:E; [reflexivity|]. cbn. rewrite Nat.eqb_refl. symmetry.
  induction fsm as [|[u n] fsm IH]; cbn in *; [reflexivity|]. apply orb_false_iff in E. destruct E as [E1 E2]. rewrite E1. exact (IH E2).
Qed.
Lemma put_move w b q s a : history w -> In b (wout w) -> at_put w b q s -> q <> QPut ->
  exists s' q', pool_move a s q = Ok (s', q') /\ at_put w b q' s' /\ smut s' = smut s /\ scnt s' = scnt s.
Proof.
  intros Hw Ib [Em A] Ng. destruct s as [mt p c mem]. destruct (put_accepted w b Hw Ib) as (w' & Ew & _). unfold do_put in Ew.
  cbn [smem spl] in *.
  destruct q as [m|m|m|m|m|k|k|k|k b'|k|k b'|b'|b'|b' m|b' k|]; cbn [spl] in A; try contradiction.
  - destruct A as (-> & ->). eexists _, _. split; [reflexivity|]. split; [|auto]. split; [exact Em|]. rewrite fsm_get_new. auto.
  - destruct A as (-> & -> & ->). unfold pool_put in Ew. cbn -[existsb]. destruct (lower_bound (pfqm (wpool w)) _) as [[k r]|] eqn:E; [|discriminate Ew].
    eexists _, _. split; [reflexivity|]. split; [|auto]. split; [exact Em|]. eauto.
  - destruct A as (-> & (r & E) & ->). eexists _, _. split; [reflexivity|]. split; [|auto]. split; [exact Em|].
    unfold pool_put. rewrite E. cbn -[existsb]. rewrite (queue_lb _ _ _ _ E). reflexivity.
Qed.
