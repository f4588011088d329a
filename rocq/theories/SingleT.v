(** More proofs about single-value fields. *)
From Verif Require Import Prelude WindowM WindowS GhostM FieldM FieldS FieldP MaskM NeboM NeboS NeboP NeboQ NeboA NeboB NeboC NeboD NeboE NeboF NeboH NeboI SingleM SingleS SingleP.

(** All ways to its element. *)
Lemma accesses_agree f : proper f ->
  (exists it, field_begin f = Ok it /\ icur it = 0 /\ exists e, field_end f = Ok e /\ it_loop 2 it e = Some [it]) /\
  (exists it, field_interior_begin f = Ok it /\ icur it = 0 /\ exists e, field_interior_end f = Ok e /\ it_loop 2 it e = Some [it]) /\
  flat_index (fwin f) iv_zero = 0 /\ fwin f = fint f.
Proof.
  intros H. destruct (proper_shape f H) as (bx & by_ & bz & nt & ->).
  destruct bx, by_, bz; (split; [|split; [|split; reflexivity]]); eexists; (split; [reflexivity|]); (split; [reflexivity|]); eexists; split; reflexivity.
Qed.

Section T.
Variable V : Type.
Variable vadd vmul : V -> V -> V.
Section C.
Variable val : field -> V.
Lemma consts_reads : (forall e s, reads V (consts V val e) s = reads V e s) /\ (forall b s, breads V (bconsts V val b) s = breads V b s).
Proof.
  apply expr_bexpr_ind; cbn [consts bconsts NeboS.reads NeboS.breads]; intros; try reflexivity; repeat match goal with H : forall s, _ = _ |- _ => progress rewrite !H end; auto.
  - f_equal. apply flat_map_ext. intros a0. apply H.
  - f_equal. apply flat_map_ext. intros a0. apply H.
Qed.
Lemma consts_masks : (forall e s, masks V (consts V val e) s = masks V e s) /\ (forall b s, bmasks V (bconsts V val b) s = bmasks V b s).
Proof.
  apply expr_bexpr_ind; cbn [consts bconsts NeboS.masks NeboS.bmasks]; intros; try reflexivity; repeat match goal with H : forall s, _ = _ |- _ => progress rewrite !H end; auto.
  - f_equal. apply flat_map_ext. intros a0. apply H.
  - f_equal. apply flat_map_ext. intros a0. apply H.
Qed.
Lemma consts_singles : (forall e, singles V (consts V val e) = []) /\ (forall b, bsingles V (bconsts V val b) = []).
Proof.
  apply expr_bexpr_ind; cbn [consts bconsts NeboS.singles NeboS.bsingles]; intros; try reflexivity;
    repeat match goal with H : _ = [] |- _ => progress rewrite ?H end; try reflexivity.
  - change (bsingles V (bconsts V val c) ++ [] ++ [] = []). rewrite H. reflexivity.
  - change (singles V (consts V val a) ++ singles V (consts V val b) = []). rewrite H, H0. reflexivity.
Qed.
Lemma consts_demands : (forall e m u, demands V (consts V val e) m u = demands V e m u) /\ (forall b m u, bdemands V (bconsts V val b) m u = bdemands V b m u).
Proof.
  apply expr_bexpr_ind; cbn [consts bconsts NeboS.demands NeboS.bdemands]; intros; try reflexivity; repeat match goal with H : forall m u, _ = _ |- _ => progress rewrite !H end; auto.
  - apply flat_map_ext. intros a0. apply H.
  - apply flat_map_ext. intros a0. apply H.
Qed.
End C.
Lemma consts_denote h : let val := fun f : field => bdata (h (fbuf f)) 0 in
  (forall e p, denote V vadd vmul h (consts V val e) p = denote V vadd vmul h e p) /\
  (forall b p, bdenote V vadd vmul h (bconsts V val b) p = bdenote V vadd vmul h b p).
Proof.
  intros val.
  apply expr_bexpr_ind; cbn [consts bconsts NeboS.denote NeboS.bdenote]; intros; try reflexivity; repeat match goal with H : forall p, _ = _ |- _ => progress rewrite !H end; auto.
  - generalize (vmul (denote V vadd vmul h a (iv_add p p0)) c0). induction rest as [|x r IH]; intros v; cbn [fold_left]; [reflexivity|]. rewrite H. apply IH.
  - generalize (denote V vadd vmul h a (iv_add p p0)). induction rest as [|x r IH]; intros v; cbn [fold_left]; [reflexivity|]. rewrite H. apply IH.
Qed.

(** It can be decided whether an address belongs to the points of a box. *)
Lemma box_dec f lo hi i : {exists p, in_region lo hi p /\ i = cell f p} + {forall p, in_region lo hi p -> i <> cell f p}.
Proof.
  pose (r := fun a b => map (fun k => a + k) (zrange (b - a))).
  assert (Ir : forall a b k, In k (r a b) <-> a <= k < b).
  { intros a b k. unfold r, zrange. rewrite in_map_iff. split.
    - intros (x & <- & I). apply in_map_iff in I as (y & <- & I). apply in_seq in I. lia.
    - intros B. exists (k - a). split; [lia|]. apply in_map_iff. exists (Z.to_nat (k - a)). split; [lia|]. apply in_seq. lia. }
  pose (l := flat_map (fun x => flat_map (fun y => map (fun z => IV x y z) (r (iz lo) (iz hi))) (r (iy lo) (iy hi))) (r (ix lo) (ix hi))).
  assert (Il : forall p, In p l <-> in_region lo hi p).
  { intros [x y z]. unfold l, in_region. cbn. rewrite in_flat_map. split.
    - intros (a & A & I). apply in_flat_map in I as (b & B & I). apply in_map_iff in I as (c & E & I). injection E as -> -> ->.
      apply Ir in A, B, I. auto.
    - intros (A & B & I). exists x. split; [apply Ir, A|]. apply in_flat_map. exists y. split; [apply Ir, B|].
      apply in_map_iff. exists z. split; [reflexivity|apply Ir, I]. }
  destruct (in_dec Z.eq_dec i (map (cell f) l)) as [I|N].
  - left. apply in_map_iff in I as (p & E & I). exists p. split; [apply Il, I|auto].
  - right. intros p P ->. apply N. apply in_map, Il, P.
Qed.
Lemma like_constants n h f e : operands_ok V n h e -> destination_ok V n h f -> alias_ok V f e -> covers_extra V f e ->
  (exists p, region V n f e p) ->
  exists N, forall fuel, (N <= fuel)%nat -> exists h1 h2,
    run (fst (nebo_assign V vadd vmul fuel f e)) h = RDone h1 tt /\
    run (fst (nebo_assign V vadd vmul fuel f (consts V (fun s => bdata (h (fbuf s)) 0) e))) h = RDone h2 tt /\
    forall b i, bcells (h1 b) i = bcells (h2 b) i /\ bdata (h1 b) i = bdata (h2 b) i.
Proof.
  set (val := fun s : field => bdata (h (fbuf s)) 0). intros O D A C R.
  destruct (assign_correct V vadd vmul n h f e O D A C R) as [N1 H1].
  assert (KN : forall p, expr_known V n (consts V val e) p <-> expr_known V n e p).
  { intros p. unfold expr_known. rewrite (proj1 (consts_demands val)). reflexivity. }
  assert (RG : forall p, region V n f (consts V val e) p <-> region V n f e p).
  { intros p. unfold region. rewrite KN. reflexivity. }
  destruct (assign_correct V vadd vmul n h f (consts V val e)) as [N2 H2].
  - destruct O as (O1 & O2 & O3). split; [|split].
    + intros g s I. rewrite (proj1 (consts_reads val)) in I. eapply O1; eauto.
    + intros g s I. rewrite (proj1 (consts_masks val)) in I. eapply O2; eauto.
    + intros g I. rewrite (proj1 (consts_singles val)) in I. destruct I.
  - exact D.
  - intros g s I. rewrite (proj1 (consts_reads val)) in I. apply A. exact I.
  - intros l m u I. rewrite (proj1 (consts_demands val)) in I. apply (C l m u I).
  - destruct R as [p R]. exists p. apply RG. exact R.
  - exists (Nat.max N1 N2). intros fuel L.
    destruct (H1 fuel ltac:(lia)) as (h1 & E1 & C1 & V1 & K1). destruct (H2 fuel ltac:(lia)) as (h2 & E2 & C2 & V2 & K2).
    exists h1, h2. split; [exact E1|]. split; [exact E2|]. intros b i. split; [rewrite C1, C2; reflexivity|].
    (* either the cell is assigned by both or by none *)
    destruct (Nat.eq_dec b (fbuf f)) as [->|NB]; [|rewrite K1, K2 by (left; exact NB); reflexivity].
    destruct (assign_ghosts_region V n h f e O (proj1 D) C) as (rg & lg & _ & _ & _ & BX).
    destruct (box_dec f (iv_neg (gminus rg)) (iv_add n (gplus rg)) i) as [(p & P & ->)|NP'];
      [apply BX in P|assert (NP : forall p, region V n f e p -> i <> cell f p) by (intros p P; apply NP', BX, P)].
    + change (value V h1 f p = value V h2 f p). rewrite V1 by exact P. rewrite V2 by (apply RG; exact P). symmetry. apply consts_denote.
    + rewrite K1, K2; [reflexivity|right; intros p P; apply NP, RG, P|right; exact NP].
Qed.
End T.

(** ** Witnesses *)
Definition sbc : bcinfo := bc_make false false false iv_zero.
(** block 0: the elements 1 and 2; the other blocks: one element, 0 *)
Definition sheap : heap Z := fun b => match b with
  | O => Block (fun k => (0 <=? k) && (k <? 2)) (fun k => k + 1)
  | _ => Block (fun k => k =? 0) (fun _ => 0) end.
Definition sfield (b : nat) : field := field_make (win_full (IV 1 1 1)) sbc (ghost_n 0) b 1.
Lemma sfield_proper b : proper (sfield b).
Proof. exists true, false, false, false, b, 1. reflexivity. Qed.
(** two elements *)
Definition swide : field := field_make (win_full (IV 2 1 1)) sbc (ghost_n 0) 0 1.
(** the second of them *)
Definition ssecond : field := field_window (Win (IV 2 1 1) (IV 1 0 0) (IV 1 1 1)) swide.
Definition after (f : field) (e : expr Z) (h : heap Z) : option (heap Z) :=
  match run (fst (nebo_assign Z Z.add Z.mul 10 f e)) h with RDone h' _ => Some h' | _ => None end.

Lemma wide_wrong : single_make true (win_full (IV 2 1 1)) sbc (ghost_n 0) 0 1 = Ok swide /\
  bdata (sheap 0%nat) (addr (fwin swide) (IV 0 0 0)) = 1 /\ bdata (sheap 0%nat) (addr (fwin swide) (IV 1 0 0)) = 2.
Proof. repeat split. Qed.
Lemma view_wrong : single_window true (Win (IV 2 1 1) (IV 1 0 0) (IV 1 1 1)) swide = Ok ssecond /\
  exists h1 h2, run (fst (nebo_assign Z Z.add Z.mul 10 ssecond (EScalar Z 7))) sheap = RDone h1 tt /\
    run (fst (nebo_assign Z Z.add Z.mul 10 (sfield 1) (ESingle Z ssecond))) h1 = RDone h2 tt /\
    (exists it, field_begin ssecond = Ok it /\ bdata (h2 0%nat) (icur it) = 7) /\ bdata (h2 1%nat) 0 = 1.
Proof.
  split; [reflexivity|]. eexists. eexists. split; [vm_compute; reflexivity|]. split; [vm_compute; reflexivity|].
  split; [eexists; split; [reflexivity|]|]; vm_compute; reflexivity.
Qed.
Lemma ghosts_wrong : let g := mk_ghost (IV 1 0 0) (IV 1 0 0) in
  single_make true (win_full (IV 1 1 1)) sbc g 1 1 = Ok (field_make (win_full (IV 1 1 1)) sbc g 1 1) /\
  forall fuel, (2 <= fuel)%nat -> run (fst (interior_assign Z Z.add Z.mul fuel (field_make (win_full (IV 1 1 1)) sbc g 1 1) (EScalar Z 7))) sheap = RUB.
Proof.
  split; [reflexivity|]. intros fuel L. destruct fuel as [|[|n]]; [lia|lia|]. vm_compute. reflexivity.
Qed.

(** four variables 1, 2, 3, ... used as in a loop counter with a limit *)
Definition vheap : heap Z := fun b => Block (fun k => k =? 0) (fun _ => Z.of_nat b).
Lemma vheap_variables : variables Z vheap sfield Z.of_nat.
Proof.
  split; [intros i; apply sfield_proper|]. split; [intros i j N; exact N|]. intros i. split; reflexivity.
Qed.
Definition vprog : list (nat * sexpr Z) :=
  [(1%nat, SFun2 Z.add (SVar 1) (SConst 10)); (2%nat, SCond Z.ltb (SVar 1) (SVar 3) (SVar 1) (SFun2 Z.mul (SVar 2) (SVar 1)));
   (1%nat, SFun2 Z.sub (SVar 2) (SVar 1))].
