(** Which stencil operators there are, and the one- and two-dimensional box filters. *)
From Coq Require Import Permutation.
From Verif Require Import Prelude WindowM WindowS GhostM FieldM FieldS MaskM NeboM NeboS StencilM StencilS CatalogS StencilP StencilQ.

(** ** The catalogue *)
Definition keys {V} (l : list (optag * loc * loc * builder V)) : list (optag * loc * loc) := map fst l.
Lemma keys_in {V} (l : list (optag * loc * loc * builder V)) t s d : (exists b, In (t, s, d, b) l) <-> In (t, s, d) (keys l).
Proof.
  unfold keys. rewrite in_map_iff. split.
  - intros (b & I). exists (t, s, d, b). auto.
  - intros (x & E & I). destruct x as (k & b). cbn in E. subst k. eauto.
Qed.
(** The keys do not depend on the coefficients. *)
Definition blank : stencil_coefs unit := SC (two_point_coefs tt tt) (fun _ => two_point_coefs tt tt) (four_point_coefs tt tt tt tt) (fun _ => two_point_coefs tt tt).
Definition catalogue : list (optag * loc * loc) := Eval vm_compute in keys (registered blank).
Lemma build_keys n Lx Ly Lz : keys (build_stencils n Lx Ly Lz) = catalogue.
Proof. unfold build_stencils. generalize (fun d => match d with XDIR => (Lx / qc_of (ix n))%Qc | YDIR => (Ly / qc_of (iy n))%Qc | ZDIR => (Lz / qc_of (iz n))%Qc end). intros dx. reflexivity. Qed.

Definition key_beq (a b : optag * loc * loc) : bool :=
  let '(t, s, d) := a in let '(t', s', d') := b in optag_beq t t' && loc_beq s s' && loc_beq d d'.
Lemma key_beq_eq a b : key_beq a b = true <-> a = b.
Proof.
  destruct a as ((t & s) & d), b as ((t' & s') & d'). cbn. split.
  - intros H. apply andb_prop in H. destruct H as (H & C). apply andb_prop in H. destruct H as (A & B).
    apply internal_optag_dec_bl in A. apply internal_loc_dec_bl in B. apply internal_loc_dec_bl in C. congruence.
  - intros E. injection E as <- <- <-. rewrite internal_optag_dec_lb, !internal_loc_dec_lb by reflexivity. reflexivity.
Qed.
Definition mem (k : optag * loc * loc) : bool := existsb (key_beq k) catalogue.
Lemma mem_in k : mem k = true <-> In k catalogue.
Proof.
  unfold mem. rewrite existsb_exists. split.
  - intros (x & I & E). apply key_beq_eq in E. subst x. exact I.
  - intros I. exists k. split; [exact I|apply key_beq_eq; reflexivity].
Qed.

Ltac with_dir tac := first [tac XDIR | tac YDIR | tac ZDIR].
Ltac with_vol tac := first [tac (@None dir) | tac (Some XDIR) | tac (Some YDIR) | tac (Some ZDIR)].
Ltac by_related :=
  first [ with_vol ltac:(fun v => with_dir ltac:(fun i => left; exists v, i; split; reflexivity))
        | with_dir ltac:(fun i => right; left; exists i; first [left; split; reflexivity | right; split; reflexivity])
        | with_dir ltac:(fun i => with_dir ltac:(fun j => right; right; exists i, j; split; [discriminate|split; reflexivity])) ].
Ltac by_available :=
  first [ apply av_interpolant; by_related | apply av_gradient; by_related
        | with_vol ltac:(fun v => first [exact (av_same v) | exact (av_filter v)])
        | with_vol ltac:(fun v => with_dir ltac:(fun i => first [exact (av_from_face v i) | exact (av_divergence v i) | exact (av_interpolant_d i v) | exact (av_gradient_d i v)]))
        | with_dir ltac:(fun i => first [exact (av_coincident_face i) | exact (av_coincident_to i) | exact (av_coincident_from i)])
        | with_dir ltac:(fun i => with_dir ltac:(fun j => first [refine (av_corner_to i j _); discriminate | refine (av_corner_from i j _); discriminate | refine (av_staggered i j _); discriminate])) ].
Lemma catalogue_available : Forall (fun k => let '(t, s, d) := k in available t s d) catalogue.
Proof. unfold catalogue. repeat (apply Forall_cons; [by_available|]). apply Forall_nil. Qed.
Lemma related_in s d : related s d -> mem (Interpolant, s, d) = true /\ mem (Gradient, s, d) = true.
Proof.
  intros [(v & i & -> & ->)|[(i & [(-> & ->)|(-> & ->)])|(i & j & N & -> & ->)]].
  - destruct v as [[]|], i; split; reflexivity.
  - destruct i; split; reflexivity.
  - destruct i; split; reflexivity.
  - destruct i, j; try (destruct N; reflexivity); split; reflexivity.
Qed.
Lemma available_in t s d : available t s d -> mem (t, s, d) = true.
Proof.
  destruct 1;
  first [ match goal with R : related _ _ |- _ => destruct (related_in _ _ R); assumption end
        | repeat match goal with v : option dir |- _ => destruct v as [[]|] | i : dir |- _ => destruct i end;
          first [reflexivity | match goal with N : _ <> _ |- _ => destruct N; reflexivity end] ].
Qed.
Lemma catalogue_nodup : NoDup catalogue.
Proof.
  assert (H : forall l, (fix chk l := match l with [] => true | k :: r => negb (existsb (key_beq k) r) && chk r end) l = true -> NoDup l).
  { induction l as [|k r IH]; intros H; [constructor|]. apply andb_prop in H. destruct H as (A & B). constructor; [|apply IH, B].
    intros I. apply negb_true_iff in A. assert (existsb (key_beq k) r = true); [|congruence].
    apply existsb_exists. exists k. split; [exact I|apply key_beq_eq; reflexivity]. }
  apply H. vm_compute. reflexivity.
Qed.
Lemma nodup_keys {V} (l : list (optag * loc * loc * builder V)) t s d b b' : NoDup (keys l) -> In (t, s, d, b) l -> In (t, s, d, b') l -> b = b'.
Proof.
  unfold keys. induction l as [|x l IH]; intros ND I J; [destruct I|]. inversion ND as [|k r N ND']; subst.
  destruct I as [->|I], J as [E|J].
  - congruence.
  - destruct N. apply (in_map fst) in J. exact J.
  - subst x. destruct N. apply (in_map fst) in I. exact I.
  - exact (IH ND' I J).
Qed.
Lemma build_catalogue n Lx Ly Lz t s d :
  ((exists b, In (t, s, d, b) (build_stencils n Lx Ly Lz)) <-> available t s d) /\
  forall b b', In (t, s, d, b) (build_stencils n Lx Ly Lz) -> In (t, s, d, b') (build_stencils n Lx Ly Lz) -> b = b'.
Proof.
  split.
  - rewrite keys_in, build_keys. split.
    + intros I. exact (proj1 (Forall_forall _ _) catalogue_available _ I).
    + intros A. apply mem_in, available_in, A.
  - intros b b'. apply nodup_keys. rewrite build_keys. exact catalogue_nodup.
Qed.

(** ** Small boxes *)
Definition small_boxes : list (points * list dir) :=
  [(box2d_xy, [XDIR; YDIR]); (box2d_xz, [XDIR; ZDIR]); (box2d_yz, [YDIR; ZDIR]); (box1d_x, [XDIR]); (box1d_y, [YDIR]); (box1d_z, [ZDIR])].
Lemma small_box_cells pts ds p : In (pts, ds) small_boxes ->
  NoDup (cells_read pts p) /\ points_length pts = 3 ^ Z.of_nat (length ds) /\ forall q, In q (cells_read pts p) <-> along ds p q.
Proof.
  intros I. split; [|split].
  - unfold cells_read. apply FinFun.Injective_map_NoDup; [intros a b; apply iv_add_inj|].
    repeat (destruct I as [E|I]; [injection E as <- <-; cbn [fst snd box2d_xy box2d_xz box2d_yz box1d_x box1d_y box1d_z];
      repeat (constructor; [cbn [In]; intros H; repeat (destruct H as [H|H]; [discriminate H|]); exact H|]); constructor|]). destruct I.
  - repeat (destruct I as [E|I]; [injection E as <- <-; reflexivity|]). destruct I.
  - intros q. split.
    + unfold cells_read. intros H g.
      repeat (destruct I as [E|I]; [injection E as <- <-; cbn [fst snd map In box2d_xy box2d_xz box2d_yz box1d_x box1d_y box1d_z] in H |- *;
        repeat (destruct H as [<-|H]; [destruct g; cbn [comp iv_add ix iy iz]; split; intros; first [lia | exfalso; tauto | intuition discriminate]|]); destruct H|]). destruct I.
    + intros H. assert (E : q = iv_add p (IV (ix q - ix p) (iy q - iy p) (iz q - iz p))).
      { destruct q as [k1 k2 k3]; unfold iv_add; cbn [ix iy iz]; f_equal; lia. }
      assert (X : ix q - ix p = -1 \/ ix q - ix p = 0 \/ ix q - ix p = 1).
      { destruct (H XDIR) as (A & B). cbn [comp] in A, B. destruct (in_dec dir_eq_dec XDIR ds) as [J|J]; [specialize (A J); lia|specialize (B J); lia]. }
      assert (Y : iy q - iy p = -1 \/ iy q - iy p = 0 \/ iy q - iy p = 1).
      { destruct (H YDIR) as (A & B). cbn [comp] in A, B. destruct (in_dec dir_eq_dec YDIR ds) as [J|J]; [specialize (A J); lia|specialize (B J); lia]. }
      assert (W : iz q - iz p = -1 \/ iz q - iz p = 0 \/ iz q - iz p = 1).
      { destruct (H ZDIR) as (A & B). cbn [comp] in A, B. destruct (in_dec dir_eq_dec ZDIR ds) as [J|J]; [specialize (A J); lia|specialize (B J); lia]. }
      assert (HX : ~ In XDIR ds -> ix q - ix p = 0) by (intros J; pose proof (proj2 (H XDIR) J) as B; cbn [comp] in B; lia).
      assert (HY : ~ In YDIR ds -> iy q - iy p = 0) by (intros J; pose proof (proj2 (H YDIR) J) as B; cbn [comp] in B; lia).
      assert (HZ : ~ In ZDIR ds -> iz q - iz p = 0) by (intros J; pose proof (proj2 (H ZDIR) J) as B; cbn [comp] in B; lia).
      rewrite E. unfold cells_read. apply in_map_iff. eexists; split; [reflexivity|]. clear H E.
      generalize dependent (ix q - ix p). generalize dependent (iy q - iy p). generalize dependent (iz q - iz p). intros z W HZ y Y HY x X HX.
      repeat (destruct I as [E|I]; [injection E as <- <-; cbn [In] in HX, HY, HZ;
        try (specialize (HX ltac:(intuition discriminate)); subst x); try (specialize (HY ltac:(intuition discriminate)); subst y); try (specialize (HZ ltac:(intuition discriminate)); subst z);
        clear HX HY HZ || idtac; destruct X as [X|[X|X]], Y as [Y|[Y|Y]], W as [W|[W|W]]; subst; try discriminate; cbn; tauto|]). destruct I.
Qed.
Lemma small_box_mean pts ds h a p l : In (pts, ds) small_boxes -> NoDup l -> (forall q, In q l <-> along ds p q) ->
  denote Qc Qcplus Qcmult h (apply_op (AverageOp pts) a) p = (qsum (map (fun q => denote Qc Qcplus Qcmult h a q) l) / qc_of (3 ^ Z.of_nat (length ds)))%Qc.
Proof.
  intros I ND E. destruct (small_box_cells pts ds p I) as (N & L & C). rewrite average_den, L. f_equal.
  apply qsum_perm, Permutation_map, NoDup_Permutation; [exact N|exact ND|]. intros q. rewrite C, E. reflexivity.
Qed.
