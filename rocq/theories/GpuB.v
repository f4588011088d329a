From Verif Require Import Prelude WindowM WindowS WindowP GhostM FieldM FieldS FieldP MaskM MaskS MaskP NeboM NeboS NeboP NeboQ NeboA NeboB NeboC NeboD ParM ParS ParP ParQ GpuM GpuS GpuP GpuQ.

#[local] Arguments has_extra : simpl never.
Section GpuB.
Variable V : Type.
Variable vadd vmul : V -> V -> V.
Notation expr := (expr V). Notation bexpr := (bexpr V). Notation heap := (heap V).
Notation denote := (denote V vadd vmul).
Notation reads := (reads V). Notation masks := (masks V). Notation singles := (singles V).
Notation operands_ok := (operands_ok V). Notation destination_ok := (destination_ok V).
Notation alias_ok := (alias_ok V). Notation assigned := (assigned V). Notation expr_known := (expr_known V).
Notation assign_ghosts := (assign_ghosts V). Notation singles_apart := (singles_apart V).
Notation region := (region V). Notation covers_extra := (covers_extra V).

Section Threads.
Variable n : ivec.
Variable h0 : heap.
Variable f : field.
Variable e : expr.
Variable rg lg : ghost.
Hypothesis O : operands_ok n h0 e.
Hypothesis D : destination_ok n h0 f.
Hypothesis Al : alias_ok f e.
Hypothesis Sa : singles_apart f e.
Hypothesis Lm : gminus lg = gminus rg.
Hypothesis Lp : gplus lg = iv_sub (gplus rg) (has_extra (fbc f)).
Hypothesis K : forall p, box_of n rg p -> any_cell n f p /\ expr_known n e p.
Hypothesis Ex : 0 < ix (box_ext n rg).
Hypothesis Ey : 0 < iy (box_ext n rg).
Hypothesis Ez : 0 < iz (box_ext n rg).
Notation lo := (box_lo rg).
Notation ext := (box_ext n rg).

(** the points of thread (x, y) *)
Definition col (x y : Z) (p : ivec) : Prop := box_of n rg p /\ ix p = ix lo + x /\ iy p = iy lo + y.
Definition trd (x y : Z) (b : nat) (i : Z) : Prop :=
  (exists g, In g (singles e) /\ b = fbuf g /\ i = 0) \/
  exists g s p, In (g, s) (reads e iv_zero) /\ col x y p /\ b = fbuf g /\ i = cell g (iv_add p s).
Definition twr (x y : Z) : nat -> Z -> Prop := wr_of f (col x y).

Let lhs := reset_valid_ghosts f (mk_ghost (gminus lg) (gplus lg)).
Definition glhs : gpu_lhs := GLhs (fbuf f) (addr (leafwin lo ext f iv_zero) iv_zero) (ix (wglob (fint f))) ext
  (ix (wglob (fint f)) * iy (wglob (fint f))).
Lemma glhs_make : gpu_lhs_make lhs = Ok glhs.
Proof.
  pose proof D as (Df & Dr & _). unfold gpu_lhs_make. change (freadonly lhs) with (freadonly f). rewrite Dr.
  unfold lhs. rewrite (lhs_window V n h0 f e rg lg D Lm Lp K iv_zero). unfold glhs. rewrite addr_first. reflexivity.
Qed.

Lemma col_at x y p : col x y p -> exists k, 0 <= k < iz ext /\ p = iv_add lo (IV x y k).
Proof.
  intros (B & X & Y). exists (iz p - iz lo). apply box_of_eq in B. unfold in_region, box_hi in B. cbn [ix iy iz iv_add] in B.
  split; [lia|]. apply iv_ext; cbn [ix iy iz iv_add]; lia.
Qed.
Lemma at_col x y k : in_box ext (IV x y k) -> col x y (iv_add lo (IV x y k)).
Proof.
  intros B. split; [|split; cbn; lia]. apply box_of_eq. unfold in_region, in_box, box_hi in *. cbn [ix iy iz iv_add] in *. lia.
Qed.
Lemma mok : mk_ok lo ext (masks e iv_zero).
Proof.
  destruct O as (_ & Mo & _). intros m s I. split; [|apply (Mo m s I)].
  apply (leaf_fits n); [exact (proj1 (Mo m s I))|assumption..|]. intros p P. eapply known_mask; [apply K; apply box_of_eq; exact P|exact I].
Qed.
Lemma mfit : mfits lo ext (masks e iv_zero).
Proof. intros m s I. exact (proj1 (mok m s I)). Qed.

Lemma idle_loop rd wr (h : heap) fuel : forall k cur w, 0 <= k -> (Z.to_nat (iz ext - k) <= fuel)%nat ->
  solo rd wr (gpu_loop fuel glhs false cur k w) h h tt.
Proof.
  induction fuel as [|fuel IH]; intros k cur w Hk Hf; cbn [gpu_loop glhs lext].
  - destruct (iz ext <=? k) eqn:E; [apply solo_ret|lia].
  - destruct (iz ext <=? k) eqn:E; [apply solo_ret|]. apply IH; lia.
Qed.

Lemma busy_loop x y : 0 <= x < ix ext -> 0 <= y < iy ext -> forall fuel k h, 0 <= k -> (Z.to_nat (iz ext - k) <= fuel)%nat ->
  assigned h0 h f (fun p => exists j, 0 <= j < k /\ j < iz ext /\ p = iv_add lo (IV x y j)) (denote h0 e) ->
  exists h', solo (trd x y) (twr x y)
    (gpu_loop fuel glhs true (addr (leafwin lo ext f iv_zero) (IV x y k)) k (gat V vadd vmul lo ext h0 e iv_zero (IV x y k))) h h' tt /\
    assigned h0 h' f (col x y) (denote h0 e).
Proof.
  intros Hx Hy. destruct O as (Ro & Mo & So). pose proof D as (Df & Dr & Dc).
  induction fuel as [|fuel IH]; intros k h Hk Hf (A1 & A2 & A3).
  - exists h. cbn [gpu_loop glhs lext]. destruct (iz ext <=? k) eqn:E; [|lia]. split; [apply solo_ret|].
    split; [exact A1|]. split.
    + intros p P. apply A2. destruct (col_at x y p P) as (j & J & ->). exists j. repeat split; lia.
    + intros b i [N|N]; apply A3; [left; exact N|right]. intros p (j & J1 & J2 & ->). apply N. apply at_col. repeat split; cbn [ix iy iz]; lia.
  - cbn [gpu_loop glhs lext]. destruct (iz ext <=? k) eqn:E.
    + exists h. split; [apply solo_ret|]. split; [exact A1|]. split.
      * intros p P. apply A2. destruct (col_at x y p P) as (j & J & ->). exists j. repeat split; lia.
      * intros b i [N|N]; apply A3; [left; exact N|right]. intros p (j & J1 & J2 & ->). apply N. apply at_col. repeat split; cbn [ix iy iz]; lia.
    + set (q := IV x y k). assert (Bq : in_box ext q) by (unfold q; repeat split; cbn [ix iy iz]; lia).
      assert (Cq : col x y (iv_add lo q)) by (apply at_col; exact Bq).
      set (v := denote h0 e (iv_add lo q)).
      assert (Inj : forall j, 0 <= j < iz ext -> cell f (iv_add lo (IV x y j)) = cell f (iv_add lo q) -> j = k).
      { intros j J C. apply (any_cell_inj V n h0 f e rg D K) in C; [|apply K, at_col; repeat split; cbn [ix iy iz]; lia|apply K, Cq].
        apply (f_equal iz) in C. cbn in C. lia. }
      assert (Sev : solo (trd x y) (twr x y) (geval (gat V vadd vmul lo ext h0 e iv_zero q)) h h v).
      { unfold v. rewrite <- (iv_add_0_r (iv_add lo q)).
        apply (proj1 (eval_all V vadd vmul lo ext h0 (trd x y) (twr x y) h q Bq) e iv_zero); [|exact mok].
        intros g s I. split; [right; exists g, s, (iv_add lo q); auto|].
        split; [rewrite A1; apply (Ro g s I); eapply known_read; [apply K; exact (proj1 Cq)|exact I]|].
        apply A3. destruct (Al g s I) as [N|[-> Eq]]; [left; exact N|right].
        intros p (j & J1 & J2 & ->) C. rewrite iv_add_0_r in C. unfold cell in C. rewrite Eq in C.
        symmetry in C. apply (Inj j) in C; lia. }
      assert (A' : assigned h0 (upd h (fbuf f) (cell f (iv_add lo q)) v) f
                     (fun p => exists j, 0 <= j < k + 1 /\ j < iz ext /\ p = iv_add lo (IV x y j)) (denote h0 e)).
      { split; [|split].
        - intros b i. unfold upd. destruct (Nat.eqb b (fbuf f)); apply A1.
        - intros p (j & J1 & J2 & ->). unfold value, upd. rewrite Nat.eqb_refl. cbn [bdata].
          destruct (cell f (iv_add lo (IV x y j)) =? cell f (iv_add lo q)) eqn:C.
          + apply Z.eqb_eq in C. apply Inj in C; [|lia]. subst j. reflexivity.
          + apply A2. exists j. assert (j <> k) by (intros ->; unfold q in C; lia). repeat split; lia.
        - intros b i H. unfold upd. destruct (Nat.eqb b (fbuf f)) eqn:Bb.
          + apply Nat.eqb_eq in Bb. subst b. destruct H as [H|H]; [congruence|]. cbn [bdata].
            destruct (i =? cell f (iv_add lo q)) eqn:C.
            * apply Z.eqb_eq in C. exfalso. apply (H (iv_add lo q)); [exists k; repeat split; lia|exact C].
            * apply A3. right. intros p (j & J1 & J2 & ->). apply H. exists j. repeat split; lia.
          + apply A3. left. apply Nat.eqb_neq in Bb. exact Bb. }
      destruct (IH (k + 1) _ ltac:(lia) ltac:(lia) A') as (h' & S & A).
      exists h'. split; [|exact A]. eapply solo_bind; [exact Sev|].
      replace (addr (leafwin lo ext f iv_zero) q) with (cell f (iv_add lo q)) by (rewrite addr_leafwin, iv_add_0_r; reflexivity).
      apply solo_store; [rewrite A1; apply Dc, K, Cq|split; [reflexivity|eauto]|].
      replace (cell f (iv_add lo q) + lstep glhs) with (addr (leafwin lo ext f iv_zero) (IV x y (k + 1))).
      2:{ rewrite <- addr_next. fold q. rewrite addr_leafwin, iv_add_0_r. reflexivity. }
      unfold q. rewrite (proj1 (next_all V vadd vmul lo ext h0 (trd x y) (twr x y) x y (proj1 Hx) (proj1 Hy) k Hk) e iv_zero mfit). exact S.
Qed.

Lemma thread_solo x y fuel : 0 <= x -> 0 <= y -> (Z.to_nat (iz ext) <= fuel)%nat ->
  exists h', solo (trd x y) (twr x y) (gpu_thread fuel glhs (gpu_init V vadd vmul e (gminus rg) (gplus rg) iv_zero) x y) h0 h' tt /\
    forall p, col x y p -> value V h' f p = denote h0 e p.
Proof.
  intros Hx Hy Hf. destruct O as (Ro & Mo & So).
  assert (St : solo (trd x y) (twr x y) (gstart x y (gpu_init V vadd vmul e (gminus rg) (gplus rg) iv_zero)) h0 h0
    (gat V vadd vmul lo ext h0 e iv_zero (IV x y 0))).
  { apply (proj1 (start_all V vadd vmul lo ext h0 (trd x y) (twr x y) (gminus rg) (gplus rg) x y Hx Hy) e iv_zero).
    - intros g s I. apply (leaf_window n); [apply (Ro g s I)|reflexivity|reflexivity].
    - intros m s I. split; [apply (leaf_window n); [apply (Mo m s I)|reflexivity|reflexivity]|exact (mfit m s I)].
    - intros g I. split; [apply So; exact I|]. left. eauto. }
  unfold gpu_thread. cbn [glhs lext lcur lxlen].
  destruct ((x <? ix ext) && (0 <=? x) && (y <? iy ext) && (0 <=? y)) eqn:Ev.
  - destruct (busy_loop x y ltac:(lia) ltac:(lia) fuel 0 h0 ltac:(lia) ltac:(lia)) as (h' & S & A).
    { split; [reflexivity|]. split; [intros p (j & J & _); lia|reflexivity]. }
    exists h'. split; [|apply A]. eapply solo_bind; [exact St|].
    change (ix (wglob (fint f))) with (ix (wglob (leafwin lo ext f iv_zero))). rewrite addr_start. exact S.
  - exists h0. split; [eapply solo_bind; [exact St|apply idle_loop; lia]|].
    intros p P. exfalso. destruct P as (B & X & Y). apply box_of_eq in B. unfold in_region, box_hi in B. cbn [ix iy iz iv_add] in B. lia.
Qed.

Lemma col_inj x y x' y' p q : col x y p -> col x' y' q -> cell f p = cell f q -> x = x' /\ y = y'.
Proof.
  intros (B & X & Y) (B' & X' & Y') C. apply (any_cell_inj V n h0 f e rg D K) in C; [|apply K; assumption..]. subst q. lia.
Qed.

Lemma kernel_runs fuel gx gy : (Z.to_nat (iz ext) <= fuel)%nat ->
  let threads := map (fun xy => gpu_thread fuel glhs (gpu_init V vadd vmul e (gminus rg) (gplus rg) iv_zero) (fst xy) (snd xy)) (thread_ids gx gy) in
  (exists bound, forall k st, ksteps k (Kern h0 threads) st -> (k <= bound)%nat) /\
  forall st, kreach (Kern h0 threads) st ->
    kno_failure st /\ krace_free st /\ (kdone st \/ exists st', kstep st st') /\
    (kdone st -> assigned h0 (kheap st) f
       (fun p => box_of n rg p /\ ix p - ix lo < 16 * gx /\ iy p - iy lo < 16 * gy) (denote h0 e)).
Proof.
  intros Hf threads. set (ids := thread_ids gx gy). set (at_ := fun i => nth i ids (0, 0)).
  assert (Hid : forall i, (i < length ids)%nat -> 0 <= fst (at_ i) /\ 0 <= snd (at_ i)).
  { intros i Hi. unfold at_. pose proof (nth_In ids (0, 0) Hi) as I. destruct (nth i ids (0, 0)) as [x y]. apply in_ids in I. cbn. lia. }
  destruct (disjoint_parallel V h0 (length ids) (fun i => trd (fst (at_ i)) (snd (at_ i))) (fun i => twr (fst (at_ i)) (snd (at_ i)))
    (fun i h => forall p, col (fst (at_ i)) (snd (at_ i)) p -> value V h f p = denote h0 e p)) with (jobs := threads) as (B & R).
  - intros i k b c Hi Hk Nik (-> & p & P & ->).
    assert (Ne : at_ i <> at_ k).
    { intros E. apply Nik. unfold at_ in E. exact (proj1 (NoDup_nth ids (0, 0)) (ids_nodup gx gy) i k Hi Hk E). }
    assert (X : forall q, col (fst (at_ k)) (snd (at_ k)) q -> cell f p = cell f q -> False).
    { intros q Q C. destruct (col_inj _ _ _ _ _ _ P Q C) as (E1 & E2). apply Ne. destruct (at_ i), (at_ k). cbn in *. congruence. }
    split.
    + intros [(g & I & Eb & _)|(g & s & q & I & Q & Eb & Ec)]; [exact (Sa g I (eq_sym Eb))|].
      destruct (Al g s I) as [Nb|(-> & Y)]; [congruence|]. rewrite iv_add_0_r in Ec. apply (X q Q). unfold cell in *. rewrite Y in Ec. exact Ec.
    + intros (_ & q & Q & Ec). exact (X q Q Ec).
  - intros i h h' Hi E P p Pp. rewrite <- (P p Pp). unfold value. apply E. split; [reflexivity|]. eauto.
  - unfold threads. rewrite map_length. reflexivity.
  - intros i p E. unfold threads in E. rewrite nth_error_map in E. destruct (nth_error (thread_ids gx gy) i) as [xy|] eqn:Exy; [|discriminate].
    cbn in E. injection E as <-. assert (Hi : (i < length ids)%nat) by (apply nth_error_Some; unfold ids; congruence).
    assert (Ea : at_ i = xy) by (unfold at_; exact (nth_error_nth _ _ _ Exy)). destruct (Hid i Hi) as (H1 & H2).
    rewrite Ea in *. apply thread_solo; assumption.
  - apply (kernel_of_par V h0 threads (fun h => assigned h0 h f
      (fun p => box_of n rg p /\ ix p - ix lo < 16 * gx /\ iy p - iy lo < 16 * gy) (denote h0 e))); [exact B|]. intros st Rs. destruct (R st Rs) as (R1 & R2 & _ & R4 & R5 & R6).
    split; [exact R1|]. split; [exact R2|]. intros Rt. split; [exact R4|]. split.
    + intros p (Bp & Px & Py).
      assert (I : In (ix p - ix lo, iy p - iy lo) ids).
      { apply in_ids. apply box_of_eq in Bp. unfold in_region in Bp. lia. }
      apply (In_nth _ _ (0, 0)) in I as (i & Hi & E). apply (R6 Rt i Hi). unfold at_. rewrite E. cbn [fst snd].
      split; [exact Bp|lia].
    + intros b c H. apply R5. intros i Hi (-> & p & P & ->). destruct H as [H|H]; [congruence|].
      apply (H p); [|reflexivity]. destruct P as (Bp & Px & Py). split; [exact Bp|].
      pose proof (nth_In ids (0, 0) Hi) as I. unfold at_ in Px, Py. destruct (nth i ids (0, 0)) as [x y]. apply in_ids in I. cbn [fst snd] in Px, Py. lia.
Qed.
End Threads.

(** ** The assignment *)
Lemma threads_of_ghosts n h f e ug rg lg fuel : destination_ok n h f -> assign_ghosts ug f e = Ok (rg, lg) ->
  gminus lg = gminus rg -> gplus lg = iv_sub (gplus rg) (has_extra (fbc f)) ->
  (forall p, box_of n rg p -> any_cell n f p /\ expr_known n e p) ->
  gpu_threads V vadd vmul fuel ug f e
  = Ok (map (fun xy => gpu_thread fuel (glhs n f rg) (gpu_init V vadd vmul e (gminus rg) (gplus rg) iv_zero) (fst xy) (snd xy))
         (thread_ids (grid_dim (ix (wext (fwin f)))) (grid_dim (iy (wext (fwin f)))))).
Proof.
  intros D E L1 L2 K. unfold gpu_threads. rewrite E. cbn [obind]. rewrite (glhs_make n h f e rg lg D L1 L2 K). reflexivity.
Qed.

Lemma core_gpu n h f e ug rg lg R : operands_ok n h e -> destination_ok n h f -> alias_ok f e -> singles_apart f e ->
  assign_ghosts ug f e = Ok (rg, lg) -> gminus lg = gminus rg -> gplus lg = iv_sub (gplus rg) (has_extra (fbc f)) ->
  (forall p, box_of n rg p -> any_cell n f p /\ expr_known n e p) ->
  (forall p, box_of n rg p <-> R p) ->
  0 < ix (box_ext n rg) -> 0 < iy (box_ext n rg) -> 0 < iz (box_ext n rg) ->
  gpu_runs V vadd vmul h f e ug (reached f R) /\
  ((forall p, R p -> reached f R p) -> gpu_like_cpu V vadd vmul h f e ug).
Proof.
  intros O D Al Sa E L1 L2 K B Ex Ey Ez.
  assert (W : 0 <= ix (wext (fwin f)) /\ 0 <= iy (wext (fwin f))).
  { destruct D as ((P & Nn & W & Wf & (N1 & N2) & _) & _). rewrite Wf. destruct P as (? & ? & ?). unfold iv_le in *. cbn [grown wext ix iy iv_add] in *.
    rewrite W. cbn [ix iy iz iv_add iv_zero] in *. lia. }
  assert (Req : forall p, reached f R p <-> box_of n rg p /\ ix p - ix (box_lo rg) < 16 * grid_dim (ix (wext (fwin f))) /\
    iy p - iy (box_lo rg) < 16 * grid_dim (iy (wext (fwin f)))).
  { intros p. rewrite !launched_grid by apply W. unfold reached. rewrite <- B. split.
    - intros (P & H). split; [exact P|]. apply H. apply B, box_of_eq. unfold in_region, box_hi. cbn [ix iy iz iv_add]. lia.
    - intros (P & H1 & H2). split; [exact P|]. intros q Q. apply B, box_of_eq in Q. unfold in_region in Q. lia. }
  split.
  - exists (Z.to_nat (iz (box_ext n rg))). intros fuel Hf. eexists. split; [exact (threads_of_ghosts n h f e ug rg lg fuel D E L1 L2 K)|].
    destruct (kernel_runs n h f e rg lg O D Al Sa K Ex Ey Ez fuel (grid_dim (ix (wext (fwin f)))) (grid_dim (iy (wext (fwin f)))) Hf) as (Bd & Rn).
    split; [exact Bd|]. intros st Rs. destruct (Rn st Rs) as (R1 & R2 & R3 & R4).
    split; [exact R1|]. split; [exact R2|]. split; [exact R3|]. intros Dn.
    eapply assigned_ext; [|exact (R4 Dn)]. intros p. symmetry. apply Req.
  - intros Cov. exists (Z.to_nat (iz (box_ext n rg)) + Z.to_nat (npts (box_ext n rg)))%nat. intros fuel Hf.
    destruct (core_assign V vadd vmul n h f e ug rg lg O D Al E L1 L2 K Ex Ey Ez fuel ltac:(lia)) as (h' & Sq & A).
    eexists. exists h'. split; [exact (threads_of_ghosts n h f e ug rg lg fuel D E L1 L2 K)|]. split; [eapply solo_run; exact Sq|].
    intros st Rs Dn.
    destruct (kernel_runs n h f e rg lg O D Al Sa K Ex Ey Ez fuel (grid_dim (ix (wext (fwin f)))) (grid_dim (iy (wext (fwin f)))) ltac:(lia)) as (_ & Rn).
    destruct (Rn st Rs) as (_ & _ & _ & R4).
    eapply (assigned_same V n h _ _ f rg (box_of n rg)); [intros; reflexivity| |exact A].
    eapply assigned_ext; [|exact (R4 Dn)]. intros p. rewrite <- Req. split; [intros (P & _); apply B; exact P|intros P; apply Cov, B, P].
Qed.

(** the launched threads cover what lies in the window f has before *)
Lemma valid_reached n f (R : ivec -> Prop) : on_patch n f -> (forall p, R p -> valid_cell n f p) -> forall p, R p -> reached f R p.
Proof.
  intros (P & Nn & W & Wf & _) H p Rp. split; [exact Rp|]. intros q Rq. pose proof (H p Rp) as A. pose proof (H q Rq) as C.
  pose proof (launched_ge (ix (wext (fwin f)))). pose proof (launched_ge (iy (wext (fwin f)))).
  rewrite Wf in *. unfold valid_cell, reach, in_region in A, C. cbn [grown wext ix iy iz iv_add] in *. rewrite W in *. cbn [ix iy iz iv_add iv_neg] in *. lia.
Qed.

Lemma gpu_assign_any n h f e : operands_ok n h e -> destination_ok n h f -> alias_ok f e -> singles_apart f e -> covers_extra f e ->
  (exists p, region n f e p) ->
  gpu_runs V vadd vmul h f e true (reached f (region n f e)) /\
  ((forall p, region n f e p -> reached f (region n f e) p) -> gpu_like_cpu V vadd vmul h f e true).
Proof.
  intros O D Al Sa Cx (p0 & P0). destruct (assign_ghosts_region V n h f e O (proj1 D) Cx) as (rg & lg & E & L1 & L2 & B).
  destruct (box_nonempty n rg p0 (proj2 (B p0) P0)) as (Ex & Ey & Ez).
  exact (core_gpu n h f e true rg lg _ O D Al Sa E L1 L2 (fun p H => proj1 (B p) H) B Ex Ey Ez).
Qed.
Lemma gpu_runs_ext h f e ug (R R' : ivec -> Prop) : (forall p, R p <-> R' p) -> gpu_runs V vadd vmul h f e ug R -> gpu_runs V vadd vmul h f e ug R'.
Proof.
  intros E (N & H). exists N. intros fuel Hf. destruct (H fuel Hf) as (t & A & B & C). exists t. split; [exact A|]. split; [exact B|].
  intros st Rs. destruct (C st Rs) as (C1 & C2 & C3 & C4). repeat (split; [assumption|]). intros Dn. eapply assigned_ext; [exact E|exact (C4 Dn)].
Qed.
Lemma gpu_assign_all n h f e : operands_ok n h e -> destination_ok n h f -> alias_ok f e -> singles_apart f e -> covers_extra f e ->
  (exists p, region n f e p) -> (forall p, region n f e p -> valid_cell n f p) ->
  gpu_runs V vadd vmul h f e true (region n f e) /\ gpu_like_cpu V vadd vmul h f e true.
Proof.
  intros O D Al Sa Cx P0 Hv. destruct (gpu_assign_any n h f e O D Al Sa Cx P0) as (A & B).
  pose proof (valid_reached n f _ (proj1 D) Hv) as Rc. split; [|apply B; exact Rc].
  eapply gpu_runs_ext; [|exact A]. intros p. split; [intros (P & _); exact P|apply Rc].
Qed.
Lemma gpu_interior n h f e : operands_ok n h e -> destination_ok n h f -> alias_ok f e -> singles_apart f e ->
  (forall p, interior_cell n f p -> expr_known n e p) ->
  gpu_runs V vadd vmul h f e false (interior_cell n f) /\ gpu_like_cpu V vadd vmul h f e false.
Proof.
  intros O D Al Sa K. destruct (interior_ghosts V n h f e O D K) as (rg & lg & Eg & Q1 & Q2 & B & KK & Ex & Ey & Ez).
  destruct (core_gpu n h f e false rg lg _ O D Al Sa Eg Q1 Q2 KK B Ex Ey Ez) as (A & C).
  assert (Rc : forall p, interior_cell n f p -> reached f (interior_cell n f) p).
  { apply (valid_reached n f _ (proj1 D)). intros p P. destruct D as ((_ & _ & _ & _ & (N1 & N2) & _) & _).
    unfold interior_cell, valid_cell, reach, in_region, iv_le in *. cbn [ix iy iz iv_add iv_neg iv_zero] in *. lia. }
  split; [|apply C; exact Rc]. eapply gpu_runs_ext; [|exact A]. intros p. split; [intros (P & _); exact P|apply Rc].
Qed.

(** read-only destinations *)
Lemma gpu_readonly fuel ug f e : freadonly f = true -> forall t, gpu_threads V vadd vmul fuel ug f e <> Ok t.
Proof.
  intros H t. unfold gpu_threads. destruct (assign_ghosts ug f e) as [[rg lg]| |]; cbn [obind]; [|discriminate..].
  unfold gpu_lhs_make. change (freadonly (reset_valid_ghosts f (mk_ghost (gminus lg) (gplus lg)))) with (freadonly f).
  rewrite H. discriminate.
Qed.

(** ** Which device *)
End GpuB.
Section Dispatch.
Variable V : Type.
Notation reads := (reads V). Notation masks := (masks V). Notation singles := (singles V).
Variable has : field -> place -> bool.
Variable mhas : mask -> place -> bool.
Notation ready := (ready V has mhas). Notation bready := (bready V has mhas).
Lemma ready_all d :
  (forall e s, ready e d = true <->
    (forall g t, In (g, t) (reads e s) -> has g d = true) /\ (forall m t, In (m, t) (masks e s) -> mhas m d = true) /\
    (forall g, In g (singles e) -> has g d = true)) /\
  (forall e s, bready e d = true <->
    (forall g t, In (g, t) (breads V e s) -> has g d = true) /\ (forall m t, In (m, t) (bmasks V e s) -> mhas m d = true) /\
    (forall g, In g (bsingles V e) -> has g d = true)).
Proof.
  apply (expr_bexpr_ind V (fun e => forall s, ready e d = true <->
    (forall g t, In (g, t) (reads e s) -> has g d = true) /\ (forall m t, In (m, t) (masks e s) -> mhas m d = true) /\
    (forall g, In g (singles e) -> has g d = true))
   (fun e => forall s, bready e d = true <->
    (forall g t, In (g, t) (breads V e s) -> has g d = true) /\ (forall m t, In (m, t) (bmasks V e s) -> mhas m d = true) /\
    (forall g, In g (bsingles V e) -> has g d = true)));
  intros; cbn [GpuM.ready GpuM.bready NeboS.reads NeboS.breads NeboS.masks NeboS.bmasks NeboS.singles NeboS.bsingles];
  rewrite ?andb_true_iff; try setoid_rewrite in_app_iff; cbn [In].
  all: try (rewrite H, H0, H1; intuition eauto; fail).
  all: try (rewrite H, H0; intuition eauto; fail).
  all: try (rewrite H; intuition eauto; fail).
  all: try (intuition (congruence || eauto); fail).
  - rename e into x. rename o into y.
    transitivity ((bready c d = true /\ ready x d = true) /\ ready y d = true); [reflexivity|].
    change ((bready c d = true /\ ready x d = true) /\ ready y d = true <->
      (forall g t, In (g, t) (breads V c s) \/ In (g, t) (reads x s ++ reads y s) -> has g d = true) /\
      (forall m t, In (m, t) (bmasks V c s) \/ In (m, t) (masks x s ++ masks y s) -> mhas m d = true) /\
      (forall g, In g (bsingles V c) \/ In g (singles x ++ singles y) -> has g d = true)).
    rewrite (H s), (H0 s), (H1 s). setoid_rewrite in_app_iff. intuition eauto.
  - split.
    + intros E. assert (Q : forall s', _) by (intros s'; exact (proj1 (H s') E)). split; [|split].
      * intros g t [I|I]; [exact (proj1 (Q _) _ _ I)|]. apply in_flat_map in I as (pc & _ & I). exact (proj1 (Q _) _ _ I).
      * intros g t [I|I]; [exact (proj1 (proj2 (Q _)) _ _ I)|]. apply in_flat_map in I as (pc & _ & I). exact (proj1 (proj2 (Q _)) _ _ I).
      * apply (Q s).
    + intros (A & B & C). apply (H (iv_add s p0)). split; [|split]; eauto.
  - split.
    + intros E. assert (Q : forall s', _) by (intros s'; exact (proj1 (H s') E)). split; [|split].
      * intros g t [I|I]; [exact (proj1 (Q _) _ _ I)|]. apply in_flat_map in I as (pc & _ & I). exact (proj1 (Q _) _ _ I).
      * intros g t [I|I]; [exact (proj1 (proj2 (Q _)) _ _ I)|]. apply in_flat_map in I as (pc & _ & I). exact (proj1 (proj2 (Q _)) _ _ I).
      * apply (Q s).
    + intros (A & B & C). apply (H (iv_add s p0)). split; [|split]; eauto.
Qed.
Lemma dispatch_ok home e d : gpu_dispatch V has mhas home e = Ok d <-> d = home /\ home <> OtherDevice /\ accessible V has mhas e home.
Proof.
  pose proof (proj1 (ready_all home) e iv_zero) as R. fold (accessible V has mhas e home) in R.
  unfold gpu_dispatch. destruct home as [|dv|]; cbn; try (destruct (ready e _)); split;
    try discriminate; try (intros X; injection X as <-); try (intros (-> & N & A)); try (apply R in A; discriminate);
    try congruence; (split; [reflexivity|split; [discriminate|apply R; reflexivity]]).
Qed.
Lemma dispatch_else home e : (forall d, gpu_dispatch V has mhas home e <> Ok d) -> gpu_dispatch V has mhas home e = Throw.
Proof.
  intros H. unfold gpu_dispatch in *. destruct home; try (destruct (ready e _)); try reflexivity; edestruct H; reflexivity.
Qed.
End Dispatch.
