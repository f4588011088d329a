From Verif Require Import Prelude WindowM WindowS WindowP GhostM FieldM FieldS FieldP MaskM MaskS MaskP NeboM NeboS NeboP NeboQ NeboA NeboB NeboC NeboD NeboE.

Section NeboF.
Variable V : Type.
Variable vadd vmul : V -> V -> V.
Notation expr := (expr V). Notation heap := (heap V).
Notation denote := (denote V vadd vmul).
Notation region := (region V). Notation expr_known := (expr_known V).
Notation operands_ok := (operands_ok V). Notation destination_ok := (destination_ok V).
Notation alias_ok := (alias_ok V). Notation assigned := (assigned V). Notation covers_extra := (covers_extra V).

Lemma assign_correct (n : ivec) (h : heap) (f : field) (e : expr) :
  operands_ok n h e -> destination_ok n h f -> alias_ok f e -> covers_extra f e ->
  (exists p, region n f e p) ->
  exists N, forall fuel, (N <= fuel)%nat -> exists h',
    run (fst (nebo_assign V vadd vmul fuel f e)) h = RDone h' tt /\
    assigned h h' f (region n f e) (denote h e).
Proof.
  intros A B C D E. destruct (assign_solo V vadd vmul n h f e A B C D E) as (N & H). exists N.
  intros fuel Hf. destruct (H fuel Hf) as (h' & S & Q). exists h'. split; [eapply solo_run; exact S|exact Q].
Qed.
Lemma assign_throws_true (n : ivec) (h : heap) (f : field) (e : expr) fuel :
  operands_ok n h e -> ~ covers_extra f e -> run (fst (nebo_assign V vadd vmul fuel f e)) h = RThrow.
Proof. apply assign_throws. Qed.
Lemma region_interior (n : ivec) (h : heap) (f : field) (e : expr) :
  destination_ok n h f -> (forall p, interior_cell n f p -> expr_known n e p) ->
  forall p, interior_cell n f p -> region n f e p.
Proof.
  intros D K p P. split; [|apply K; exact P].
  destruct D as ((_ & _ & _ & _ & (? & ?) & (? & ?) & _) & _).
  unfold interior_cell, any_cell, reach, in_region, iv_le in *; cbn -[has_extra] in *. lia.
Qed.
Lemma assign_accesses (n : ivec) (h : heap) (f : field) (e : expr) :
  operands_ok n h e -> destination_ok n h f -> alias_ok f e -> covers_extra f e ->
  (exists p, region n f e p) ->
  exists N, forall fuel, (N <= fuel)%nat ->
    (forall b i, In (ALoad b i) (accesses V (fst (nebo_assign V vadd vmul fuel f e)) h) ->
       (exists g s p, In (g, s) (reads V e iv_zero) /\ b = fbuf g /\ i = cell g p /\
          valid_cell n g p /\ 0 <= i < glob_npts (fint g)) \/
       (exists g, In g (singles V e) /\ b = fbuf g /\ i = 0)) /\
    (forall b i, In (AStore b i) (accesses V (fst (nebo_assign V vadd vmul fuel f e)) h) ->
       b = fbuf f /\ exists p, region n f e p /\ any_cell n f p /\ i = cell f p) /\
    (forall m s p, In (m, s) (masks V e iv_zero) -> region n f e p ->
       valid_cell n (mgeo m) (iv_add p s) /\ 0 <= cell (mgeo m) (iv_add p s) < glob_npts (fint (mgeo m))).
Proof.
  intros A B C D E. destruct (assign_solo V vadd vmul n h f e A B C D E) as (N & H). exists N.
  intros fuel Hf. destruct (H fuel Hf) as (h' & S & _). destruct (solo_accesses V _ _ _ _ _ _ S) as (L & W).
  split; [|split].
  - intros b i I. destruct (L b i I) as [(g & s & p & J & K & -> & ->)|G]; [left|right; exact G].
    exists g, s, p. split; [exact J|]. split; [reflexivity|]. split; [reflexivity|]. split; [exact K|].
    apply (valid_in_block n); [apply (proj1 A g s J)|exact K].
  - intros b i I. destruct (W b i I) as (-> & p & P & ->). split; [reflexivity|]. exists p. split; [exact P|]. split; [apply P|reflexivity].
  - intros m s p I P. assert (K : valid_cell n (mgeo m) (iv_add p s)) by (eapply known_mask; [apply P|exact I]).
    split; [exact K|]. apply (valid_in_block n); [apply (proj1 (proj2 A) m s I)|exact K].
Qed.

(** When every valid cell of f can be computed the record is right afterwards. *)
Lemma record_covered (n : ivec) (h : heap) (f : field) (e : expr) :
  operands_ok n h e -> destination_ok n h f -> alias_ok f e -> covers_extra f e ->
  (exists p, valid_cell n f p) -> (forall p, valid_cell n f p -> expr_known n e p) ->
  exists N, forall fuel, (N <= fuel)%nat -> exists h',
    run (fst (nebo_assign V vadd vmul fuel f e)) h = RDone h' tt /\
    forall p, valid_cell n (snd (nebo_assign V vadd vmul fuel f e)) p -> value V h' f p = denote h e p.
Proof.
  intros A B C D (q & Q) K.
  assert (VR : forall p, valid_cell n f p -> region n f e p).
  { intros p P. split; [|apply K; exact P].
    destruct B as ((_ & _ & _ & _ & _ & (L1 & L2) & _) & _).
    unfold valid_cell, any_cell, reach, in_region, iv_le in *; cbn -[has_extra] in *. lia. }
  destruct (assign_correct n h f e A B C D (ex_intro _ q (VR q Q))) as (N & H). exists N. intros fuel Hf.
  destruct (H fuel Hf) as (h' & R & (_ & Z & _)). exists h'. split; [exact R|]. cbn [snd nebo_assign]. intros p P. apply Z, VR, P.
Qed.
(** The counts the assignment worked with describe exactly the assigned cells. *)
Lemma record_repaired (n : ivec) (h : heap) (f : field) (e : expr) :
  operands_ok n h e -> destination_ok n h f -> covers_extra f e ->
  exists rg lg, assign_ghosts V true f e = Ok (rg, lg) /\
    forall p, valid_cell n (reset_valid_ghosts f (mk_ghost (gminus lg) (gplus lg))) p <-> region n f e p.
Proof.
  intros A B D. destruct (assign_ghosts_region V n h f e A (proj1 B) D) as (rg & lg & E & L1 & L2 & G).
  exists rg, lg. split; [exact E|]. intros p. rewrite <- G. unfold valid_cell, reach, box_of, in_region, reset_valid_ghosts.
  cbn -[has_extra]. rewrite L1, L2. cbn -[has_extra]. lia.
Qed.

Lemma interior_correct (n : ivec) (h : heap) (f : field) (e : expr) :
  operands_ok n h e -> destination_ok n h f -> alias_ok f e ->
  (forall p, interior_cell n f p -> expr_known n e p) ->
  exists N, forall fuel, (N <= fuel)%nat -> exists h',
    run (fst (interior_assign V vadd vmul fuel f e)) h = RDone h' tt /\
    assigned h h' f (interior_cell n f) (denote h e).
Proof.
  intros A B C D. destruct (interior_solo V vadd vmul n h f e A B C D) as (N & H). exists N.
  intros fuel Hf. destruct (H fuel Hf) as (h' & S & Q). exists h'. split; [eapply solo_run; exact S|exact Q].
Qed.

Lemma windows_agree (n : ivec) f g (useGhost : bool) (e : expr) rg lg s :
  user_field n f -> user_field n g -> assign_ghosts V useGhost f e = Ok (rg, lg) ->
  let wl := fwin (reset_valid_ghosts f (mk_ghost (gminus lg) (gplus lg))) in
  let wt := fwin (resize_ghost f (gminus lg) (gplus lg)) in
  let wr := fwin (resize_ghost_and_shift_window g (gminus rg) (iv_sub (gplus rg) (has_extra (fbc g))) s) in
  wl = wt /\ wext wl = wext wr /\ wext wl = iv_add (iv_add n (gminus rg)) (gplus rg) /\
  forall k p, 0 <= k < local_npts wl -> 0 < ix (wext wl) -> 0 < iy (wext wl) -> 0 < iz (wext wl) ->
    let pt := iv_sub (dec (ix (wext wl)) (iy (wext wl)) k) (gminus rg) in
    p = pt ->
    icur (Nat.iter (Z.to_nat k) it_incr (it_begin 0 wl)) = cell f p /\
    icur (Nat.iter (Z.to_nat k) it_incr (it_begin 0 wr)) = cell g (iv_add p s).
Proof.
  intros Uf Ug E. destruct (user_field_on_patch n f Uf) as (Of & _). destruct (user_field_on_patch n g Ug) as (Og & _).
  assert (L : gminus lg = gminus rg /\ gplus lg = iv_sub (gplus rg) (has_extra (fbc f))).
  { unfold assign_ghosts in E. destruct (possible_ghosts V e) as [pg| |]; try discriminate. cbn [obind] in E.
    destruct (calculate_valid_ghost useGhost (fghosts f) (fbc f) pg) as [rg'| |]; try discriminate. cbn [obind] in E.
    destruct (lhs_ghost rg' (fbc f)) as (lg' & El & Q). rewrite El in E. cbn [obind] in E.
    assert (rg' = rg /\ lg' = lg) as [-> ->] by (split; congruence). apply Q. apply (extra_of n f Of). }
  destruct L as [L1 L2]. intros wl wt wr.
  set (lo := iv_neg (gminus rg)). set (ext := iv_add (iv_add n (gminus rg)) (gplus rg)).
  assert (Wr : wr = leafwin lo ext g s) by (apply (leaf_window n); [exact Og|reflexivity|reflexivity]).
  assert (Wl : wl = leafwin lo ext f iv_zero).
  { destruct Of as (_ & _ & W & Ew & _). unfold wl, reset_valid_ghosts, leafwin; cbn [fwin]. rewrite Ew.
    apply win_ext; cbn [wglob woff wext grown mk_ghost gminus gplus]; [reflexivity| |]; rewrite ?W, ?L1, ?L2; unfold lo, ext; iv_solve. }
  assert (Wt : wt = leafwin lo ext f iv_zero).
  { destruct Of as (_ & _ & W & Ew & _). unfold wt, resize_ghost, reshape, field_window, leafwin; cbn [fwin]. rewrite Ew.
    apply win_ext; cbn [wglob woff wext grown mk_ghost gminus gplus]; [reflexivity| |]; rewrite ?W, ?L1, ?L2; unfold lo, ext; iv_solve. }
  rewrite Wl, Wt, Wr. split; [reflexivity|]. split; [reflexivity|]. split; [reflexivity|].
  intros k p Hk Ex Ey Ez pt ->. change (wext (leafwin lo ext f iv_zero)) with ext in *.
  assert (G : forall f' s', icur (Nat.iter (Z.to_nat k) it_incr (it_begin 0 (leafwin lo ext f' s'))) = cell f' (iv_add pt s')).
  { intros f' s'. unfold it_begin. rewrite (iter_at_0 0 (leafwin lo ext f' s')) by assumption.
    rewrite (iter_at_iter 0 (leafwin lo ext f' s')) by (assumption || lia).
    replace (0 + Z.of_nat (Z.to_nat k)) with k by lia. rewrite leaf_icur. f_equal. f_equal. unfold NeboP.pt, pt, lo. iv_solve. }
  rewrite !G. rewrite iv_add_0_r. auto.
Qed.

Lemma user_field_cells n f : user_field n f ->
  on_patch n f /\ forall p, any_cell n f p -> 0 <= cell f p < glob_npts (fint f).
Proof.
  intros U. destruct (user_field_on_patch n f U) as (O & _). split; [exact O|]. intros p K.
  destruct O as (_ & _ & W & _ & _ & _ & _ & _ & F).
  set (w := grown (fint f) (gminus (fghosts f)) (gplus (fghosts f))) in *.
  replace (cell f p) with (addr w (iv_add p (gminus (fghosts f)))).
  - change (glob_npts (fint f)) with (glob_npts w). apply addr_range; [exact F|].
    unfold any_cell, reach, in_region, in_box, w, grown in *; cbn -[has_extra] in *. rewrite W; cbn -[has_extra]. lia.
  - unfold addr, cell, addr, w, grown; cbn [wglob woff iv_add iv_sub ix iy iz].
    f_equal; [lia|]. f_equal. f_equal; [lia|]. f_equal. lia.
Qed.

Lemma max_min_correct (n : ivec) (h : heap) (e : expr) ltb :
  operands_ok n h e -> has_leaf V e = true -> (exists p, expr_known n e p) -> strict_order V ltb ->
  let val := denote h e in
  exists N hi lo, (forall fuel, (N <= fuel)%nat ->
      run (nebo_max V vadd vmul fuel ltb e) h = RDone h hi /\ run (nebo_min V vadd vmul fuel ltb e) h = RDone h lo) /\
    (exists p, expr_known n e p /\ hi = val p) /\ (exists p, expr_known n e p /\ lo = val p) /\
    forall p, expr_known n e p -> ltb hi (val p) = false /\ ltb (val p) lo = false.
Proof.
  intros O L K S val. destruct (reduction_ok V vadd vmul n h e O L K) as (N & p0 & rest & (I & _) & _ & R).
  destruct (max_min_ok V ltb val p0 rest S) as ((A1 & A2) & (B1 & B2)).
  eexists N, _, _. split; [|split; [|split]].
  - intros fuel Hf. split; apply R; exact Hf.
  - destruct A1 as (p & J & E). exists p. split; [apply I; exact J|exact E].
  - destruct B1 as (p & J & E). exists p. split; [apply I; exact J|exact E].
  - intros p P. apply I in P. split; [apply A2|apply B2]; exact P.
Qed.

Lemma fold_map {A B C} (f : A -> B -> A) (g : C -> B) l a : fold_left (fun x c => f x (g c)) l a = fold_left f (map g l) a.
Proof. revert a. induction l as [|c l IH]; intros a; cbn; [reflexivity|apply IH]. Qed.

Lemma sum_norm_correct (n : ivec) (h : heap) (e : expr) vsqrt vsquare :
  operands_ok n h e -> has_leaf V e = true -> (exists p, expr_known n e p) ->
  let val := denote h e in
  exists N p0 rest, lists_in_order (expr_known n e) (p0 :: rest) /\
    forall fuel, (N <= fuel)%nat ->
      run (nebo_sum V vadd vmul fuel e) h = RDone h (fold_left vadd (map val rest) (val p0)) /\
      run (nebo_norm V vadd vmul fuel vsqrt vsquare e) h
      = RDone h (vsqrt (fold_left vadd (map (fun p => vsquare (val p)) rest) (vsquare (val p0)))).
Proof.
  intros O L K val.
  destruct (proj1 (possible_ghosts_all V) e iv_zero iv_zero (operands_fin V n h e _ _ O)) as (g & Eg & _).
  destruct K as (q & Q). pose proof (known_box V n h e g O Eg) as B.
  destruct (box_nonempty n g q (proj2 (B q) Q)) as (Ex & Ey & Ez).
  assert (KK : forall p, box_of n g p -> expr_known n e p) by (intros p; apply B).
  destruct (reduce_with_ok V vadd vmul n h e g O KK Ex Ey Ez L vadd (Z.to_nat (npts (box_ext n g))) (le_n _)) as (p0 & rest & El & _).
  exists (Z.to_nat (npts (box_ext n g))), p0, rest. split.
  { rewrite <- El. eapply lists_ext; [|apply box_list; assumption]. intros p. rewrite <- box_of_eq. apply B. }
  intros fuel Hf. split.
  - destruct (reduce_with_ok V vadd vmul n h e g O KK Ex Ey Ez L vadd fuel Hf) as (p0' & rest' & El' & S).
    rewrite El in El'. injection El' as <- <-. unfold nebo_sum, nebo_reduce. rewrite Eg. cbn [lift pbind].
    rewrite (solo_run V _ _ _ _ _ _ S). f_equal. apply fold_map.
  - destruct (reduce_with_ok V vadd vmul n h (EOp1 V vsquare e) g O KK Ex Ey Ez L vadd fuel Hf) as (p0' & rest' & El' & S).
    rewrite El in El'. injection El' as <- <-. unfold nebo_norm, nebo_sum, nebo_reduce.
    change (possible_ghosts V (EOp1 V vsquare e)) with (possible_ghosts V e). rewrite Eg. cbn [lift].
    assert (S' : solo (rd_valid V n (EOp1 V vsquare e)) (fun _ _ => False)
      (let* s := let* g0 := Ret g in reduce_with V vadd vmul fuel g0 vadd (EOp1 V vsquare e) in Ret (vsqrt s)) h h
      (vsqrt (fold_left vadd (map (fun p => vsquare (val p)) rest) (vsquare (val p0))))).
    { eapply solo_bind; [cbn [pbind]; exact S|]. cbn [NeboS.denote]. rewrite (fold_map vadd (fun p => vsquare (denote h e p))). apply solo_ret. }
    exact (solo_run V _ _ _ _ _ _ S').
Qed.
End NeboF.

(** Concrete cases *)
Lemma x_throw_case :
  let s := patch_field xdim false false false iv_zero (xg 0) 1 4 in
  operands_ok Z xdim xheap (EField Z s) /\ ~ covers_extra Z xf (EField Z s).
Proof.
  intros s. assert (U : user_field xdim s).
  { apply uf_make; cbn; unfold iv_le, g_nonneg, regular, regular1, iv_le; cbn; lia || reflexivity || (repeat split; lia). }
  split.
  - split; [|split; [intros m t []|intros g []]].
    intros f t [E|[]]. injection E as <- <-. split; [apply user_field_on_patch, U|]. intros p P.
    assert (B : 0 <= cell s p < 200); [|unfold xheap; cbn [bcells]; lia].
    pose proof (valid_in_block xdim s p (proj1 (user_field_on_patch _ _ U)) P) as H.
    assert (G : glob_npts (fint s) = 6) by reflexivity. lia.
  - intros C. specialize (C _ _ _ (or_introl eq_refl)). vm_compute in C. destruct C as (C & _). specialize (C ltac:(discriminate)). apply C. reflexivity.
Qed.

Lemma x_interior : forall p, interior_cell xdim xf p -> expr_known Z xdim xe p.
Proof.
  intros p P l m u I q L U. unfold interior_cell, in_region in P. cbn in P. cbn in I. unfold known, in_region, iv_le in *.
  repeat (destruct I as [E|I]; [injection E as <- <- <-; cbn in *; unfold GHOST_MAX; lia|]). destruct I.
Qed.

Lemma x_reduction :
  operands_ok Z xdim xheap xe /\ has_leaf Z xe = true /\ expr_known Z xdim xe (IV (-1) 0 0) /\
  (forall p, in_box xdim p -> expr_known Z xdim xe p) /\ strict_order Z Z.ltb /\ pos_dims xdim.
Proof.
  split; [exact x_operands|]. split; [reflexivity|]. split; [|split; [|split]].
  - intros l m u I q L U. cbn in I. unfold known, in_region, iv_le in *.
    repeat (destruct I as [E|I]; [injection E as <- <- <-; cbn in *; unfold GHOST_MAX; lia|]). destruct I.
  - intros p P. apply x_interior. unfold in_box, interior_cell, in_region in *; cbn in *. lia.
  - split; intros; lia.
  - unfold pos_dims; cbn; lia.
Qed.

Lemma interior_extra : exists n f p, user_field n f /\ interior_cell n f p /\ ~ in_box n p.
Proof.
  exists xdim, xf, (IV 3 0 0). split; [exact user_xf|]. split; unfold interior_cell, in_region, in_box; cbn; lia.
Qed.

(** A 2 x 1 x 1 patch without ghosts, right neighbour stencil *)
Definition ydim : ivec := IV 2 1 1.
Definition yf : field := patch_field ydim false false false iv_zero (ghost_n 0) 0 1.
Definition ys : field := patch_field ydim false false false iv_zero (ghost_n 0) 1 1.
Definition ye : expr Z := EStencil Z (IV 0 0 0) 1 [(IV 1 0 0, 1)] (EField Z ys).
Definition yheap : heap Z := fun b => Block (fun i => (0 <=? i) && (i <? 2)) (fun i => i).

Lemma user_y buf : user_field ydim (patch_field ydim false false false iv_zero (ghost_n 0) buf 1).
Proof. apply uf_make; cbn; unfold iv_le, g_nonneg, regular, regular1, iv_le; cbn; lia || reflexivity || (repeat split; lia). Qed.

Lemma user_bound n f p N : user_field n f -> glob_npts (fint f) = N -> valid_cell n f p -> (0 <=? cell f p) && (cell f p <? N) = true.
Proof.
  intros U <- P. pose proof (valid_in_block n f p (proj1 (user_field_on_patch _ _ U)) P). lia.
Qed.
Lemma user_bound' n f p N : user_field n f -> glob_npts (fint f) = N -> any_cell n f p -> (0 <=? cell f p) && (cell f p <? N) = true.
Proof. intros U <- P. pose proof (proj2 (user_field_cells n f U) p P). lia. Qed.

Lemma interior_unchecked : exists n h f e,
  operands_ok Z n h e /\ destination_ok Z n h f /\ alias_ok Z f e /\ covers_extra Z f e /\
  (forall fuel, (2 <= fuel)%nat -> run (fst (interior_assign Z Z.add Z.mul fuel f e)) h = RUB) /\
  exists g s, In (g, s) (reads Z e iv_zero) /\
    In (ALoad (fbuf g) (glob_npts (fint g))) (accesses Z (fst (interior_assign Z Z.add Z.mul 2 f e)) h).
Proof.
  exists ydim, yheap, yf, ye. split; [|split; [|split; [|split; [|split]]]].
  - split; [|split; [intros m t []|intros g []]].
    intros f t I. assert (f = ys) by (cbn in I; destruct I as [E|[E|[]]]; congruence). subst f.
    split; [apply user_field_on_patch, user_y|]. intros p P. apply (user_bound ydim); [apply user_y|reflexivity|exact P].
  - split; [apply user_field_on_patch, user_y|]. split; [reflexivity|]. intros p P. apply (user_bound' ydim); [apply user_y|reflexivity|exact P].
  - intros g s I. left. assert (g = ys) by (cbn in I; destruct I as [E|[E|[]]]; congruence). subst g. cbn. discriminate.
  - intros l m u I. cbn in I. repeat (destruct I as [E|I]; [injection E as <- <- <-; cbn; lia|]). destruct I.
  - intros [|[|fuel]] Hf; [lia|lia|]. vm_compute. reflexivity.
  - exists ys, (IV 1 0 0). split; [cbn; auto|]. vm_compute. tauto.
Qed.

(** A 2 x 1 x 1 patch with one ghost in x *)
Definition zg : ghost := mk_ghost (IV 1 0 0) (IV 1 0 0).
Definition zf : field := patch_field ydim false false false iv_zero zg 0 1.
Definition zs : field := patch_field ydim false false false iv_zero zg 1 1.
Definition ze : expr Z := EStencil Z (IV (-1) 0 0) 1 [(IV 1 0 0, 1)] (EField Z zs).
Definition zheap : heap Z := fun b => Block (fun i => (0 <=? i) && (i <? 4)) (fun i => 10 * Z.of_nat b + i).
Lemma user_z buf : user_field ydim (patch_field ydim false false false iv_zero zg buf 1).
Proof. apply uf_make; cbn; unfold iv_le, g_nonneg, regular, regular1, iv_le; cbn; lia || reflexivity || (repeat split; lia). Qed.

Lemma valid_ghosts_stale : exists n h f e,
  operands_ok Z n h e /\ destination_ok Z n h f /\ alias_ok Z f e /\ covers_extra Z f e /\
  (exists p, region Z n f e p) /\
  exists p, valid_cell n (snd (nebo_assign Z Z.add Z.mul 20 f e)) p /\ ~ region Z n f e p /\
    forall h', run (fst (nebo_assign Z Z.add Z.mul 20 f e)) h = RDone h' tt ->
      value Z h' f p = value Z h f p /\ value Z h' f p <> denote Z Z.add Z.mul h e p.
Proof.
  exists ydim, zheap, zf, ze. split; [|split; [|split; [|split; [|split]]]].
  - split; [|split; [intros m t []|intros g []]].
    intros f t I. assert (f = zs) by (cbn in I; destruct I as [E|[E|[]]]; congruence). subst f.
    split; [apply user_field_on_patch, user_z|]. intros p P. apply (user_bound ydim); [apply user_z|reflexivity|exact P].
  - split; [apply user_field_on_patch, user_z|]. split; [reflexivity|]. intros p P. apply (user_bound' ydim); [apply user_z|reflexivity|exact P].
  - intros g s I. left. assert (g = zs) by (cbn in I; destruct I as [E|[E|[]]]; congruence). subst g. cbn. discriminate.
  - intros l m u I. cbn in I. repeat (destruct I as [E|I]; [injection E as <- <- <-; cbn; lia|]). destruct I.
  - exists (IV 0 0 0). split; [unfold any_cell, reach, in_region; cbn; lia|].
    intros l m u I q L U. cbn in I. unfold known, in_region, iv_le in *.
    repeat (destruct I as [E|I]; [injection E as <- <- <-; cbn in *; lia|]). destruct I.
  - exists (IV (-1) 0 0). split; [unfold valid_cell, reach, in_region; cbn; lia|]. split.
    + intros (_ & K). specialize (K _ _ _ (or_introl eq_refl) (IV (-2) 0 0)). unfold known, in_region, iv_le in K. cbn in K. lia.
    + intros h' R. vm_compute in R. injection R as <-. vm_compute. split; [reflexivity|discriminate].
Qed.

Lemma x_covered_case :
  let e := EField Z xt in
  operands_ok Z xdim xheap e /\ destination_ok Z xdim xheap xf /\ alias_ok Z xf e /\ covers_extra Z xf e /\
  valid_cell xdim xf (IV (-1) 0 0) /\ forall p, valid_cell xdim xf p -> expr_known Z xdim e p.
Proof.
  intros e. split; [|split; [exact x_destination|split; [|split; [|split]]]].
  - split; [|split; [intros m t []|intros g []]].
    intros f t [E|[]]. injection E as <- <-. split; [apply user_field_on_patch, user_xt|]. intros p P. apply xcell_ok; auto; cbn; auto.
  - intros g s [E|[]]. injection E as <- <-. left. cbn. discriminate.
  - intros l m u [E|[]]. injection E as <- <- <-. cbn. lia.
  - vm_compute; intuition congruence.
  - intros p P l m u I q L U. cbn in I. destruct I as [E|[]]. injection E as <- <- <-.
    unfold valid_cell, reach, known, in_region, iv_le in *. cbn in *. lia.
Qed.
