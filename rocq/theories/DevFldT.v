(** Proofs: the values of new fields on CPU and GPU. *)
From Verif Require Import Prelude WindowM WindowS WindowP ConsumerM ConsumerS DevFldM DevFldS DevFldP DevFldQ DevFldR.

Section S.
Variable T : Type.
Variable zero : T.
Notation arr := (Z -> T).

Lemma map_hit w (v v' : arr) i x ps : (forall p, In p ps -> addr w p <> i) -> map (fun p => aset v i x (addr w p)) ps = map (fun p => v (addr w p)) ps.
Proof. intros N. apply map_ext_in. intros p P. unfold aset. destruct (Z.eqb_spec (addr w p) i); [exfalso; apply (N p P); assumption|reflexivity]. Qed.

Lemma fill_points w (F : fits w) ps : NoDup ps -> (forall p, In p ps -> in_box (wext w) p) -> forall (v : arr) src,
  match src with Some l => (length ps <= length l)%nat | None => True end ->
  exists v', fill zero v (map (iter_pt 0 w) ps) src = Ok v' /\
    map (fun p => v' (addr w p)) ps = match src with Some l => firstn (length ps) l | None => map (fun _ => zero) ps end /\
    forall i, (forall p, In p ps -> addr w p <> i) -> v' i = v i.
Proof.
  induction ps as [|q ps IH]; intros N B v src L.
  - exists v. split; [reflexivity|]. split; [destruct src; reflexivity|reflexivity].
  - inversion N as [|? ? N1 N2]; subst. cbn [map fill]. change (icur (iter_pt 0 w q)) with (0 + addr w q). rewrite Z.add_0_l.
    assert (Nq : forall p, In p ps -> addr w p <> addr w q).
    { intros p P E. apply (addr_inj w p q F) in E; [subst; contradiction|apply B; right; exact P|apply B; left; reflexivity]. }
    assert (go : forall x src', match src' with Some l => (length ps <= length l)%nat | None => True end ->
      exists v', fill zero (aset v (addr w q) x) (map (iter_pt 0 w) ps) src' = Ok v' /\
        map (fun p => v' (addr w p)) (q :: ps) = x :: match src' with Some l => firstn (length ps) l | None => map (fun _ => zero) ps end /\
        forall i, (forall p, In p (q :: ps) -> addr w p <> i) -> v' i = v i).
    { intros x src' L'. destruct (IH N2 (fun p P => B p (or_intror P)) (aset v (addr w q) x) src' L') as (v' & E & M & O).
      exists v'. split; [exact E|]. split.
      - cbn [map]. rewrite M. f_equal. rewrite O by exact Nq. unfold aset. rewrite Z.eqb_refl. reflexivity.
      - intros i NI. rewrite O by (intros p P; apply NI; right; exact P). unfold aset.
        destruct (Z.eqb_spec i (addr w q)) as [->|]; [exfalso; apply (NI q); [left; reflexivity|reflexivity]|reflexivity]. }
    destruct src as [[|x l]|]; [cbn in L; lia| |].
    + destruct (go x (Some l)) as (v' & E & M & O); [cbn in L; lia|]. exists v'. auto.
    + destruct (go zero None I) as (v' & E & M & O). exists v'. auto.
Qed.

Lemma npts_length w : window_ok w -> Z.of_nat (length (box_points (wext w))) = local_npts w.
Proof. intros [_ (A & B & C)]. apply box_points_length; lia. Qed.

Lemma reset_ram_ok w (junk : arr) src : window_ok w -> match src with Some l => local_npts w <= Z.of_nat (length l) | None => True end ->
  exists v, reset_ram zero w junk src = Ok v /\
    elements w v = match src with Some l => firstn (Z.to_nat (local_npts w)) l | None => map (fun _ => zero) (box_points (wext w)) end /\
    forall i, (forall p, in_box (wext w) p -> addr w p <> i) -> v i = junk i.
Proof.
  intros W L. pose proof (npts_length w W) as N. destruct (loop_points w W) as (e & E & Lo). unfold reset_ram. rewrite E. cbn [obind]. rewrite Lo.
  destruct (fill_points w (proj1 W) (box_points (wext w)) (box_points_NoDup _) (fun p P => proj1 (in_box_points _ _) P) junk src) as (v & F & M & O).
  { destruct src; [lia|exact I]. }
  exists v. split; [exact F|]. split; [unfold elements; rewrite M; destruct src; [|reflexivity]; f_equal; lia|].
  intros i H. apply O. intros p P. apply H, in_box_points, P.
Qed.

(** the window is the whole block *)
Definition whole (w : window) : Prop := woff w = IV 0 0 0 /\ wext w = wglob w.
Lemma addr_whole w : whole w -> pos_dims (wext w) -> map (addr w) (box_points (wext w)) = zrange (local_npts w).
Proof.
  intros [O E] (A & B & C). unfold local_npts. destruct w as [gl of ex]. cbn in *. subst. destruct gl as [x y z]. cbn in *.
  rewrite box_points_dec by lia. rewrite map_map. rewrite <- (map_id (zrange (x * y * z))) at 2. apply map_ext_in. intros k K. apply in_zrange in K.
  unfold addr, dec. cbn [ix iy iz woff wglob]. rewrite !Z.add_0_l. symmetry. apply flat_decomp; assumption.
Qed.
Lemma map_nth_firstn (l : list T) n : (n <= length l)%nat -> map (fun i => nth i l zero) (seq 0 n) = firstn n l.
Proof.
  revert n. induction l as [|x l IH]; intros n L; [destruct n; [reflexivity|cbn in L; lia]|]. destruct n as [|n]; [reflexivity|].
  cbn. f_equal. rewrite <- seq_shift, map_map. apply IH. cbn in L. lia.
Qed.
Lemma reset_gpu_whole w (junk : arr) l : whole w -> pos_dims (wext w) -> local_npts w <= Z.of_nat (length l) ->
  exists v, reset_gpu zero w junk (Some l) = Ok v /\ elements w v = firstn (Z.to_nat (local_npts w)) l.
Proof.
  intros Wh P L. pose proof Wh as [O E]. assert (G : glob_npts w = local_npts w) by (unfold glob_npts, local_npts; rewrite E; reflexivity).
  unfold reset_gpu. rewrite G. replace (Z.of_nat (length l) <? local_npts w) with false by lia. eexists. split; [reflexivity|].
  unfold elements. rewrite <- (map_map (addr w) (fun i => if (0 <=? i) && (i <? local_npts w) then nth (Z.to_nat i) l zero else junk i)), addr_whole by assumption.
  unfold zrange. rewrite map_map. rewrite <- map_nth_firstn by lia. apply map_ext_in. intros k K. apply in_seq in K.
  replace ((0 <=? Z.of_nat k) && (Z.of_nat k <? local_npts w)) with true by lia. f_equal. lia.
Qed.
Lemma reset_gpu_zero w (junk : arr) : window_ok w ->
  exists v, reset_gpu zero w junk None = Ok v /\ elements w v = map (fun _ => zero) (box_points (wext w)).
Proof.
  intros [F _]. eexists. split; [reflexivity|]. unfold elements. apply map_ext_in. intros p P. apply in_box_points in P.
  pose proof (addr_range w p F P). cbn beta. replace ((0 <=? addr w p) && (addr w p <? glob_npts w)) with true by lia. reflexivity.
Qed.

(** NULL: zero in both *)
Lemma new_zero w (junk : arr) : window_ok w -> exists vr vg,
  reset_ram zero w junk None = Ok vr /\ reset_gpu zero w junk None = Ok vg /\
  elements w vr = map (fun _ => zero) (box_points (wext w)) /\ elements w vg = elements w vr.
Proof.
  intros W. destruct (reset_ram_ok w junk None W I) as (vr & E & M & _). destruct (reset_gpu_zero w junk W) as (vg & E' & M').
  exists vr, vg. repeat split; [exact E|exact E'|exact M|congruence].
Qed.
Lemma new_whole w (junk : arr) l : window_ok w -> whole w -> local_npts w <= Z.of_nat (length l) -> exists vr vg,
  reset_ram zero w junk (Some l) = Ok vr /\ reset_gpu zero w junk (Some l) = Ok vg /\
  elements w vr = firstn (Z.to_nat (local_npts w)) l /\ elements w vg = elements w vr.
Proof.
  intros W Wh L. destruct (reset_ram_ok w junk (Some l) W L) as (vr & E & M & _). destruct (reset_gpu_whole w junk l Wh (proj2 W) L) as (vg & E' & M').
  exists vr, vg. repeat split; [exact E|exact E'|exact M|congruence].
Qed.
(** an array for a part of the block *)
Lemma new_part w (junk : arr) l : window_ok w -> local_npts w < glob_npts w -> Z.of_nat (length l) = local_npts w ->
  (exists vr, reset_ram zero w junk (Some l) = Ok vr /\ elements w vr = l) /\ reset_gpu zero w junk (Some l) = UB.
Proof.
  intros W G L. destruct (reset_ram_ok w junk (Some l) W) as (vr & E & M & _); [lia|]. split.
  - exists vr. split; [exact E|]. rewrite M, <- L, Nat2Z.id. apply firstn_all.
  - unfold reset_gpu. replace (Z.of_nat (length l) <? glob_npts w) with true by lia. reflexivity.
Qed.
End S.
