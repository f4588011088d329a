(** Scratch fields: proofs for C54. *)
From Verif Require Import Prelude WindowM WindowS GhostM FieldM FieldS FieldP PoolM PoolS PoolP StencilM StoreM StoreS.

Lemma bc_is_make bx by_ bz e : bc_is (bc_make bx by_ bz e) = IV (b2z bx) (b2z by_) (b2z bz).
Proof. reflexivity. Qed.
Lemma bc_build_flags l bx by_ bz : bc_build l (IV (b2z bx) (b2z by_) (b2z bz)) = bc_make bx by_ bz (bc_extra l).
Proof. destruct bx, by_, bz; reflexivity. Qed.

Lemma dim1 n gm gp (b : bool) ef ep : 1 <= n -> plain1 n b ef ep ->
  get_dim_with_ghost n gm gp (if b then ep else 0) + b2z b * (ef - ep) = get_dim_with_ghost n gm gp (if b then ef else 0).
Proof. unfold plain1, get_dim_with_ghost, b2z. destruct b, (1 <? n) eqn:E; lia. Qed.

Lemma get_window_built lf lp dim bx by_ bz g buf nt : iv_le (IV 1 1 1) dim -> plain dim bx by_ bz lf lp ->
  get_window lf lp (built lp dim bx by_ bz g buf nt) = fwin (built lf dim bx by_ bz g buf nt).
Proof.
  intros (Dx & Dy & Dz) (Px & Py & Pz). cbn [ix iy iz] in *. unfold get_window, built, patch_field, field_make.
  cbn [fwin fbc]. rewrite bc_is_make, bc_build_flags, bc_is_make.
  unfold get_window_with_ghost, win_full. cbn [wglob woff wext]. rewrite !has_extra_make. unfold iv_add, iv_mul, iv_sub.
  cbn [ix iy iz]. rewrite !dim1 by assumption. reflexivity.
Qed.

Lemma store_get_ok st a lf lp f mt nt : mt <> EXTERNAL_CUDA_GPU ->
  exists b al st', pool_get st a (local_npts (get_window lf lp f)) = (b, al, st') /\
    store_get st a lf lp f mt nt =
    Ok (field_make (win_full (wext (get_window lf lp f))) (bc_build lf (bc_is (fbc f))) (fghosts f) b nt, st').
Proof.
  intros Hm. unfold store_get, get_from_window.
  change (glob_npts {| wglob := wext (get_window lf lp f); woff := iv_zero; wext := wext (get_window lf lp f) |}) with (local_npts (get_window lf lp f)).
  destruct (pool_get st a (local_npts (get_window lf lp f))) as [[b al] st'] eqn:E.
  exists b, al, st'. split; [reflexivity|]. destruct mt; try contradiction; reflexivity.
Qed.

Lemma same_as_built st a lf lp dim bx by_ bz g buf nt0 mt nt : mt <> EXTERNAL_CUDA_GPU ->
  iv_le (IV 1 1 1) dim -> plain dim bx by_ bz lf lp ->
  exists b st', store_get st a lf lp (built lp dim bx by_ bz g buf nt0) mt nt = Ok (built lf dim bx by_ bz g b nt, st').
Proof.
  intros Hm Hd Hp. destruct (store_get_ok st a lf lp (built lp dim bx by_ bz g buf nt0) mt nt Hm) as [b [al [st' [_ E]]]].
  exists b, st'. rewrite E. do 2 f_equal. rewrite get_window_built by assumption.
  unfold built, patch_field, field_make. cbn [fbc fghosts fwin].
  rewrite bc_is_make, bc_build_flags. reflexivity.
Qed.

Lemma same_type st a l f mt nt : mt <> EXTERNAL_CUDA_GPU ->
  exists r st', store_get st a l l f mt nt = Ok (r, st') /\ fwin r = win_full (wext (fwin f)) /\ fghosts r = fghosts f /\
    fvalid r = fghosts f /\ freadonly r = false.
Proof.
  intros Hm. destruct (store_get_ok st a l l f mt nt Hm) as [b [al [st' [_ E]]]].
  exists (field_make (win_full (wext (get_window l l f))) (bc_build l (bc_is (fbc f))) (fghosts f) b nt), st'.
  split; [exact E|]. unfold get_window, field_make. cbn [fwin fghosts fvalid freadonly wext]. repeat split.
  f_equal. unfold iv_add, iv_mul, iv_sub. cbn [ix iy iz]. destruct (wext (fwin f)) as [ex ey ez]. cbn [ix iy iz]. f_equal; lia.
Qed.

Lemma get_window_ext lf lp f : iv_le (IV 1 1 1) (wext (fwin f)) -> 0 <= local_npts (get_window lf lp f).
Proof.
  intros (Dx & Dy & Dz). cbn [ix iy iz] in *. unfold local_npts, get_window. cbn [wext ix iy iz].
  assert (H : forall (b : bool) (e ef ep : Z), 1 <= e -> 0 <= ef <= 1 -> 0 <= ep <= 1 -> 0 <= e + b2z b * (ef - ep)) by (unfold b2z; intros [|] ? ? ? ? ? ?; lia).
  unfold bc_build, bc_make. cbn [bc_is iv_add iv_mul iv_sub ix iy iz].
  assert (Hl : forall l, (0 <= ix (bc_extra l) <= 1) /\ (0 <= iy (bc_extra l) <= 1) /\ (0 <= iz (bc_extra l) <= 1)) by (intros []; cbn; lia).
  destruct (Hl lf) as (? & ? & ?), (Hl lp) as (? & ? & ?).
  repeat apply Z.mul_nonneg_nonneg; apply H; assumption.
Qed.

Lemma own_block w a lf lp f mt nt : history w -> ~ In a (map fst (wmem w)) -> mt <> EXTERNAL_CUDA_GPU ->
  iv_le (IV 1 1 1) (wext (fwin f)) ->
  exists r st', store_get (wpool w) a lf lp f mt nt = Ok (r, st') /\
    ~ In (fbuf r) (wout w) /\
    exists k, In (fbuf r, k) (wmem (snd (do_get w a (glob_npts (fwin r))))) /\ glob_npts (fwin r) <= k.
Proof.
  intros Hh Ha Hm Hd. destruct (store_get_ok (wpool w) a lf lp f mt nt Hm) as [b [al [st' [E1 E2]]]].
  exists (field_make (win_full (wext (get_window lf lp f))) (bc_build lf (bc_is (fbc f))) (fghosts f) b nt), st'.
  split; [exact E2|]. unfold field_make. cbn [fbuf fwin].
  change (glob_npts (win_full (wext (get_window lf lp f)))) with (local_npts (get_window lf lp f)).
  pose proof (get_exclusive w a (local_npts (get_window lf lp f)) Hh Ha (get_window_ext lf lp f Hd)) as G.
  destruct (do_get w a (local_npts (get_window lf lp f))) as [p w'] eqn:Ed.
  assert (Ep : p = b) by (unfold do_get in Ed; rewrite E1 in Ed; injection Ed; auto). subst p.
  destruct G as (G1 & _ & _ & G2). split; [exact G1|exact G2].
Qed.

(** One direction with one cell and a boundary. *)
Lemma degenerate st a lf lp dim by_ bz g buf nt0 mt nt : mt <> EXTERNAL_CUDA_GPU -> ix dim = 1 ->
  ix (bc_extra lf) <> ix (bc_extra lp) ->
  exists r st', store_get st a lf lp (built lp dim true by_ bz g buf nt0) mt nt = Ok (r, st') /\
    ix (wext (fwin (built lf dim true by_ bz g buf nt))) = 1 /\
    ix (wext (fwin r)) = (if ix (bc_extra lp) =? 0 then 2 else 0).
Proof.
  intros Hm Hd Hne. destruct (store_get_ok st a lf lp (built lp dim true by_ bz g buf nt0) mt nt Hm) as [b [al [st' [_ E]]]].
  eexists. exists st'. split; [exact E|].
  unfold built, patch_field, field_make, get_window, win_full. cbn [fwin fbc wext ix].
  unfold get_window_with_ghost, win_full. cbn [wext ix iv_add].
  rewrite bc_is_make, bc_build_flags, bc_is_make. unfold get_dim_with_ghost. rewrite Hd. change (1 <? 1) with false. cbv iota.
  split; [reflexivity|]. unfold iv_mul, iv_sub. cbn [ix b2z].
  assert (Hl : forall l, ix (bc_extra l) = 0 \/ ix (bc_extra l) = 1) by (intros []; cbn; auto).
  destruct (Hl lf) as [Ef|Ef], (Hl lp) as [Ep|Ep]; rewrite Ef, Ep in *; cbn; lia.
Qed.

(** A prototype whose valid ghosts were reduced. *)
Lemma reduced st a l dim bx by_ bz g g' buf nt0 mt nt : mt <> EXTERNAL_CUDA_GPU -> 1 < ix dim ->
  0 <= ix (gminus g') <= ix (gminus g) -> 0 <= ix (gplus g') <= ix (gplus g) ->
  exists r st', store_get st a l l (reset_valid_ghosts (built l dim bx by_ bz g buf nt0) g') mt nt = Ok (r, st') /\
    ix (wext (fint r)) = ix (wext (fint (built l dim bx by_ bz g buf nt0)))
                         - (ix (gminus g) - ix (gminus g')) - (ix (gplus g) - ix (gplus g')).
Proof.
  intros Hm Hd Hgm Hgp. destruct (store_get_ok st a l l (reset_valid_ghosts (built l dim bx by_ bz g buf nt0) g') mt nt Hm) as [b [al [st' [_ E]]]].
  eexists. exists st'. split; [exact E|].
  unfold field_make, get_window, reset_valid_ghosts, built, patch_field, field_make, interior_window, win_full, get_window_with_ghost, win_full.
  cbn [fint fwin fghosts fvalid fbc wext ix iv_add iv_sub iv_mul].
  rewrite has_extra_make. cbn [ix]. rewrite Z.sub_diag, Z.mul_0_r. unfold get_dim_with_ghost, int_ext1.
  assert (Hl : 0 <= ix (bc_extra l)) by (destruct l; cbn; lia).
  assert (He : 0 <= if bx then ix (bc_extra l) else 0) by (destruct bx; lia).
  replace (1 <? ix dim) with true by lia.
  destruct (1 <? _) eqn:E1; destruct (1 <? ix dim + _ + _ + _) eqn:E2; lia.
Qed.

Definition vol_b (l : loc) : bool := match l with SVol | XVol | YVol | ZVol => true | _ => false end.
Definition face_b (d : dir) (l : loc) : bool :=
  match d, l with
  | XDIR, (SSurfX | XSurfX | YSurfX | ZSurfX) | YDIR, (SSurfY | XSurfY | YSurfY | ZSurfY) | ZDIR, (SSurfZ | XSurfZ | YSurfZ | ZSurfZ) => true
  | _, _ => false
  end.
Definition ends1 (d : dir) (l : loc) : bool :=
  (match d with XDIR => ix (offset l) | YDIR => iy (offset l) | ZDIR => iz (offset l) end =? -1) && (vol_b l || face_b d l).
Lemma ends_b d l : ends_on_boundary d l <-> ends1 d l = true.
Proof.
  unfold ends_on_boundary, ends1. rewrite andb_true_iff, orb_true_iff, Z.eqb_eq.
  assert (A : is_volume l <-> vol_b l = true).
  { unfold is_volume. split; [intros [->|[->|[->| ->]]]; reflexivity|]. destruct l; cbn; intros E; try discriminate E; auto. }
  assert (B : is_face d l <-> face_b d l = true).
  { unfold is_face, is_volume. split; [intros (v & [->|[->|[->| ->]]] & E); destruct d; cbn in E; injection E as <-; reflexivity|].
    intros E. destruct d, l; try discriminate E.
    1, 5, 9: exists SVol; split; [tauto|reflexivity].
    1, 4, 7: exists XVol; split; [tauto|reflexivity].
    1, 3, 5: exists YVol; split; [tauto|reflexivity].
    all: exists ZVol; split; [tauto|reflexivity]. }
  rewrite A, B. reflexivity.
Qed.
Lemma extra_table l : 
  (ends_on_boundary XDIR l /\ ix (bc_extra l) = 1 \/ ~ ends_on_boundary XDIR l /\ ix (bc_extra l) = 0) /\
  (ends_on_boundary YDIR l /\ iy (bc_extra l) = 1 \/ ~ ends_on_boundary YDIR l /\ iy (bc_extra l) = 0) /\
  (ends_on_boundary ZDIR l /\ iz (bc_extra l) = 1 \/ ~ ends_on_boundary ZDIR l /\ iz (bc_extra l) = 0).
Proof.
  rewrite !ends_b. destruct l; cbn; repeat split; first [left; split; reflexivity|right; split; [discriminate|reflexivity]].
Qed.
Lemma int_ext_built n gm gp e : 1 < n -> 0 <= gm -> 0 <= gp -> 0 <= e -> int_ext1 (get_dim_with_ghost n gm gp e) gm gp = n + e.
Proof. intros A B C D. unfold int_ext1, get_dim_with_ghost. destruct (1 <? n) eqn:E; [|lia]. destruct (1 <? n + gm + gp + e) eqn:F; lia. Qed.
Lemma boundary_points l dim bx by_ bz g buf nt : full_3d dim -> g_nonneg g ->
  let e := wext (fint (built l dim bx by_ bz g buf nt)) in
  (ends_on_boundary XDIR l /\ bx = true -> ix e = ix dim + 1) /\ (~ (ends_on_boundary XDIR l /\ bx = true) -> ix e = ix dim) /\
  (ends_on_boundary YDIR l /\ by_ = true -> iy e = iy dim + 1) /\ (~ (ends_on_boundary YDIR l /\ by_ = true) -> iy e = iy dim) /\
  (ends_on_boundary ZDIR l /\ bz = true -> iz e = iz dim + 1) /\ (~ (ends_on_boundary ZDIR l /\ bz = true) -> iz e = iz dim).
Proof.
  intros (D1 & D2 & D3) ((A1 & A2 & A3) & (B1 & B2 & B3)) e. cbn in A1, A2, A3, B1, B2, B3.
  destruct (extra_table l) as (X & Y & Z).
  unfold e, built, patch_field, field_make, interior_window, get_window_with_ghost, win_full. cbn [fint wext ix iy iz]. rewrite has_extra_make. cbn [ix iy iz].
  rewrite !int_ext_built; try assumption; try (destruct bx; lia); try (destruct by_; lia); try (destruct bz; lia).
  repeat split; intros H.
  - destruct H as (H & ->). destruct X as [(_ & ->)|(N & _)]; [reflexivity|contradiction].
  - destruct bx; [|lia]. destruct X as [(K & _)|(_ & ->)]; [exfalso; auto|lia].
  - destruct H as (H & ->). destruct Y as [(_ & ->)|(N & _)]; [reflexivity|contradiction].
  - destruct by_; [|lia]. destruct Y as [(K & _)|(_ & ->)]; [exfalso; auto|lia].
  - destruct H as (H & ->). destruct Z as [(_ & ->)|(N & _)]; [reflexivity|contradiction].
  - destruct bz; [|lia]. destruct Z as [(K & _)|(_ & ->)]; [exfalso; auto|lia].
Qed.
