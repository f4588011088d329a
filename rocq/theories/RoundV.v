(** Operators in double precision: the box filter, four-point interpolation, and
    fields in memory. *)
From Coq Require Import Reals Lra Lia Psatz Permutation.
From Flocq Require Import Core.
From Verif Require Import Prelude WindowM GhostM FieldM FieldS MaskM NeboM NeboS NeboP NeboQ NeboA NeboB NeboC NeboD NeboE NeboF StencilM StencilS StencilP StencilQ RoundM RoundS RoundP RoundQ RoundR RoundT RoundU.
Open Scope R_scope.

Lemma rsum_perm l l' : Permutation l l' -> rsum l = rsum l'.
Proof. induction 1; cbn; lra. Qed.
Lemma rabs_sum_le l M : Forall (fun x => Rabs (val x) <= M) l -> rabs_sum l <= INR (length l) * M.
Proof. induction 1 as [|x l A F IH]; cbn [rabs_sum length]; [cbn; lra|]. rewrite S_INR. lra. Qed.
Lemma rsum_abs l : Rabs (rsum (map val l)) <= rabs_sum l.
Proof. induction l as [|x l IH]; cbn; [rewrite Rabs_R0; lra|]. eapply Rle_trans; [apply Rabs_triang|]. lra. Qed.
Lemma rnd_abs_bpow x e : (-1074 <= e)%Z -> Rabs x <= bpow radix2 e -> Rabs (rnd x) <= bpow radix2 e.
Proof. intros H L. apply rnd_abs_le; [apply fmt_bpow; exact H|exact L]. Qed.

(** The mean of 27 numbers. *)
Definition d27 : dbl := dlit 27 0.
Lemma val27 : finite d27 /\ val d27 = 27.
Proof. split; [reflexivity|]. unfold val. vm_compute B2R. unfold F2R. cbn. lra. Qed.
Definition c27 : dbl := ddiv d_one d27.
Lemma val_c27 : finite c27 /\ exists e, Rabs e <= u /\ val c27 = / 27 * (1 + e).
Proof.
  destruct one_val as [F1 V1], val27 as [F2 V2].
  assert (B : bpow radix2 (-10) <= / 27 <= bpow radix2 0) by (cbn; lra).
  destruct (ddiv_val d_one d27 F1) as (F & V).
  { rewrite V2. lra. }
  { rewrite V1, V2. replace (1 / 27) with (/ 27) by lra. apply Rle_lt_trans with (bpow radix2 0).
    - apply rnd_abs_bpow; [lia|]. rewrite Rabs_pos_eq by lra. lra.
    - apply bpow_lt. lia. }
  split; [exact F|]. unfold c27. rewrite V, V1, V2. replace (1 / 27) with (/ 27) by lra. apply rel_eps.
  rewrite Rabs_pos_eq by lra. eapply Rle_trans; [|apply B]. apply bpow_le. lia.
Qed.

Lemma mean27 x l M : length l = 26%nat -> Forall (fun x => finite x /\ Rabs (val x) <= M) (x :: l) ->
  bpow radix2 (-1000) <= M <= bpow radix2 1018 ->
  finite (dmul (fold_left dadd l x) c27) /\
  Rabs (val (dmul (fold_left dadd l x) c27) - rsum (map val (x :: l)) / 27) <= bpow radix2 (-48) * M.
Proof.
  intros L F [M0 M1]. inversion F as [|? ? [Fx Bx] Fl]; subst.
  assert (Ff : Forall finite l) by (eapply Forall_impl; [|exact Fl]; intros ? []; assumption).
  assert (Fb : Forall (fun x => Rabs (val x) <= M) l) by (eapply Forall_impl; [|exact Fl]; intros ? []; assumption).
  pose proof (rabs_sum_le l M Fb) as SB. rewrite L in SB. replace (INR 26) with 26 in SB by (cbn; lra).
  pose proof u_pos as Up. pose proof u_small as Us. assert (Mp : 0 < M) by (pose proof (bpow_gt_0 radix2 (-1000)); lra).
  assert (PB : (1 + u) ^ 26 - 1 <= 27 * u).
  { replace (INR 26) with 26 in * by (cbn; lra). pose proof (pow_u_le 26) as Q. replace (INR 26) with 26 in Q by (cbn; lra).
    specialize (Q ltac:(lra)). assert (676 * u * u <= 1 * u) by (apply Rmult_le_compat_r; lra). lra. }
  pose proof (pow_u_ge 26) as PG. set (P := (1 + u) ^ 26) in *.
  set (A := Rabs (val x) + rabs_sum l) in *. pose proof (rabs_sum_pos l) as SP. pose proof (Rabs_pos (val x)) as XP.
  assert (AB : 0 <= A <= 27 * M) by (unfold A; lra).
  assert (PA : P * A <= 28 * M). { apply Rle_trans with (P * (27 * M)); [apply Rmult_le_compat_l; lra|]. assert (P <= 28 / 27) by lra. nra. }
  destruct (sum_error l x Fx Ff) as [Fs Es].
  { rewrite L. fold P A. eapply Rle_trans; [exact PA|]. apply Rle_trans with (32 * bpow radix2 1018); [nra|].
    change 1023%Z with (5 + 1018)%Z. rewrite bpow_plus. right. reflexivity. }
  rewrite L in Es. fold P A in Es. cbn [map rsum]. set (S0 := val x + rsum (map val l)) in *.
  set (F0 := fold_left dadd l x) in *. destruct val_c27 as (Fc & e & Be & Vc).
  assert (SA : Rabs S0 <= A). { unfold S0, A. eapply Rle_trans; [apply Rabs_triang|]. pose proof (rsum_abs l). lra. }
  assert (EF : Rabs (val F0 - S0) <= 27 * u * (27 * M)). { eapply Rle_trans; [exact Es|]. apply Rmult_le_compat; lra. }
  assert (FA : Rabs (val F0) <= 28 * M). { replace (val F0) with ((val F0 - S0) + S0) by ring. eapply Rle_trans; [apply Rabs_triang|]. nra. }
  apply Rabs_le_inv in Be. assert (Cp : 0 <= val c27 <= / 26). { rewrite Vc. lra. }
  assert (PrB : Rabs (val F0 * val c27) <= 2 * M).
  { rewrite Rabs_mult, (Rabs_pos_eq (val c27)) by lra. apply Rle_trans with (28 * M * / 26); [apply Rmult_le_compat; try apply Rabs_pos; lra|lra]. }
  assert (G : Rabs (val F0 * val c27) <= bpow radix2 1019).
  { eapply Rle_trans; [exact PrB|]. change 1019%Z with (1 + 1018)%Z. rewrite bpow_plus. change (bpow radix2 1) with 2. lra. }
  destruct (dmul_val F0 c27 Fs Fc) as [Fm Vm].
  { apply Rle_lt_trans with (bpow radix2 1019); [apply rnd_abs_bpow; [lia|exact G]|apply bpow_lt; lia]. }
  split; [exact Fm|]. rewrite Vm. pose proof (abs_eps (val F0 * val c27)) as AE.
  assert (D1 : Rabs (val F0 * val c27 - S0 / 27) <= 29 * u * M).
  { rewrite Vc. replace (val F0 * (/ 27 * (1 + e)) - S0 / 27) with ((val F0 - S0) * / 27 + val F0 * (/ 27 * e)) by field.
    eapply Rle_trans; [apply Rabs_triang|]. rewrite !Rabs_mult, (Rabs_pos_eq (/ 27)) by lra.
    assert (Rabs e <= u) by (apply Rabs_le; lra). pose proof (Rabs_pos e). pose proof (Rabs_pos (val F0)).
    assert (Rabs (val F0) * Rabs e <= 28 * M * u) by (apply Rmult_le_compat; lra).
    assert (0 < u * M) by nra. nra. }
  assert (T : bpow radix2 (-1075) <= / 2 * u * M).
  { apply Rle_trans with (/ 2 * u * bpow radix2 (-1000)); [|apply Rmult_le_compat_l; lra]. unfold u.
    replace (/ 2 * bpow radix2 (-53) * bpow radix2 (-1000)) with (bpow radix2 (-1 + -53 + -1000)) by (rewrite !bpow_plus; reflexivity).
    apply bpow_le. lia. }
  replace (rnd (val F0 * val c27) - S0 / 27) with ((rnd (val F0 * val c27) - val F0 * val c27) + (val F0 * val c27 - S0 / 27)) by ring.
  eapply Rle_trans; [apply Rabs_triang|].
  replace (bpow radix2 (-48)) with (32 * u) by (unfold u; change (-48)%Z with (5 + -53)%Z; rewrite bpow_plus; reflexivity).
  assert (u * Rabs (val F0 * val c27) <= u * (2 * M)) by (apply Rmult_le_compat_l; lra).
  assert (0 < u * M) by nra. lra.
Qed.

Section Ops.
Variables (n : ivec) (Lx Ly Lz : dbl).
Notation reg t s d b := (In (t, s, d, b) (build_stencils64 n Lx Ly Lz)).

Lemma filter_builder s d b : reg Filter s d b -> s = d /\ b = AverageOp box3d.
Proof.
  intros R. apply build_kind64 in R. inversion R; subst; [|auto].
  match goal with T : _ \/ _ |- _ => destruct T; discriminate end.
Qed.

Lemma filter_accuracy s d b h a p l M : reg Filter s d b -> NoDup l -> (forall q, In q l <-> near p q) ->
  (forall q, near p q -> finite (den64 h a q) /\ Rabs (val (den64 h a q)) <= M) ->
  powerRZ 2 (-1000) <= M <= powerRZ 2 1018 ->
  finite (den64 h (apply_op64 b a) p) /\
  Rabs (val (den64 h (apply_op64 b a) p) - rsum (map (fun q => val (den64 h a q)) l) / 27) <= powerRZ 2 (-48) * M.
Proof.
  intros R ND E H B. rewrite !p2 in *. destruct (filter_builder _ _ _ R) as [-> ->]. clear R. rewrite average_value.
  assert (Pm : Permutation (cells_read box3d p) l).
  { apply NoDup_Permutation; [apply box3d_nodup|exact ND|]. intros q. rewrite box3d_near, E. reflexivity. }
  rewrite <- (rsum_perm _ _ (Permutation_map (fun q => val (den64 h a q)) Pm)).
  assert (In0 : forall q, In q (cells_read box3d p) -> near p q) by (intros q; apply box3d_near).
  assert (Ln : length (cells_read box3d p) = 27%nat) by reflexivity.
  change (ddiv d_one (dlit (points_length box3d) 0)) with c27.
  change (iv_add p (fst box3d)) with (hd p (cells_read box3d p)).
  clear Pm E ND. generalize dependent (cells_read box3d p). intros [|q0 l0] In0 Ln; [discriminate|]. cbn [hd tl length] in *.
  replace (map (fun q => val (den64 h a q)) (q0 :: l0)) with (map val (den64 h a q0 :: map (fun q => den64 h a q) l0))
    by (cbn [map]; rewrite map_map; reflexivity).
  apply mean27; [rewrite map_length; lia| |exact B].
  change (den64 h a q0 :: map (fun q => den64 h a q) l0) with (map (fun q => den64 h a q) (q0 :: l0)).
  apply Forall_map, Forall_forall. intros q I. apply H, In0, I.
Qed.

Lemma four_accuracy t s d b h a p q1 q2 q3 q4 M : reg t s d b -> interpolates t ->
  NoDup [q1; q2; q3; q4] -> (forall q, read_cell t s d p q <-> In q [q1; q2; q3; q4]) ->
  (forall q, read_cell t s d p q -> finite (den64 h a q) /\ not_tiny (val (den64 h a q)) /\ Rabs (val (den64 h a q)) <= M) ->
  M <= powerRZ 2 1022 ->
  Rabs (val (den64 h (apply_op64 b a) p) -
        (val (den64 h a q1) + val (den64 h a q2) + val (den64 h a q3) + val (den64 h a q4)) / 4) <= powerRZ 2 (-51) * M.
Proof.
  intros R It ND E H MB. rewrite p2 in MB.
  assert (Few : forall l, incl [q1; q2; q3; q4] l -> (length l < 4)%nat -> False).
  { intros l I L. pose proof (NoDup_incl_length ND I) as Q. cbn in Q. lia. }
  apply build_kind64 in R. destruct R as [s d D|s d D|s d D|t s d e T D N|s|s e|s e]; try contradiction It; cbn [read_cell] in *.
  - exfalso. destruct (two_value h a s d d_half d_half p D) as (e & lo & hi & _ & _ & _ & _ & _ & _ & _ & _ & On & _).
    apply (Few [lo; hi]); [|cbn; lia]. intros q I. apply E, On in I. cbn. intuition congruence.
  - destruct (four_value h a s d d_quarter d_quarter d_quarter d_quarter p D) as (r1 & r2 & r3 & r4 & (A1 & A2 & A3 & A4) & (On & Nr) & Ev).
    cbn [make_coefs64 coefQuarter]; unfold four_point_coefs. rewrite Ev.
    destruct (H _ A1) as (F1 & T1 & B1), (H _ A2) as (F2 & T2 & B2), (H _ A3) as (F3 & T3 & B3), (H _ A4) as (F4 & T4 & B4).
    destruct quarter_val as [Fq Vq].
    assert (Pm : Permutation [r1; r2; r3; r4] [q1; q2; q3; q4]).
    { apply NoDup_Permutation; [exact Nr|exact ND|]. intros q. rewrite <- E. cbn [In]. split.
      - intros [<-|[<-|[<-|[<-|[]]]]]; assumption.
      - intros I. apply On in I. intuition congruence. }
    pose proof (rsum_perm _ _ (Permutation_map (fun q => val (den64 h a q)) Pm)) as Sp. cbn [map rsum] in Sp.
    replace (val (den64 h a q1) + val (den64 h a q2) + val (den64 h a q3) + val (den64 h a q4)) with
      (val (den64 h a r1) + val (den64 h a r2) + val (den64 h a r3) + val (den64 h a r4)) by lra.
    clear - F1 F2 F3 F4 T1 T2 T3 T4 B1 B2 B3 B4 Fq Vq MB.
    destruct (scale_exact _ _ _ F1 T1 Fq Vq ltac:(lia)) as [G1 V1]. destruct (scale_exact _ _ _ F2 T2 Fq Vq ltac:(lia)) as [G2 V2].
    destruct (scale_exact _ _ _ F3 T3 Fq Vq ltac:(lia)) as [G3 V3]. destruct (scale_exact _ _ _ F4 T4 Fq Vq ltac:(lia)) as [G4 V4].
    set (x1 := val (den64 h a r1)) in *. set (x2 := val (den64 h a r2)) in *. set (x3 := val (den64 h a r3)) in *. set (x4 := val (den64 h a r4)) in *.
    set (y1 := dmul (den64 h a r1) d_quarter) in *. set (y2 := dmul (den64 h a r2) d_quarter) in *.
    set (y3 := dmul (den64 h a r3) d_quarter) in *. set (y4 := dmul (den64 h a r4) d_quarter) in *.
    replace (bpow radix2 (-2)) with (/ 4) in * by (cbn; lra).
    assert (Q : Rabs (val y1) + rabs_sum [y2; y3; y4] <= M).
    { cbn [rabs_sum]. rewrite V1, V2, V3, V4, !Rabs_mult, (Rabs_pos_eq (/ 4)) by lra. lra. }
    pose proof u_pos as Up. pose proof u_small as Us. pose proof (Rabs_pos (val y1)). pose proof (rabs_sum_pos [y2; y3; y4]).
    pose proof (pow_u_ge 3) as PG. pose proof (pow_u_le 3) as PL. replace (INR 3) with 3 in PL by (cbn; lra). specialize (PL ltac:(lra)).
    assert (3 * u * (3 * u) <= u) by nra.
    destruct (sum_error [y2; y3; y4] y1 G1) as [_ Er].
    { repeat constructor; assumption. }
    { cbn [length]. apply Rle_trans with (2 * bpow radix2 1022).
      - apply Rle_trans with (2 * M); [apply Rmult_le_compat; lra|lra].
      - change 1023%Z with (1 + 1022)%Z. rewrite bpow_plus. right. reflexivity. }
    cbn [length fold_left map rsum] in Er.
    replace ((x1 + x2 + x3 + x4) / 4) with (x1 * / 4 + (x2 * / 4 + (x3 * / 4 + (x4 * / 4 + 0)))) by field.
    rewrite <- V1, <- V2, <- V3, <- V4. eapply Rle_trans; [exact Er|]. rewrite p2.
    replace (bpow radix2 (-51)) with (4 * u) by (unfold u; change (-51)%Z with (2 + -53)%Z; rewrite bpow_plus; reflexivity).
    apply Rmult_le_compat; lra.
  - exfalso. apply (Few [p]); [|cbn; lia]. intros q I. apply E in I. left. clear - I D.
    assert (forall g, comp g q = comp g p).
    { intros g. specialize (I g). assert (comp g (offset s) = comp g (offset d)) by (destruct s, d; try discriminate D; reflexivity).
      destruct g; unfold place, comp in *; cbn [ix iy iz] in *; lia. }
    pose proof (H XDIR). pose proof (H YDIR). pose proof (H ZDIR). destruct p, q. cbn in *. congruence.
  - destruct T as [-> | ->]; contradiction.
  - exfalso. apply (Few [step e (-1) p; step e 1 p]); [|cbn; lia]. intros q I. apply E in I. cbn. intuition congruence.
Qed.

(** ** Fields in memory *)
Definition points64 (b : builder dbl) : list ivec :=
  match b with
  | StencilOp (p0, ps) (_, cs) => p0 :: map fst (combine ps cs)
  | SumOp (p0, ps) | AverageOp (p0, ps) => p0 :: ps
  end.
Lemma demands64 b f v : In v (points64 b) ->
  In (LField f, iv_add iv_zero (below v), iv_add iv_zero (above v)) (demands dbl (apply_op64 b (EField dbl f)) iv_zero iv_zero).
Proof.
  intros H. destruct b as [[p0 ps] [c0 cs]|[p0 ps]|[p0 ps]]; cbn [apply_op64 demands points64] in *.
  - apply in_flat_map. exists v. split; [exact H|left; reflexivity].
  - apply in_flat_map. exists v. split; [exact H|left; reflexivity].
  - apply in_or_app. left. apply in_flat_map. exists v. split; [exact H|left; reflexivity].
Qed.
Lemma region64 np f g b p v : region dbl np g (apply_op64 b (EField dbl f)) p -> In v (points64 b) -> valid_cell np f (iv_add p v).
Proof.
  intros [_ K] I. specialize (K _ _ _ (demands64 b f v I) (iv_add p v)).
  assert (A : known np (LField f) (iv_add p v)).
  { apply K; destruct p as [x y z], v as [a b' c]; unfold iv_le, below, above; cbn [ix iy iz iv_add iv_sub iv_zero]; lia. }
  unfold known, valid_cell, reach, in_region in *. cbn [layers fst snd] in A.
  destruct p as [x y z], v as [a b' c]. cbn [ix iy iz iv_add iv_sub iv_zero iv_neg] in *. lia.
Qed.
Lemma reads64 b f g s : In (g, s) (reads dbl (apply_op64 b (EField dbl f)) iv_zero) -> g = f.
Proof.
  destruct b as [[p0 ps] [c0 cs]|[p0 ps]|[p0 ps]]; cbn [apply_op64 reads app]; rewrite ?app_nil_r; intros [[= <- _]|H];
    try reflexivity; apply in_flat_map in H; destruct H as (x & _ & [[= <- _]|[]]); reflexivity.
Qed.
Lemma masks64 b f : masks dbl (apply_op64 b (EField dbl f)) iv_zero = [].
Proof.
  assert (N : forall A (l : list A), flat_map (fun _ : A => @nil (mask * ivec)) l = []) by (induction l; auto).
  destruct b as [[p0 ps] [c0 cs]|[p0 ps]|[p0 ps]]; cbn [apply_op64 masks app]; rewrite ?N; reflexivity.
Qed.
Lemma singles64 b f : singles dbl (apply_op64 b (EField dbl f)) = [].
Proof. destruct b as [[p0 ps] [c0 cs]|[p0 ps]|[p0 ps]]; reflexivity. Qed.

Lemma cells_points pts p q : In q (cells_read pts p) -> exists v, In v (fst pts :: snd pts) /\ q = iv_add p v.
Proof. intros I. apply in_map_iff in I. destruct I as (v & <- & I). eauto. Qed.
Lemma read_point t s d b p q : reg t s d b -> read_cell t s d p q -> exists v, In v (points64 b) /\ q = iv_add p v.
Proof.
  intros R C. apply build_kind64 in R. destruct R as [s d D|s d D|s d D|t s d e T D N|s|s e|s e]; cbn [read_cell] in C.
  - destruct (two_points _ _ (offset_staggered s) (offset_staggered d) D p) as (L & _ & A & _). apply A, cells_points in C.
    cbn [make_coefs64 coefHalf]; unfold two_point_coefs.
    destruct (stencil2 (offset s) (offset d)) as [p0 [|p1 [|]]]; cbn in L; try discriminate. exact C.
  - destruct (four_points _ _ (offset_staggered s) (offset_staggered d) D p) as (L & _ & A & _). apply A, cells_points in C.
    cbn [make_coefs64 coefQuarter]; unfold four_point_coefs.
    destruct (stencil4 (offset s) (offset d)) as [p0 [|p1 [|p2 [|p3 [|]]]]]; cbn in L; try discriminate. exact C.
  - exists (IV 0 0 0). split; [left; reflexivity|]. 
    assert (forall g, comp g q = comp g p).
    { intros g. specialize (C g). assert (comp g (offset s) = comp g (offset d)) by (destruct s, d; try discriminate D; reflexivity).
      destruct g; unfold place, comp in *; cbn [ix iy iz] in *; lia. }
    pose proof (H XDIR). pose proof (H YDIR). pose proof (H ZDIR). destruct p as [p1 p2 p3], q as [r1 r2 r3]. cbn [comp ix iy iz] in *. unfold iv_add. cbn [ix iy iz]. rewrite ?Z.add_0_r. congruence.
  - assert (C' : adjacent (offset s) (offset d) p q) by (destruct T as [-> | ->]; exact C).
    destruct (two_points _ _ (offset_staggered s) (offset_staggered d) D p) as (L & _ & A & _). apply A, cells_points in C'.
    cbn [make_coefs64 coefD]; unfold two_point_coefs.
    destruct (stencil2 (offset s) (offset d)) as [p0 [|p1 [|]]]; cbn in L; try discriminate. exact C'.
  - apply box3d_near, cells_points in C. exact C.
  - cbn [make_coefs64 coefHalf]; unfold two_point_coefs. destruct p as [x y z], C as [-> | ->].
    + exists (it_negate (unit_triplet e)). destruct e; (split; [left; reflexivity|unfold iv_add; cbn [step ix iy iz it_negate unit_triplet]; f_equal; lia]).
    + exists (unit_triplet e). destruct e; (split; [right; left; reflexivity|unfold iv_add; cbn [step ix iy iz it_negate unit_triplet]; f_equal; lia]).
  - cbn [make_coefs64 coefHalfD]; unfold two_point_coefs. destruct p as [x y z], C as [-> | ->].
    + exists (it_negate (unit_triplet e)). destruct e; (split; [left; reflexivity|unfold iv_add; cbn [step ix iy iz it_negate unit_triplet]; f_equal; lia]).
    + exists (unit_triplet e). destruct e; (split; [right; left; reflexivity|unfold iv_add; cbn [step ix iy iz it_negate unit_triplet]; f_equal; lia]).
Qed.

Lemma region_reads t s d b np src dst p q : reg t s d b -> region dbl np dst (apply_op64 b (EField dbl src)) p ->
  read_cell t s d p q -> valid_cell np src q.
Proof. intros R Rg C. destruct (read_point _ _ _ _ _ _ R C) as (v & I & ->). eapply region64; eassumption. Qed.

Lemma memory64 b np h src dst :
  on_patch np src -> (forall p, valid_cell np src p -> bcells (h (fbuf src)) (cell src p) = true) ->
  destination_ok dbl np h dst -> fbuf src <> fbuf dst -> covers_extra dbl dst (apply_op64 b (EField dbl src)) ->
  (exists p, region dbl np dst (apply_op64 b (EField dbl src)) p) ->
  exists N, forall fuel, (N <= fuel)%nat -> exists h',
    run (apply_to_field64 fuel b src dst) h = RDone h' tt /\
    assigned dbl h h' dst (region dbl np dst (apply_op64 b (EField dbl src))) (denote dbl dadd dmul h (apply_op64 b (EField dbl src))).
Proof.
  intros P C D A X R. apply assign_correct; try assumption.
  - split; [|split].
    + intros f s I. apply reads64 in I. subst f. auto.
    + rewrite masks64. intros ? ? [].
    + rewrite singles64. intros ? [].
  - intros g s I. apply reads64 in I. subst g. left. exact A.
Qed.

Lemma memory_bounds t s d b np h src dst lo hi : reg t s d b -> interpolates t ->
  on_patch np src -> (forall p, valid_cell np src p -> bcells (h (fbuf src)) (cell src p) = true) ->
  destination_ok dbl np h dst -> fbuf src <> fbuf dst -> covers_extra dbl dst (apply_op64 b (EField dbl src)) ->
  (exists p, region dbl np dst (apply_op64 b (EField dbl src)) p) ->
  (forall q, valid_cell np src q -> finite (value dbl h src q) /\ not_tiny (val (value dbl h src q)) /\ lo <= val (value dbl h src q) <= hi) ->
  exists N, forall fuel, (N <= fuel)%nat -> exists h',
    run (apply_to_field64 fuel b src dst) h = RDone h' tt /\
    forall p, region dbl np dst (apply_op64 b (EField dbl src)) p ->
      finite (value dbl h' dst p) /\ lo <= val (value dbl h' dst p) <= hi.
Proof.
  intros R It P C D A X Ne H. destruct (memory64 b np h src dst P C D A X Ne) as (N & F). exists N. intros fuel L.
  destruct (F fuel L) as (h' & E & As). exists h'. split; [exact E|]. intros p Rp.
  destruct As as (_ & As & _). rewrite (As p Rp). eapply interp_bounds; [exact R|exact It|].
  intros q Rc. apply H. eapply region_reads; eassumption.
Qed.
End Ops.
