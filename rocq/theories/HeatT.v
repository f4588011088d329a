(** Proofs for C65 with exact numbers. *)
From Verif Require Import Prelude WindowM WindowS GhostM FieldM FieldS FieldP MaskM NeboM NeboS NeboF StencilM StencilS StencilP StencilQ StoreM StoreS ThinS HeatM HeatS HeatP HeatQ HeatR.
Open Scope Z_scope.

Lemma half_2 : half = (/ qc_of 2)%Qc.
Proof. apply Qc_is_canon. reflexivity. Qed.
Section Q.
Variable dx : dir -> Qc.
Variable T K C : ivec -> Qc.
Lemma flux_exact d p : (- (T (step d (-1) p) * (- (1) / dx d) + T p * (1 / dx d)) * (K (step d (-1) p) * half + K p * half))%Qc
  = heat_flux dx T K d p.
Proof. unfold heat_flux. rewrite half_2. unfold Qcdiv. ring. Qed.
Lemma sub_sum F p l : forall r, fold_left (fun r d => (r - (F d p * (- (1) / dx d) + F d (step d 1 p) * (1 / dx d)) / C p)%Qc) l r =
  (r + qsum (map (fun d => (F d p - F d (step d 1 p)) / dx d) l) / C p)%Qc.
Proof.
  induction l as [|d l IH]; intros r; cbn [fold_left map qsum]; [unfold Qcdiv; ring|]. rewrite IH. unfold Qcdiv. ring.
Qed.
End Q.

Lemma loop_exact n Lx Ly Lz bx by_ bz g h P scr :
  heat_setup Qc n bx by_ bz g (build_stencils n Lx Ly Lz) h P -> (forall s, In s scr -> scratch_ok Qc n bx by_ bz g h P s) -> scr <> [] ->
  exists h', ends_with Qc (fun fuel => heat_loopQ fuel n P scr) h h' /\
    let dx := grid_spacing n Lx Ly Lz in
    let T := value Qc h (temperature P) in let K := value Qc h (thermCond P) in let C := value Qc h (rhoCp P) in
    (forall p, in_patch n p -> value Qc h' (rhs P) p = heating dx T K C n p) /\
    (forall d p, wide n d -> on_face n d p -> value Qc h' (flux P d) p = heat_flux dx T K d p) /\
    (forall b i, bcells (h' b) i = bcells (h b) i) /\
    (forall b i, ~ written Qc n P scr b -> bdata (h' b) i = bdata (h b) i).
Proof.
  intros S1 S2 NE.
  destruct (loop_ok Qc Qcplus Qcmult Qcminus Qcdiv Qcopp 0%Qc apply_op (fun _ _ _ _ _ => eq_refl)
    (make_coefs (grid_spacing n Lx Ly Lz)) half half (fun d => - (1) / grid_spacing n Lx Ly Lz d)%Qc (fun d => 1 / grid_spacing n Lx Ly Lz d)%Qc
    eq_refl (fun _ => eq_refl) n bx by_ bz g P scr h S1 S2) as (h' & Cm & E & R & Kp).
  exists h'. split; [exact Cm|]. cbv zeta. destruct (R NE) as (R1 & R2).
  assert (GF : forall d p, gflux Qc Qcplus Qcmult Qcopp half half (fun d => - (1) / grid_spacing n Lx Ly Lz d)%Qc (fun d => 1 / grid_spacing n Lx Ly Lz d)%Qc P h d p
    = heat_flux (grid_spacing n Lx Ly Lz) (value Qc h (temperature P)) (value Qc h (thermCond P)) d p).
  { intros d p. unfold gflux, gen_flux. apply flux_exact. }
  split; [|split; [|split; assumption]].
  - intros p IP. rewrite (R1 p IP). unfold grhs, gterm, heating.
    rewrite (sub_sum (grid_spacing n Lx Ly Lz) (value Qc h (rhoCp P))
      (fun d q => gflux Qc Qcplus Qcmult Qcopp half half (fun d => - (1) / grid_spacing n Lx Ly Lz d)%Qc (fun d => 1 / grid_spacing n Lx Ly Lz d)%Qc P h d q) p (wide_dirs n) 0%Qc).
    rewrite Qcplus_0_l. f_equal. f_equal. apply map_ext. intros d. rewrite !GF. reflexivity.
  - intros d p W F. rewrite (R2 d p W F). apply GF.
Qed.

(** ** Energy is conserved *)
Lemma qsum_sub {A} (f g : A -> Qc) l : qsum (map (fun x => f x - g x)%Qc l) = (qsum (map f l) - qsum (map g l))%Qc.
Proof. induction l as [|x l IH]; cbn [map qsum]; [ring|]. rewrite IH. ring. Qed.
Lemma qsum_plus {A} (f g : A -> Qc) l : qsum (map (fun x => f x + g x)%Qc l) = (qsum (map f l) + qsum (map g l))%Qc.
Proof. induction l as [|x l IH]; cbn [map qsum]; [ring|]. rewrite IH. ring. Qed.
Lemma qsum_scale {A} (f : A -> Qc) k l : qsum (map (fun x => f x * k)%Qc l) = (qsum (map f l) * k)%Qc.
Proof. induction l as [|x l IH]; cbn [map qsum]; [ring|]. rewrite IH. ring. Qed.
Lemma qsum_flat {A B} (f : B -> Qc) (F : A -> list B) l : qsum (map f (flat_map F l)) = qsum (map (fun x => qsum (map f (F x))) l).
Proof. induction l as [|x l IH]; cbn [flat_map map qsum]; [reflexivity|]. rewrite map_app, qsum_app, IH. reflexivity. Qed.
Lemma qsum_cells f n : qsum (map f (cells n)) =
  qsum (map (fun z => qsum (map (fun y => qsum (map (fun x => f (IV x y z)) (zrange (ix n)))) (zrange (iy n)))) (zrange (iz n))).
Proof.
  unfold cells. rewrite qsum_flat. f_equal. apply map_ext. intros z. rewrite qsum_flat. f_equal. apply map_ext. intros y.
  rewrite map_map. reflexivity.
Qed.
Lemma telescope (G : Z -> Qc) m : 0 <= m -> qsum (map (fun k => G k - G (k + 1)%Z)%Qc (zrange m)) = (G 0%Z - G m)%Qc.
Proof.
  intros H. rewrite <- (Z2Nat.id m H). induction (Z.to_nat m) as [|k IH].
  - cbn. ring.
  - rewrite Nat2Z.inj_succ, <- Z.add_1_r, zrange_succ by lia. rewrite map_app, qsum_app, IH. cbn [map qsum]. ring.
Qed.
Lemma zrange_1 : zrange 1 = [0]. Proof. reflexivity. Qed.
Lemma telescope_cells F d n : iv_le (IV 1 1 1) n ->
  qsum (map (fun p => F p - F (step d 1 p))%Qc (cells n)) =
  (qsum (map F (side d n 0)) - qsum (map F (side d n (comp d n))))%Qc.
Proof.
  intros (Hx & Hy & Hz). cbn in Hx, Hy, Hz. unfold side. rewrite !map_map, !qsum_cells. rewrite <- qsum_sub.
  destruct d; cbn [one_layer step ix iy iz comp].
  - f_equal. apply map_ext. intros z. rewrite <- qsum_sub. f_equal. apply map_ext. intros y. rewrite zrange_1. cbn [map qsum].
    rewrite (telescope (fun x => F (IV x y z)) (ix n)) by lia. rewrite !Z.add_0_l. ring.
  - f_equal. apply map_ext. intros z. rewrite zrange_1. cbn [map qsum].
    erewrite map_ext; [|intros y; apply qsum_sub].
    rewrite (telescope (fun y => qsum (map (fun x => F (IV x y z)) (zrange (ix n)))) (iy n)) by lia. rewrite !Z.add_0_l. ring.
  - rewrite zrange_1. cbn [map qsum].
    erewrite map_ext; [|intros z; erewrite map_ext; [|intros y; apply qsum_sub]; apply qsum_sub].
    rewrite (telescope (fun z => qsum (map (fun y => qsum (map (fun x => F (IV x y z)) (zrange (ix n)))) (zrange (iy n)))) (iz n)) by lia.
    rewrite !Z.add_0_l. ring.
Qed.
Lemma in_cells n p : In p (cells n) <-> in_patch n p.
Proof.
  unfold cells, in_patch, in_region. rewrite in_flat_map. split.
  - intros (z & Hz & I). apply in_flat_map in I. destruct I as (y & Hy & I). apply in_map_iff in I. destruct I as (x & <- & Hx).
    rewrite in_zrange in Hx, Hy, Hz. cbn. lia.
  - intros (Hx & Hy & Hz). cbn in *. exists (iz p). rewrite in_zrange. split; [lia|]. apply in_flat_map. exists (iy p). rewrite in_zrange. split; [lia|].
    apply in_map_iff. exists (ix p). rewrite in_zrange. split; [destruct p; reflexivity|lia].
Qed.
Lemma energy dx T K C n : iv_le (IV 1 1 1) n -> (forall p, in_patch n p -> C p <> 0%Qc) ->
  qsum (map (fun p => C p * heating dx T K C n p)%Qc (cells n)) =
  qsum (map (fun d => (qsum (map (heat_flux dx T K d) (side d n 0)) - qsum (map (heat_flux dx T K d) (side d n (comp d n)))) / dx d)%Qc (wide_dirs n)).
Proof.
  intros Pn NZ.
  transitivity (qsum (map (fun p => qsum (map (fun d => (heat_flux dx T K d p - heat_flux dx T K d (step d 1 p)) / dx d)%Qc (wide_dirs n))) (cells n))).
  { f_equal. apply map_ext_in. intros p I. apply in_cells in I. unfold heating. field. apply NZ, I. }
  induction (wide_dirs n) as [|d l IH]; cbn [map qsum].
  { induction (cells n) as [|p c IHc]; cbn [map qsum]; [reflexivity|]. rewrite IHc. ring. }
  rewrite qsum_plus, IH. f_equal. unfold Qcdiv. rewrite qsum_scale. rewrite telescope_cells by exact Pn. reflexivity.
Qed.
(** No heat crosses a face between cells of the same temperature. *)
Lemma flux_equal dx T K d p : T (step d (-1) p) = T p -> heat_flux dx T K d p = 0%Qc.
Proof. intros E. unfold heat_flux. rewrite E. unfold Qcdiv. ring. Qed.
Lemma qsum_zero {A} (f : A -> Qc) l : (forall x, In x l -> f x = 0%Qc) -> qsum (map f l) = 0%Qc.
Proof.
  induction l as [|x l IH]; intros H; cbn [map qsum]; [reflexivity|].
  rewrite (H x (or_introl eq_refl)), IH; [ring|]. intros y I. apply H. right. exact I.
Qed.
Lemma insulated dx T K C n : iv_le (IV 1 1 1) n -> (forall p, in_patch n p -> C p <> 0%Qc) ->
  (forall d p, wide n d -> In p (side d n 0) \/ In p (side d n (comp d n)) -> T (step d (-1) p) = T p) ->
  qsum (map (fun p => C p * heating dx T K C n p)%Qc (cells n)) = 0%Qc.
Proof.
  intros Pn NZ H. rewrite energy by assumption. apply qsum_zero. intros d I. apply filter_In in I. destruct I as (_ & W). apply Z.ltb_lt in W.
  rewrite !qsum_zero; [unfold Qcdiv; ring| |]; intros p J; apply flux_equal, H; auto.
Qed.

(** ** Heat flows from warm to cold *)
Lemma qc_mul_nonneg a b : (0 <= a -> 0 <= b -> 0 <= a * b)%Qc.
Proof. intros A B. rewrite <- (Qcmult_0_l b). apply Qcmult_le_compat_r; assumption. Qed.
Lemma qc_add_nonneg a b : (0 <= a -> 0 <= b -> 0 <= a + b)%Qc.
Proof. intros A B. rewrite <- (Qcplus_0_l 0). apply Qcplus_le_compat; assumption. Qed.
Lemma qc_opp_nonpos a : (0 <= a -> - a <= 0)%Qc.
Proof. intros A. apply Qcopp_le_compat in A. exact A. Qed.
Lemma qc_square a : (0 <= a * a)%Qc.
Proof.
  destruct (Qclt_le_dec a 0) as [H|H]; [|apply qc_mul_nonneg; exact H].
  replace (a * a)%Qc with ((- a) * (- a))%Qc by ring.
  assert (0 <= - a)%Qc by (apply Qclt_le_weak in H; apply Qcopp_le_compat in H; exact H). apply qc_mul_nonneg; assumption.
Qed.
Lemma qc_inv_nonneg a : (0 < a -> 0 <= / a)%Qc.
Proof.
  intros A. destruct (Qclt_le_dec (/ a) 0) as [H|H]; [|exact H]. exfalso.
  assert (B : (a * / a = 1)%Qc) by (apply Qcmult_inv_r; intros E; rewrite E in A; discriminate).
  assert (D : (0 <= a * - (/ a))%Qc).
  { apply qc_mul_nonneg; [apply Qclt_le_weak, A|]. apply Qclt_le_weak in H. apply Qcopp_le_compat in H. exact H. }
  replace (a * - / a)%Qc with (- (a * / a))%Qc in D by ring. rewrite B in D. discriminate D || (revert D; vm_compute; intros D; apply D; reflexivity).
Qed.
Lemma qc_sub_nonneg a b : (a <= b -> 0 <= b - a)%Qc.
Proof. intros H. unfold Qcminus. rewrite <- (Qcplus_opp_r a). apply Qcplus_le_compat; [exact H|apply Qcle_refl]. Qed.
Lemma term_sign dx T K d p : (0 <= K (step d (-1) p) -> 0 <= K p -> 0 <= K (step d 1 p) -> T (step d (-1) p) <= T p -> T (step d 1 p) <= T p ->
  (heat_flux dx T K d p - heat_flux dx T K d (step d 1 p)) / dx d <= 0)%Qc.
Proof.
  intros K1 K2 K3 T1 T2. unfold heat_flux. rewrite step_step. change (1 + -1) with 0. rewrite step_0.
  replace ((- ((K (step d (-1) p) + K p) / qc_of 2) * ((T p - T (step d (-1) p)) / dx d) -
     - ((K p + K (step d 1 p)) / qc_of 2) * ((T (step d 1 p) - T p) / dx d)) / dx d)%Qc
   with (- (((K (step d (-1) p) + K p) * (T p - T (step d (-1) p)) + (K p + K (step d 1 p)) * (T p - T (step d 1 p))) * (/ qc_of 2 * (/ dx d * / dx d))))%Qc
   by (unfold Qcdiv; ring).
  apply qc_opp_nonpos, qc_mul_nonneg.
  - apply qc_add_nonneg; apply qc_mul_nonneg; try (apply qc_add_nonneg; assumption); apply qc_sub_nonneg; assumption.
  - apply qc_mul_nonneg; [discriminate|apply qc_square].
Qed.
Lemma qsum_nonpos l : (forall x, In x l -> x <= 0)%Qc -> (qsum l <= 0)%Qc.
Proof.
  induction l as [|x l IH]; intros H; cbn [qsum]; [apply Qcle_refl|].
  rewrite <- (Qcplus_0_l 0). apply Qcplus_le_compat; [apply H; left; reflexivity|apply IH; intros y I; apply H; right; exact I].
Qed.
Lemma hottest dx T K C n p : (0 < C p)%Qc ->
  (forall d k, wide n d -> (-1 <= k <= 1)%Z -> 0 <= K (step d k p) /\ T (step d k p) <= T p)%Qc -> (heating dx T K C n p <= 0)%Qc.
Proof.
  intros HC H. unfold heating, Qcdiv at 1.
  rewrite <- (Qcmult_0_l (/ C p)). apply Qcmult_le_compat_r; [|apply qc_inv_nonneg, HC].
  apply qsum_nonpos. intros x I. apply in_map_iff in I. destruct I as (d & <- & I). apply filter_In in I. destruct I as (_ & W). apply Z.ltb_lt in W.
  assert (K0 := proj1 (H d 0 W ltac:(lia))). rewrite step_0 in K0.
  destruct (H d (-1) W ltac:(lia)), (H d 1 W ltac:(lia)). apply term_sign; assumption.
Qed.
Lemma heating_opp dx T K C n p : heating dx (fun q => - T q)%Qc K C n p = (- heating dx T K C n p)%Qc.
Proof.
  unfold heating. assert (E : forall l, qsum (map (fun d => (heat_flux dx (fun q => - T q) K d p - heat_flux dx (fun q => - T q) K d (step d 1 p)) / dx d) l)%Qc
    = (- qsum (map (fun d => (heat_flux dx T K d p - heat_flux dx T K d (step d 1 p)) / dx d) l))%Qc).
  { induction l as [|d l IH]; cbn [map qsum]; [ring|]. rewrite IH. unfold heat_flux, Qcdiv. ring. }
  rewrite E. unfold Qcdiv. ring.
Qed.
Lemma coldest dx T K C n p : (0 < C p)%Qc ->
  (forall d k, wide n d -> (-1 <= k <= 1)%Z -> 0 <= K (step d k p) /\ T p <= T (step d k p))%Qc -> (0 <= heating dx T K C n p)%Qc.
Proof.
  intros HC H. assert (A : (heating dx (fun q => - T q) K C n p <= 0)%Qc).
  { apply hottest; [exact HC|]. intros d k W B. destruct (H d k W B) as (K1 & T1). split; [exact K1|]. apply Qcopp_le_compat, T1. }
  rewrite heating_opp in A. apply Qcopp_le_compat in A. rewrite Qcopp_involutive in A. exact A.
Qed.

(** ** Exactness *)
Lemma coord_steps dx d k p e : coord dx SVol (step d k p) e = (coord dx SVol p e + (if dir_beq d e then dx e * qc_of k else 0))%Qc.
Proof.
  unfold coord. assert (X : forall a, qc_of (2 * (a + k) + 1 + 0) = (qc_of (2 * a + 1 + 0) + qc_of 2 * qc_of k)%Qc).
  { intros a. unfold qc_of. apply Qc_is_canon. unfold Qcplus, Qcmult, Q2Qc; cbn [this]. rewrite !Qred_correct.
    rewrite <- inject_Z_mult, <- inject_Z_plus. apply inject_Z_injective. lia. }
  destruct d, e; cbn [dir_beq comp place step ix iy iz offset]; try rewrite X; rewrite ?half_2; try ring; field; discriminate.
Qed.
Lemma exact_heating dx c k0 k T K C n p : (forall d, dx d <> 0%Qc) ->
  (forall d j, wide n d -> -1 <= j <= 1 -> T (step d j p) = quadratic c (coord dx SVol (step d j p))) ->
  (forall d j, wide n d -> -1 <= j <= 1 -> K (step d j p) = linear k0 k (coord dx SVol (step d j p))) ->
  heating dx T K C n p =
  (qsum (map (fun d => k d * slope c d (coord dx SVol p) + linear k0 k (coord dx SVol p) * bend c d) (wide_dirs n)) / C p)%Qc.
Proof.
  intros ND HT HK. unfold heating. f_equal. f_equal. apply map_ext_in. intros d I. apply filter_In in I. destruct I as (_ & W). apply Z.ltb_lt in W.
  pose proof (HT d 0 W ltac:(lia)) as T0. pose proof (HK d 0 W ltac:(lia)) as K0. rewrite step_0 in T0, K0.
  unfold heat_flux. rewrite step_step. change (1 + -1) with 0. rewrite step_0.
  rewrite T0, K0, !(HT d (-1)), !(HT d 1), !(HK d (-1)), !(HK d 1) by (try exact W; lia).
  unfold quadratic, linear, slope, bend. rewrite !coord_steps. specialize (ND d).
  assert (Em : qc_of (-1) = (- (1))%Qc) by (apply Qc_is_canon; reflexivity).
  assert (E1 : qc_of 1 = 1%Qc) by (apply Qc_is_canon; reflexivity).
  assert (E2 : qc_of 2 = (1 + 1)%Qc) by (apply Qc_is_canon; reflexivity).
  rewrite Em, E1, E2. destruct d; cbn [dir_beq]; field; split; first [exact ND|discriminate].
Qed.
