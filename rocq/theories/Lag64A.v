(** Proofs about Lagrange interpolation in double precision: polynomials over the
    real numbers.  The argument is that of LagrangeP. *)
From Coq Require Import Reals Lra.
From Verif Require Import Prelude Lag64S.
Open Scope R_scope.

(** ** Polynomials as coefficient lists *)
Fixpoint padd (p q : list R) : list R :=
  match p, q with
  | [], q => q
  | p, [] => p
  | a :: p, b :: q => (a + b) :: padd p q
  end.
Definition pscale (c : R) (p : list R) : list R := map (fun a => c * a) p.
(** (X - a) * p *)
Definition plin (a : R) (p : list R) : list R := padd (0 :: p) (pscale (- a) p).

Lemma poly_padd p q x : poly (padd p q) x = poly p x + poly q x.
Proof.
  revert q. induction p as [|a p IH]; intros q; cbn; [ring|]. destruct q as [|b q]; cbn; [ring|]. rewrite IH. ring.
Qed.
Lemma poly_pscale c p x : poly (pscale c p) x = c * poly p x.
Proof. induction p as [|a p IH]; cbn; [ring|]. fold (pscale c p). rewrite IH. ring. Qed.
Lemma poly_plin a p x : poly (plin a p) x = (x - a) * poly p x.
Proof. unfold plin. rewrite poly_padd, poly_pscale. cbn. ring. Qed.
Lemma length_padd p q : length (padd p q) = Nat.max (length p) (length q).
Proof. revert q. induction p as [|a p IH]; intros q; cbn; [reflexivity|]. destruct q; cbn; [reflexivity|]. rewrite IH. reflexivity. Qed.
Lemma length_pscale c p : length (pscale c p) = length p.
Proof. apply map_length. Qed.
Lemma length_plin a p : length (plin a p) = S (length p).
Proof. unfold plin. rewrite length_padd, length_pscale. cbn [length]. lia. Qed.

(** ** Derivatives *)
Lemma izr_succ k : IZR (k + 1) = IZR k + 1.
Proof. apply plus_IZR. Qed.
Lemma dpoly_from_succ k p x : poly (dpoly_from (k + 1) p) x = poly (dpoly_from k p) x + poly p x.
Proof.
  revert k. induction p as [|a p IH]; intros k; cbn [dpoly_from poly]; [ring|]. rewrite izr_succ, IH. ring.
Qed.
Lemma dpoly_cons a p x : poly (dpoly (a :: p)) x = poly p x + x * poly (dpoly p) x.
Proof.
  cbn [dpoly]. destruct p as [|b p]; cbn [dpoly_from poly dpoly]; [ring|].
  change (1 + 1)%Z with (1 + 1)%Z. rewrite dpoly_from_succ. change (IZR 1) with 1. ring.
Qed.
Lemma dpoly_padd p q x : poly (dpoly (padd p q)) x = poly (dpoly p) x + poly (dpoly q) x.
Proof.
  revert q. induction p as [|a p IH]; intros q; [cbn; ring|]. destruct q as [|b q]; [cbn [padd dpoly poly]; ring|].
  cbn [padd]. rewrite !dpoly_cons, IH, poly_padd. ring.
Qed.
Lemma dpoly_pscale c p x : poly (dpoly (pscale c p)) x = c * poly (dpoly p) x.
Proof.
  induction p as [|a p IH]; [cbn; ring|]. change (pscale c (a :: p)) with (c * a :: pscale c p).
  rewrite !dpoly_cons, IH, poly_pscale. ring.
Qed.
Lemma dpoly_plin a p x : poly (dpoly (plin a p)) x = poly p x + (x - a) * poly (dpoly p) x.
Proof. unfold plin. rewrite dpoly_padd, dpoly_pscale, dpoly_cons. ring. Qed.

(** ** Roots *)
(** Synthetic division by X - a. *)
Fixpoint pdiv (a : R) (p : list R) : list R :=
  match p with
  | [] => []
  | [_] => []
  | _ :: q => poly q a :: pdiv a q
  end.
Lemma pdiv_spec a p x : poly p x = (x - a) * poly (pdiv a p) x + poly p a.
Proof.
  induction p as [|b p IH]; [cbn; ring|]. destruct p as [|c p]; [cbn; ring|].
  change (poly (b :: c :: p) x) with (b + x * poly (c :: p) x).
  change (poly (b :: c :: p) a) with (b + a * poly (c :: p) a).
  change (poly (pdiv a (b :: c :: p)) x) with (poly (c :: p) a + x * poly (pdiv a (c :: p)) x).
  rewrite IH. set (q := poly (pdiv a (c :: p)) x). set (r := poly (c :: p) a). ring.
Qed.
Lemma length_pdiv a p : length (pdiv a p) = pred (length p).
Proof. induction p as [|b p IH]; [reflexivity|]. destruct p as [|c p]; [reflexivity|]. change (S (length (pdiv a (c :: p))) = S (length p)). rewrite IH. reflexivity. Qed.
Lemma pdiv_zero a p : Forall (fun c => c = 0) (pdiv a p) -> poly p a = 0 -> Forall (fun c => c = 0) p.
Proof.
  induction p as [|b p IH]; intros F Z; [constructor|]. destruct p as [|c p].
  - cbn in Z. constructor; [|constructor]. rewrite <- Z. ring.
  - change (pdiv a (b :: c :: p)) with (poly (c :: p) a :: pdiv a (c :: p)) in F. inversion F as [|? ? E F' Eq]; subst.
    change (b + a * poly (c :: p) a = 0) in Z. change (poly (c :: p) a = 0) in E. rewrite E in Z. constructor; [|apply IH; assumption]. rewrite <- Z. ring.
Qed.
Lemma few_roots l p : NoDup l -> (length p <= length l)%nat -> (forall a, In a l -> poly p a = 0) -> Forall (fun c => c = 0) p.
Proof.
  revert p. induction l as [|a l IH]; intros p ND L R.
  - destruct p; [constructor|cbn in L; lia].
  - inversion ND as [|? ? NI ND']; subst. assert (Ra : poly p a = 0) by (apply R; left; reflexivity).
    apply (pdiv_zero a); [|exact Ra]. apply IH; [exact ND'|rewrite length_pdiv; cbn in L; lia|].
    intros b I. assert (E := pdiv_spec a p b). rewrite (R b) in E by (right; exact I). rewrite Ra in E.
    assert (Z : (b - a) * poly (pdiv a p) b = 0) by (transitivity ((b - a) * poly (pdiv a p) b + 0); [ring|symmetry; exact E]).
    apply Rmult_integral in Z. destruct Z as [Z|Z]; [|exact Z]. exfalso. apply NI. replace a with b; [exact I|].
    transitivity (b - a + a); [ring|rewrite Z; ring].
Qed.
Lemma zero_poly p x : Forall (fun c => c = 0) p -> poly p x = 0 /\ poly (dpoly p) x = 0.
Proof.
  intros F. assert (P : forall q, Forall (fun c => c = 0) q -> poly q x = 0).
  { induction 1 as [|c q E _ IH]; cbn; [reflexivity|]. rewrite E, IH. ring. }
  split; [apply P, F|]. destruct F as [|c q _ F]; [reflexivity|]. cbn [dpoly]. generalize 1%Z. induction F as [|d q E F IH]; intros k; cbn; [reflexivity|].
  rewrite E, IH. ring.
Qed.

(** ** Products of linear factors *)
Definition nodal (l : list R) : list R := fold_right plin [1] l.
Lemma others_cons xk a w : others xk (a :: w) = if reqb a xk then others xk w else a :: others xk w.
Proof. unfold others. cbn [filter]. destruct (reqb a xk); reflexivity. Qed.

Lemma reqb_true a b : reqb a b = true <-> a = b.
Proof. unfold reqb. destruct (Req_EM_T a b); split; congruence. Qed.
Lemma reqb_sym a b : reqb a b = reqb b a.
Proof. unfold reqb. destruct (Req_EM_T a b), (Req_EM_T b a); congruence. Qed.
Lemma reqb_refl a : reqb a a = true.
Proof. apply reqb_true. reflexivity. Qed.
Lemma in_others xk w xi : In xi (others xk w) <-> In xi w /\ xi <> xk.
Proof.
  unfold others. rewrite filter_In. destruct (reqb xi xk) eqn:E.
  - apply reqb_true in E. cbn. intuition congruence.
  - cbn. assert (xi <> xk) by (intros ->; rewrite reqb_refl in E; discriminate). tauto.
Qed.
Lemma others_nodup xk w : NoDup w -> NoDup (others xk w).
Proof. apply NoDup_filter. Qed.
Lemma others_notin xk w : ~ In xk w -> others xk w = w.
Proof.
  intros N. induction w as [|a w IH]; [reflexivity|]. unfold others. cbn [filter].
  destruct (reqb a xk) eqn:E; [apply reqb_true in E; subst; destruct N; left; reflexivity|]. cbn [negb]. f_equal. apply IH.
  intros I. apply N. right. exact I.
Qed.
Lemma others_length xk w : NoDup w -> In xk w -> length w = S (length (others xk w)).
Proof.
  intros ND I. induction w as [|a w IH]; [destruct I|]. inversion ND as [|? ? NI ND']; subst. cbn [length]. f_equal.
  unfold others. cbn [filter]. destruct I as [<-|I].
  - rewrite reqb_refl. cbn [negb]. fold (others a w). rewrite others_notin by exact NI. reflexivity.
  - destruct (reqb a xk) eqn:E; [apply reqb_true in E; subst; contradiction|]. cbn [negb length]. apply IH; assumption.
Qed.

Lemma poly_nodal l x : poly (nodal l) x = prodl (fun a => x - a) l.
Proof. induction l as [|a l IH]; cbn [nodal fold_right prodl]; [cbn; ring|]. rewrite poly_plin. fold (nodal l). rewrite IH. reflexivity. Qed.
Lemma length_nodal l : length (nodal l) = S (length l).
Proof. induction l as [|a l IH]; cbn [nodal fold_right]; [reflexivity|]. rewrite length_plin. fold (nodal l). rewrite IH. reflexivity. Qed.
Lemma prodl_zero f l a : In a l -> f a = 0 -> prodl f l = 0.
Proof. intros I Z. induction l as [|b l IH]; [destruct I|]. cbn. destruct I as [->|I]; [rewrite Z; ring|rewrite IH by exact I; ring]. Qed.
Lemma prodl_nonzero f l : (forall a, In a l -> f a <> 0) -> prodl f l <> 0.
Proof.
  intros H. induction l as [|b l IH]; cbn; [lra|]. intros E. apply Rmult_integral in E. destruct E as [E|E].
  - exact (H b (or_introl eq_refl) E).
  - apply IH; [|exact E]. intros a I. apply H. right. exact I.
Qed.

Lemma suml_ext f g l : (forall a, In a l -> f a = g a) -> suml f l = suml g l.
Proof. intros H. induction l as [|a l IH]; [reflexivity|]. cbn. rewrite H by (left; reflexivity). rewrite IH; [reflexivity|]. intros; apply H; right; assumption. Qed.
Lemma suml_scale c f l : suml (fun a => c * f a) l = c * suml f l.
Proof. induction l as [|a l IH]; cbn; [ring|]. rewrite IH. ring. Qed.
Lemma dpoly_nodal l x : NoDup l -> poly (dpoly (nodal l)) x = suml (fun j => prodl (fun a => x - a) (others j l)) l.
Proof.
  intros ND. induction l as [|a l IH]; [reflexivity|]. inversion ND as [|? ? NI ND']; subst.
  cbn [nodal fold_right suml]. fold (nodal l). rewrite dpoly_plin, poly_nodal, (IH ND'). f_equal.
  - unfold others. cbn [filter]. rewrite reqb_refl. cbn [negb]. fold (others a l). rewrite others_notin by exact NI. reflexivity.
  - rewrite <- suml_scale. apply suml_ext. intros j I. unfold others. cbn [filter].
    destruct (reqb a j) eqn:E; [apply reqb_true in E; subst; contradiction|]. cbn [negb prodl]. reflexivity.
Qed.

(** ** The interpolating polynomial *)
Definition basis (w : list R) (xk : R) : list R :=
  pscale (/ prodl (fun xi => xk - xi) (others xk w)) (nodal (others xk w)).
Lemma sub_zero a b : a - b = 0 -> a = b.
Proof. intros E. transitivity (a - b + b); [ring|rewrite E; ring]. Qed.
Lemma basis_den w xk : prodl (fun xi => xk - xi) (others xk w) <> 0.
Proof. apply prodl_nonzero. intros a I E. apply in_others in I. apply sub_zero in E. destruct I. congruence. Qed.
Lemma basis_self w xk : poly (basis w xk) xk = 1.
Proof. unfold basis. rewrite poly_pscale, poly_nodal. field. apply basis_den. Qed.
Lemma basis_other w xk xj : In xj w -> xj <> xk -> poly (basis w xk) xj = 0.
Proof.
  intros I N. unfold basis. rewrite poly_pscale, poly_nodal.
  rewrite (prodl_zero (fun a => xj - a) _ xj); [ring|apply in_others; auto|ring].
Qed.
Lemma basis_length w xk : NoDup w -> In xk w -> length (basis w xk) = length w.
Proof. intros ND I. unfold basis. rewrite length_pscale, length_nodal. symmetry. apply others_length; assumption. Qed.

Definition lagrange (w : list R) (f : R -> R) : list R := fold_right (fun xk acc => padd (pscale (f xk) (basis w xk)) acc) [] w.
Lemma lagrange_gen w f l x :
  poly (fold_right (fun xk acc => padd (pscale (f xk) (basis w xk)) acc) [] l) x = suml (fun xk => f xk * poly (basis w xk) x) l /\
  poly (dpoly (fold_right (fun xk acc => padd (pscale (f xk) (basis w xk)) acc) [] l)) x = suml (fun xk => f xk * poly (dpoly (basis w xk)) x) l /\
  (NoDup w -> (forall a, In a l -> In a w) -> (length (fold_right (fun xk acc => padd (pscale (f xk) (basis w xk)) acc) [] l) <= length w)%nat).
Proof.
  induction l as [|a l (I1 & I2 & I3)]; cbn [fold_right suml]; [repeat split; cbn; lia|]. split; [|split].
  - rewrite poly_padd, poly_pscale, I1. reflexivity.
  - rewrite dpoly_padd, dpoly_pscale, I2. reflexivity.
  - intros ND S. rewrite length_padd, length_pscale, basis_length by (auto; apply S; left; reflexivity).
    specialize (I3 ND (fun b J => S b (or_intror J))). lia.
Qed.
Lemma suml_one w f xj : NoDup w -> In xj w -> suml (fun xk => f xk * poly (basis w xk) xj) w = f xj.
Proof.
  intros ND I.
  assert (G : forall l, NoDup l -> (forall a, In a l -> In a w) ->
    suml (fun xk => f xk * poly (basis w xk) xj) l = if in_dec Req_EM_T xj l then f xj else 0).
  { induction l as [|a l IH]; intros NDl S; [reflexivity|]. inversion NDl as [|? ? NI NDl']; subst.
    cbn [suml]. rewrite IH by (auto; intros; apply S; right; assumption).
    destruct (in_dec Req_EM_T xj (a :: l)) as [J|J], (in_dec Req_EM_T xj l) as [K|K].
    - rewrite (basis_other w a xj) by (auto; intros ->; contradiction). ring.
    - destruct J as [->|J]; [|contradiction]. rewrite basis_self. ring.
    - destruct J. right. exact K.
    - rewrite (basis_other w a xj) by (auto; intros ->; apply J; left; reflexivity). ring. }
  rewrite G by auto. destruct (in_dec Req_EM_T xj w); [reflexivity|contradiction].
Qed.

Lemma lagrange_exact w p x : NoDup w -> (length p <= length w)%nat ->
  suml (fun xk => poly p xk * poly (basis w xk) x) w = poly p x /\
  suml (fun xk => poly p xk * poly (dpoly (basis w xk)) x) w = poly (dpoly p) x.
Proof.
  intros ND L. set (q := lagrange w (poly p)). destruct (lagrange_gen w (poly p) w x) as (G1 & G2 & G3).
  fold (lagrange w (poly p)) in G1, G2, G3. fold q in G1, G2, G3.
  assert (Z : Forall (fun c => c = 0) (padd p (pscale (- (1)) q))).
  { apply (few_roots w); [exact ND|rewrite length_padd, length_pscale; specialize (G3 ND (fun a I => I)); lia|].
    intros a I. rewrite poly_padd, poly_pscale. replace (poly q a) with (poly p a); [ring|].
    symmetry. unfold q, lagrange. rewrite (proj1 (lagrange_gen w (poly p) w a)). apply suml_one; assumption. }
  destruct (zero_poly _ x Z) as (Z1 & Z2). rewrite poly_padd, poly_pscale in Z1. rewrite dpoly_padd, dpoly_pscale in Z2.
  rewrite <- G1, <- G2. split; apply sub_zero.
  - replace (poly q x - poly p x) with (- (poly p x + - (1) * poly q x)) by ring. rewrite Z1. ring.
  - replace (poly (dpoly q) x - poly (dpoly p) x) with (- (poly (dpoly p) x + - (1) * poly (dpoly q) x)) by ring. rewrite Z2. ring.
Qed.


(** ** The weights *)
Lemma weight_basis w x xk : weight w x xk = poly (basis w xk) x.
Proof. unfold weight, basis. rewrite poly_pscale, poly_nodal. field. apply basis_den. Qed.
Lemma dweight_basis w x xk : NoDup w -> dweight w x xk = poly (dpoly (basis w xk)) x.
Proof.
  intros ND. unfold dweight, basis. rewrite dpoly_pscale, dpoly_nodal by (apply others_nodup; exact ND). field. apply basis_den.
Qed.
Lemma blend_map F f w : blend F w (map f w) = suml (fun xk => f xk * F xk) w.
Proof. induction w as [|a w IH]; cbn; [reflexivity|]. rewrite IH. reflexivity. Qed.
Lemma weights_exact w p x : NoDup w -> (length p <= length w)%nat ->
  blend (weight w x) w (map (poly p) w) = poly p x /\ blend (dweight w x) w (map (poly p) w) = poly (dpoly p) x.
Proof.
  intros ND L. rewrite !blend_map. destruct (lagrange_exact w p x ND L) as (<- & <-). split; apply suml_ext; intros a _.
  - rewrite weight_basis. reflexivity.
  - rewrite dweight_basis by exact ND. reflexivity.
Qed.
Lemma weight_self w xk : weight w xk xk = 1.
Proof. rewrite weight_basis. apply basis_self. Qed.
Lemma weight_other w xk xj : In xj w -> xj <> xk -> weight w xj xk = 0.
Proof. intros I N. rewrite weight_basis. apply basis_other; assumption. Qed.
