(** Analytic field functions: proofs for C55. *)
From Coq Require Import Reals Lra.
From Verif Require Import Prelude WindowM WindowS WindowP GhostM FieldM FieldS FieldP MaskM MaskS MaskP NeboM NeboS NeboP NeboQ NeboA NeboB NeboC NeboD NeboE NeboF BCS FuncM FuncS.

(** Expressions that read x in place and nothing else. *)
Definition inplace (x : field) (e : expr R) : Prop :=
  (forall l m u, In (l, m, u) (demands R e iv_zero iv_zero) -> m = iv_zero /\ u = iv_zero /\ (l = LConst \/ l = LField x)) /\
  (forall g s, In (g, s) (reads R e iv_zero) -> g = x /\ s = iv_zero) /\
  masks R e iv_zero = [] /\ singles R e = [].
Lemma in_field x : inplace x (EField R x).
Proof. repeat split; cbn in *; try tauto; destruct H as [H|[]]; injection H as <- <-; auto; try (intros; subst); auto. Qed.
Lemma in_num x v : inplace x (num v).
Proof. repeat split; cbn in *; try tauto; destruct H as [H|[]]; injection H as <- <-; auto; intros; subst; auto. Qed.
Lemma in_fun x g e : inplace x e -> inplace x (fun1 g e).
Proof. auto. Qed.
Lemma in_op x o a b : inplace x a -> inplace x b -> inplace x (EOp2 R o a b).
Proof.
  intros (A1 & A2 & A3 & A4) (B1 & B2 & B3 & B4). split; [|split; [|split]]; cbn.
  - intros l m u I. apply in_app_or in I. destruct I; auto.
  - intros g s I. apply in_app_or in I. destruct I; auto.
  - rewrite A3, B3. reflexivity.
  - rewrite A4, B4. reflexivity.
Qed.
Lemma in_gauss x b xo : inplace x (gauss_arg b xo (EField R x)).
Proof. repeat apply in_op; auto using in_num, in_field. Qed.

Lemma zero_any n h f : destination_ok R n h f -> any_cell n f iv_zero.
Proof.
  intros ((Pn & Pe & _ & _ & Gn & Gl & _) & _). unfold any_cell, reach, in_region, iv_zero, iv_neg, iv_add.
  unfold pos_dims, iv_le, g_nonneg, g_le, iv_le, iv_zero in *. cbn [ix iy iz] in *. lia.
Qed.

Lemma stores_inplace n h x f e (v : R -> R) : coordinates n h x f -> inplace x e ->
  (In (LField x, iv_zero, iv_zero) (demands R e iv_zero iv_zero)) ->
  (forall p, denote R Rplus Rmult h e p = v (value R h x p)) ->
  stores (fun fuel f => fill fuel f e) h f (shared n x f) (fun p => v (value R h x p)).
Proof.
  intros (O & D & Al & Cx & Fin) (I1 & I2 & I3 & I4) Ix Hv.
  destruct (proj1 O x iv_zero (or_introl eq_refl)) as (Px & Bx).
  assert (Oe : operands_ok R n h e).
  { split; [|split].
    - intros g s I. destruct (I2 g s I) as (-> & ->). split; [exact Px|exact Bx].
    - rewrite I3. intros ? ? [].
    - rewrite I4. intros ? []. }
  assert (Ale : alias_ok R f e).
  { intros g s I. destruct (I2 g s I) as (-> & ->). apply (Al x iv_zero). left. reflexivity. }
  destruct Fin as (F1 & F2 & F3 & F4 & F5). unfold iv_le, g_nonneg, iv_le, iv_zero, iv_add in F1, F2, F3, F4. cbn [ix iy iz] in F1, F2, F3, F4.
  assert (Ce : covers_extra R f e).
  { intros l m u I. destruct (I1 l m u I) as (-> & -> & [-> | ->]).
    - cbn [layers snd iv_zero ix iy iz]. repeat split; intros _; lia.
    - apply (Cx (LField x) iv_zero iv_zero). left. reflexivity. }
  assert (RR : forall p, region R n f e p <-> shared n x f p).
  { intros p. split.
    - intros (A & K). split; [exact A|]. specialize (K _ _ _ Ix p).
      assert (L : iv_le (iv_sub p iv_zero) p /\ iv_le p (iv_add p iv_zero)) by (unfold iv_le, iv_sub, iv_add, iv_zero; cbn [ix iy iz]; lia).
      specialize (K (proj1 L) (proj2 L)). unfold known, in_region in K. unfold valid_cell, reach, in_region. cbn [layers fst snd] in K.
      unfold iv_add in *. cbn [ix iy iz] in *. lia.
    - intros (A & K). split; [exact A|]. intros l m u I q L U. destruct (I1 l m u I) as (-> & -> & Hl).
      assert (q = p) as ->.
      { unfold iv_le, iv_sub, iv_add, iv_zero in L, U. cbn [ix iy iz] in L, U. destruct p as [p1 p2 p3], q as [q1 q2 q3]. cbn [ix iy iz] in *. f_equal; lia. }
      unfold known, in_region. unfold valid_cell, any_cell, reach, in_region in *. destruct Hl as [-> | ->]; cbn [layers fst snd];
      unfold iv_add, iv_neg in *; cbn [ix iy iz] in *; lia. }
  assert (NE : exists p, region R n f e p).
  { exists iv_zero. apply RR. split; [apply (zero_any n h), D|]. destruct Px as (Pn & Pe & _ & _ & Gn & _).
    unfold valid_cell, reach, in_region, iv_zero, iv_neg, iv_add.
    unfold pos_dims, iv_le, g_nonneg, g_le, iv_le, iv_zero in *. cbn [ix iy iz] in *. lia. }
  destruct (assign_correct R Rplus Rmult n h f e Oe D Ale Ce NE) as (N & HN). exists N. intros fuel Hf.
  destruct (HN fuel Hf) as (h' & E & A). exists h'. split; [exact E|].
  apply (assigned_ext R h h' f _ _ _ RR). destruct A as (A1 & A2 & A3). split; [exact A1|]. split; [|exact A3].
  intros p P. rewrite (A2 p P). apply Hv.
Qed.

Lemma stores_num n h f v : destination_ok R n h f -> finite_ghosts f ->
  stores (fun fuel f => fill fuel f (num v)) h f (any_cell n f) (fun _ => v).
Proof.
  intros D Fin. pose proof D as (Po & _).
  destruct Fin as (F1 & F2 & F3 & F4 & F5). unfold iv_le, g_nonneg, iv_le, iv_zero, iv_add in F1, F2, F3, F4. cbn [ix iy iz] in F1, F2, F3, F4.
  assert (RR : forall p, region R n f (num v) p <-> any_cell n f p).
  { intros p. split; [intros (A & _); exact A|]. intros A. split; [exact A|]. intros l m u I q L U.
    cbn in I. destruct I as [I|[]]. injection I as <- <- <-.
    assert (q = p) as ->.
    { unfold iv_le, iv_sub, iv_add, iv_zero in L, U. cbn [ix iy iz] in L, U. destruct p as [p1 p2 p3], q as [q1 q2 q3]. cbn [ix iy iz] in *. f_equal; lia. }
    unfold known, in_region. unfold any_cell, reach, in_region in *. cbn [layers fst snd];
    unfold iv_add, iv_neg in *; cbn [ix iy iz] in *; lia. }
  destruct (assign_correct R Rplus Rmult n h f (num v)) as (N & HN); [|exact D|..].
  - split; [intros ? ? []|]. split; [intros ? ? []|intros ? []].
  - intros ? ? [].
  - intros l m u I. cbn in I. destruct I as [I|[]]. injection I as <- <- <-. cbn [layers snd iv_zero ix iy iz]. repeat split; intros _; lia.
  - exists iv_zero. apply RR. apply (zero_any n h), D.
  - exists N. intros fuel Hf. destruct (HN fuel Hf) as (h' & E & A). exists h'. split; [exact E|].
    exact (assigned_ext R h h' f _ _ _ RR A).
Qed.

Open Scope R_scope.

Lemma der_eq (f g : R -> R) t l l' : derivable_pt_lim f t l -> (forall s, f s = g s) -> l = l' -> derivable_pt_lim g t l'.
Proof.
  intros H E <- eps Hp. destruct (H eps Hp) as (d & Hd). exists d. intros s Hs Hl. rewrite <- !E. apply Hd; assumption.
Qed.
Lemma der_scal a t : derivable_pt_lim (fun s => a * s) t a.
Proof. eapply der_eq; [apply derivable_pt_lim_scal, derivable_pt_lim_id|reflexivity|ring]. Qed.
Lemma der_shift (f : R -> R) t l c : derivable_pt_lim f t l -> derivable_pt_lim (fun s => f s + c) t l.
Proof. intros H. eapply der_eq; [apply (derivable_pt_lim_plus f (fct_cte c)); [exact H|apply derivable_pt_lim_const]|reflexivity|ring]. Qed.
Lemma der_comp (f g : R -> R) t l k : derivable_pt_lim f t l -> derivable_pt_lim g (f t) k -> derivable_pt_lim (fun s => g (f s)) t (k * l).
Proof. intros F G. eapply der_eq; [apply (derivable_pt_lim_comp f g); eassumption|reflexivity|reflexivity]. Qed.
Lemma der_mult (f g : R -> R) t l k : derivable_pt_lim f t l -> derivable_pt_lim g t k -> derivable_pt_lim (fun s => f s * g s) t (l * g t + f t * k).
Proof. intros F G. eapply der_eq; [apply (derivable_pt_lim_mult f g); eassumption|reflexivity|reflexivity]. Qed.
Lemma der_cmul (f : R -> R) t l c : derivable_pt_lim f t l -> derivable_pt_lim (fun s => c * f s) t (c * l).
Proof. intros F. eapply der_eq; [apply (derivable_pt_lim_scal f c); eassumption|reflexivity|reflexivity]. Qed.

Lemma line_der m b : derivative (line m b) (fun _ => m).
Proof. intros t. unfold line. apply der_shift, der_scal. Qed.
Lemma const_der m : derivative (fun _ => m) (fun _ => 0).
Proof. intros t. apply derivable_pt_lim_const. Qed.

Definition wave1 (a b t : R) : R := a * b * cos (t * b).
Definition wave2 (a b t : R) : R := - a * b * b * sin (t * b).
Lemma wave_der a b c : derivative (wave a b c) (wave1 a b).
Proof.
  intros t. unfold wave, wave1. apply der_shift.
  eapply der_eq; [apply der_cmul, (der_comp (fun s => b * s) sin); [apply der_scal|apply derivable_pt_lim_sin]|reflexivity|].
  cbv beta. rewrite (Rmult_comm b t). ring.
Qed.
Lemma wave1_der a b : derivative (wave1 a b) (wave2 a b).
Proof.
  intros t. unfold wave1, wave2.
  eapply der_eq; [apply der_cmul, (der_comp (fun s => b * s) cos); [apply der_scal|apply derivable_pt_lim_cos]| |].
  - intros s. cbv beta. rewrite (Rmult_comm b s). reflexivity.
  - cbv beta. rewrite (Rmult_comm b t). ring.
Qed.

(** The exponent and the derivatives of the bell, written with b = 2 sigma^2. *)
Definition ex (b x0 t : R) : R := exp (-1 / b * (t - x0) * (t - x0)).
Definition bell1 (a b x0 t : R) : R := -2 / b * (t - x0) * (a * ex b x0 t).
Definition bell2 (a b x0 t : R) : R := -2 / b * (a * ex b x0 t) * (1 - 2 / b * (t - x0) * (t - x0)).
Lemma minus_der x0 t : derivable_pt_lim (fun s => s - x0) t 1.
Proof. eapply der_eq; [apply (der_shift (fun s => s) t 1 (- x0)), derivable_pt_lim_id|reflexivity|reflexivity]. Qed.
Lemma ex_der b x0 t : b <> 0 -> derivable_pt_lim (ex b x0) t (-2 / b * (t - x0) * ex b x0 t).
Proof.
  intros B. unfold ex.
  eapply der_eq; [apply (der_comp (fun s => -1 / b * (s - x0) * (s - x0)) exp); [|apply derivable_pt_lim_exp]|reflexivity|].
  - apply der_mult; [apply der_cmul, minus_der|apply minus_der].
  - cbv beta. field. exact B.
Qed.
Lemma bell_ex a sg x0 y0 t : sg <> 0 -> bell a sg x0 y0 t = a * ex (2 * sg * sg) x0 t + y0.
Proof.
  intros H. unfold bell, ex. rewrite Rplus_comm. do 3 f_equal. field. exact H.
Qed.
Lemma bell_der a sg x0 y0 : sg <> 0 -> derivative (bell a sg x0 y0) (bell1 a (2 * sg * sg) x0).
Proof.
  intros H t. assert (B : 2 * sg * sg <> 0) by nra.
  eapply der_eq; [apply der_shift, der_cmul, (ex_der (2 * sg * sg) x0 t B)|intros s; rewrite (bell_ex a sg x0 y0 s H); reflexivity|].
  unfold bell1. ring.
Qed.
Lemma bell1_der a b x0 : b <> 0 -> derivative (bell1 a b x0) (bell2 a b x0).
Proof.
  intros B t. unfold bell1.
  eapply der_eq; [apply der_mult; [apply der_cmul, minus_der|apply der_cmul, (ex_der b x0 t B)]|reflexivity|].
  unfold bell2. cbv beta. field. exact B.
Qed.
Lemma der_unique f g g' : derivative f g -> derivative f g' -> forall t, g t = g' t.
Proof. intros H H' t. eapply uniqueness_limite; [apply H|apply H']. Qed.

(** What the code stores for the first derivative of a bell. *)
Definition bell_dx (b x0 y0 t : R) : R := -2 / b * (t - x0) * (t - x0) * ex b x0 t + y0.
Lemma bell_dx_wrong a b x0 y0 : b <> 0 -> exists t, bell_dx b x0 y0 t <> bell1 a b x0 t.
Proof.
  intros B. unfold bell_dx, bell1.
  destruct (Req_dec y0 0) as [-> | Y]; [|exists x0; replace (x0 - x0) with 0 by ring; nra].
  assert (P : forall t, 0 < ex b x0 t) by (intros; apply exp_pos).
  assert (Q : -2 / b <> 0) by (unfold Rdiv; apply Rmult_integral_contrapositive; split; [lra|apply Rinv_neq_0_compat; exact B]).
  destruct (Req_dec a 1) as [-> | A].
  - exists (x0 - 1). specialize (P (x0 - 1)). replace (x0 - 1 - x0) with (-1) by ring. intros E.
    apply (Rmult_integral_contrapositive _ _ (conj Q (Rgt_not_eq _ _ P))). lra.
  - exists (x0 + 1). specialize (P (x0 + 1)). replace (x0 + 1 - x0) with 1 by ring. intros E.
    assert (Z : (-2 / b) * ex b x0 (x0 + 1) * (1 - a) = 0) by lra.
    apply Rmult_integral in Z. destruct Z as [Z|Z]; [|lra].
    apply (Rmult_integral_contrapositive _ _ (conj Q (Rgt_not_eq _ _ P))). exact Z.
Qed.

Ltac inpl := repeat first [apply in_gauss | apply in_op | apply in_num | apply in_field | apply in_fun].
Ltac occurs := cbn; tauto.

Lemma linear_ok n h x f m b : coordinates n h x f ->
  stores (evaluate (linear_function m b) x) h f (shared n x f) (fun p => line m b (value R h x p)) /\
  exists g1 g2, derivative (line m b) g1 /\ derivative g1 g2 /\
    stores (dx (linear_function m b) x) h f (any_cell n f) (fun p => g1 (value R h x p)) /\
    stores (d2x (linear_function m b) x) h f (any_cell n f) (fun p => g2 (value R h x p)).
Proof.
  intros C. split.
  - apply (stores_inplace n h x f _ (line m b) C); [cbn; inpl|occurs|]. intros p. cbn. unfold line. ring.
  - exists (fun _ => m), (fun _ => 0). split; [apply line_der|]. split; [apply const_der|].
    destruct C as (_ & D & _ & _ & Fi). split; apply stores_num; assumption.
Qed.
Lemma sin_ok n h x f a b c : coordinates n h x f ->
  stores (evaluate (sin_function a b c) x) h f (shared n x f) (fun p => wave a b c (value R h x p)) /\
  exists g1 g2, derivative (wave a b c) g1 /\ derivative g1 g2 /\
    stores (dx (sin_function a b c) x) h f (shared n x f) (fun p => g1 (value R h x p)) /\
    stores (d2x (sin_function a b c) x) h f (shared n x f) (fun p => g2 (value R h x p)).
Proof.
  intros C. split.
  - apply (stores_inplace n h x f _ (wave a b c) C); [cbn; inpl|occurs|]. intros p. cbn. unfold wave. rewrite (Rmult_comm b). reflexivity.
  - exists (wave1 a b), (wave2 a b). split; [apply wave_der|]. split; [apply wave1_der|].
    split; (apply (stores_inplace n h x f _ _ C); [cbn; inpl|occurs|]); intros p; reflexivity.
Qed.
Lemma gaussian_ok n h x f a sg x0 y0 : coordinates n h x f -> sg <> 0 ->
  stores (evaluate (gaussian_function a sg x0 y0) x) h f (shared n x f) (fun p => bell a sg x0 y0 (value R h x p)) /\
  exists g1 g2, derivative (bell a sg x0 y0) g1 /\ derivative g1 g2 /\
    stores (d2x (gaussian_function a sg x0 y0) x) h f (shared n x f) (fun p => g2 (value R h x p)).
Proof.
  intros C S. split.
  - apply (stores_inplace n h x f _ (bell a sg x0 y0) C); [cbn; inpl|occurs|]. intros p. rewrite bell_ex by exact S. reflexivity.
  - exists (bell1 a (2 * sg * sg) x0), (bell2 a (2 * sg * sg) x0). split; [apply bell_der, S|]. split; [apply bell1_der; nra|].
    apply (stores_inplace n h x f _ _ C); [cbn; inpl|occurs|]; intros p; reflexivity.
Qed.
Lemma hypertan_ok n h x f A w l1 l2 : coordinates n h x f -> w <> 0 ->
  stores (evaluate (hypertan_function A w l1 l2) x) h f (shared n x f) (fun p => step A w l1 l2 (value R h x p)).
Proof.
  intros C _. apply (stores_inplace n h x f _ (step A w l1 l2) C); [cbn; inpl|occurs|]. intros p. cbn. unfold step. field.
Qed.
Lemma gaussian_dx_wrong a sg x0 y0 : sg <> 0 -> exists t, forall g, derivative (bell a sg x0 y0) g ->
  forall n h x f p, coordinates n h x f -> shared n x f p -> value R h x p = t ->
  exists N, forall fuel, (N <= fuel)%nat -> exists h', run (dx (gaussian_function a sg x0 y0) x fuel f) h = RDone h' tt /\
    value R h' f p <> g t.
Proof.
  intros S. assert (B : 2 * sg * sg <> 0) by nra. destruct (bell_dx_wrong a (2 * sg * sg) x0 y0 B) as (t & T). exists t.
  intros g G n h x f p C P V.
  assert (H : stores (dx (gaussian_function a sg x0 y0) x) h f (shared n x f) (fun p => bell_dx (2 * sg * sg) x0 y0 (value R h x p))).
  { apply (stores_inplace n h x f _ _ C); [cbn; inpl|occurs|]; intros q; reflexivity. }
  destruct H as (N & H). exists N. intros fuel Hf. destruct (H fuel Hf) as (h' & E & _ & A & _). exists h'. split; [exact E|].
  rewrite (A p P), V, (der_unique _ _ _ G (bell_der a sg x0 y0 S) t). exact T.
Qed.
Lemma hypertan_dx_nothing A w l1 l2 h x f fuel : run (dx (hypertan_function A w l1 l2) x fuel f) h = RDone h tt /\
  run (d2x (hypertan_function A w l1 l2) x fuel f) h = RDone h tt.
Proof. split; reflexivity. Qed.

(** A concrete case: coordinates xt and destination xf of NeboE, all cells of
    every block holding t. *)
Definition rheap (t : R) : heap R := fun _ => Block (fun i => (0 <=? i)%Z && (i <? 200)%Z) (fun _ => t).
Lemma r_coordinates t : coordinates xdim (rheap t) xt xf.
Proof.
  split; [|split; [|split; [|split]]].
  - split; [|split; intros; cbn in *; tauto]. intros g s I. cbn in I. destruct I as [I|[]]. injection I as <- <-.
    split; [apply user_field_on_patch, user_xt|]. intros p P. apply xcell_ok; [cbn; auto|right; exact P].
  - split; [apply user_field_on_patch, user_xf|]. split; [reflexivity|]. intros p P. apply xcell_ok; [cbn; auto|left; exact P].
  - intros g s I. cbn in I. destruct I as [I|[]]. injection I as <- <-. left. discriminate.
  - intros l m u I. cbn in I. destruct I as [I|[]]. injection I as <- <- <-. cbn. repeat split; intros; lia.
  - unfold finite_ghosts, g_nonneg, iv_le. cbn. unfold GHOST_MAX. repeat split; lia.
Qed.
Lemma r_shared : shared xdim xt xf (IV 3 (-1) 0) /\ shared xdim xt xf (IV 1 1 0).
Proof. unfold shared, any_cell, valid_cell, reach, in_region. cbn. lia. Qed.
