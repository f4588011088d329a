(** Proofs about vectors of three ints. *)
From Coq Require Zquot Znumtheory.
From Verif Require Import Prelude WindowM Vec3M Vec3S.

Lemma int32_ok z r : int32 z = Ok r <-> r = z /\ is_int z.
Proof.
  unfold int32, is_int. destruct (Z.leb_spec (- 2 ^ 31) z), (Z.ltb_spec z (2 ^ 31)); cbn [andb];
    split; try discriminate; try (intros [= <-]; auto); try (intros (-> & ?); auto; lia).
Qed.
Lemma int32_not z : int32 z <> Throw.
Proof. unfold int32. destruct (_ && _); discriminate. Qed.
Lemma quot_value a b r : b <> 0 -> (Z.abs (a - b * r) < Z.abs b /\ 0 <= a * (a - b * r) <-> r = Z.quot a b).
Proof.
  intros B. split.
  - intros (L & S). apply (Zquot.Zquot_unique_full a b r (a - b * r)); [|lia].
    unfold Zquot.Remainder. destruct (Z_lt_le_dec a 0) as [N|N].
    + right. split; [lia|]. assert (a - b * r <= 0) by nia. lia.
    + left. split; [lia|]. destruct (Z.eq_dec a 0) as [->|].
      * assert (r = 0) by nia. subst. lia.
      * assert (0 <= a - b * r) by nia. lia.
  - intros ->. pose proof (Z.quot_rem a b B) as E. pose proof (Z.rem_bound_abs a b B) as L. pose proof (Z.rem_sign_mul a b B) as S.
    replace (a - b * Z.quot a b) with (Z.rem a b) by lia. split; [exact L|lia].
Qed.
Lemma int_op_ok o a b r : int_op o a b = Ok r <-> value_of o a b r /\ is_int r.
Proof.
  destruct o; cbn [int_op value_of].
  1-3: rewrite int32_ok; intuition (subst; auto).
  destruct (Z.eqb_spec b 0) as [->|B].
  - split; [discriminate|]. intros ((C & _) & _). congruence.
  - rewrite int32_ok. pose proof (quot_value a b r B). intuition (subst; auto; congruence).
Qed.
Lemma int_op_not o a b : int_op o a b <> Throw.
Proof. destruct o; cbn [int_op]; try apply int32_not. destruct (b =? 0); [discriminate|apply int32_not]. Qed.

Definition vec3 (f : axis -> outcome Z) : outcome ivec := do x <- f AxX; do y <- f AxY; do z <- f AxZ; Ok (IV x y z).
Lemma vec3_ok f v : vec3 f = Ok v <-> forall k, f k = Ok (comp v k).
Proof.
  unfold vec3. split.
  - destruct (f AxX) eqn:X; try discriminate. cbn [obind]. destruct (f AxY) eqn:Y; try discriminate. cbn [obind].
    destruct (f AxZ) eqn:Z; try discriminate. cbn [obind]. intros [= <-] []; assumption.
  - intros H. rewrite (H AxX), (H AxY), (H AxZ). destruct v; reflexivity.
Qed.
Lemma vec3_not f : (forall k, f k <> Throw) -> vec3 f <> Throw.
Proof.
  intros H. unfold vec3. pose proof (H AxX). pose proof (H AxY). pose proof (H AxZ).
  destruct (f AxX), (f AxY), (f AxZ); cbn [obind]; congruence.
Qed.
Lemma vec_op_3 o v w : vec_op o v w = vec3 (fun k => int_op o (comp v k) (comp w k)).
Proof. reflexivity. Qed.
Lemma num_op_3 o v s : num_op o v s = vec3 (fun k => int_op o (comp v k) s).
Proof. reflexivity. Qed.
Lemma vput_same e d v : vput e d v d = v.
Proof. unfold vput. rewrite Nat.eqb_refl. reflexivity. Qed.
Lemma vput_other e d v n : n <> d -> vput e d v n = e n.
Proof. intros. unfold vput. destruct (Nat.eqb_spec n d); congruence. Qed.
Lemma vec_upd_op o e d a :
  match vec_op o (e d) (e a) with
  | Ok v => exists e', vec_upd o e d a = Ok e' /\ forall n, e' n = vput e d v n
  | Throw => False
  | UB => vec_upd o e d a = UB
  end.
Proof.
  unfold vec_op, vec_upd.
  pose proof (int_op_not o (ix (e d)) (ix (e a))). pose proof (int_op_not o (iy (e d)) (iy (e a))). pose proof (int_op_not o (iz (e d)) (iz (e a))).
  destruct (int_op o (ix (e d)) (ix (e a))) as [x| |]; cbn [obind]; try congruence.
  rewrite vput_same. cbn [ix iy iz].
  assert (A1 : iy (vput e d (IV x (iy (e d)) (iz (e d))) a) = iy (e a)) by (unfold vput; destruct (Nat.eqb_spec a d) as [->|]; reflexivity).
  rewrite A1.
  destruct (int_op o (iy (e d)) (iy (e a))) as [y| |]; cbn [obind]; try congruence.
  rewrite !vput_same. cbn [ix iy iz].
  assert (A2 : iz (vput (vput e d (IV x (iy (e d)) (iz (e d)))) d (IV x y (iz (e d))) a) = iz (e a))
    by (unfold vput; destruct (Nat.eqb_spec a d) as [->|]; reflexivity).
  rewrite A2.
  destruct (int_op o (iz (e d)) (iz (e a))) as [z| |]; cbn [obind]; try congruence.
  eexists. split; [reflexivity|]. intros n. unfold vput. destruct (Nat.eqb n d); reflexivity.
Qed.

Lemma comp_eq v w : (forall k, comp v k = comp w k) -> v = w.
Proof. intros H. pose proof (H AxX). pose proof (H AxY). pose proof (H AxZ). destruct v, w; cbn in *; congruence. Qed.

(** a step that puts the result of a computation *)
Lemma put_effect e d f (p : axis -> Z -> Prop) :
  (forall k r, f k = Ok r <-> p k r) ->
  (forall v, vec3 f = Ok v -> forall e', changes e d p e' <-> forall n, e' n = vput e d v n) /\
  (vec3 f = UB -> forall e', ~ changes e d p e').
Proof.
  intros FP. split.
  - intros v V e'. pose proof (proj1 (vec3_ok _ _) V) as C. unfold changes. split.
    + intros (P & O) n. destruct (Nat.eq_dec n d) as [->|N].
      * rewrite vput_same. apply comp_eq. intros k. specialize (P k). apply FP in P. rewrite C in P. congruence.
      * rewrite vput_other by exact N. apply O; exact N.
    + intros E. split.
      * intros k. apply FP. rewrite E, vput_same. apply C.
      * intros n N. rewrite E. apply vput_other; exact N.
  - intros U e' (P & _). assert (vec3 f = Ok (e' d)); [|congruence]. apply vec3_ok. intros k. apply FP. apply P.
Qed.

Lemma step_effect e s :
  (exists e1, vstep e s = Ok e1 /\ forall e', effect e s e' <-> forall n, e' n = e1 n) \/ (vstep e s = UB /\ forall e', ~ effect e s e').
Proof.
  assert (U : forall o d a, (exists e1, vec_upd o e d a = Ok e1 /\ forall e', changes e d (fun k r => value_of o (comp (e d) k) (comp (e a) k) r /\ is_int r) e' <-> forall n, e' n = e1 n) \/
    (vec_upd o e d a = UB /\ forall e', ~ changes e d (fun k r => value_of o (comp (e d) k) (comp (e a) k) r /\ is_int r) e')).
  { intros o d a. pose proof (vec_upd_op o e d a) as H. rewrite vec_op_3 in H.
    destruct (put_effect e d (fun k => int_op o (comp (e d) k) (comp (e a) k)) (fun k r => value_of o (comp (e d) k) (comp (e a) k) r /\ is_int r)) as (G & B).
    { intros; apply int_op_ok. }
    destruct (vec3 (fun k => int_op o (comp (e d) k) (comp (e a) k))) as [v| |] eqn:V.
    - left. destruct H as (e1 & R & E). exists e1. split; [exact R|]. intros e'. rewrite (G v eq_refl e').
      split; intros X n; rewrite X; [symmetry|]; apply E.
    - contradiction.
    - right. split; [exact H|]. apply B; reflexivity. }
  destruct s as [d x y z|o d a b|o d a s|d a|d a]; cbn [vstep effect].
  - left. eexists. split; [reflexivity|].
    apply (put_effect e d (fun k => Ok match k with AxX => x | AxY => y | AxZ => z end)); [|reflexivity].
    intros k r. split; congruence.
  - rewrite vec_op_3.
    destruct (put_effect e d (fun k => int_op o (comp (e a) k) (comp (e b) k)) (fun k r => value_of o (comp (e a) k) (comp (e b) k) r /\ is_int r)) as (G & B).
    { intros; apply int_op_ok. }
    pose proof (vec3_not (fun k => int_op o (comp (e a) k) (comp (e b) k)) ltac:(intros; apply int_op_not)).
    destruct (vec3 _) as [v| |]; cbn [obind]; [left; eauto|congruence|right; auto].
  - rewrite num_op_3.
    destruct (put_effect e d (fun k => int_op o (comp (e a) k) s) (fun k r => value_of o (comp (e a) k) s r /\ is_int r)) as (G & B).
    { intros; apply int_op_ok. }
    pose proof (vec3_not (fun k => int_op o (comp (e a) k) s) ltac:(intros; apply int_op_not)).
    destruct (vec3 _) as [v| |]; cbn [obind]; [left; eauto|congruence|right; auto].
  - apply (U OAdd d a).
  - apply (U OSub d a).
Qed.

Lemma changes_ext e e' d p f : (forall n, e n = e' n) -> changes e d p f -> changes e' d p f.
Proof. intros E (P & O). split; [exact P|]. intros n N. rewrite <- E. apply O; exact N. Qed.
Lemma effect_ext e e' s f : (forall n, e n = e' n) -> effect e s f -> effect e' s f.
Proof. intros E. destruct s; cbn [effect]; rewrite <- ?E; apply changes_ext; exact E. Qed.
Lemma effects_ext e e' p f : (forall n, e n = e' n) -> effects e p f -> effects e' p f.
Proof.
  intros E H. destruct H as [e f H|e s e1 p f H1 H2].
  - constructor. intros n. rewrite H. apply E.
  - econstructor; [|exact H2]. eapply effect_ext; eassumption.
Qed.

Lemma run_effects p : forall e,
  (exists e1, vrun e p = Ok e1 /\ forall e', effects e p e' <-> forall n, e' n = e1 n) \/ (vrun e p = UB /\ forall e', ~ effects e p e').
Proof.
  induction p as [|s p IH]; intros e; cbn [vrun].
  - left. exists e. split; [reflexivity|]. intros e'. split; [intros H; inversion H; assumption|constructor; assumption].
  - destruct (step_effect e s) as [(e1 & S & X)|(S & X)]; rewrite S; cbn [obind].
    + destruct (IH e1) as [(e2 & R & Y)|(R & Y)].
      * left. exists e2. split; [exact R|]. intros e'. split.
        -- intros H. inversion H as [|? ? e1' ? ? H1 H2]; subst. apply Y. eapply effects_ext; [|exact H2]. apply X; exact H1.
        -- intros H. apply (eff_cons e s e1); [apply X; reflexivity|apply Y; exact H].
      * right. split; [exact R|]. intros e' H. inversion H as [|? ? e1' ? ? H1 H2]; subst. apply (Y e'). eapply effects_ext; [|exact H2]. apply X; exact H1.
    + right. split; [reflexivity|]. intros e' H. inversion H as [|? ? e1' ? ? H1 H2]; subst. apply (X _ H1).
Qed.

(** ** Unsigned numbers *)
Lemma to_int_id z m : (m = 2 ^ 32 \/ m = 2 ^ 64) -> is_int z -> to_int32 (z mod m) = z.
Proof.
  unfold to_int32, is_int. intros M H.
  assert (E : ((z mod m) + 2 ^ 31) mod 2 ^ 32 = (z + 2 ^ 31) mod 2 ^ 32).
  { rewrite Z.add_mod by lia. rewrite (Z.add_mod z) by lia. f_equal. f_equal.
    destruct M as [->| ->].
    - apply Z.mod_mod; lia.
    - rewrite <- (Znumtheory.Zmod_div_mod (2 ^ 32) (2 ^ 64)); [reflexivity|lia|lia|]. exists (2 ^ 32). reflexivity. }
  rewrite E, Z.mod_small; lia.
Qed.
Lemma uns_op_exact n o a b r : n = 32 \/ n = 64 -> o <> ODiv -> value_of o a b r -> is_int r -> uns_op n o a b = Ok r.
Proof.
  intros N O V I. assert (M : 2 ^ n = 2 ^ 32 \/ 2 ^ n = 2 ^ 64) by (destruct N as [->| ->]; auto).
  assert (2 ^ n <> 0) by (destruct M as [->| ->]; lia).
  destruct o; cbn [uns_op value_of] in *; try congruence; subst r; f_equal; rewrite <- (to_int_id _ _ M I) at 1; f_equal.
  - rewrite Z.add_mod_idemp_l by assumption. reflexivity.
  - rewrite Zminus_mod_idemp_l. reflexivity.
  - rewrite Z.mul_mod_idemp_l by assumption. reflexivity.
Qed.
Lemma uns_div_exact n a b : n = 32 \/ n = 64 -> 0 <= a -> is_int a -> 0 < b -> uns_op n ODiv a b = Ok (Z.quot a b).
Proof.
  intros N A I B. unfold is_int in I. assert (P : 2 ^ 32 <= 2 ^ n) by (destruct N as [->| ->]; lia).
  unfold uns_op. destruct (Z.eqb_spec b 0); [lia|].
  rewrite Z.mod_small by lia. rewrite Z.quot_div_nonneg by lia. f_equal.
  assert (0 <= a / b <= a) by (split; [apply Z.div_pos; lia|apply Z.div_le_upper_bound; nia]).
  unfold to_int32. rewrite Z.mod_small; lia.
Qed.
Lemma unsigned_spec n o v s : n = 32 \/ n = 64 -> 0 <= s < 2 ^ n -> o = OAdd \/ o = OMul ->
  forall w, (forall k, value_of o (comp v k) s (comp w k) /\ is_int (comp w k)) -> unum_op n o v s = Ok w.
Proof.
  intros N _ O w H. change (vec3 (fun k => uns_op n o (comp v k) s) = Ok w). apply vec3_ok. intros k.
  apply uns_op_exact; try apply H; [exact N|]. destruct O as [->| ->]; discriminate.
Qed.
Lemma unsigned_div n v s : n = 32 \/ n = 64 -> 0 < s < 2 ^ n -> (forall k, 0 <= comp v k /\ is_int (comp v k)) ->
  forall w, (forall k, value_of ODiv (comp v k) s (comp w k)) -> unum_op n ODiv v s = Ok w.
Proof.
  intros N S V w H. change (vec3 (fun k => uns_op n ODiv (comp v k) s) = Ok w). apply vec3_ok. intros k.
  destruct (V k). rewrite (uns_div_exact _ _ _ N) by (try assumption; lia). f_equal. symmetry. destruct (H k) as (B & Q). apply quot_value in Q; assumption.
Qed.

(** ** The rest *)
Lemma sum_spec v s : vec_sum v = Ok s <-> s = ix v + iy v + iz v /\ is_int (ix v + iy v) /\ is_int s.
Proof.
  unfold vec_sum. destruct (int32 (ix v + iy v)) as [t| |] eqn:E; cbn [obind].
  - apply int32_ok in E as (-> & I). rewrite int32_ok. intuition (subst; auto).
  - exfalso. exact (int32_not _ E).
  - split; [discriminate|]. intros (_ & I & _). assert (X : int32 (ix v + iy v) = Ok (ix v + iy v)) by (apply int32_ok; auto). congruence.
Qed.
Lemma eq_spec v w : (vec_eq v w = true <-> v = w) /\ vec_neq v w = negb (vec_eq v w).
Proof.
  unfold vec_eq, vec_neq. destruct v as [a b c], w as [a' b' c']; cbn [ix iy iz]. split.
  - rewrite !andb_true_iff, !Z.eqb_eq. split; [intros ((-> & ->) & ->); reflexivity|intros [= -> -> ->]; auto].
  - rewrite !negb_andb. reflexivity.
Qed.
Lemma min_spec v w u : (forall k, comp u k <= comp (vec_min v w) k) <-> (forall k, comp u k <= comp v k /\ comp u k <= comp w k).
Proof.
  unfold vec_min. split; intros H.
  - intros k. pose proof (H k) as G. destruct k; cbn [comp ix iy iz] in *; match type of G with context [?a <? ?b] => destruct (Z.ltb_spec a b) end; lia.
  - intros k. pose proof (H k) as G. destruct k; cbn [comp ix iy iz] in *; match goal with |- context [?a <? ?b] => destruct (Z.ltb_spec a b) end; lia.
Qed.
