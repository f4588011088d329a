(** Examples for Lagrange interpolation in double precision. *)
From Coq Require Import Reals Lra Lia.
From Flocq Require Import Core.
From Verif Require Import Prelude StencilM RoundM RoundS RoundP RoundQ RoundT RedM HeatM Cmp64M Cmp64S Cmp64P Part64Q Grid64Q Lag64M Lag64S Lag64A Lag64P.
Open Scope R_scope.

Definition ints (l : list Z) : list dbl := map (fun k => dlit k 0) l.
(** The table 0 1 3 4 7, the values of 1 + 2 x + 3 x^2, and the place 7/2. *)
Definition tab64 : list dbl := ints [0; 1; 3; 4; 7]%Z.
Definition dat64 : list dbl := ints [1; 6; 34; 57; 162]%Z.
Definition half7 : dbl := dlit 7 (-1).
Lemma ints_val l : Forall (fun k => (Z.abs k <= 2 ^ 31)%Z) l -> Forall finite (ints l) /\ map val (ints l) = map IZR l.
Proof.
  induction 1 as [|k l H F (I1 & I2)]; [split; constructor|]. destruct (int_val k H) as (F1 & V1). unfold ints in *. cbn [map].
  split; [constructor; assumption|]. rewrite V1, I2. reflexivity.
Qed.
Lemma ints_increasing l : Forall (fun k => (Z.abs k <= 2 ^ 31)%Z) l ->
  (forall i j p q, (i < j)%nat -> nth_error l i = Some p -> nth_error l j = Some q -> (p < q)%Z) -> increasing64 (ints l).
Proof.
  intros H I. destruct (ints_val l H) as (F & V). split; [exact F|]. intros i j a b L A B. unfold ints in A, B. rewrite nth_error_map in A, B.
  destruct (nth_error l i) as [p|] eqn:P; [|discriminate]. destruct (nth_error l j) as [q|] eqn:Q; [|discriminate].
  cbn in A, B. injection A as <-. injection B as <-. rewrite Forall_forall in H.
  rewrite (proj2 (int_val p (H p (nth_error_In _ _ P)))), (proj2 (int_val q (H q (nth_error_In _ _ Q)))). apply IZR_lt, (I i j p q L P Q).
Qed.
Lemma tab_small : Forall (fun k => (Z.abs k <= 2 ^ 31)%Z) [0; 1; 3; 4; 7]%Z.
Proof. repeat constructor; cbn; lia. Qed.
Lemma dat_small : Forall (fun k => (Z.abs k <= 2 ^ 31)%Z) [1; 6; 34; 57; 162]%Z.
Proof. repeat constructor; cbn; lia. Qed.
Lemma tab_increasing : increasing64 tab64.
Proof.
  apply ints_increasing; [exact tab_small|]. intros i j p q L P Q.
  do 6 (destruct j as [|j]; [do 6 (destruct i as [|i]; [cbn in P, Q; try discriminate; try (injection P as <-); try (injection Q as <-); lia|]); lia|]).
  destruct j; discriminate.
Qed.
Lemma half7_val : finite half7 /\ val half7 = 7 / 2.
Proof. split; [reflexivity|]. unfold val. vm_compute B2R. unfold F2R. cbn. lra. Qed.
Lemma p2_100 : powerRZ 2 (-100) <= 1 /\ 162 <= powerRZ 2 100.
Proof. rewrite !p2. split; [change 1 with (b2 0); apply bpow_le; lia|]. apply Rle_trans with (b2 8); [cbn; lra|apply bpow_le; lia]. Qed.
Lemma tab_spaced : spaced (/ 2) 7 (val half7 :: map val tab64).
Proof.
  rewrite (proj2 half7_val). unfold tab64. rewrite (proj2 (ints_val _ tab_small)). cbn [map]. intros p q Ip Iq. cbn in Ip, Iq.
  destruct Ip as [<-|[<-|[<-|[<-|[<-|[<-|[]]]]]]], Iq as [<-|[<-|[<-|[<-|[<-|[<-|[]]]]]]];
    try (left; reflexivity); right; unfold Rabs; destruct (Rcase_abs _); lra.
Qed.
Lemma tab_ranges : ratios_ok (/ 2) 7 2 /\ products_ok (/ 2) 7 2.
Proof.
  unfold ratios_ok, products_ok. rewrite !p2.
  assert (A : b2 (-400) <= b2 (-10)) by (apply bpow_le; lia). assert (B : b2 10 <= b2 400) by (apply bpow_le; lia). assert (C : b2 10 <= b2 900) by (apply bpow_le; lia).
  replace (b2 (-10)) with (/ 1024) in A by (cbn; lra). replace (b2 10) with 1024 in * by (cbn; lra).
  repeat split; try lra; cbn; lra.
Qed.
Lemma dat_plain : Forall plain dat64.
Proof.
  destruct p2_100 as (A & B). unfold dat64, ints. cbn [map].
  assert (K : forall k, (1 <= k <= 162)%Z -> plain (dlit k 0)).
  { intros k H. destruct (int_val k ltac:(lia)) as (F & V). split; [exact F|]. rewrite V.
    assert (1 <= IZR k <= 162) by (split; apply IZR_le; lia). rewrite Rabs_pos_eq by lra. split; [right|]; lra. }
  repeat (apply Forall_cons; [apply K; lia|]). constructor.
Qed.
Lemma dat_samples : forall i xi yi, nth_error tab64 i = Some xi -> nth_error dat64 i = Some yi -> Rabs (val yi - poly [1; 2; 3] (val xi)) <= 0.
Proof.
  intros i xi yi X Y. assert (X' : nth_error (map val tab64) i = Some (val xi)) by (rewrite nth_error_map, X; reflexivity).
  assert (Y' : nth_error (map val dat64) i = Some (val yi)) by (rewrite nth_error_map, Y; reflexivity).
  unfold tab64 in X'. unfold dat64 in Y'. rewrite (proj2 (ints_val _ tab_small)) in X'. rewrite (proj2 (ints_val _ dat_small)) in Y'. cbn [map] in X', Y'.
  clear X Y. do 5 (destruct i as [|i]; [cbn in X', Y'; injection X' as <-; injection Y' as <-; cbn; rewrite Rabs_pos_eq; lra|]). destruct i; discriminate.
Qed.

(** Results as sign, significand and exponent. *)
Definition shown (o : outcome dbl) : outcome SpecFloat.spec_float := match o with Ok r => Ok (B2SF r) | Throw => Throw | UB => UB end.
(** 179/4 and 23 *)
Lemma tab_case : interp_value64 tab64 dat64 half7 2 = Ok (dlit 179 (-2)) /\ deriv_value64 tab64 dat64 half7 2 = Ok (dlit 23 0).
Proof.
  assert (I : forall o r, shown o = Ok (B2SF r) -> o = Ok r).
  { intros [d| |] r H; try discriminate. cbn in H. injection H as H. apply B2SF_inj in H. exact (f_equal Ok H). }
  split; apply I; vm_compute; reflexivity.
Qed.
(** The table 0 1 6 of ones at 2: the value is above 1, the derivative not 0. *)
Lemma ones_case : exists r d, interp_value64 (ints [0; 1; 6]%Z) (ints [1; 1; 1]%Z) (dlit 2 0) 2 = Ok r /\
  deriv_value64 (ints [0; 1; 6]%Z) (ints [1; 1; 1]%Z) (dlit 2 0) 2 = Ok d /\ dltb d_one r = true /\ dltb d_zero d = true.
Proof.
  assert (K : match interp_value64 (ints [0; 1; 6]%Z) (ints [1; 1; 1]%Z) (dlit 2 0) 2, deriv_value64 (ints [0; 1; 6]%Z) (ints [1; 1; 1]%Z) (dlit 2 0) 2 with
              | Ok r, Ok d => dltb d_one r && dltb d_zero d | _, _ => false end = true) by (vm_compute; reflexivity).
  destruct (interp_value64 _ _ _ _) as [r| |]; try discriminate. destruct (deriv_value64 _ _ _ _) as [d| |]; try discriminate.
  exists r, d. apply andb_prop in K. tauto.
Qed.
(** The table 0 2^-600 2^500, at its last point. *)
Definition wide : list dbl := [dlit 0 0; dlit 1 (-600); dlit 1 500].
Lemma wide_case : interp_value64 wide (ints [1; 1; 1]%Z) (dlit 1 500) 2 = Ok NaN.
Proof.
  assert (I : forall o r, shown o = Ok (B2SF r) -> o = Ok r).
  { intros [d| |] r H; try discriminate. cbn in H. injection H as H. apply B2SF_inj in H. exact (f_equal Ok H). }
  apply I. vm_compute. reflexivity.
Qed.
Lemma wide_increasing : increasing64 wide.
Proof.
  split; [repeat constructor|]. intros i j a b L A B.
  destruct j as [|[|[|j]]]; [lia| | |destruct j; discriminate]; cbn in B; injection B as <-;
    destruct i as [|[|i]]; try lia; cbn in A; injection A as <-; apply lt_val; try reflexivity; vm_compute; reflexivity.
Qed.
