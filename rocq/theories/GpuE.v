(** Instances and counterexamples for assignment on a GPU. *)
From Verif Require Import Prelude WindowM WindowS WindowP GhostM FieldM FieldS FieldP MaskM MaskS MaskP NeboM NeboS NeboP NeboQ NeboA NeboB NeboC NeboD NeboE ParM ParS GpuM GpuS GpuQ GpuB.

(** A kernel that is bounded and never stuck has a finished state. *)
Lemma finishes V (k0 : kernel V) B : (forall n st, ksteps n k0 st -> (n <= B)%nat) ->
  (forall st, kreach k0 st -> kdone st \/ exists st', kstep st st') -> exists st, kreach k0 st /\ kdone st.
Proof.
  intros Hb Hp. assert (G : forall m n st, (B - n <= m)%nat -> ksteps n k0 st -> exists st', kreach k0 st' /\ kdone st').
  { induction m as [|m IH]; intros n st Hm Hs; destruct (Hp st (ex_intro _ n Hs)) as [D|(st' & Hst)].
    - exists st. split; [exists n; exact Hs|exact D].
    - pose proof (Hb (S n) st' (ksteps_S _ n _ _ _ Hs Hst)). lia.
    - exists st. split; [exists n; exact Hs|exact D].
    - apply (IH (S n) st'); [|econstructor; eassumption]. pose proof (Hb (S n) st' (ksteps_S _ n _ _ _ Hs Hst)). lia. }
  apply (G B 0%nat k0); [lia|constructor].
Qed.

(** ** A destination whose valid ghosts were reduced *)
(** 16 x 1 x 1 with one ghost in x, the valid ghosts reset to none *)
Definition rdim : ivec := IV 16 1 1.
Definition rf : field := reset_valid_ghosts (patch_field rdim false false false (IV 1 1 1) (mk_ghost (IV 1 0 0) (IV 1 0 0)) 0 1) (mk_ghost iv_zero iv_zero).
Definition re : expr Z := EScalar Z 7.
Lemma user_rf : user_field rdim rf.
Proof.
  apply uf_reset; [apply uf_make; cbn; unfold iv_le, g_nonneg, regular, regular1, iv_le; cbn; lia || reflexivity || (repeat split; lia)|..];
  unfold g_nonneg, g_le, iv_le; cbn; lia || reflexivity || (repeat split; lia).
Qed.
Lemma r_operands : operands_ok Z rdim xheap re.
Proof. repeat split; intros; contradiction. Qed.
Lemma r_destination : destination_ok Z rdim xheap rf.
Proof.
  split; [apply user_field_on_patch, user_rf|]. split; [reflexivity|]. intros p P.
  assert (B : 0 <= cell rf p < 200); [|cbn; lia].
  assert (E : fint rf = Win (IV 18 1 1) (IV 1 0 0) (IV 16 1 1)) by reflexivity.
  unfold any_cell, reach, in_region, cell, addr in *. rewrite E. cbn -[Z.mul Z.add] in *. lia.
Qed.
Lemma r_alias : alias_ok Z rf re. Proof. intros g s []. Qed.
Lemma r_apart : singles_apart Z rf re. Proof. intros g []. Qed.
Lemma r_covers : covers_extra Z rf re.
Proof. intros l m u I. cbn in I. repeat (destruct I as [E|I]; [injection E as <- <- <-; cbn; unfold GHOST_MAX; lia|]). destruct I. Qed.
Lemma r_region p : 0 <= ix p + 1 < 18 -> iy p = 0 -> iz p = 0 -> region Z rdim rf re p.
Proof.
  intros X Y Z. split; [unfold any_cell, reach, in_region; cbn; lia|].
  intros l m u I q L U. cbn in I. unfold known, in_region, iv_le in *.
  repeat (destruct I as [E|I]; [injection E as <- <- <-; cbn in *; unfold GHOST_MAX; lia|]). destruct I.
Qed.
Lemma r_refuted : exists n (h : heap Z) f e p,
  operands_ok Z n h e /\ destination_ok Z n h f /\ alias_ok Z f e /\ singles_apart Z f e /\ covers_extra Z f e /\ region Z n f e p /\
  exists N, forall fuel, (N <= fuel)%nat -> exists threads, gpu_threads Z Z.add Z.mul fuel true f e = Ok threads /\
    (exists st, kreach (Kern h threads) st /\ kdone st) /\
    forall st, kreach (Kern h threads) st -> kdone st -> value Z (kheap st) f p <> denote Z Z.add Z.mul h e p.
Proof.
  exists rdim, xheap, rf, re, (IV 16 0 0).
  split; [exact r_operands|]. split; [exact r_destination|]. split; [exact r_alias|]. split; [exact r_apart|]. split; [exact r_covers|].
  assert (P : region Z rdim rf re (IV 16 0 0)) by (apply r_region; cbn; lia). split; [exact P|].
  destruct (gpu_assign_any Z Z.add Z.mul rdim xheap rf re r_operands r_destination r_alias r_apart r_covers (ex_intro _ _ P)) as ((N & H) & _).
  exists N. intros fuel Hf. destruct (H fuel Hf) as (threads & E & (B & Hb) & Hr). exists threads. split; [exact E|]. split.
  - apply (finishes Z _ B Hb). intros st Rs. apply (Hr st Rs).
  - intros st Rs Dn. destruct (Hr st Rs) as (_ & _ & _ & A). destruct (A Dn) as (_ & _ & F).
    assert (V : value Z (kheap st) rf (IV 16 0 0) = 17).
    { unfold value. rewrite F; [reflexivity|]. right. intros p (Rp & Hp).
      destruct (Hp (IV (-1) 0 0)) as (Q & _); [apply r_region; cbn; lia|].
      change (launched (ix (wext (fwin rf)))) with 16 in Q. cbn [ix] in Q.
      destruct Rp as (Ap & _). unfold any_cell, reach, in_region in Ap. cbn -[Z.mul Z.add] in Ap.
      assert (E1 : fint rf = Win (IV 18 1 1) (IV 1 0 0) (IV 16 1 1)) by reflexivity.
      unfold cell, addr. rewrite E1. cbn -[Z.mul Z.add]. lia. }
    rewrite V. cbn. lia.
Qed.

(** ** A single value assigned from itself *)
Definition sf : field := patch_field (IV 1 1 1) false false false iv_zero (mk_ghost iv_zero iv_zero) 0 1.
Definition se : expr Z := EOp2 Z Z.add (ESingle Z sf) (EScalar Z 1).
Definition sthreads (fuel : nat) : list (prog Z unit) :=
  map (fun xy => gpu_thread fuel (GLhs 0%nat 0 1 (IV 1 1 1) 1) (GOp2 Z.add (GSingle 0%nat) (GConst 1)) (fst xy) (snd xy)) (thread_ids 1 1).
Lemma s_threads fuel : gpu_threads Z Z.add Z.mul fuel true sf se = Ok (sthreads fuel).
Proof. reflexivity. Qed.
Lemma user_sf : user_field (IV 1 1 1) sf.
Proof. apply uf_make; cbn; unfold iv_le, g_nonneg, regular, regular1, iv_le; cbn; lia || reflexivity || (repeat split; lia). Qed.
Lemma s_operands : operands_ok Z (IV 1 1 1) xheap se.
Proof. split; [|split]; [intros f s []|intros m s []|]. intros f [<-|[]]. reflexivity. Qed.
Lemma s_destination : destination_ok Z (IV 1 1 1) xheap sf.
Proof.
  split; [apply user_field_on_patch, user_sf|]. split; [reflexivity|]. intros p P.
  assert (B : 0 <= cell sf p < 200); [|cbn; lia].
  assert (E : fint sf = Win (IV 1 1 1) (IV 0 0 0) (IV 1 1 1)) by reflexivity.
  unfold any_cell, reach, in_region, cell, addr in *. rewrite E. cbn -[Z.mul Z.add] in *. lia.
Qed.
Lemma s_refuted : exists (h : heap Z) f e,
  operands_ok Z (IV 1 1 1) h e /\ destination_ok Z (IV 1 1 1) h f /\ alias_ok Z f e /\ covers_extra Z f e /\ region Z (IV 1 1 1) f e iv_zero /\
  forall fuel, (1 <= fuel)%nat -> exists threads st, gpu_threads Z Z.add Z.mul fuel true f e = Ok threads /\
    kreach (Kern h threads) st /\ ~ krace_free st.
Proof.
  exists xheap, sf, se. split; [exact s_operands|]. split; [exact s_destination|]. split; [intros g s []|].
  split; [intros l m u I; cbn in I; repeat (destruct I as [E|I]; [injection E as <- <- <-; cbn; unfold GHOST_MAX; lia|]); destruct I|].
  split.
  { split; [unfold any_cell, reach, in_region; cbn; lia|].
    intros l m u I q L U. cbn in I. unfold known, in_region, iv_le in *.
    repeat (destruct I as [E|I]; [injection E as <- <- <-; cbn in *; unfold GHOST_MAX; lia|]). destruct I. }
  intros [|fuel] Hf; [lia|]. exists (sthreads (S fuel)). eexists. split; [apply s_threads|]. split.
  - exists 1%nat. econstructor; [constructor|]. eapply (ks_load _ _ 0%nat 0%nat 0); reflexivity.
  - intros R. eapply (R 0%nat 1%nat); [discriminate|reflexivity|reflexivity|reflexivity|reflexivity|]. cbn. auto.
Qed.
