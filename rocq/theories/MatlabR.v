(** Proofs about write_matlab: the whole file. *)
From Coq Require Import String Ascii Reals Lra Lia.
From Verif Require Import Prelude WindowM WindowS WindowP GhostM FieldM FieldS MaskM NeboM NeboS NeboF NeboG IterM IterS IterP RoundM RoundS MatlabM MatlabS MatlabP MatlabQ.
Open Scope string_scope.
Open Scope Z_scope.

(** ** The text *)
Fixpoint more (l : list dbl) : string := match l with [] => "" | x :: l => endl ++ ", " ++ show x ++ more l end.
Definition joined (l : list dbl) : string := match l with [] => "" | x :: l => show x ++ more l end.
Lemma more_snoc l x : more (l ++ [x])%list = more l ++ endl ++ ", " ++ show x.
Proof. induction l as [|y l IH]; cbn [more List.app]; [rewrite app_nil_s; reflexivity|]. rewrite IH. rewrite !app_assoc_s. reflexivity. Qed.
Lemma joined_snoc l x : l <> [] -> joined (l ++ [x])%list = joined l ++ endl ++ ", " ++ show x.
Proof. destruct l as [|y l]; [congruence|]. intros _. cbn [joined List.app]. rewrite more_snoc, app_assoc_s. reflexivity. Qed.
Lemma no_digit_more l : no_digit (more l ++ " ];" ++ endl).
Proof. destruct l; reflexivity. Qed.
Lemma lists_more l : exists ls, lists (more l ++ " ];" ++ endl) ls (";" ++ endl) /\ Forall2 written ls l.
Proof.
  induction l as [|x l (ls & L & F)].
  - exists []. split; [|constructor]. cbn [more append]. apply lists_sep; [reflexivity|]. apply lists_end.
  - destruct (show_written x (more l ++ " ];" ++ endl) (no_digit_more l)) as (t & R & S & W). exists (t :: ls). split; [|constructor; assumption].
    cbn [more]. rewrite !app_assoc_s. cbn [append endl]. do 3 (apply lists_sep; [reflexivity|]). eapply lists_lit; eassumption.
Qed.
Lemma lists_joined x l : exists ls, lists (" " ++ joined (x :: l) ++ " ];" ++ endl) ls (";" ++ endl) /\ Forall2 written ls (x :: l).
Proof.
  destruct (lists_more l) as (ls & L & F). destruct (show_written x (more l ++ " ];" ++ endl) (no_digit_more l)) as (t & R & S & W).
  exists (t :: ls). split; [|constructor; assumption]. cbn [append joined]. apply lists_sep; [reflexivity|]. rewrite app_assoc_s. eapply lists_lit; eassumption.
Qed.

(** ** The loop *)
Lemma write_values_ok (h : heap dbl) b w : pos_dims (wext w) -> fits w -> (forall k, 0 <= k < local_npts w -> bcells (h b) (kcell w k) = true) ->
  exists N, forall fuel, (N <= fuel)%nat ->
    run (write_values fuel b (iter_at 0 w 0) (iter_at 0 w (local_npts w))) h
      = RDone h ("x = [ " ++ joined (map (fun k => bdata (h b) (kcell w k)) (zrange (local_npts w))) ++ " ];" ++ endl).
Proof.
  intros P F L. pose proof (npts_pos _ P) as NP. exists (Z.to_nat (local_npts w)). intros fuel Hf.
  set (v := fun k => bdata (h b) (kcell w k)).
  assert (E : ends (write_values fuel b (iter_at 0 w 0) (iter_at 0 w (local_npts w))) h
    (fun h' s => h' = h /\ s = "x = [ " ++ joined (map v (zrange (local_npts w))) ++ " ];" ++ endl)).
  { unfold write_values. apply ends_load; [rewrite icur_at; apply L; lia|]. rewrite icur_at. fold (v 0). apply ends_bind. rewrite incr_ok by exact P. eapply ends_mono.
    2:{ apply (for_iter_rule dbl w _ (fun k h' s => h' = h /\ s = "x = [ " ++ joined (map v (zrange k)) /\ 1 <= k))
          with (n := Z.to_nat (local_npts w - 1)); try lia; try apply P; try exact F.
        - intros k h' s Hk (-> & -> & K). apply ends_load; [rewrite icur_at; apply L; exact Hk|]. rewrite icur_at. fold (v k). apply ends_ret. cbn [fst snd].
          split; [reflexivity|]. split; [|lia]. rewrite zrange_succ by lia. rewrite map_app. cbn [map]. rewrite joined_snoc.
          + rewrite app_assoc_s. reflexivity.
          + replace k with (k - 1 + 1) by ring. rewrite zrange_succ by lia. rewrite map_app. destruct (map v (zrange (k - 1))); discriminate.
        - intros h' s H. exact H.
        - split; [reflexivity|]. split; [|lia]. change (zrange (0 + 1)) with [0]. cbn [map joined more]. rewrite app_nil_s. reflexivity. }
    cbv beta. intros h' s (-> & -> & _). apply ends_ret. split; [reflexivity|]. rewrite app_assoc_s. reflexivity. }
  destruct E as (h' & s & E & -> & ->). exact E.
Qed.

Lemma joined_text (h : heap dbl) b w prefix l : pos_dims (wext w) -> l = map (fun k => bdata (h b) (kcell w k)) (zrange (local_npts w)) ->
  exists ls, file_reads prefix (("function x = load_" ++ prefix ++ "()" ++ endl) ++ "x = [ " ++ joined l ++ " ];" ++ endl) ls /\ Forall2 written ls l.
Proof.
  intros P ->. pose proof (npts_pos _ P) as NP. remember (map _ _) as l eqn:El. destruct l as [|x l].
  - exfalso. apply (f_equal (@List.length dbl)) in El. rewrite map_length, zrange_length in El. cbn in El. lia.
  - destruct (lists_joined x l) as (ls & (n & L) & F). exists ls. split; [|exact F]. exists (" " ++ joined (x :: l) ++ " ];" ++ endl). split; [|exists n; exact L].
    rewrite !app_assoc_s. reflexivity.
Qed.
Lemma window_contents (h : heap dbl) b w : pos_dims (wext w) ->
  map (fun p => bdata (h b) (addr w p)) (box_points (wext w)) = map (fun k => bdata (h b) (kcell w k)) (zrange (local_npts w)).
Proof.
  intros (A & B & C). unfold kcell, local_npts. destruct (wext w) as [x y z] eqn:E. cbn [ix iy iz] in *.
  rewrite box_points_dec by lia. rewrite map_map. reflexivity.
Qed.

(** ** The whole file *)
Lemma write_matlab_all (h : heap dbl) f prefix : live h f -> exists N text ls,
  (forall fuel, (N <= fuel)%nat -> run (write_matlab fuel f prefix true) h = RDone h ("load_" ++ prefix ++ ".m", text)) /\
  file_reads prefix text ls /\ Forall2 written ls (contents h f).
Proof.
  intros L. pose proof L as (P & F & _). destruct (write_values_ok h (fbuf f) (fwin f) P F) as (N & R); [intros k Hk; apply live_cell; assumption|].
  destruct (joined_text h (fbuf f) (fwin f) prefix _ P eq_refl) as (ls & T & S). exists N. eexists. exists ls. split; [|split; [exact T|rewrite contents_kcell by exact P; exact S]].
  intros fuel Hf. unfold write_matlab. rewrite cbegin_ok, cend_ok by exact P. cbn [lift pbind]. cbv zeta. erewrite run_bind by (apply R; exact Hf). reflexivity.
Qed.
Lemma write_matlab_interior (h : heap dbl) f prefix : interior_live h f -> fdisint f = false -> exists N text ls,
  (forall fuel, (N <= fuel)%nat -> run (write_matlab fuel f prefix false) h = RDone h ("load_" ++ prefix ++ ".m", text)) /\
  file_reads prefix text ls /\ Forall2 written ls (interior_contents h f).
Proof.
  intros (P & F & L) D. destruct (write_values_ok h (fbuf f) (fint f) P F) as (N & R).
  { intros k Hk. apply L. unfold kcell, local_npts in *. destruct P as (A & B & C). destruct (wext (fint f)) as [x y z]. apply dec_range; cbn in *; assumption. }
  destruct (joined_text h (fbuf f) (fint f) prefix _ P eq_refl) as (ls & T & S). exists N. eexists. exists ls. split; [|split; [exact T|unfold interior_contents; rewrite window_contents by exact P; exact S]].
  intros fuel Hf. unfold write_matlab, field_interior_cbegin, field_interior_cend. rewrite D. pose proof P as (A & B & C).
  rewrite it_end_at by (assumption || lia). unfold it_begin. rewrite iter_at_0 by assumption. cbn [lift pbind]. cbv zeta. erewrite run_bind by (apply R; exact Hf). reflexivity.
Qed.
Lemma write_matlab_throws (h : heap dbl) f prefix fuel : fdisint f = true -> run (write_matlab fuel f prefix false) h = RThrow.
Proof. intros D. unfold write_matlab, field_interior_cbegin. rewrite D. reflexivity. Qed.
