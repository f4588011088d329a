(** Proofs about interior iteration on views. *)
From Verif Require Import Prelude WindowM WindowS WindowP GhostM FieldM FieldS InteriorS.

Lemma cuts_spec w wi : pos_dims (wext wi) -> cuts_interior w wi = true <-> misses w wi.
Proof.
  intros (A & B & C). unfold cuts_interior, misses. rewrite !orb_true_iff, !Z.ltb_lt. split.
  - intros H. destruct wi as [g [ox oy oz] [ex ey ez]], w as [g' [ox' oy' oz'] [ex' ey' ez']]. cbn in *. unfold covers. cbn.
    destruct H as [[[[[H|H]|H]|H]|H]|H];
      [exists (IV ox oy oz)|exists (IV ox oy oz)|exists (IV ox oy oz)|exists (IV (ox + ex - 1) oy oz)|exists (IV ox (oy + ey - 1) oz)|exists (IV ox oy (oz + ez - 1))]; cbn; lia.
  - intros (p & P & N). unfold covers in *. lia.
Qed.

Lemma view_fixed f os : fint (view f os) = fint f /\ fbuf (view f os) = fbuf f /\ freadonly (view f os) = freadonly f.
Proof.
  revert f. induction os as [|o os IH]; intros f; [cbn; auto|]. change (view f (o :: os)) with (view (view_step f o) os). destruct (IH (view_step f o)) as (A & B & C). rewrite A, B, C. destruct o; auto.
Qed.
Lemma view_disabled f os : pos_dims (wext (fint f)) ->
  fdisint (view f os) = true <-> fdisint f = true \/ exists w, In (VWindow w) os /\ misses w (fint f).
Proof.
  intros P. revert f P. induction os as [|o os IH]; intros f P.
  - cbn. split; [auto|intros [H|(w & [] & _)]; exact H].
  - change (view f (o :: os)) with (view (view_step f o) os). assert (E : fint (view_step f o) = fint f) by (destruct o; reflexivity). rewrite IH by (rewrite E; exact P). rewrite E.
    destruct o as [w|g|n|]; cbn [view_step field_window reset_valid_ghosts set_partition_count field_copy fdisint].
    + destruct (cuts_interior w (fint f)) eqn:C.
      * split; [intros _; right; exists w; split; [left; reflexivity|apply cuts_spec; assumption]|auto].
      * split; [intros [H|(v & I & M)]; [left; exact H|right; exists v; split; [right; exact I|exact M]]|].
        intros [H|(v & [I|I] & M)]; [left; exact H| |right; exists v; auto]. injection I as <-. apply cuts_spec in M; [congruence|exact P].
    + split; (intros [H|(v & I & M)]; [left; exact H|right; exists v; split; [|exact M]]); [right; exact I|destruct I as [I|I]; [discriminate|exact I]].
    + split; (intros [H|(v & I & M)]; [left; exact H|right; exists v; split; [|exact M]]); [right; exact I|destruct I as [I|I]; [discriminate|exact I]].
    + split; (intros [H|(v & I & M)]; [left; exact H|right; exists v; split; [|exact M]]); [right; exact I|destruct I as [I|I]; [discriminate|exact I]].
Qed.

Lemma interior_refused w bc g buf nt os : let f := field_make w bc g buf nt in let v := view f os in
  pos_dims (wext (fint f)) -> (exists u, In (VWindow u) os /\ misses u (fint f)) ->
  field_interior_cbegin v = Throw /\ field_interior_cend v = Throw /\ field_interior_begin v = Throw /\ field_interior_end v = Throw.
Proof.
  intros f v P M. assert (D : fdisint v = true) by (apply view_disabled; [exact P|right; exact M]).
  unfold field_interior_cbegin, field_interior_cend, field_interior_begin, field_interior_end. rewrite D, orb_true_r. auto.
Qed.
Lemma addr_covers_in w p : covers w p <-> in_box (wext w) (iv_sub p (woff w)).
Proof. unfold covers, in_box. cbn. lia. Qed.
Lemma interior_walk w bc g buf nt os : let f := field_make w bc g buf nt in let v := view f os in
  pos_dims (wext (fint f)) -> fits (fint f) -> (forall u p, In (VWindow u) os -> covers (fint f) p -> covers u p) ->
  exists b e its, field_interior_cbegin v = Ok b /\ field_interior_cend v = Ok e /\ field_interior_begin v = Ok b /\ field_interior_end v = Ok e /\
    it_loop (length its) b e = Some its /\
    map icur its = map (addr (fint f)) (box_points (wext (fint f))) /\
    Forall (fun it => 0 <= icur it < glob_npts (fint f)) its.
Proof.
  intros f v P F A. assert (D : fdisint v = false).
  { destruct (fdisint v) eqn:E; [|reflexivity]. apply view_disabled in E; [|exact P]. destruct E as [E|(u & I & p & C & N)]; [discriminate|]. exfalso. apply N. apply (A u p I C). }
  destruct (view_fixed f os) as (Ei & Eb & Er). fold v in Ei, Eb, Er. change (freadonly f) with false in Er.
  destruct (forward_iteration 0 (fint f) F P) as (e & its & E1 & E2 & _ & _ & E3 & _ & _ & E4).
  exists (it_begin 0 (fint f)), e, its. unfold field_interior_cbegin, field_interior_cend, field_interior_begin, field_interior_end. rewrite D, Er, Ei. cbn [orb].
  split; [reflexivity|]. split; [exact E1|]. split; [reflexivity|]. split; [exact E1|]. split; [exact E2|]. split; [|exact E4].
  rewrite E3. apply map_ext_in. intros p I. apply in_box_points in I. rewrite flat_index_addr by assumption. reflexivity.
Qed.
(** Containment of a window, spelt out for interiors: the addresses visited are
    addresses of the view. *)
Lemma interior_in_view w wi : wglob w = wglob wi -> (forall p, covers wi p -> covers w p) ->
  forall p, in_box (wext wi) p -> exists q, in_box (wext w) q /\ addr w q = addr wi p.
Proof.
  intros G C p B. exists (iv_sub (iv_add p (woff wi)) (woff w)). split.
  - apply addr_covers_in. apply C. apply addr_covers_in. destruct p, (woff wi). unfold in_box in *. cbn in *. lia.
  - unfold addr. rewrite G. cbn. f_equal; [lia|]. f_equal. f_equal; [lia|]. f_equal. lia.
Qed.
