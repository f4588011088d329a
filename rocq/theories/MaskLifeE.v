(** The memory of masks: examples, and what goes wrong outside the rules. *)
From Verif Require Import Prelude WindowM WindowS MaskM MaskS MaskP ConsumerM MaskLifeM MaskLifeS MaskLifeP MaskLifeQ MaskLifeR MaskLifeT.
From Verif Require PoolM.

Definition e_win : window := Win (IV 3 2 1) (IV 0 0 0) (IV 3 2 1).
Definition e_junk (a i : nat) : Z := Z.of_nat (7 * a + i + 3).

(** a legal history that uses everything *)
Definition e_hist : list maction :=
  [New e_win [IV 1 1 0; IV 2 0 0] (LOCAL_RAM, 0%nat); Add 0 (EXTERNAL_CUDA_GPU, 0%nat); Copy 0; Add 1 (EXTERNAL_CUDA_GPU, 1%nat);
   ReadAt 1 (EXTERNAL_CUDA_GPU, 0%nat) (IV 1 1 0); ReadAt 1 (EXTERNAL_CUDA_GPU, 1%nat) (IV 0 0 0); ReadAt 0 (EXTERNAL_CUDA_GPU, 1%nat) (IV 0 0 0);
   New e_win [IV 0 0 0] (LOCAL_RAM, 0%nat); Destroy 1; Remove 0; Find 0 (EXTERNAL_CUDA_GPU, 0%nat); At 0 (IV 2 0 0); Destroy 0; Destroy 2].
Ltac no_copy := intros (j & z & A & B); do 4 (destruct j as [|j]; [cbn in A; first [discriminate A|injection A as <-; discriminate B]|]); destruct j; discriminate A.
Lemma e_legal : legal_history true [] e_hist.
Proof.
  cbn. unfold in_block, in_box, pos_dims. cbn.
  repeat split; try no_copy; try (intros (A & B); discriminate); try lia; try (eexists; split; [reflexivity|]); try (eexists; reflexivity); cbn; try lia;
    try (intros (A & B); discriminate).
  all: repeat (constructor; [repeat split; cbn; lia|]); constructor.
Qed.
Lemma e_returned : nobody (after true [] e_hist).
Proof. intros i. cbn. do 4 (destruct i as [|i]; [reflexivity|]). destruct i; reflexivity. Qed.

(** ** A copy that outlives its original shows another mask *)
Section Refute.
Variable junk : nat -> nat -> Z.
Notation words w := (Z.of_nat (words_of w)).
Definition bucket (w : window) : Z := words w + Z.quot (words w) 10.
Definition later_pad (pad n : Z) : Z := if pad =? 0 then Z.quot n 10 else pad.
Lemma pad_same w : later_pad (Z.quot (words w) 10) (words w) = Z.quot (words w) 10.
Proof. unfold later_pad. destruct (_ =? 0); reflexivity. Qed.
Lemma bucket_ge w : words w <= bucket w.
Proof. unfold bucket. pose proof (Z.quot_pos (words w) 10 ltac:(lia) ltac:(lia)). lia. Qed.

(** a new mask in a block the pool hands out *)
Lemma new_at cuda s w ps k a s1 b : pos_dims (wglob w) -> Forall (in_block w) ps ->
  mget cuda junk s LOCAL_RAM (words w) = (Some a, s1) -> s_heap s1 a = Some b -> b_at b = LOCAL_RAM -> (words_of w <= length (b_words b))%nat ->
  exists h b', mask_new cuda junk s w ps (LOCAL_RAM, k) = Go (MState (s_pool s1) (s_next s1) h, Some (BitF w (LOCAL_RAM, k) (Some a) None true [] [] false)) Done /\
    h a = Some b' /\ b_at b' = LOCAL_RAM /\ length (b_words b') = length (b_words b) /\
    (forall q, in_block w q -> bit_reply w (load (MState (s_pool s1) (s_next s1) h) LOCAL_RAM a (words_of w)) q = Some (yes (is_member q ps))) /\
    (forall c, c <> a -> h c = s_heap s1 c).
Proof.
  intros D P G Hb Tb Lb. destruct (make_words w ps D P) as (l & El & Ll & Q). unfold mask_new. cbn [fst]. rewrite G.
  unfold store at 1. rewrite Hb, Tb. cbn [mtype_eqb andb]. rewrite repeat_length.
  assert (Lb' : (words_of w <=? length (b_words b))%nat = true) by (apply Nat.leb_le; exact Lb). rewrite Lb'.
  unfold load at 1. cbn [s_heap]. unfold heap_set at 1. rewrite Nat.eqb_refl. cbn [b_at b_words mtype_eqb andb].
  rewrite app_length, repeat_length, skipn_length.
  assert (L2 : (words_of w <=? words_of w + (length (b_words b) - words_of w))%nat = true) by (apply Nat.leb_le; lia). rewrite L2.
  rewrite firstn_app, repeat_length, Nat.sub_diag. cbn [firstn]. rewrite app_nil_r, firstn_all2 by (rewrite repeat_length; lia).
  change (add_points w (repeat 0 (words_of w)) ps) with (bitfield_make w ps). rewrite El.
  unfold store. cbn [s_heap]. unfold heap_set at 1. rewrite Nat.eqb_refl. cbn [b_at b_words mtype_eqb andb s_pool s_next].
  rewrite app_length, repeat_length, skipn_length, Ll, L2.
  eexists. eexists. split; [reflexivity|]. split; [unfold heap_set at 1; rewrite Nat.eqb_refl; reflexivity|]. split; [reflexivity|]. split.
  { cbn [b_words]. rewrite app_length, !skipn_length, !app_length, repeat_length, skipn_length, Ll. lia. }
  split.
  - intros q B. unfold load. cbn [s_heap]. unfold heap_set at 1. rewrite Nat.eqb_refl. cbn [b_at b_words mtype_eqb andb].
    rewrite app_length, !skipn_length, !app_length, repeat_length, skipn_length, Ll.
    match goal with |- context [(?x <=? ?y)%nat] => assert (L3 : (x <=? y)%nat = true) by (apply Nat.leb_le; lia); rewrite L3 end.
    rewrite <- Ll, firstn_app, Nat.sub_diag. cbn [firstn]. rewrite app_nil_r, firstn_all. cbn [bit_reply]. rewrite (Q q B). reflexivity.
  - intros c N. apply Nat.eqb_neq in N. unfold heap_set. rewrite N. cbn [s_heap]. rewrite N. reflexivity.
Qed.

Lemma run_step cuda w a w1 r l rs : mact cuda junk w a = Go w1 r ->
  (exists s, mrun cuda junk w1 l = Go (s, rs) Done) -> exists s, mrun cuda junk w (a :: l) = Go (s, r :: rs) Done.
Proof. intros E (s & R). exists s. cbn [mrun]. rewrite E, R. reflexivity. Qed.
Lemma copy_outlives cuda w ps ps' q k : pos_dims (wglob w) -> Forall (in_block w) ps -> Forall (in_block w) ps' -> in_block w q ->
  exists s, mrun cuda junk no_masks
    [New w ps (LOCAL_RAM, k); Copy 0; Destroy 0; New w ps' (LOCAL_RAM, k); At 1 q] =
    Go (s, [Done; Done; Done; Done; yes (is_member q ps')]) Done.
Proof.
  intros D P P' B. set (n := words w). set (m := bucket w). pose proof (bucket_ge w) as Hm. fold m n in Hm.
  assert (G0 : mget cuda junk no_memory LOCAL_RAM n =
    (Some 0%nat, MState (MemPool [(m, [])] [] [(0%nat, m)] (Z.quot n 10) 1 0) 1 (heap_set no_memory 0 (new_block junk LOCAL_RAM 0 m)))) by reflexivity.
  destruct (new_at cuda no_memory w ps k _ _ _ D P G0 eq_refl eq_refl) as (h1 & b1 & N1 & H1 & T1 & L1 & _ & _).
  { cbn. rewrite map_length, seq_length. fold n. lia. }
  cbn [s_pool s_next] in *.
  eapply run_step; [unfold mact, no_masks; cbn [fst]; rewrite N1; reflexivity|]. cbn [snd app].
  eapply run_step; [reflexivity|]. cbn [fst snd app].
  set (s1 := MState _ _ h1).
  set (s2 := MState (MemPool [(m, [0%nat])] [] [(0%nat, m)] (Z.quot n 10) 1 0) 1 h1).
  assert (Dm : mput s1 LOCAL_RAM 0 = Some s2).
  { unfold mput, s1. cbn [s_pool]. unfold PoolM.pool_put, cpu_side. cbn. rewrite Z.leb_refl. cbn. rewrite Z.eqb_refl. reflexivity. }
  assert (Dd : mask_destroy cuda s1 (BitF w (LOCAL_RAM, k) (Some 0%nat) None true [] [] false) = Go s2 Done).
  { unfold mask_destroy. destruct cuda; cbn [f_mine f_bcpu mput_all f_built f_home fst f_ram mput_ptr]; rewrite Dm; reflexivity. }
  eapply run_step; [cbn [mact with_obj alive nth_error snd fst]; rewrite Dd; reflexivity|]. cbn [replace firstn skipn app].
  assert (G2 : mget cuda junk s2 LOCAL_RAM n = (Some 0%nat, MState (MemPool [(m, [])] [] [(0%nat, m)] (Z.quot n 10) 1 0) 1 h1)).
  { unfold mget, s2. cbn [s_pool s_next]. unfold PoolM.pool_get, cpu_side. cbn [PoolM.ppad PoolM.pfqm mp_cpu mp_pad PoolM.pfsm PoolM.phigh mp_fsm mp_chigh].
    fold (later_pad (Z.quot n 10) n). unfold n. rewrite pad_same. change (words w + Z.quot (words w) 10) with m. cbn [PoolM.lower_bound].
    rewrite Z.leb_refl. cbn [PoolM.set_queue]. rewrite Z.eqb_refl. reflexivity. }
  destruct (new_at cuda s2 w ps' k _ _ _ D P' G2 H1 T1) as (h3 & b3 & N3 & H3 & T3 & L3 & Q3 & _).
  { rewrite L1. cbn. rewrite map_length, seq_length. fold n. lia. }
  cbn [s_pool s_next] in *. eapply run_step; [cbn [mact fst snd]; rewrite N3; reflexivity|]. cbn [app].
  eapply run_step; [cbn [mact with_obj alive nth_error snd fst]; unfold mask_at, f_size, mask_copy; cbn [f_ram f_win]; rewrite (Q3 q B); reflexivity|].
  eexists. reflexivity.
Qed.

(** ** Destroying a mask that was made on a GPU *)
Lemma gpu_destroy w k : mrun true junk no_masks [New w [] (EXTERNAL_CUDA_GPU, k); Destroy 0] = Fail BadFree.
Proof.
  set (n := words w). set (m := bucket w). pose proof (bucket_ge w) as Hm. fold m n in Hm.
  assert (G0 : mget true junk no_memory EXTERNAL_CUDA_GPU n =
    (Some 0%nat, MState (MemPool [] [(m, [])] [(0%nat, m)] (Z.quot n 10) 0 1) 1 (heap_set no_memory 0 (new_block junk EXTERNAL_CUDA_GPU 0 m)))) by reflexivity.
  cbn [mrun]. unfold no_masks. cbn [mact fst snd]. unfold mask_new. cbn [fst]. fold n. rewrite G0.
  unfold store. cbn [s_heap]. unfold heap_set at 1. cbn [Nat.eqb b_at new_block mtype_eqb andb b_words].
  rewrite repeat_length, map_length, seq_length.
  assert (L : (words_of w <=? Z.to_nat m)%nat = true) by (apply Nat.leb_le; unfold n in Hm; lia). rewrite L. cbn [s_pool]. reflexivity.
Qed.
End Refute.

(** ... and when the pool has a bucket for it, a GPU block is handed out as
    CPU memory *)
Lemma gpu_block_on_cpu junk :
  mrun true junk no_masks [New e_win [] (LOCAL_RAM, 0%nat); New e_win [] (EXTERNAL_CUDA_GPU, 0%nat); Destroy 1; New e_win [] (LOCAL_RAM, 0%nat)] = Fail BadAccess.
Proof. vm_compute. reflexivity. Qed.
(** ** Removing the consumers of a mask while a copy is left *)
Lemma removed_under_copy junk : exists s,
  mrun true junk no_masks [New e_win [IV 1 0 0] (LOCAL_RAM, 0%nat); Add 0 (EXTERNAL_CUDA_GPU, 0%nat); Copy 0; Remove 0;
                   New e_win [] (LOCAL_RAM, 0%nat); Add 2 (EXTERNAL_CUDA_GPU, 0%nat);
                   Find 1 (EXTERNAL_CUDA_GPU, 0%nat); ReadAt 1 (EXTERNAL_CUDA_GPU, 0%nat) (IV 1 0 0); At 1 (IV 1 0 0)] =
  Go (s, [Done; Done; Done; Done; Done; Done; Yes; No; Yes]) Done.
Proof. eexists. vm_compute. reflexivity. Qed.
(** ** A constructor that throws *)
Lemma throw_leaks junk w q ps k : exists s, mrun true junk no_masks [New w (q :: ps) (EXTERNAL_CUDA_GPU, k)] = Go ((s, [None]), [Threw]) Done /\
  exists b, s_heap s 0%nat = Some b /\ free_blocks (mp_cpu (s_pool s)) = [] /\ free_blocks (mp_gpu (s_pool s)) = [].
Proof.
  set (n := words_of w). pose proof (bucket_ge w) as Hm.
  assert (G0 : mget true junk no_memory EXTERNAL_CUDA_GPU (Z.of_nat n) =
    (Some 0%nat, MState (MemPool [] [(bucket w, [])] [(0%nat, bucket w)] (Z.quot (Z.of_nat n) 10) 0 1) 1 (heap_set no_memory 0 (new_block junk EXTERNAL_CUDA_GPU 0 (bucket w))))) by reflexivity.
  cbn [mrun]. unfold no_masks. cbn [mact fst snd]. unfold mask_new. cbn [fst]. fold n. rewrite G0.
  unfold store. cbn [s_heap]. unfold heap_set at 1. cbn [Nat.eqb b_at new_block mtype_eqb andb b_words].
  rewrite repeat_length, map_length, seq_length.
  assert (L : (n <=? Z.to_nat (bucket w))%nat = true) by (apply Nat.leb_le; unfold n; lia). rewrite L. cbn [app].
  eexists. split; [reflexivity|]. cbn. eexists. split; [reflexivity|]. split; reflexivity.
Qed.
(** ** has_consumers looks at GPU 0 only *)
Lemma has_only_first junk w ps k : pos_dims (wglob w) -> Forall (in_block w) ps -> k <> 0%nat ->
  exists s, mrun true junk no_masks [New w ps (LOCAL_RAM, 0%nat); Add 0 (EXTERNAL_CUDA_GPU, k); Has 0; Find 0 (EXTERNAL_CUDA_GPU, k)] =
    Go (s, [Done; Done; No; Yes]) Done.
Proof.
  intros D P K. destruct (replies true junk [New w ps (LOCAL_RAM, 0%nat); Add 0 (EXTERNAL_CUDA_GPU, k); Has 0; Find 0 (EXTERNAL_CUDA_GPU, k)]) as (s & E).
  { cbn. repeat (split; [first [exact D|exact P|split; [exact D|exact P]|eexists; reflexivity]|]). exact I. }
  exists s. rewrite E. cbn. rewrite Nat.eqb_refl. cbn. destruct k; [congruence|]. reflexivity.
Qed.
