(** Specification of masks and their copies: no memory, only what a user sees. *)
From Verif Require Import Prelude WindowM WindowS MaskM MaskS ConsumerM MaskLifeM.

(** A mask as the user knows it: its window, the points it was made from, where
    it lives, whether the CPU can read it although it lives on a GPU, whether
    that was asked for through this object, the GPUs it was sent to, and the
    object it is a copy of. *)
Record seen_mask := SeenMask {
  z_win : window; z_pts : list ivec; z_home : place;
  z_cpu : bool; z_own_cpu : bool; z_gpus : list nat; z_of : option nat }.

Definition is_member (q : ivec) (ps : list ivec) : bool := existsb (iv_eqb q) ps.
Definition sent (k : nat) (l : list nat) : bool := existsb (Nat.eqb k) l.

(** Can the bits be read at place p? *)
Definition readable (cuda : bool) (z : seen_mask) (p : place) : bool :=
  match fst p with
  | LOCAL_RAM => mtype_eqb (fst (z_home z)) LOCAL_RAM || z_cpu z
  | EXTERNAL_CUDA_GPU => cuda && (place_eqb p (z_home z) || sent (snd p) (z_gpus z))
  | OTHER_MEMORY => false
  end.

Definition set_cpu (z : seen_mask) : seen_mask :=
  SeenMask (z_win z) (z_pts z) (z_home z) true (z_own_cpu z || negb (z_cpu z)) (z_gpus z) (z_of z).
Definition set_gpu (z : seen_mask) (k : nat) : seen_mask :=
  SeenMask (z_win z) (z_pts z) (z_home z) (z_cpu z) (z_own_cpu z) (k :: z_gpus z) (z_of z).
Definition unsent (z : seen_mask) : seen_mask :=
  SeenMask (z_win z) (z_pts z) (z_home z) (z_cpu z && negb (z_own_cpu z)) false [] (z_of z).

(** What happens to the masks, and what is replied. *)
Definition masks := list (option seen_mask).
Definition on_mask (zs : masks) (i : nat) (f : seen_mask -> masks * mreply) : masks * mreply :=
  match alive zs i with Some z => f z | None => (zs, Threw) end.
Definition observe (cuda : bool) (zs : masks) (a : maction) : masks * mreply :=
  match a with
  | New w ps home =>
      match fst home, cuda, ps with
      | LOCAL_RAM, _, _ | EXTERNAL_CUDA_GPU, true, [] => (zs ++ [Some (SeenMask w ps home false false [] None)], Done)
      | _, _, _ => (zs ++ [None], Threw)
      end
  | Copy i => on_mask zs i (fun z =>
      (zs ++ [Some (SeenMask (z_win z) (z_pts z) (z_home z) (z_cpu z) false (z_gpus z) (Some i))], Done))
  | Destroy i => (replace zs i None, Done)
  | Add i p => on_mask zs i (fun z =>
      if place_eqb p (z_home z) then (zs, Done)
      else match fst p, cuda with
           | LOCAL_RAM, true => if mtype_eqb (fst (z_home z)) LOCAL_RAM then (zs, Done)
                                else (replace zs i (Some (set_cpu z)), Done)
           | EXTERNAL_CUDA_GPU, true => (replace zs i (Some (set_gpu z (snd p))), Done)
           | _, _ => (zs, Threw)
           end)
  | Remove i => on_mask zs i (fun z => if cuda then (replace zs i (Some (unsent z)), Done) else (zs, Done))
  | Find i p => on_mask zs i (fun z =>
      (zs, if place_eqb p (z_home z) then Yes
           else match fst p, cuda with
                | LOCAL_RAM, true => if mtype_eqb (fst (z_home z)) LOCAL_RAM then Threw else yes (z_cpu z)
                | EXTERNAL_CUDA_GPU, true => yes (sent (snd p) (z_gpus z))
                | _, _ => Threw
                end))
  | Has i => on_mask zs i (fun z =>
      (zs, yes (if mtype_eqb (fst (z_home z)) LOCAL_RAM then sent 0 (z_gpus z) else z_cpu z)))
  | At i q => on_mask zs i (fun z =>
      (zs, if readable cuda z (LOCAL_RAM, 0%nat) then yes (is_member q (z_pts z)) else Threw))
  | ReadAt i p q => on_mask zs i (fun z =>
      (zs, if readable cuda z p then yes (is_member q (z_pts z)) else Threw))
  end.

(** The rules for users: points are cells of the block; a mask is used while it
    lives; it is destroyed, and its consumers are removed, only when no copy
    of it is left; and a mask made on a GPU is never destroyed. *)
Definition copied_from (zs : masks) (i : nat) : Prop :=
  exists j z, alive zs j = Some z /\ z_of z = Some i.
Definition legal (zs : masks) (a : maction) : Prop :=
  match a with
  | New w ps _ => pos_dims (wglob w) /\ Forall (in_block w) ps
  | Copy i | Add i _ | Find i _ | Has i => exists z, alive zs i = Some z
  | At i q | ReadAt i _ q => exists z, alive zs i = Some z /\ in_block (z_win z) q
  | Remove i => (exists z, alive zs i = Some z) /\ ~ copied_from zs i
  | Destroy i => (exists z, alive zs i = Some z /\ ~ (fst (z_home z) = EXTERNAL_CUDA_GPU /\ z_of z = None)) /\
                 ~ copied_from zs i
  end.
Fixpoint legal_history (cuda : bool) (zs : masks) (l : list maction) : Prop :=
  match l with
  | [] => True
  | a :: l => legal zs a /\ legal_history cuda (fst (observe cuda zs a)) l
  end.
Fixpoint observed (cuda : bool) (zs : masks) (l : list maction) : list mreply :=
  match l with
  | [] => []
  | a :: l => snd (observe cuda zs a) :: observed cuda (fst (observe cuda zs a)) l
  end.
Fixpoint after (cuda : bool) (zs : masks) (l : list maction) : masks :=
  match l with
  | [] => zs
  | a :: l => after cuda (fst (observe cuda zs a)) l
  end.

(** The window and the points a mask was made from: a copy has those of the
    mask it copies.  One entry for every New and every Copy. *)
Fixpoint origins (acc : list (option (window * list ivec))) (l : list maction) : list (option (window * list ivec)) :=
  match l with
  | [] => acc
  | New w ps _ :: l => origins (acc ++ [Some (w, ps)]) l
  | Copy i :: l => origins (acc ++ [nth i acc None]) l
  | _ :: l => origins acc l
  end.

(** The pool holds every block that was ever allocated, each once and in the
    queue of its own memory. *)
Definition free_blocks (m : list (Z * list nat)) : list nat := flat_map snd m.
Definition all_returned (s : mstate) : Prop :=
  NoDup (free_blocks (mp_cpu (s_pool s)) ++ free_blocks (mp_gpu (s_pool s))) /\
  forall a b, s_heap s a = Some b ->
    (b_at b = LOCAL_RAM -> In a (free_blocks (mp_cpu (s_pool s)))) /\
    (b_at b = EXTERNAL_CUDA_GPU -> In a (free_blocks (mp_gpu (s_pool s)))).
Definition nobody (zs : masks) : Prop := forall i, alive zs i = None.
