(** What a user expects of the consumer copies of one field. *)
From Verif Require Import Prelude ConsumerM.

(** All of RAM is one memory, whatever the index; a GPU is one per index. *)
Definition same_memory (p q : place) : bool :=
  match p, q with
  | (LOCAL_RAM, _), (LOCAL_RAM, _) => true
  | (EXTERNAL_CUDA_GPU, m), (EXTERNAL_CUDA_GPU, n) => Nat.eqb m n
  | _, _ => false
  end.

Section Spec.
Variable V : Type.
Variable cuda : bool.
(** The field as the user sees it: where it lives, its values, where else it is
    available, and whether it may be written. *)
Record seen := Seen { s_home : place; s_values : V; s_also : list place; s_locked : bool }.

Definition available (s : seen) (p : place) : bool :=
  same_memory p (s_home s) || existsb (same_memory p) (s_also s).
(** can the library copy between the two places at all? *)
Definition supported (p : place) : bool :=
  cuda && match fst p with OTHER_MEMORY => false | _ => true end.

Definition expect (s : seen) (c : call V) : seen * reply V :=
  match c with
  | Read p => (s, if available s p then Value (s_values s) else Threw)
  | Write p v => if s_locked s then (s, Threw)
                 else if available s p then (Seen (s_home s) v (s_also s) false, Nothing)
                 else (s, Threw)
  | Add p => if place_eqb p (s_home s) then (s, Nothing)
             else if negb (supported p) then (Seen (s_home s) (s_values s) (s_also s) true, Threw)
             else if available s p then (Seen (s_home s) (s_values s) (s_also s) true, Nothing)
             else (Seen (s_home s) (s_values s) (p :: s_also s) true, Nothing)
  | Remove => (match s_also s with [] => s | _ => Seen (s_home s) (s_values s) [] false end, Nothing)
  | FindC p => (s, if place_eqb p (s_home s) then Yes
                   else if negb (supported p) || same_memory p (s_home s) then Threw
                   else if available s p then Yes else No)
  | HasC => (s, if existsb (fun p => match fst (s_home s), p with
                                     | LOCAL_RAM, (EXTERNAL_CUDA_GPU, O) => true
                                     | EXTERNAL_CUDA_GPU, (LOCAL_RAM, _) => true
                                     | _, _ => false
                                     end) (s_also s) then Yes else No)
  end.
Fixpoint expected (s : seen) (cs : list (call V)) : list (reply V) :=
  match cs with
  | [] => []
  | c :: cs => let '(s, r) := expect s c in r :: expected s cs
  end.

(** The values written last, given the calls made and the replies to them. *)
Definition last_written (v0 : V) (trace : list (call V * reply V)) : V :=
  fold_left (fun v cr => match cr with (Write _ v', Nothing) => v' | _ => v end) trace v0.
(** Was [p] added, and remove_consumers not called since? *)
Definition added (p : place) (trace : list (call V * reply V)) : bool :=
  fold_left (fun b cr => match cr with
                         | (Add q, Nothing) => b || place_eqb q p
                         | (Remove, _) => false
                         | _ => b
                         end) trace false.
End Spec.
Arguments s_home {V}. Arguments s_values {V}. Arguments s_also {V}. Arguments s_locked {V}. Arguments Seen {V}.
Arguments available {V}. Arguments expect {V}. Arguments expected {V}. Arguments last_written {V}. Arguments added {V}.
