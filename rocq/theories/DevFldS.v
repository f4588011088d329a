(** What a user expects of fields on several devices, as arrays. *)
From Verif Require Import Prelude WindowM WindowS ConsumerM ConsumerS DevFldM.

Section Spec.
Variable T : Type.
Variable cuda : bool.
Notation arr := (Z -> T).

(** A field as the user sees it: C52's view of it (where it lives, its values,
    where else it is available, whether it may be written), and its windows. *)
Record sfield := SF { sf_seen : seen arr; sf_win : window; sf_int : window; sf_noint : bool }.

Definition on_cpu (s : sfield) : bool := available (sf_seen s) (LOCAL_RAM, 0%nat).
(** lives on the CPU, and no consumer was added *)
Definition writable_here (s : sfield) : bool :=
  match fst (s_home (sf_seen s)) with LOCAL_RAM => negb (s_locked (sf_seen s)) | _ => false end.

(** the elements in a window, x fastest *)
Definition elements (w : window) (v : arr) : list T := map (fun p => v (addr w p)) (box_points (wext w)).
Definition put1 (v : arr) (i : Z) (x : T) : arr := fun j => if j =? i then x else v j.
(** the element at each position p of the window becomes g p *)
Definition put (w : window) (g : ivec -> T) (v : arr) : arr :=
  fold_left (fun v p => put1 v (addr w p) (g p)) (box_points (wext w)) v.

Definition set_values (s : sfield) (v : arr) : sfield :=
  SF (Seen (s_home (sf_seen s)) v (s_also (sf_seen s)) (s_locked (sf_seen s))) (sf_win s) (sf_int s) (sf_noint s).
Definition in_boxb (e p : ivec) : bool :=
  (0 <=? ix p) && (ix p <? ix e) && (0 <=? iy p) && (iy p <? iy e) && (0 <=? iz p) && (iz p <? iz e).
Definition in_blockb (w : window) (i : Z) : bool := (0 <=? i) && (i <? ix (wglob w) * iy (wglob w) * iz (wglob w)).

(** None: the user asked for an element outside the field, or for the first
    element of a read-only field that is not available on the CPU. *)
Definition expect_f (s : sfield) (c : fcall T) : option (sfield * freply T) :=
  let v := s_values (sf_seen s) in
  let read (ok : bool) (l : list T) := if on_cpu s then if ok then Some (s, FList l) else None else Some (s, FThrew) in
  let write (ok : bool) (v : arr) := if writable_here s then if ok then Some (set_values s v, FNothing) else None else Some (s, FThrew) in
  match c with
  | Basic c => let '(s', r) := expect cuda (sf_seen s) c in Some (SF s' (sf_win s) (sf_int s) (sf_noint s), of_reply r)
  | ReadAll => read true (elements (sf_win s) v)
  | ReadInterior => if sf_noint s then Some (s, FThrew) else read true (elements (sf_int s) v)
  | First => if negb (on_cpu s) && s_locked (sf_seen s) then None else read true [v (addr (sf_win s) (IV 0 0 0))]
  | ReadAt p => read (in_boxb (wext (sf_win s)) p) [v (addr (sf_win s) p)]
  | ReadNth i => read (in_blockb (sf_win s) i) [v i]
  | WriteAll g => write true (put (sf_win s) g v)
  | WriteInterior g => if sf_noint s then Some (s, FThrew) else write true (put (sf_int s) g v)
  | WriteAt p x => write (in_boxb (wext (sf_win s)) p) (put1 v (addr (sf_win s) p) x)
  | WriteNth i x => write (in_blockb (sf_win s) i) (put1 v i x)
  end.

(** does the library support fields there? *)
Definition place_ok (p : place) : bool := match fst p with LOCAL_RAM => true | EXTERNAL_CUDA_GPU => cuda | OTHER_MEMORY => false end.
Definition expect_a (ss : list sfield) (a : faction T) : option (list sfield * freply T) :=
  match a with
  | FNew _ p w wi noint v =>
      Some (if place_ok p then (ss ++ [SF (Seen p v [] false) w wi noint], FNothing) else (ss, FThrew))
  | On i c =>
      match nth_error ss i with
      | Some s => match expect_f s c with Some (s, r) => Some (set_nth ss i s, r) | None => None end
      | None => None
      end
  | Assign i j =>
      match nth_error ss i, nth_error ss j with
      | Some d, Some s =>
          Some (if s_locked (sf_seen d) then (ss, FThrew)
                else if negb (win_eqb (sf_win d) (sf_win s)) then (ss, FThrew)
                else (set_nth ss i (set_values d (s_values (sf_seen s))), FNothing))
      | _, _ => None
      end
  end.
Fixpoint expect_as (ss : list sfield) (l : list (faction T)) : option (list (freply T)) :=
  match l with
  | [] => Some []
  | a :: l => match expect_a ss a with
              | Some (ss, r) => option_map (cons r) (expect_as ss l)
              | None => None
              end
  end.
(** the fields after the actions *)
Fixpoint after (ss : list sfield) (l : list (faction T)) : option (list sfield) :=
  match l with
  | [] => Some ss
  | a :: l => match expect_a ss a with Some (ss, _) => after ss l | None => None end
  end.

(** The windows of new fields lie in the block and are not empty. *)
Definition window_ok (w : window) : Prop := fits w /\ pos_dims (wext w).
Definition windows_ok (a : faction T) : Prop :=
  match a with
  | FNew _ _ w wi noint _ => window_ok w /\ (noint = false -> window_ok wi /\ wglob wi = wglob w)
  | _ => True
  end.
End Spec.
Arguments SF {T}. Arguments sf_seen {T}. Arguments sf_win {T}. Arguments sf_int {T}. Arguments sf_noint {T}.
Arguments on_cpu {T}. Arguments writable_here {T}. Arguments elements {T}. Arguments put1 {T}. Arguments put {T}.
Arguments set_values {T}. Arguments expect_f {T}. Arguments expect_a {T}. Arguments expect_as {T}. Arguments after {T}. Arguments windows_ok {T}.
