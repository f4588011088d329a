(** Specification: vectors as functions from axes to integers. *)
From Verif Require Import Prelude WindowM Vec3M.

Inductive axis := AxX | AxY | AxZ.
Definition comp (v : ivec) (k : axis) : Z := match k with AxX => ix v | AxY => iy v | AxZ => iz v end.
Definition is_int (z : Z) : Prop := - 2 ^ 31 <= z < 2 ^ 31.

(** r is a o b; division leaves a remainder smaller than the divisor, with the
    sign of a. *)
Definition value_of (o : vop) (a b r : Z) : Prop :=
  match o with
  | OAdd => r = a + b
  | OSub => r = a - b
  | OMul => r = a * b
  | ODiv => b <> 0 /\ Z.abs (a - b * r) < Z.abs b /\ 0 <= a * (a - b * r)
  end.

(** One statement on vectors, all at once: d gets the values, which must be ints,
    and the others stay. *)
Definition changes (e : venv) (d : nat) (p : axis -> Z -> Prop) (e' : venv) : Prop :=
  (forall k, p k (comp (e' d) k)) /\ forall n, n <> d -> e' n = e n.
Definition effect (e : venv) (s : vstmt) (e' : venv) : Prop :=
  match s with
  | VMake d x y z => changes e d (fun k r => r = match k with AxX => x | AxY => y | AxZ => z end) e'
  | VOp o d a b => changes e d (fun k r => value_of o (comp (e a) k) (comp (e b) k) r /\ is_int r) e'
  | VNum o d a s => changes e d (fun k r => value_of o (comp (e a) k) s r /\ is_int r) e'
  | VAddTo d a => changes e d (fun k r => r = comp (e d) k + comp (e a) k /\ is_int r) e'
  | VSubFrom d a => changes e d (fun k r => r = comp (e d) k - comp (e a) k /\ is_int r) e'
  end.
Inductive effects : venv -> list vstmt -> venv -> Prop :=
| eff_nil e e' : (forall n, e' n = e n) -> effects e [] e'
| eff_cons e s e1 p e' : effect e s e1 -> effects e1 p e' -> effects e (s :: p) e'.
