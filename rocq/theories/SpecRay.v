(** Specification vocabulary for ray tracing. *)

From Coq Require Import ZArith List.
Import ListNotations.
Local Open Scope Z_scope.

(** The axis-aligned rectangle spanned by two cells. *)
Definition between (a b c : Z) : Prop := Z.min a b <= c <= Z.max a b.
Definition in_rect (s e c : Z * Z) : Prop :=
  between (fst s) (fst e) (fst c) /\ between (snd s) (snd e) (snd c).

(** Two cells that touch (also diagonally). *)
Definition adjacent (c d : Z * Z) : Prop :=
  Z.abs (fst c - fst d) <= 1 /\ Z.abs (snd c - snd d) <= 1 /\ c <> d.

(** A chain of cells each adjacent to the next. *)
Fixpoint connected (c : Z * Z) (l : list (Z * Z)) : Prop :=
  match l with
  | [] => True
  | d :: rest => adjacent c d /\ connected d rest
  end.

Definition chain (l : list (Z * Z)) : Prop :=
  match l with [] => True | c :: rest => connected c rest end.

(** Slope between 1/2 and 1: the rays whose hit is misplaced. *)
Definition half_diagonal (s e : Z * Z) : Prop :=
  let a := Z.abs (fst e - fst s) in
  let b := Z.abs (snd e - snd s) in
  b < a <= 2 * b.

(** The cell is at most k/2 cells away from the straight line through the start
    and the end, measured along the shorter axis of the ray. *)
Definition near_line (s e : Z * Z) (k : Z) (c : Z * Z) : Prop :=
  let dx := fst e - fst s in
  let dy := snd e - snd s in
  2 * Z.abs (dx * (snd c - snd s) - dy * (fst c - fst s)) <= k * Z.max (Z.abs dx) (Z.abs dy).
