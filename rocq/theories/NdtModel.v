(** Model of class NDT: include/ndt_2d/ndt_model.hpp:67-134,
    src/ndt_model.cpp:118-218. *)

From Coq Require Import ZArith List Bool.
From Verif Require Import Outcome Arith TypesModel CellModel ScanModel.
Import ListNotations.

(** ndt_model.hpp:127-130. size_x_, size_y_ are size_t. *)
Record ndt (T : Type) : Type := mkNdt {
  g_cs : T;
  g_sx : Z;
  g_sy : Z;
  g_ox : T;
  g_oy : T;
  g_cells : list (cell T)
}.
Arguments mkNdt {T} g_cs g_sx g_sy g_ox g_oy g_cells.
Arguments g_cs {T} n.
Arguments g_sx {T} n.
Arguments g_sy {T} n.
Arguments g_ox {T} n.
Arguments g_oy {T} n.
Arguments g_cells {T} n.

Section Ndt.
Context {T : Type} {A : Arith T}.
Local Open Scope num_scope.
Local Open Scope outcome_scope.

(** ndt_model.cpp:118-126.  The double -> size_t conversions are undefined when
    the truncated value does not fit; the product wraps modulo 2^64.  Failure of
    the allocation is not modelled. *)
Definition ndt_new (cell_size size_x size_y origin_x origin_y : T) : outcome (ndt T) :=
  sx <- cast_unsigned 64 (size_x / cell_size + none_) ;;
  sy <- cast_unsigned 64 (size_y / cell_size + none_) ;;
  Ok (mkNdt cell_size sx sy origin_x origin_y
            (repeat cell_new (Z.to_nat (wrap64 (sx * sy))))).

(** ndt_model.cpp:203-218.  grid_x and grid_y are unsigned int; the result is a
    size_t computation converted to int.  -1 means "outside". *)
Definition ndt_index (g : ndt T) (x y : T) : outcome Z :=
  if (x <? g_ox g) || (y <? g_oy g) then Ok (-1)%Z
  else
    gx <- cast_unsigned 32 ((x - g_ox g) / g_cs g) ;;
    gy <- cast_unsigned 32 ((y - g_oy g) / g_cs g) ;;
    if ((g_sx g <=? gx) || (g_sy g <=? gy))%Z then Ok (-1)%Z
    else Ok (to_int32 (wrap64 (wrap64 (gy * g_sx g) + gx))).

(** ndt_model.cpp:144-149: one point already in the map frame. *)
Definition ndt_add_point (g : ndt T) (p : point T) : outcome (ndt T) :=
  i <- ndt_index g (px p) (py p) ;;
  if (0 <=? i)%Z then
    cells <- vec_update (g_cells g) i (fun c => cell_add_point c p) ;;
    Ok (mkNdt (g_cs g) (g_sx g) (g_sy g) (g_ox g) (g_oy g) cells)
  else Ok g.

(** ndt_model.cpp:132-151. *)
Definition ndt_add_scan (g : ndt T) (s : scan T) : outcome (ndt T) :=
  foldM ndt_add_point g (map (place (s_pose s)) (s_pts s)).

(** ndt_model.cpp:153-159. *)
Definition ndt_compute (eig : mat2 T -> T * T) (g : ndt T) : ndt T :=
  mkNdt (g_cs g) (g_sx g) (g_sy g) (g_ox g) (g_oy g) (map (cell_compute eig) (g_cells g)).

(** ndt_model.cpp:161-175: both single-point overloads. *)
Definition ndt_likelihood (g : ndt T) (p : point T) : outcome T :=
  i <- ndt_index g (px p) (py p) ;;
  if (0 <=? i)%Z then
    c <- vec_get (g_cells g) i ;; Ok (cell_score c p)
  else Ok nzero.

(** ndt_model.cpp:177-186. *)
Definition ndt_likelihood_points (g : ndt T) (pts : list (point T)) : outcome T :=
  foldM (fun score p => l <- ndt_likelihood g p ;; Ok (score + l)) nzero pts.

(** ndt_model.cpp:188-201. *)
Definition ndt_likelihood_scan (g : ndt T) (s : scan T) : outcome T :=
  foldM (fun score p => l <- ndt_likelihood g (iso_apply (s_pose s) p) ;; Ok (score + l))
        nzero (s_pts s).

(** A history of addScan / compute calls. *)
Inductive ndt_op : Type :=
| NAddScan (s : scan T)
| NCompute.

Definition ndt_step (eig : mat2 T -> T * T) (g : ndt T) (o : ndt_op) : outcome (ndt T) :=
  match o with
  | NAddScan s => ndt_add_scan g s
  | NCompute => Ok (ndt_compute eig g)
  end.

Definition ndt_run (eig : mat2 T -> T * T) (g : ndt T) (ops : list ndt_op) : outcome (ndt T) :=
  foldM (ndt_step eig) g ops.

End Ndt.

Arguments ndt_op T : clear implicits.
