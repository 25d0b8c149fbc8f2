(** Numbers used by the model.

    C [double] is modelled by exact rationals [Q]; where the code stores a bound or a
    side, which may be +-INFINITY, by [ext].  Rounding is not modelled.
    All tolerances of include/core/Numerics.h are kept as exact rationals. *)
From Coq Require Export QArith Qabs List Bool Arith ZArith Lia.
Export ListNotations.
Open Scope Q_scope.

(** include/core/Numerics.h:24-28 *)
Definition FEAS_TOL : Q := 1 # 1000000.
Definition ZERO_TOL : Q := 1 # 10000000000.
Definition HUGE_VAL_PS : Q := 10000000 # 1.
(** include/core/Numerics.h:25  BOUND_MARGINAL 0.5 * FEAS_TOL *)
Definition BOUND_MARGINAL : Q := 1 # 2000000.
(** include/core/glbopts.h:46 *)
Definition MAX_RATIO_PIVOT : Q := 1000 # 1.

(** C comparison operators on (finite) doubles. *)
Definition Qltb (x y : Q) : bool := negb (Qle_bool y x).      (* x < y  *)
Definition Qleb (x y : Q) : bool := Qle_bool x y.             (* x <= y *)
Definition Qgtb (x y : Q) : bool := Qltb y x.                 (* x > y  *)
Definition Qgeb (x y : Q) : bool := Qle_bool y x.             (* x >= y *)
Definition Qeqb (x y : Q) : bool := Qeq_bool x y.             (* x == y *)

(** include/core/Numerics.h:35-43  MAX, MIN, ABS *)
Definition MAXq (a b : Q) : Q := if Qgtb a b then a else b.
Definition MINq (a b : Q) : Q := if Qltb a b then a else b.
Definition ABSq (x : Q) : Q := if Qltb x 0 then - x else x.

(** include/core/Numerics.h:49-53 *)
Definition IS_EQUAL_FEAS_TOL (x y : Q) : bool := Qleb (ABSq (x - y)) FEAS_TOL.
Definition IS_ZERO_FEAS_TOL (x : Q) : bool := Qleb (ABSq x) FEAS_TOL.
Definition IS_HUGE (x : Q) : bool := Qgeb (ABSq x) HUGE_VAL_PS.

(** A bound or a side: a double that may be infinite (include/core/glbopts.h:24-27). *)
Inductive ext : Type := NInf | Fin (q : Q) | PInf.

(** Value of a bound or side in a place where the code has checked that it is finite (by the
    LB_INF / UB_INF / LHS_INF / RHS_INF tags).  The value for the infinite constructors is never
    meant to be used; [tags_ok] (L_State.v) is the invariant that rules it out. *)
Definition fin (e : ext) : Q := match e with Fin q => q | _ => 0 end.
Definition is_fin (e : ext) : bool := match e with Fin _ => true | _ => false end.
Definition is_ninf (e : ext) : bool := match e with NInf => true | _ => false end.
Definition is_pinf (e : ext) : bool := match e with PInf => true | _ => false end.

(** Order of extended values against a rational; what "x respects the bound" means. *)
Definition ext_le (e : ext) (x : Q) : Prop :=
  match e with NInf => True | Fin q => q <= x | PInf => False end.
Definition le_ext (x : Q) (e : ext) : Prop :=
  match e with NInf => False | Fin q => x <= q | PInf => True end.

(** Arrays of the reduction layer are total functions; [upd] is an array write. *)
Definition upd {A} (f : nat -> A) (i : nat) (v : A) : nat -> A :=
  fun j => if Nat.eqb j i then v else f j.
