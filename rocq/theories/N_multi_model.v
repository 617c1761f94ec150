(** Model of ntl-extras/lzz_pX_CRT/src/lzz_pX_Multipoint.cpp: the operations of the base class on
    vectors and matrices, for any implementation of the four virtual functions. The content of
    the destination before the call is a parameter. *)
From mathcomp Require Import all_ssreflect all_algebra.
From Verif Require Import A_base A_mul_model.
Set Implicit Arguments.
Unset Strict Implicit.
Unset Printing Implicit Defensive.
Import GRing.Theory.
Local Open Scope ring_scope.

Section Multi.
Variable F : fieldType.
Local Notation P := {poly F}.

(** M[i][j] = x *)
Definition upd2 (T : Type) (M : fmat T) (i j : nat) (x : T) : fmat T := upd M i (upd (M i) j x).
(** V[l][i][j] = x *)
Definition upd3 (T : Type) (V : nat -> fmat T) (l i j : nat) (x : T) : nat -> fmat T := upd V l (upd2 (V l) i j x).

Variable n : nat.

(** lzz_pX_Multipoint.cpp:50-66, evaluate_vector, and 243-261, t_interpolate_vector, where [ev] is
    evaluate, respectively t_interpolate *)
Definition evaluate_vector (ev : P -> nat -> F) (s : nat) (f : nat -> P) (val : fmat F) : fmat F :=
  foldl (fun val i =>
      let tmp := ev (f i) in
      foldl (fun val j => upd2 val j i (tmp j)) val (iota 0 n)) val (iota 0 s).

(** lzz_pX_Multipoint.cpp:71-103, evaluate_matrix *)
Definition evaluate_matrix (ev : P -> nat -> F) (s t : nat) (f : fmat P) (val : nat -> fmat F) : nat -> fmat F :=
  let mat_val := foldl (fun M i => foldl (fun M k => upd2 M i k (ev (f i k))) M (iota 0 t)) (fun _ _ _ => 0) (iota 0 s) in
  foldl (fun val j => foldl (fun val i => foldl (fun val k =>
      upd3 val j i k (mat_val i k j)) val (iota 0 t)) val (iota 0 s)) val (iota 0 n).

(** lzz_pX_Multipoint.cpp:266-288, t_interpolate_matrix, [ev] is t_interpolate *)
Definition t_interpolate_matrix (ev : P -> nat -> F) (s t : nat) (f : fmat P) (val : nat -> fmat F) : nat -> fmat F :=
  foldl (fun val i => foldl (fun val k =>
      let tmp := ev (f i k) in
      foldl (fun val j => upd3 val j i k (tmp j)) val (iota 0 n)) val (iota 0 t)) val (iota 0 s).

(** lzz_pX_Multipoint.cpp:108-129, interpolate_vector, and 187-208, t_evaluate_vector, where [interp]
    is interpolate, respectively t_evaluate with the given output_size. For n > 0 the argument val is not empty. The
    vector tmp is reused from one iteration to the next. *)
Definition interpolate_vector (interp : (nat -> F) -> P) (s : nat) (val : fmat F) (f : nat -> P) : nat -> P :=
  (foldl (fun st i =>
      let: (tmp, f) := st in
      let tmp := foldl (fun (tmp : nat -> F) j => upd tmp j (val j i)) tmp (iota 0 n) in
      (tmp, upd f i (interp tmp))) (fun _ => 0, f) (iota 0 s)).2.

(** lzz_pX_Multipoint.cpp:134-159, interpolate_matrix, and 213-238, t_evaluate_matrix *)
Definition interpolate_matrix (interp : (nat -> F) -> P) (s t : nat) (val : nat -> fmat F) (f : fmat P) : fmat P :=
  (foldl (fun st i => foldl (fun st k =>
      let: (tmp, f) := st in
      let tmp := foldl (fun (tmp : nat -> F) j => upd tmp j (val j i k)) tmp (iota 0 n) in
      (tmp, upd2 f i k (interp tmp))) st (iota 0 t)) (fun _ => 0, f) (iota 0 s)).2.

(** lzz_pX_Multipoint.cpp:164-181, to_dense *)
Definition to_dense (ev : P -> nat -> F) (M : fmat F) : fmat F :=
  (foldl (fun st i =>
      let: (f, M) := st in
      let v := ev f in
      (f * 'X, foldl (fun M j => upd2 M j i (v j)) M (iota 0 n))) (1, M) (iota 0 n)).2.

(** lzz_pX_Multipoint.cpp:18-29, get_point (and 34-45): pts is empty, or set; it is filled at the first call *)
Definition get_points (ev : P -> nat -> F) (pts : option (nat -> F)) : nat -> F :=
  if pts is Some p then p else ev 'X.
End Multi.
