(** ntl-extras/structured_lzz_p/src/toeplitz_like_plus_lzz_p.cpp and toeplitz_like_minus_lzz_p.cpp: matrices given by generators, over
    lower_triangular_toeplitz_lzz_p (N_str_model.v) and the circulant matrices (N_circ_model.v). AUB is an error of NTL or undefined behaviour. *)
From mathcomp Require Import all_ssreflect all_algebra.
From Verif Require Import A_base A_mul_model N_pmat_model N_util_model N_str_model N_circ_model.
Set Implicit Arguments.
Unset Strict Implicit.
Unset Printing Implicit Defensive.
Import GRing.Theory.
Local Open Scope ring_scope.

Section Tlike.
Variable F : fieldType.
Variable MX : nat.

Definition abind (T U : Type) (x : aoutcome T) (f : T -> aoutcome U) : aoutcome U := if x is AOk y then f y else AUB.
(** the loops of both mul_right: output is set to 0, then term(i) is added for each generator *)
Definition sum_terms (alpha m : nat) (term : nat -> aoutcome (seq F)) : aoutcome (seq F) :=
  foldl (fun out i => abind out (fun o => abind (term i) (fun t => AOk (mkseq (fun j => o`_j + t`_j) m)))) (AOk (nseq m 0)) (iota 0 alpha).

(** *** toeplitz_like_plus_lzz_p.cpp *)
(** 47-54: idx starts at n % m and goes around *)
Definition plus_vecG (G : cmat F) (n i : nat) : seq F :=
  mkseq (fun j => cent G (iter j (fun idx => if idx.+1 == cr G then 0%N else idx.+1) (n %% cr G)%N) i) (cr G).
(** 57-58 *)
Definition plus_vecH (H : cmat F) (i : nat) : seq F := mkseq (fun j => cent H (cr H - 1 - j)%N i) (cr H).
(** 30-61 and 84-104; without rows n % m is a division by zero, and H is read in the columns of G *)
Definition plus_right (G H : cmat F) (v : seq F) : aoutcome (seq F) :=
  if (0 < cc G)%N && ((cr G == 0%N) || (cc H < cc G)%N) then AUB
  else sum_terms (cc G) (cr G) (fun i =>
    abind (ltt_right MX (plus_vecH H i) v) (fun tmp1 => ccol_right (plus_vecG G (cr H) i) (cr H) tmp1)).

(** 124-131: Mdense is not cleared, NTL keeps the rows of the previous value x when the number of columns does not change; to_dense of the
    blocks writes in new matrices *)
Definition plus_dense (x G H : cmat F) : cmat F :=
  let new := Cmat 0 0 (fun _ _ => 0) in
  Cmat (cr G) (cr H) (fun i j => (if (cc x == cr H) && (i < cr x)%N then cent x i j else 0) +
    \sum_(g < cc G) \sum_(k < cr H) cent (ccol_dense (plus_vecG G (cr H) g) (cr H)) i k * cent (ltt_dense new (plus_vecH H g)) k j).
(** 106-119, and toeplitz_like_minus_lzz_p.cpp:115-128: the left product and the products with a matrix have an empty body; x is the previous
    value of the result *)
Definition like_left (x : seq F) (G H : cmat F) (v : seq F) : aoutcome (seq F) := AOk x.
Definition like_mat (x G H b : cmat F) : aoutcome (cmat F) := AOk x.

(** *** toeplitz_like_minus_lzz_p.cpp *)
(** 53-54 *)
Definition minus_vecG (G : cmat F) (i : nat) : seq F := mkseq (fun j => - cent G j i) (cr G).
(** 57-66: idx starts at n - 2 (n - 1 when n = 1, that is 0) and goes down around *)
Definition minus_vecH (H : cmat F) (i : nat) : seq F :=
  mkseq (fun j => cent H (iter j (fun idx => if idx is k.+1 then k else (cr H - 1)%N) (cr H - 2)%N) i) (cr H).
(** 31-69 and 92-113; a matrix without rows or columns is left without its structured blocks: the products with them are not modelled *)
Definition minus_right (G H : cmat F) (v : seq F) : aoutcome (seq F) :=
  if (0 < cc G)%N && ((cr G == 0%N) || (cr H == 0%N) || (cc H < cc G)%N) then AUB
  else sum_terms (cc G) (cr G) (fun i =>
    abind (crow_right (minus_vecH H i) (cr G) v) (fun tmp1 => ltt_right MX (minus_vecG G i) tmp1)).
(** 133-140, as for toeplitz_like_plus_lzz_p *)
Definition minus_dense (x G H : cmat F) : cmat F :=
  let new := Cmat 0 0 (fun _ _ => 0) in
  Cmat (cr G) (cr H) (fun i j => (if (cc x == cr H) && (i < cr x)%N then cent x i j else 0) +
    \sum_(g < cc G) \sum_(k < cr G) cent (ltt_dense new (minus_vecG G g)) i k * cent (crow_dense (minus_vecH H g) (cr G)) k j).
End Tlike.
