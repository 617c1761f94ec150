(** Model of flint-extras/src/nmod_poly_mat_extra/kernel.c. Matrices are functions on
    indices, polynomials are those of mathcomp over the field F (F = Z/p of the
    nmod context); slong degrees and shifts are integers (no overflow). *)
From mathcomp Require Import all_ssreflect all_algebra zify.
From Verif Require Import A_base A_pmbasis_model.
Set Implicit Arguments.
Unset Strict Implicit.
Unset Printing Implicit Defensive.
Import GRing.Theory Num.Theory.
Local Open Scope ring_scope.

Section Kernel.
Variable F : fieldType.
Implicit Types (A ker : fmat {poly F}).

(** FLINT nmod_poly_mat/max_length.c *)
Definition mat_max_length m n A : nat := (\max_(i < m) \max_(j < n) size (A i j))%N.

(** what the kernel functions return: the value (nullity), and the contents of ker,
    pivind and shift *)
Record kerres := KerRes {
  kr_nullity : nat;
  kr_ker : fmat {poly F};
  kr_pivind : nat -> nat;
  kr_shift : nat -> int }.

(** kernel.c:186-199, the loop computing the amplitude of the shift *)
Definition shift_amp m (shift : nat -> int) : int :=
  let st := foldl (fun (st : int * int) i =>
      let: (mn, amp) := st in
      let s := shift i in
      if s < mn then (s, amp) else if amp < s then (mn, s) else (mn, amp))
    (shift 0%N, shift 0%N) (iota 0 m) in
  st.2 - st.1.

(** FLINT_SWAP of the entries of rows i and j *)
Definition swap_rows A (i j : nat) : fmat {poly F} := upd (upd A i (A j)) j (A i).

(** kernel.c:210-222, one pass of the loop gathering the kernel rows. pivind holds
    first the row degrees of the approximant basis (rdeg), then the pivot indices: it
    is kept here as two arrays, entries < nullity of the second having overwritten
    those of the first (the loop at i only reads the entry i >= nullity) *)
Definition via_step (order d : nat) (amp : int) (rdeg : nat -> int) (r : kerres) (i : nat) : kerres :=
  if rdeg i - kr_shift r i + amp < order%:Z - d%:Z then
    KerRes (kr_nullity r).+1 (swap_rows (kr_ker r) (kr_nullity r) i)
           (upd (kr_pivind r) (kr_nullity r) i) (upd (kr_shift r) (kr_nullity r) (rdeg i))
  else r.

(** kernel.c:147-226, nmod_poly_mat_kernel_via_approx. nmod_mat_lu on the constant
    coefficient is modelled by its rank. [ker0] and [pivind0] are the previous
    contents of the output arguments (ker is m x m). In the case of full rank of the
    constant coefficient, the permutation that nmod_mat_lu leaves in pivind is not
    modelled (the function then returns 0: no entry of pivind is meaningful). *)
Definition kernel_via_approx (v36 : bool) (modn m n : nat) ker0 (pivind0 : nat -> nat)
  (shift : nat -> int) A : aoutcome kerres :=
  let len := mat_max_length m n A in
  if len == 0%N then AOk (KerRes m (@fone _) id shift)
  else if m == 1%N then AOk (KerRes 0 ker0 pivind0 shift)
  else if (m <= n)%N && (\rank (mx_of m n (fun i j => (A i j)`_0)) == m) then
    AOk (KerRes 0 ker0 pivind0 shift)
  else
    let d := len.-1 in
    let amp := shift_amp m shift in
    let order := (minn m n * d + absz amp + d + 1)%N in
    match pmbasis v36 modn m n A order shift with
    | AOk (app, rdeg) =>
      AOk (foldl (via_step order d amp rdeg) (KerRes 0 app pivind0 shift) (iota 0 m))
    | AUB => AUB
    end.

End Kernel.
