(** Word layer: machine words, limbs, loops.
    A word is a [Z]; every operation of the C code that may wrap is followed
    by an explicit reduction modulo 2^64. *)
From Coq Require Import ZArith List Bool.
Local Open Scope Z_scope.

(** FLINT_BITS = 64 (the repository assumes 64-bit limbs, e.g.
    flint-extras/src/nmod_vec_extra/nmod_vec_2dot.c:5). *)
Definition B64 : Z := 2 ^ 64.
Definition B32 : Z := 2 ^ 32.
Definition w64 (x : Z) : Z := x mod B64.
Definition w32 (x : Z) : Z := x mod B32.
Definition UWORD_MAX : Z := B64 - 1.

(** umul_ppmm(hi, lo, a, b) of FLINT's longlong.h: full 64x64 -> 128 product. *)
Definition umul_ppmm (a b : Z) : Z * Z := ((a * b) / B64, w64 (a * b)).

(** add_ssaaaa(sh, sl, ah, al, bh, bl): two-limb addition, the carry out of the
    high limb is lost. *)
Definition add_ssaaaa (ah al bh bl : Z) : Z * Z :=
  let lo := w64 (al + bl) in
  let c := (al + bl) / B64 in
  (w64 (ah + bh + c), lo).

(** add_sssaaaaaa(sh, sm, sl, ah, am, al, bh, bm, bl): three-limb addition, the
    carry out of the high limb is lost. *)
Definition add_sssaaaaaa (ah am al bh bm bl : Z) : Z * Z * Z :=
  let lo := w64 (al + bl) in
  let c0 := (al + bl) / B64 in
  let mi := w64 (am + bm + c0) in
  let c1 := (am + bm + c0) / B64 in
  (w64 (ah + bh + c1), mi, lo).

(** NMOD_RED, NMOD2_RED2, NMOD_RED3: reduction of a one-, two-, three-limb
    number modulo n (trusted FLINT macros; NMOD_RED3 requires its high limb to
    be reduced, which is kept visible by returning an error otherwise). *)
Definition NMOD_RED (a n : Z) : Z := a mod n.
Definition NMOD2_RED2 (hi lo n : Z) : Z := (hi * B64 + lo) mod n.
Definition NMOD_RED3 (t2 t1 t0 n : Z) : option Z :=
  if t2 <? n then Some ((t2 * B64 * B64 + t1 * B64 + t0) mod n) else None.

(** C loops [while (c) body], with explicit fuel; [None] is "out of fuel". *)
Fixpoint while {S : Type} (fuel : nat) (c : S -> bool) (b : S -> S) (s : S)
  : option S :=
  match fuel with
  | O => if c s then None else Some s
  | S f => if c s then while f c b (b s) else Some s
  end.

(** C loops [for (i = lo; i < lo + n; i++) body]. *)
Fixpoint for_up {S : Type} (lo n : nat) (b : nat -> S -> S) (s : S) : S :=
  match n with
  | O => s
  | S n' => for_up (Datatypes.S lo) n' b (b lo s)
  end.

(** In-place update of an array. *)
Definition upd {A : Type} (a : nat -> A) (i : nat) (x : A) : nat -> A :=
  fun k => if Nat.eqb k i then x else a k.
