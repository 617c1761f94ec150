(** Model of the dot product kernels of flint-extras/src/nmod_vec_extra and
    flint-extras/src/nmod32_vec.
    An input vector [nn_srcptr v] is a function [nat -> Z] (its contents);
    lengths are [nat] and the theorems assume [Z.of_nat len < 2^64]. *)
From Coq Require Import ZArith List Bool.
From Verif Require Import W_word.
Local Open Scope Z_scope.

(** nmod_vec_dot_product.c:15-32, _nmod_vec_dot_bound_limbs_unbalanced
    (the same code is duplicated in nmod_vec_dot_product_multi.c:16-33). *)
Definition dot_bound_limbs_unbalanced (len b1 b2 : Z) : Z :=
  let a1 := if b1 =? 64 then UWORD_MAX else w64 (Z.shiftl 1 b1) - 1 in
  let a2 := if b2 =? 64 then UWORD_MAX else w64 (Z.shiftl 1 b2) - 1 in
  let '(t1, t0) := umul_ppmm a1 a2 in
  let '(t2, t1) := umul_ppmm t1 len in
  let '(u1, u0) := umul_ppmm t0 len in
  let '(t2, t1, t0) := add_sssaaaaaa t2 t1 0 0 u1 u0 in
  if negb (t2 =? 0) then 3
  else if negb (t1 =? 0) then 2
  else if negb (t0 =? 0) then 1 else 0.

(** nmod_vec_dot_product.c:39-45, _nmod_vec_dot_product_1: FLINT's macro
    _NMOD_VEC_DOT1, one-limb accumulation then NMOD_RED. *)
Definition dot_product_1 (v1 v2 : nat -> Z) (len : nat) (n : Z) : Z :=
  NMOD_RED (for_up 0 len (fun i r => w64 (r + w64 (v1 i * v2 i))) 0) n.

(** One step "umul_ppmm(s1,s0,x,y); add_ssaaaa(u1,u0,u1,u0,s1,s0);" *)
Definition acc2 (x y : Z) (u : Z * Z) : Z * Z :=
  let '(u1, u0) := u in
  let '(s1, s0) := umul_ppmm x y in
  add_ssaaaa u1 u0 s1 s0.

(** One step "add_sssaaaaaa(t2,t1,t0,t2,t1,t0,0,u1,u0);" *)
Definition acc3 (u : Z * Z) (t : Z * Z * Z) : Z * Z * Z :=
  let '(u1, u0) := u in
  let '(t2, t1, t0) := t in
  add_sssaaaaaa t2 t1 t0 0 u1 u0.

(** nmod_vec_dot_product.c:52-58, _nmod_vec_dot_product_2: FLINT's macro
    _NMOD_VEC_DOT2, two-limb accumulation then NMOD2_RED2. *)
Definition dot_product_2 (v1 v2 : nat -> Z) (len : nat) (n : Z) : Z :=
  let '(u1, u0) := for_up 0 len (fun i u => acc2 (v1 i) (v2 i) u) (0, 0) in
  NMOD2_RED2 u1 u0 n.

(** Number of products before overflow, nmod_vec_dot_product.c:72-73 (same text
    in nmod_vec_integer_dot_product.c:18-19 and
    nmod_vec_dot_product_multi.c:1988-1989). *)
Definition num_terms (b1 b2 : Z) : Z :=
  let log_nt := w64 (2 * 64 - (b1 + b2)) in
  if log_nt <? 64 then w64 (Z.shiftl 1 log_nt) else UWORD_MAX.

(** Block of [k] products accumulated in two limbs: first product written
    directly, the k-1 following ones added (nmod_vec_dot_product.c:84-98 for
    k = 8 unrolled, 104-109 for k = num_terms). *)
Definition block2 (v1 v2 : nat -> Z) (i k : nat) : Z * Z :=
  for_up 1 (k - 1) (fun ii u => acc2 (v1 (i + ii)%nat) (v2 (i + ii)%nat) u)
         (umul_ppmm (v1 i) (v2 i)).

(** Remaining terms i..len-1, starting from zero (nmod_vec_dot_product.c:113-119). *)
Definition rest2 (v1 v2 : nat -> Z) (i len : nat) : Z * Z :=
  for_up i (len - i) (fun ii u => acc2 (v1 ii) (v2 ii) u) (0, 0).

(** nmod_vec_dot_product.c:80-121: the block loops and the final accumulation,
    giving the three limbs before reduction. The word comparison "i+7 < len"
    is on naturals (no wrap-around: see [P_dot.v], lengths below 2^64). *)
Definition dot3_limbs (v1 v2 : nat -> Z) (len : nat) (b1 b2 : Z)
  : option (Z * Z * Z) :=
  let nt := num_terms b1 b2 in
  let st :=
    if 8 <=? nt then
      while len (fun s : nat * (Z * Z * Z) => Nat.ltb (fst s + 7) len)
        (fun s => ((fst s + 8)%nat, acc3 (block2 v1 v2 (fst s) 8) (snd s)))
        (0%nat, (0, 0, 0))
    else
      let k := Z.to_nat nt in
      while len (fun s : nat * (Z * Z * Z) => Nat.ltb (fst s + k) len)
        (fun s => ((fst s + k)%nat, acc3 (block2 v1 v2 (fst s) k) (snd s)))
        (0%nat, (0, 0, 0)) in
  match st with
  | None => None
  | Some (i, t) => Some (acc3 (rest2 v1 v2 i len) t)
  end.

(** nmod_vec_dot_product.c:68-127, _nmod_vec_dot_product_3. *)
Definition dot_product_3 (v1 v2 : nat -> Z) (len : nat) (b1 b2 n : Z) : option Z :=
  match dot3_limbs v1 v2 len b1 b2 with
  | None => None
  | Some (t2, t1, t0) => NMOD_RED3 (NMOD_RED t2 n) t1 t0 n
  end.

(** nmod_vec_dot_product.c:136-147, nmod_vec_dot_product_unbalanced. *)
Definition dot_product_unbalanced (v1 v2 : nat -> Z) (len : nat) (b1 b2 n : Z)
  : option Z :=
  let n_limbs := dot_bound_limbs_unbalanced (Z.of_nat len) b1 b2 in
  if n_limbs =? 2 then Some (dot_product_2 v1 v2 len n)
  else if n_limbs =? 3 then dot_product_3 v1 v2 len b1 b2 n
  else if n_limbs =? 1 then Some (dot_product_1 v1 v2 len n)
  else Some 0.

(** nmod_vec_integer_dot_product.c:13-74. The C code moves the pointers and
    decreases len; the model keeps the offset [i] and the remaining length, so
    "8 < len" becomes "8 < len - i" (state: offset, limbs). *)
Definition integer_dot_product (v1 v2 : nat -> Z) (len : nat) (b1 b2 : Z)
  : option (Z * Z * Z) :=
  let nt := num_terms b1 b2 in
  let st :=
    if 8 <=? nt then
      while len (fun s : nat * (Z * Z * Z) => Nat.ltb 8 (len - fst s))
        (fun s => ((fst s + 8)%nat, acc3 (block2 v1 v2 (fst s) 8) (snd s)))
        (0%nat, (0, 0, 0))
    else
      let k := Z.to_nat nt in
      while len (fun s : nat * (Z * Z * Z) => Nat.ltb k (len - fst s))
        (fun s => ((fst s + k)%nat, acc3 (block2 v1 v2 (fst s) k) (snd s)))
        (0%nat, (0, 0, 0)) in
  match st with
  | None => None
  | Some (i, t) => Some (acc3 (rest2 v1 v2 i len) t)
  end.

(** nmod_vec_dot_product_multi.c:43-367, _nmod_vec_dot_product_multi_1.
    Rows by blocks of 8 then one by one. The inner loops over j are unrolled by
    32 in C; here they are a plain loop over j < k (simplification: the unrolled
    statements at offsets 0..31 are the same statement). *)
Definition sum8w (u : nat -> Z) (v : nat -> nat -> Z) (i j : nat) : Z :=
  for_up 1 7 (fun ii r => w64 (r + w64 (u (i + ii)%nat * v (i + ii)%nat j)))
         (w64 (u i * v i j)).

Definition dot_product_multi_1 (u : nat -> Z) (v : nat -> nat -> Z)
  (len k : nat) (n : Z) : option (nat -> Z) :=
  match
    while len (fun s : nat * (nat -> Z) => Nat.ltb (fst s + 7) len)
      (fun s => ((fst s + 8)%nat,
         for_up 0 k (fun j uv => upd uv j (w64 (uv j + sum8w u v (fst s) j))) (snd s)))
      (0%nat, fun _ => 0)
  with
  | None => None
  | Some (i, uv) =>
    let uv := for_up i (len - i)
      (fun ii uv => for_up 0 k (fun j uv => upd uv j (w64 (uv j + w64 (u ii * v ii j)))) uv) uv in
    Some (for_up 0 k (fun j uv => upd uv j (NMOD_RED (uv j) n)) uv)
  end.

(** nmod_vec_dot_product_multi.c:1149-1169, _nmod_vec_dot_product_multi_2; the
    arrays uv_hi and uv are kept as one array of pairs. *)
Definition dot_product_multi_2 (u : nat -> Z) (v : nat -> nat -> Z)
  (len k : nat) (n : Z) : nat -> Z :=
  let p := for_up 0 len (fun i p =>
             for_up 0 k (fun j p => upd p j (acc2 (u i) (v i j) (p j))) p)
             (fun _ => (0, 0)) in
  fun j => NMOD2_RED2 (fst (p j)) (snd (p j)) n.

(** nmod_vec_dot_product_multi.c:1981-2052, _nmod_vec_dot_product_multi_3; the
    arrays uv_hii, uv_hi, uv are kept as one array of triples. *)
Definition dot_product_multi_3 (u : nat -> Z) (v : nat -> nat -> Z)
  (len k : nat) (b1 b2 n : Z) : option (nat -> option Z) :=
  let nt := num_terms b1 b2 in
  let body w (s : nat * (nat -> Z * Z * Z)) :=
    ((fst s + w)%nat,
     for_up 0 k (fun j t => upd t j (acc3 (block2 u (fun i => v i j) (fst s) w) (t j))) (snd s)) in
  let st :=
    if 8 <=? nt then
      while len (fun s => Nat.ltb (fst s + 7) len) (body 8%nat) (0%nat, fun _ => (0, 0, 0))
    else
      let w := Z.to_nat nt in
      while len (fun s => Nat.ltb (fst s + w) len) (body w) (0%nat, fun _ => (0, 0, 0)) in
  match st with
  | None => None
  | Some (i, t) =>
    let t := for_up 0 k (fun j t => upd t j (acc3 (rest2 u (fun i => v i j) i len) (t j))) t in
    Some (fun j => let '(t2, t1, t0) := t j in NMOD_RED3 (NMOD_RED t2 n) t1 t0 n)
  end.

(** nmod_vec_dot_product_multi.c:2054-2078, nmod_vec_dot_product_multi: entry j
    of the output array, for j < k. *)
Definition dot_product_multi (u : nat -> Z) (v : nat -> nat -> Z)
  (len k : nat) (b1 b2 n : Z) (j : nat) : option Z :=
  let n_limbs := dot_bound_limbs_unbalanced (Z.of_nat len) b1 b2 in
  if n_limbs =? 2 then Some (dot_product_multi_2 u v len k n j)
  else if n_limbs =? 3 then
    match dot_product_multi_3 u v len k b1 b2 n with Some f => f j | None => None end
  else if n_limbs =? 1 then
    match dot_product_multi_1 u v len k n with Some f => Some (f j) | None => None end
  else Some 0.

(** DOT_SPLIT_BITS, DOT_SPLIT_MASK of FLINT's nmod_vec.h; the bounds are those
    of flint-extras/src/nmod32_vec.h (DOT2_ACC8_MAX_MODULUS, DOT2_ACC8_MAX_LEN). *)
Definition DOT_SPLIT_BITS : Z := 56.
Definition DOT2_ACC8_MAX_MODULUS : Z := 1515531528.
Definition DOT2_ACC8_MAX_LEN : Z := 380368697.

(** "dp_hi += (dp_lo >> DOT_SPLIT_BITS); dp_lo &= DOT_SPLIT_MASK;" *)
Definition split_step (s : Z * Z) : Z * Z :=
  let '(hi, lo) := s in
  (w64 (hi + Z.shiftr lo DOT_SPLIT_BITS), Z.land lo (2 ^ DOT_SPLIT_BITS - 1)).

(** nmod32_vec/dot_split.c:25-37 (and nmod_vec_2dot.c:96-131 for each of the two
    vectors): add 8 products to dp_lo, then split. *)
Definition split_block (v1 v2 : nat -> Z) (i : nat) (s : Z * Z) : Z * Z :=
  let '(hi, lo) := s in
  split_step (hi, for_up 0 8 (fun ii lo => w64 (lo + w64 (v1 (i + ii)%nat * v2 (i + ii)%nat))) lo).

Definition split_loop (v1 v2 : nat -> Z) (len : nat) : option (nat * (Z * Z)) :=
  while len (fun s : nat * (Z * Z) => Nat.ltb (fst s + 7) len)
    (fun s => ((fst s + 8)%nat, split_block v1 v2 (fst s) (snd s)))
    (0%nat, (0, 0)).

Definition split_rest (v1 v2 : nat -> Z) (i len : nat) (s : Z * Z) : Z * Z :=
  let '(hi, lo) := s in
  (hi, for_up i (len - i) (fun ii lo => w64 (lo + w64 (v1 ii * v2 ii))) lo).

(** nmod32_vec/dot_split.c:18-48, _nmod32_vec_dot_split (scalar version). *)
Definition nmod32_dot_split (v1 v2 : nat -> Z) (len : nat) (n pow2 : Z) : option Z :=
  match split_loop v1 v2 len with
  | None => None
  | Some (i, s) =>
    let '(hi, lo) := split_step (split_rest v1 v2 i len s) in
    Some (w32 (NMOD_RED (w64 (pow2 * hi + lo)) n))
  end.

(** nmod_vec_extra/nmod_vec_2dot.c:89-142, _nmod_vec_2dot2_split (scalar
    version), one of the two results: vec1 is vec10 or vec11. Unlike the nmod32
    version there is no split after the remaining terms. *)
Definition dot2_split_2dot (v1 v2 : nat -> Z) (len : nat) (n pow2 : Z) : option Z :=
  match split_loop v1 v2 len with
  | None => None
  | Some (i, s) =>
    let '(hi, lo) := split_rest v1 v2 i len s in
    Some (NMOD_RED (w64 (w64 (pow2 * hi) + lo)) n)
  end.

Definition vec_2dot2_split (v10 v11 v2 : nat -> Z) (len : nat) (n pow2 : Z)
  : option Z * option Z :=
  (dot2_split_2dot v10 v2 len n pow2, dot2_split_2dot v11 v2 len n pow2).

(** nmod_vec_dot_product.c:187-221, _nmod_vec_dot_product_split26. The high
    parts are stored in 32-bit unsigned ints; "(unsigned int) t & MASK". *)
Definition lo26 (t : Z) : Z := Z.land (w32 t) 67108863.
Definition hi26 (t : Z) : Z := w32 (Z.shiftr t 26).
Definition dot_product_split26 (v1 v2 : nat -> Z) (len : nat) (n : Z) : Z :=
  let '(ulo, umi, uhi) :=
    for_up 0 len (fun i s =>
      let '(ulo, umi, uhi) := s in
      (w64 (ulo + w64 (lo26 (v1 i) * lo26 (v2 i))),
       w64 (umi + w64 (w64 (lo26 (v1 i) * hi26 (v2 i)) + w64 (hi26 (v1 i) * lo26 (v2 i)))),
       w64 (uhi + w64 (hi26 (v1 i) * hi26 (v2 i))))) (0, 0, 0) in
  let '(hi, lo) :=
    add_ssaaaa (Z.shiftr umi 38) (w64 (Z.shiftl umi 26))
               (Z.shiftr uhi 12) (w64 (w64 (Z.shiftl uhi 52) + ulo)) in
  NMOD2_RED2 hi lo n.
