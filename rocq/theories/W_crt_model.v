(** Model of the naive CRT and multimodular reduction of
    flint-extras/src/fmpz_extra. An fmpz is a [Z]; its limbs are exposed where
    the C code reads them. *)
From Coq Require Import ZArith List Bool.
From Verif Require Import W_word W_dot_model.
Local Open Scope Z_scope.

(** k-th limb, number of bits (FLINT_BIT_COUNT, fmpz_bits), number of limbs
    (fmpz_size, _mp_size) of a nonnegative integer (FLINT/GMP). *)
Definition limb (a : Z) (k : nat) : Z := (a / B64 ^ Z.of_nat k) mod B64.
Definition nbits (a : Z) : Z := if a =? 0 then 0 else Z.log2 a + 1.
Definition nlimbs (a : Z) : nat := Z.to_nat ((nbits a + 63) / 64).

(** COEFF_IS_MPZ: an fmpz is a multiprecision integer when it does not fit in
    62 bits (FLINT). *)
Definition is_mpz (a : Z) : bool := 2 ^ 62 <=? Z.abs a.

(** product of the moduli: fmpz_CRT_naive_init.c:35-39 and
    fmpz_multimod_naive_init.c:36-39 *)
Definition prod_primes (primes : nat -> Z) (np : nat) : Z :=
  for_up 0 np (fun i acc => acc * primes i) 1.

(** _nmod_vec_max_bits (FLINT): bit size of the largest entry *)
Definition max_bits (v : nat -> Z) (len : nat) : Z :=
  for_up 0 len (fun i acc => Z.max acc (nbits (v i))) 0.

(** n_invmod (FLINT): the inverse of x modulo p; modelled by search (it exists
    and is unique when x and p are coprime, p > 1), 0 when there is none. *)
Fixpoint search_inv (fuel : nat) (x p y : Z) : Z :=
  match fuel with
  | O => 0
  | S f => if (x * y) mod p =? 1 then y else search_inv f x p (y + 1)
  end.
Definition n_invmod (x p : Z) : Z := search_inv (Z.to_nat p) x p 0.

(** fmpz_CRT_naive_struct, fmpz_extra.h:67-79 *)
Record crt_naive := {
  c_np : nat;
  c_primes : nat -> Z;
  c_pbl : Z;
  c_prod : Z;
  c_nl : nat;
  c_inv : nat -> Z;
  c_coef : nat -> nat -> Z   (* coefficients[k][i] *)
}.

(** fmpz_CRT_naive_init.c:55-77: limbs of a cofactor, both branches *)
Definition cofactor_limb (c : Z) (k : nat) : Z :=
  if negb (is_mpz c) then (if Nat.eqb k 0 then c else 0)
  else if Nat.ltb k (nlimbs c) then limb c k else 0.

(** fmpz_CRT_naive_init.c:21-80 *)
Definition crt_naive_init (primes : nat -> Z) (np : nat) : crt_naive :=
  let prod := prod_primes primes np in
  {| c_np := np; c_primes := primes; c_pbl := max_bits primes np; c_prod := prod;
     c_nl := nlimbs prod;
     c_inv := fun i => n_invmod ((prod / primes i) mod primes i) (primes i);
     c_coef := fun k i => cofactor_limb (prod / primes i) k |}.

(** fmpz_CRT_naive_combine.c:40-46: accumulation loop on dat *)
Definition combine_step (c : crt_naive) (m : nat -> Z) (i : nat) (dat : option (nat -> Z))
  : option (nat -> Z) :=
  match dat with
  | None => None
  | Some dat =>
    match integer_dot_product (c_coef c i) m (c_np c) 64 (c_pbl c) with
    | None => None
    | Some (t2, t1, t0) =>
      let '(d2, d1, d0) :=
        add_sssaaaaaa (dat (i + 2)%nat) (dat (i + 1)%nat) (dat i) t2 t1 t0 in
      Some (upd (upd (upd dat (i + 2) d2) (i + 1) d1) i d0)
    end
  end.

(** fmpz_CRT_naive_combine.c:49-57: normalisation of the size *)
Fixpoint strip (size : nat) (dat : nat -> Z) : nat :=
  match size with
  | O => O
  | S k => if dat k =? 0 then strip k dat else size
  end.

(** value of an mpz given by its limbs and size *)
Definition mpz_val (dat : nat -> Z) (size : nat) : Z :=
  for_up 0 size (fun k acc => acc + dat k * B64 ^ Z.of_nat k) 0.

(** fmpz_CRT_naive_combine.c:23-63 *)
Definition crt_naive_combine (c : crt_naive) (m : nat -> Z) : option Z :=
  match for_up 0 (c_nl c) (combine_step c m) (Some (fun _ => 0)) with
  | None => None
  | Some dat =>
    let size := strip (c_nl c + 2) dat in
    let size := if Nat.eqb size 1 && (dat 0%nat =? 0) then 0%nat else size in
    Some (mpz_val dat size)
  end.

(** fmpz_CRT_naive_CRT.c:21-39 *)
Definition crt_naive_CRT (c : crt_naive) (m : nat -> Z) : option Z :=
  match crt_naive_combine c (fun i => (m i * c_inv c i) mod c_primes c i) with
  | None => None
  | Some comb => Some (comb mod c_prod c)
  end.

(** fmpz_multimod_naive_struct, fmpz_extra.h:31-42 *)
Record multimod_naive := {
  mm_np : nat;
  mm_primes : nat -> Z;
  mm_prod : Z;
  mm_nl : nat;
  mm_small : bool;
  mm_pow : nat -> nat -> Z   (* powers_of_two[i] *)
}.

(** fmpz_multimod_naive_init.c:58-59: 2^64 modulo p *)
Definition two_FLINT_BITS (p : Z) : Z := ((2 ^ 63) mod p + (2 ^ 63) mod p) mod p.

(** "len = ((len + 3) >> 2) << 2", multiple of 4 above 3*num_limbs *)
Definition slice_len (nl : nat) : nat := ((3 * nl + 3) / 4 * 4)%nat.

(** fmpz_multimod_naive_init.c:65-92, table for small moduli *)
Definition small_table (p : Z) (len : nat) : option (nat -> Z) :=
  let two_24 := (2 ^ 24) mod p in
  let two_48 := (2 ^ 48) mod p in
  let v0 := upd (upd (upd (fun _ => 0) 0 1) 1 two_24) 2 two_48 in
  match while len (fun s : nat * (nat -> Z) => Nat.ltb (fst s) len)
    (fun s => let '(u, v) := s in
      let v := upd v u ((v (u - 3)%nat * two_FLINT_BITS p) mod p) in
      let v := if Nat.ltb (u + 1) len then
                 let v := upd v (u + 1) ((v u * two_24) mod p) in
                 if Nat.ltb (u + 2) len then upd v (u + 2) ((v (u + 1)%nat * two_24) mod p) else v
               else v in
      ((u + 3)%nat, v)) (3%nat, v0) with
  | None => None
  | Some (_, v) => Some v
  end.

(** fmpz_multimod_naive_init.c:94-103, table for general moduli *)
Definition large_table (p : Z) (nl : nat) : nat -> Z :=
  for_up 1 (nl - 1) (fun u v => upd v u ((v (u - 1)%nat * two_FLINT_BITS p) mod p))
    (upd (fun _ => 0) 0 1).

Definition max_word (v : nat -> Z) (len : nat) : Z :=
  for_up 0 len (fun i acc => if acc <? v i then v i else acc) 0.

(** fmpz_multimod_naive_init.c:21-105. A failed table (out of fuel) would show
    as the constant -1 table. *)
Definition multimod_naive_init (primes : nat -> Z) (np : nat) : multimod_naive :=
  let prod := prod_primes primes np in
  let nl := nlimbs prod in
  let small := max_word primes np <? 2 ^ 30 in
  {| mm_np := np; mm_primes := primes; mm_prod := prod; mm_nl := nl; mm_small := small;
     mm_pow := fun i =>
       if small then match small_table (primes i) (slice_len nl) with
                     | Some v => v | None => fun _ => -1 end
       else large_table (primes i) nl |}.

(** nmod_neg (FLINT) *)
Definition nmod_neg (a n : Z) : Z := if a =? 0 then 0 else n - a.

(** fmpz_multimod_naive_reduce.c:24-57, _fmpz_reduce *)
Definition fmpz_reduce (a : Z) (pow : nat -> Z) (n : Z) : option Z :=
  if negb (is_mpz a) then
    if a <? 0 then Some (nmod_neg (NMOD_RED (- a) n) n) else Some (NMOD_RED a n)
  else
    match dot_product_unbalanced pow (limb (Z.abs a)) (nlimbs (Z.abs a)) (nbits n) 64 n with
    | None => None
    | Some d => Some (if a <? 0 then nmod_neg d n else d)
    end.

(** fmpz_multimod_naive_reduce.c:101-119: slices of 24, 24, 16 bits *)
Definition slices (a : Z) (nl : nat) : nat -> Z :=
  for_up 0 nl (fun i s =>
    let l := limb a i in
    upd (upd (upd s (3 * i) (Z.land l 16777215))
             (3 * i + 1) (Z.land (Z.shiftr l 24) 16777215))
        (3 * i + 2) (Z.shiftr l 48))
    (fun _ => 0).

(** fmpz_multimod_naive_reduce.c:66-134, _fmpz_reduce_small_moduli, i-th output.
    The dot product is FLINT's _nmod_vec_dot2_split, whose scalar code is the
    one of each half of _nmod_vec_2dot2_split. *)
Definition fmpz_reduce_small (a : Z) (pow : nat -> Z) (n : Z) : option Z :=
  if negb (is_mpz a) then
    if a <? 0 then Some (nmod_neg (NMOD_RED (- a) n) n) else Some (NMOD_RED a n)
  else
    let nl := nlimbs (Z.abs a) in
    match dot2_split_2dot pow (slices (Z.abs a) nl) (slice_len nl) n (NMOD_RED (2 ^ DOT_SPLIT_BITS) n) with
    | None => None
    | Some d => Some (if a <? 0 then nmod_neg d n else d)
    end.

(** fmpz_multimod_naive_reduce.c:141-162, i-th output. The recursive call is on
    B in [0, prod), which does not recurse again. *)
Definition multimod_naive_reduce1 (mm : multimod_naive) (A : Z) (i : nat) : option Z :=
  if mm_small mm then fmpz_reduce_small A (mm_pow mm i) (mm_primes mm i)
  else fmpz_reduce A (mm_pow mm i) (mm_primes mm i).

Fixpoint multimod_naive_reduce (fuel : nat) (mm : multimod_naive) (A : Z) (i : nat) : option Z :=
  if mm_prod mm <=? Z.abs A then
    match fuel with
    | O => None
    | S f => multimod_naive_reduce f mm (A mod mm_prod mm) i
    end
  else multimod_naive_reduce1 mm A i.
