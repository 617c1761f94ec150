(** Model of ntl-extras/lzz_pX_CRT: subproduct tree, Chinese remaindering (class zz_pX_CRT),
    multipoint evaluation at general points (class zz_pX_Multipoint_General) and the operations on
    vectors and matrices of the base class zz_pX_Multipoint. A Vec<T> is a function on the
    indices together with its length; the content of a freshly allocated or longer vector is a
    parameter. *)
From mathcomp Require Import all_ssreflect all_algebra.
From Verif Require Import A_base A_mul_model N_poly_model.
Set Implicit Arguments.
Unset Strict Implicit.
Unset Printing Implicit Defensive.
Import GRing.Theory.
Local Open Scope ring_scope.

Section Tree.
Variable F : fieldType.
Local Notation P := {poly F}.

(** a level of the tree: its length and its entries *)
Definition level := (nat * (nat -> P))%type.

(** lzz_pX_CRT.cpp:24-38: one iteration of the loop, the next level *)
Definition next_level (len : nat) (prev : nat -> P) : nat -> P :=
  let len_new := (len.+1)./2 in
  let a := foldl (fun a j => upd a j (prev (2 * j)%N * prev (2 * j).+1)) (fun _ => 0) (iota 0 len./2) in
  if odd len then upd a len_new.-1 (prev len.-1) else a.

(** lzz_pX_CRT.cpp:8-39, build_subproduct_tree: the levels tree[0], tree[1], ...; the two loops
    of the code run over the same lengths. None when [fuel] iterations do not suffice. *)
Fixpoint build_subproduct_tree (fuel len : nat) (q : nat -> P) : option (seq level) :=
  if len == 1%N then Some [:: (len, q)]
  else if fuel is fuel'.+1 then
    if build_subproduct_tree fuel' (len.+1)./2 (next_level len q) is Some t then Some ((len, q) :: t)
    else None
  else None.

(** the last level has one entry, tree[tree.length()-1][0] *)
Definition root_of (t : seq level) : P := (last (0%N, fun _ => 0) t).2 0%N.

(** lzz_pX_CRT.cpp:73-85 (and lzz_pX_Multipoint_General.cpp:118-130): going down from level i + 1 to level i *)
Definition down_level (val : nat -> P) (lv : level) : nat -> P :=
  let: (len, t) := lv in
  let val := if odd len then upd val len.-1 (val len.-1./2) else val in
  foldl (fun val j =>
      let val := upd val (2 * j).+1 (val j %% t (2 * j).+1) in
      upd val (2 * j)%N (val j %% t (2 * j)%N)) val (rev (iota 0 len./2)).

(** lzz_pX_CRT.cpp:65-86, zz_pX_CRT::multimod; [junk] is the content of val before the call *)
Definition multimod (t : seq level) (junk : nat -> P) (f : P) : nat -> P :=
  foldl down_level (upd junk 0%N (f %% root_of t)) (rev (belast (head (0%N, fun _ => 0) t) (behead t))).

(** lzz_pX_CRT.cpp:103-114 (and lzz_pX_Multipoint_General.cpp:33-44): going up from level i *)
Definition up_level (c : nat -> P) (lv : level) : nat -> P :=
  let: (len, t) := lv in
  let c := foldl (fun c j =>
      upd c j (c (2 * j)%N * t (2 * j).+1 + c (2 * j).+1 * t (2 * j)%N)) c (iota 0 len./2) in
  if odd len then upd c len.-1./2 (c len.-1) else c.

Definition up_tree (t : seq level) (c : nat -> P) : P :=
  foldl up_level c (belast (head (0%N, fun _ => 0) t) (behead t)) 0%N.

(** NTL's InvMod(a, f): the inverse of a modulo f, an error when deg(a) >= deg(f), when f is
    constant, or when there is no inverse. The inverse is unique; the extended gcd of the
    library computes it. *)
Definition inv_mod (a f : P) : aoutcome P :=
  if (size f <= size a)%N || (size f <= 1)%N then AUB
  else if ~~ coprimep a f then AUB
  else let u := (egcdp a f).1 in AOk (((u * a) %% f)`_0^-1 *: u %% f).

(** NTL's MulMod(a, b, f) *)
Definition mul_mod (a b f : P) : aoutcome P :=
  if (size f <= size a)%N || (size f <= size b)%N || (size f <= 1)%N then AUB
  else AOk ((a * b) %% f).

(** the fields of zz_pX_CRT *)
Record crt := Crt { crt_n : nat; crt_cof : nat -> P; crt_tree : seq level }.

(** lzz_pX_CRT.cpp:56-59: the loop on the cofactors *)
Fixpoint crt_cofactors (q : nat -> P) (c : nat -> P) (ix : seq nat) : aoutcome (nat -> P) :=
  if ix is i :: ix' then
    match inv_mod (c i) (q i) with
    | AUB => AUB
    | AOk u => match mul_mod u (q i)^`() (q i) with
               | AUB => AUB
               | AOk v => crt_cofactors q (upd c i v) ix'
               end
    end
  else AOk c.

(** lzz_pX_CRT.cpp:50-60, constructor of zz_pX_CRT from the moduli. None: the construction of the tree does not end
    within [fuel] iterations. *)
Definition crt_init (fuel : nat) (junk : nat -> P) (n : nat) (q : nat -> P) : option (aoutcome crt) :=
  match build_subproduct_tree fuel n q with
  | None => None
  | Some t => Some (match crt_cofactors q (multimod t junk (root_of t)^`()) (iota 0 n) with
                    | AUB => AUB
                    | AOk c => AOk (Crt n c t)
                    end)
  end.

(** lzz_pX_CRT.cpp:91-117, zz_pX_CRT::combine *)
Fixpoint combine_leaves (q cof val c : nat -> P) (ix : seq nat) : aoutcome (nat -> P) :=
  if ix is i :: ix' then
    match mul_mod (val i %% q i) (cof i) (q i) with
    | AUB => AUB
    | AOk v => combine_leaves q cof val (upd c i v) ix'
    end
  else AOk c.
Definition combine (o : crt) (val : nat -> P) : aoutcome P :=
  match combine_leaves (head (0%N, fun _ => 0) (crt_tree o)).2 (crt_cof o) val (fun _ => 0) (iota 0 (crt_n o)) with
  | AUB => AUB
  | AOk c => AOk (up_tree (crt_tree o) c)
  end.

(** lzz_pX_CRT.cpp:123-126, master *)
Definition master (o : crt) : P := root_of (crt_tree o).
End Tree.

Section General.
Variable F : fieldType.
Local Notation P := {poly F}.

(** NTL's reverse(a, hi): the coefficients hi..0 of a *)
Definition prev (a : P) (hi : nat) : P := \poly_(i < hi.+1) a`_(hi - i).

(** lzz_pX_Multipoint_General.cpp:109-135, evaluate; the fresh vector remainders holds zero
    polynomials *)
Definition gen_evaluate (t : seq (level F)) (f : P) : nat -> F :=
  let r := multimod t (fun _ => 0) f in fun i => (r i)`_0.

(** the fields of zz_pX_Multipoint_General (and of its base class) *)
Record general := General {
  gen_n : nat; gen_pts : nat -> F; gen_cof : nat -> F; gen_tree : seq (level F);
  gen_rev : P; gen_inv : P }.

(** lzz_pX_Multipoint_General.cpp:66-69, 95-98: the loop on the cofactors, division by zero is an error *)
Fixpoint gen_cofactors (c : nat -> F) (ix : seq nat) : aoutcome (nat -> F) :=
  if ix is i :: ix' then
    if c i == 0 then AUB else gen_cofactors (upd c i (c i)^-1) ix'
  else AOk c.

(** lzz_pX_Multipoint_General.cpp:52-73, constructor from points. None: the construction of the
    tree does not end within [fuel] iterations. *)
Definition gen_init (fuel n : nat) (q : nat -> F) : option (aoutcome general) :=
  match build_subproduct_tree fuel n (fun i => - (q i)%:P + 'X) with
  | None => None
  | Some t => Some (
      match gen_cofactors (gen_evaluate t (root_of t)^`()) (iota 0 n) with
      | AUB => AUB
      | AOk c => let rr := prev (root_of t) n in
                 match plain_inv_trunc rr n with
                 | AUB => AUB
                 | AOk ri => AOk (General n q c t rr ri)
                 end
      end)
  end.

(** lzz_pX_Multipoint_General.cpp:78-102, constructor from a slice of the points *)
Definition gen_init_slice (fuel : nat) (q : nat -> F) (offset length : nat) : option (aoutcome general) :=
  gen_init fuel length (fun i => q (offset + i)%N).

(** lzz_pX_Multipoint_General.cpp:141-151, with 28-31, interpolate *)
Definition gen_interpolate (o : general) (val : nat -> F) : P :=
  up_tree (gen_tree o) (fun i => if (i < gen_n o)%N then (val i * gen_cof o i)%:P else 0).

(** lzz_pX_Multipoint_General.cpp:158-164, t_evaluate; output_size is not used *)
Definition gen_t_evaluate (o : general) (val : nat -> F) (output_size : int) : P :=
  let rev_num := up_tree (gen_tree o) (fun i => if (i < gen_n o)%N then (val i)%:P else 0) in
  let num := prev rev_num (gen_n o).-1 in
  ptrunc (gen_n o) (num * gen_inv o).

(** lzz_pX_Multipoint_General.cpp:169-179, t_interpolate *)
Definition gen_t_interpolate (o : general) (f : P) : nat -> F :=
  let num := ptrunc (gen_n o) (f * gen_rev o) in
  let rev_num := prev num (gen_n o).-1 in
  let val := gen_evaluate (gen_tree o) rev_num in
  foldl (fun (val : nat -> F) i => upd val i (val i * gen_cof o i)) val (iota 0 (gen_n o)).

(** lzz_pX_Multipoint_General.cpp:184-193, get_general_points *)
Definition get_general_points (fuel n : nat) : option (aoutcome general) := gen_init fuel n (fun i => i%:R).
End General.
