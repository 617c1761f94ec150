(** Model of flint-extras/src/nmod_extra/nmod_extra.c and nmod_find_root.c. *)
From Coq Require Import ZArith List Bool.
From Verif Require Import W_word.
Local Open Scope Z_scope.

(** Outcome of a C function that may hit undefined behaviour. *)
Inductive outcome (A : Type) : Type :=
| Ret (a : A)
| UB           (* undefined behaviour in C *)
| Diverge.     (* fuel of the model exhausted *)
Arguments Ret {A}. Arguments UB {A}. Arguments Diverge {A}.

(** conversion (int) x of a 64-bit unsigned x, as done by gcc/clang *)
Definition to_int (x : Z) : Z :=
  let y := x mod B32 in if y <? 2 ^ 31 then y else y - B32.

(** nmod_extra.c:24-33, next_power_of_two. "j <<= 1" on a signed int is
    undefined when the result does not fit. *)
Fixpoint next_power_of_two_loop (fuel : nat) (X i j : Z) : outcome Z :=
  if j <? X then
    match fuel with
    | O => Diverge
    | S f => if 2 ^ 31 <=? 2 * j then UB
             else next_power_of_two_loop f X (i + 1) (2 * j)
    end
  else Ret i.

Definition next_power_of_two (x : Z) : outcome Z :=
  next_power_of_two_loop 64 (to_int x) 0 1.

(** nmod_extra.c:39-50, inverse_mod_power_of_two. The do-while loop runs until
    ip is stable; "1L << k" is undefined for k >= 63 (or k < 0). *)
Definition newton_step (p ip : Z) : Z :=
  w64 (w64 (2 * ip) - w64 (w64 (p * ip) * ip)).

Fixpoint newton_loop (fuel : nat) (p ip : Z) : outcome Z :=
  match fuel with
  | O => Diverge
  | S f => let old := ip in
           let ip := newton_step p ip in
           if ip =? old then Ret ip else newton_loop f p ip
  end.

Definition inverse_mod_power_of_two (fuel : nat) (p k : Z) : outcome Z :=
  match newton_loop fuel p 1 with
  | Ret ip => if (0 <=? k) && (k <? 63) then Ret (Z.land ip (Z.shiftl 1 k - 1)) else UB
  | UB => UB
  | Diverge => Diverge
  end.

(** nmod_find_root.c:21-38: the inner while loop on (k, qk), then the loop on q.
    nmod_mul is the exact product modulo the modulus (FLINT). *)
Definition find_root_inner (n p q : Z) : option (Z * Z) :=
  while (Z.to_nat n) (fun s : Z * Z => negb (snd s =? 1) && (fst s <? n))
    (fun s => (fst s + 1, (snd s * q) mod p)) (1, q).

Fixpoint find_root_loop (fuel : nat) (n p q : Z) : option Z :=
  match fuel with
  | O => if q <? p then None else Some 0
  | S f =>
    if q <? p then
      match find_root_inner n p q with
      | None => None
      | Some (_, qk) => if negb (qk =? 1) then Some q else find_root_loop f n p (q + 1)
      end
    else Some 0
  end.

Definition find_root (n p : Z) : option Z := find_root_loop (Z.to_nat p) n p 2.
