(** Specifications for the word layer: plain integer sums. *)
From Coq Require Import ZArith List.
Local Open Scope Z_scope.

(** sum_{i < len} f i *)
Fixpoint zsum (f : nat -> Z) (len : nat) : Z :=
  match len with
  | O => 0
  | S k => zsum f k + f k
  end.

(** the integer dot product of the first [len] entries *)
Definition zdot (v1 v2 : nat -> Z) (len : nat) : Z := zsum (fun i => v1 i * v2 i) len.

(** the entries 0..len-1 are words of at most [b] bits *)
Definition bits_le (b : Z) (v : nat -> Z) (len : nat) : Prop :=
  forall i, (i < len)%nat -> 0 <= v i < 2 ^ b.

(** the entries 0..len-1 are in [0,n) *)
Definition reduced (n : Z) (v : nat -> Z) (len : nat) : Prop :=
  forall i, (i < len)%nat -> 0 <= v i < n.
