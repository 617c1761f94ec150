(** Properties C06-C08: word utilities. *)
From Coq Require Import ZArith List Lia Znumtheory.
From Verif Require Import W_word W_base W_util_model W_util_proof.
Local Open Scope Z_scope.

(** C06. Inverse modulo 2^k for every odd word p: the Newton loop terminates
    (at most 7 passes) and the result is the inverse, which is unique. *)
Theorem C06_inverse_mod_power_of_two :
  forall (fuel : nat) (p k : Z),
  (7 <= fuel)%nat -> 0 <= p < 2 ^ 64 -> p mod 2 = 1 -> 0 <= k <= 62 ->
  exists q, inverse_mod_power_of_two fuel p k = Ret q /\ 0 <= q < 2 ^ k /\
    (p * q) mod 2 ^ k = 1 mod 2 ^ k /\
    forall q', 0 <= q' < 2 ^ k -> (p * q') mod 2 ^ k = 1 mod 2 ^ k -> q' = q.
Proof.
  intros fuel p k Hf Hp Ho Hk.
  destruct (inverse_mod_power_of_two_spec fuel p k Hf Hp Ho Hk) as (q & E & Hq & Hi).
  exists q. split; [exact E|]. split; [exact Hq|]. split; [exact Hi|].
  intros q' Hq' Hi'. exact (inverse_unique p k q q' ltac:(lia) Hq Hq' Hi Hi').
Qed.
Print Assumptions C06_inverse_mod_power_of_two.

Example C06_hypotheses_met :
  0 <= 18446744073709551615 < 2 ^ 64 /\ 18446744073709551615 mod 2 = 1 /\
  inverse_mod_power_of_two 7 1234567 62 = Ret 1130498421657833271.
Proof. split; [lia|]. split; vm_compute; reflexivity. Qed.

(** The shift 1L << k is undefined from k = 63 on, although k = 63 and k = 64
    would make sense for 64-bit words. *)
Theorem C06_shift_63_undefined :
  forall p, 0 <= p < 2 ^ 64 -> p mod 2 = 1 -> inverse_mod_power_of_two 7 p 63 = UB.
Proof. exact inverse_mod_power_of_two_ub. Qed.
Print Assumptions C06_shift_63_undefined.

(** C07. Correct up to 2^30 ... *)
Theorem C07_next_power_of_two_partial :
  forall x, 0 <= x <= 2 ^ 30 ->
  exists r, next_power_of_two x = Ret r /\ 0 <= r /\ x <= 2 ^ r /\
            forall k, 0 <= k < r -> 2 ^ k < x.
Proof. exact next_power_of_two_small. Qed.
Print Assumptions C07_next_power_of_two_partial.

Example C07_hypotheses_met : next_power_of_two 1000 = Ret 10 /\ 1000 <= 2 ^ 30.
Proof. split; [reflexivity|lia]. Qed.

(** ... undefined (signed overflow) strictly between 2^30 and 2^31 ... *)
Theorem C07_next_power_of_two_undefined :
  forall x, 2 ^ 30 < x < 2 ^ 31 -> next_power_of_two x = UB.
Proof. exact next_power_of_two_ub. Qed.
Print Assumptions C07_next_power_of_two_undefined.

(** ... and wrong beyond, where the argument is truncated to an int. *)
Theorem C07_next_power_of_two_refuted :
  exists x r, 0 <= x < 2 ^ 64 /\ next_power_of_two x = Ret r /\ 2 ^ r < x.
Proof. exists (2 ^ 32 + 5), 3. split; [lia|]. split; [reflexivity|lia]. Qed.
Print Assumptions C07_next_power_of_two_refuted.

(** C08. A nonzero result q has 1, q, ..., q^n pairwise distinct; the search
    always terminates. *)
Theorem C08_find_root_sound :
  forall p n, prime p ->
  exists q, find_root n p = Some q /\
  (q <> 0 -> 0 < q < p /\
   forall i j, 0 <= i -> i < j -> j <= n -> q ^ i mod p <> q ^ j mod p).
Proof.
  intros p n Hp. destruct (find_root_total p n Hp) as [q E].
  exists q. split; [exact E|]. intros Hq. exact (find_root_sound p n Hp q E Hq).
Qed.
Print Assumptions C08_find_root_sound.

(** It finds something as soon as some element has order larger than n ... *)
Theorem C08_find_root_complete_partial :
  forall p n g, prime p -> 1 <= n -> 0 < g < p ->
  (forall t, 1 <= t <= n -> g ^ t mod p <> 1) ->
  exists q, find_root n p = Some q /\ q <> 0.
Proof. intros p n g Hp. exact (find_root_complete p n Hp g). Qed.
Print Assumptions C08_find_root_complete_partial.

Example C08_hypotheses_met :
  prime 7 /\ (forall t, 1 <= t <= 5 -> 3 ^ t mod 7 <> 1) /\ find_root 5 7 = Some 3.
Proof.
  split.
  { apply prime_intro; [lia|]. intros n Hn.
    assert (n = 1 \/ n = 2 \/ n = 3 \/ n = 4 \/ n = 5 \/ n = 6) as H by lia.
    unfold rel_prime.
    destruct H as [->|[->|[->|[->|[->| ->]]]]];
      match goal with |- Zis_gcd ?a ?b _ => exact (Zgcd_is_gcd a b) end. }
  split; [|reflexivity]. intros t Ht.
  assert (t = 1 \/ t = 2 \/ t = 3 \/ t = 4 \/ t = 5) as H by lia.
  destruct H as [->|[->|[->|[->| ->]]]]; discriminate.
Qed.

(** ... but it misses elements of order exactly n, for which 1, ..., q^(n-1)
    are already pairwise distinct: p = 3, n = 2. *)
Theorem C08_find_root_complete_refuted :
  exists p n g, prime p /\ 1 <= n /\ 0 < g < p /\
  (forall i j, 0 <= i -> i < j -> j <= n - 1 -> g ^ i mod p <> g ^ j mod p) /\
  find_root n p = Some 0.
Proof.
  exists 3, 2, 2. split; [exact prime_3|]. split; [lia|]. split; [lia|].
  split; [|reflexivity]. intros i j Hi Hij Hj.
  assert (i = 0) as -> by lia. assert (j = 1) as -> by lia. discriminate.
Qed.
Print Assumptions C08_find_root_complete_refuted.
