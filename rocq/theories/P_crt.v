(** Properties C09, C10: naive Chinese remaindering and multimodular reduction. *)
From Coq Require Import ZArith List Lia Znumtheory.
From Verif Require Import W_word SpecW W_base W_dot_model W_crt_model W_crt_proof W_multimod_proof.
Local Open Scope Z_scope.

(** the product of the first np moduli, independently of the model's loop *)
Fixpoint zprod (p : nat -> Z) (np : nat) : Z :=
  match np with O => 1 | S k => zprod p k * p k end.

Lemma zprod_eq p np : prod_primes p np = zprod p np.
Proof. induction np as [|k IH]; [reflexivity|]. rewrite prod_S, IH. reflexivity. Qed.

Definition pairwise_coprime (p : nat -> Z) (np : nat) : Prop :=
  forall i j, (i < np)%nat -> (j < np)%nat -> i <> j -> rel_prime (p i) (p j).

(** b bounds the bit size announced by the init function: the largest bit size
    of the moduli. *)
Theorem C09_crt_combine :
  forall (primes m : nat -> Z) (np : nat),
  (forall i, (i < np)%nat -> 2 <= primes i < 2 ^ 64) -> Z.of_nat np < 2 ^ 64 ->
  (forall i, (i < np)%nat -> 0 <= m i < primes i) ->
  crt_naive_combine (crt_naive_init primes np) m
    = Some (zsum (fun i => m i * (zprod primes np / primes i)) np).
Proof.
  intros primes m np Hp Hn Hm. rewrite <- zprod_eq.
  apply (combine_exact primes np Hp Hn m).
  intros j Hj. destruct (max_bits_spec primes np) as [H1 H2]; [intros; pose proof (Hp i H); rewrite B64_eq; lia|].
  specialize (H2 j Hj). pose proof (Hp j Hj). pose proof (Hm j Hj).
  destruct (nbits_bound (primes j) ltac:(lia)).
  assert (2 ^ nbits (primes j) <= 2 ^ max_bits primes np) by (apply Z.pow_le_mono_r; lia). lia.
Qed.
Print Assumptions C09_crt_combine.

Theorem C09_crt :
  forall (primes m : nat -> Z) (np : nat),
  (forall i, (i < np)%nat -> 2 <= primes i < 2 ^ 64) -> Z.of_nat np < 2 ^ 64 ->
  pairwise_coprime primes np ->
  exists A, crt_naive_CRT (crt_naive_init primes np) m = Some A /\
    0 <= A < zprod primes np /\
    (forall i, (i < np)%nat -> A mod primes i = m i mod primes i) /\
    (forall A', 0 <= A' < zprod primes np ->
       (forall i, (i < np)%nat -> A' mod primes i = m i mod primes i) -> A' = A).
Proof.
  intros primes m np Hp Hn Hc. rewrite <- zprod_eq.
  destruct (CRT_exact primes np Hp Hn Hc m) as (A & E & HA & HR).
  exists A. split; [exact E|]. split; [exact HA|]. split; [exact HR|].
  intros A' HA' HR'. apply (crt_unique primes np Hp Hc A' A HA' HA).
  intros i Hi. rewrite HR, HR' by assumption. reflexivity.
Qed.
Print Assumptions C09_crt.

Example C09_hypotheses_met :
  let primes := fun i : nat => match i with O => 2 ^ 64 - 1 | 1%nat => 2 ^ 64 - 3 | _ => 2 ^ 63 + 1 - 2 end in
  (forall i, (i < 2)%nat -> 2 <= primes i < 2 ^ 64) /\ pairwise_coprime primes 2.
Proof.
  intros primes. split.
  - intros i Hi. destruct i as [|[|]]; unfold primes; lia.
  - assert (R : rel_prime (2 ^ 64 - 1) (2 ^ 64 - 3)).
    { apply bezout_rel_prime. apply Bezout_intro with (u := - (2 ^ 63 - 2)) (v := 2 ^ 63 - 1). reflexivity. }
    intros i j Hi Hj Hij. destruct i as [|[|]], j as [|[|]]; try lia; unfold primes.
    + exact R.
    + apply rel_prime_sym; exact R.
Qed.

(** C10. Every A, every list of word moduli; the only size assumption is GMP's
    own (an mpz has fewer than 2^31 limbs). *)
Theorem C10_multimod_reduce :
  forall (primes : nat -> Z) (np : nat) (fuel : nat) (A : Z) (i : nat),
  (forall i, (i < np)%nat -> 0 < primes i < 2 ^ 64) ->
  Z.log2 (zprod primes np) < 64 * (2 ^ 31 - 1) -> (1 <= fuel)%nat -> (i < np)%nat ->
  multimod_naive_reduce fuel (multimod_naive_init primes np) A i = Some (A mod primes i).
Proof.
  intros primes np fuel A i Hp Hs Hf Hi.
  apply (multimod_reduce_exact primes np Hp); [|assumption|assumption].
  apply nlimbs_lt.
  - apply prod_pos. intros j Hj; pose proof (Hp j Hj); lia.
  - rewrite zprod_eq. exact Hs.
Qed.
Print Assumptions C10_multimod_reduce.

Example C10_hypotheses_met :
  let primes := fun i : nat => match i with O => 2 ^ 29 - 3 | _ => 1 end in
  multimod_naive_reduce 1 (multimod_naive_init primes 1) (- (2 ^ 100)) 0 = Some ((- 2 ^ 100) mod (2 ^ 29 - 3))
  /\ let primes := fun i : nat => 2 ^ 64 - 3 - Z.of_nat i in
     multimod_naive_reduce 1 (multimod_naive_init primes 3) (- (2 ^ 190)) 2 = Some ((- 2 ^ 190) mod (2 ^ 64 - 5)).
Proof. split; vm_compute; reflexivity. Qed.
