(** Properties C01-C05: dot product kernels. *)
From Coq Require Import ZArith List Lia.
From Verif Require Import W_word SpecW W_dot_model W_dot_proof W_dot2_proof W_split_proof.
Local Open Scope Z_scope.

(** C01. The result is the dot product modulo n, for all announced bit sizes
    that bound the entries (FLINT_BITS = 64 included). *)
Theorem C01_dot_product_unbalanced :
  forall (v1 v2 : nat -> Z) (len : nat) (b1 b2 n : Z),
  0 <= b1 <= 64 -> 0 <= b2 <= 64 -> Z.of_nat len < 2 ^ 64 -> 0 < n ->
  bits_le b1 v1 len -> bits_le b2 v2 len ->
  dot_product_unbalanced v1 v2 len b1 b2 n = Some (zdot v1 v2 len mod n).
Proof.
  intros v1 v2 len b1 b2 n Hb1 Hb2 Hl Hn H1 H2.
  exact (dot_product_unbalanced_exact v1 v2 len b1 b2 Hb1 Hb2 H1 H2 Hl n Hn).
Qed.
Print Assumptions C01_dot_product_unbalanced.

Example C01_hypotheses_met :
  let v := fun i : nat => 2 ^ 64 - 1 - Z.of_nat i in
  bits_le 64 v 5 /\ 0 < 7 /\ dot_product_unbalanced v v 5 64 64 7 = Some (zdot v v 5 mod 7).
Proof.
  intros v. assert (H : bits_le 64 v 5) by (intros i Hi; unfold v; lia).
  split; [exact H|]. split; [reflexivity|]. apply C01_dot_product_unbalanced; try lia; assumption.
Qed.

(** C02. Exact integer result in three limbs. *)
Theorem C02_integer_dot_product :
  forall (v1 v2 : nat -> Z) (len : nat) (b1 b2 : Z),
  0 <= b1 <= 64 -> 0 <= b2 <= 64 -> Z.of_nat len < 2 ^ 64 ->
  bits_le b1 v1 len -> bits_le b2 v2 len ->
  exists r2 r1 r0,
    integer_dot_product v1 v2 len b1 b2 = Some (r2, r1, r0) /\
    (0 <= r2 < 2 ^ 64 /\ 0 <= r1 < 2 ^ 64 /\ 0 <= r0 < 2 ^ 64) /\
    r2 * 2 ^ 128 + r1 * 2 ^ 64 + r0 = zdot v1 v2 len.
Proof.
  intros v1 v2 len b1 b2 Hb1 Hb2 Hl H1 H2.
  destruct (integer_dot_exact v1 v2 len b1 b2 Hb1 Hb2 H1 H2 Hl) as ([[t2 t1] t0] & E & W & V).
  exists t2, t1, t0. split; [exact E|]. split; [exact W|exact V].
Qed.
Print Assumptions C02_integer_dot_product.

Example C02_hypotheses_met :
  let v := fun i : nat => 2 ^ 63 + Z.of_nat i in
  bits_le 64 v 100 /\ Z.of_nat 100 < 2 ^ 64.
Proof. intros v. split; [intros i Hi; unfold v; lia|reflexivity]. Qed.

(** C03. Row vector times matrix, modulo n. *)
Theorem C03_dot_product_multi :
  forall (u : nat -> Z) (v : nat -> nat -> Z) (len k : nat) (b1 b2 n : Z),
  0 <= b1 <= 64 -> 0 <= b2 <= 64 -> Z.of_nat len < 2 ^ 64 -> 0 < n ->
  bits_le b1 u len -> (forall j, (j < k)%nat -> bits_le b2 (fun i => v i j) len) ->
  forall j, (j < k)%nat ->
  dot_product_multi u v len k b1 b2 n j = Some (zdot u (fun i => v i j) len mod n).
Proof.
  intros u v len k b1 b2 n Hb1 Hb2 Hl Hn H1 H2 j Hj.
  exact (dot_product_multi_exact u v len k b1 b2 Hb1 Hb2 H1 H2 Hl n Hn j Hj).
Qed.
Print Assumptions C03_dot_product_multi.

Example C03_hypotheses_met :
  let u := fun i : nat => Z.of_nat i in
  let v := fun i j : nat => 2 ^ 60 + Z.of_nat (i + j) in
  bits_le 10 u 40 /\ (forall j, (j < 33)%nat -> bits_le 61 (fun i => v i j) 40).
Proof. intros u v. split; [|intros j Hj]; intros i Hi; unfold u, v; lia. Qed.

(** C04. Split dot product on 32-bit vectors, on its documented domain. *)
Theorem C04_nmod32_dot_split :
  forall (v1 v2 : nat -> Z) (len : nat) (n : Z),
  0 < n <= 1515531528 -> Z.of_nat len <= 380368697 ->
  reduced n v1 len -> reduced n v2 len ->
  nmod32_dot_split v1 v2 len n (2 ^ 56 mod n) = Some (zdot v1 v2 len mod n).
Proof.
  intros v1 v2 len n Hn Hl H1 H2.
  exact (nmod32_dot_split_exact v1 v2 len n _ Hn
    (reduced_le n _ v1 len H1 (proj2 Hn)) (reduced_le n _ v2 len H2 (proj2 Hn)) ltac:(lia) eq_refl Hl).
Qed.
Print Assumptions C04_nmod32_dot_split.

Example C04_hypotheses_met :
  let n := 1515531528 in reduced n (fun _ => n - 1) (Z.to_nat 380368697)
  /\ Z.of_nat (Z.to_nat 380368697) <= 380368697.
Proof. intros n. split; [intros i _; unfold n; lia|lia]. Qed.

(** C04, second kernel: two dot products at once. The full claim on the same
    domain is false (below); it holds up to length 47546087. *)
Theorem C04_vec_2dot2_split_partial :
  forall (v10 v11 v2 : nat -> Z) (len : nat) (n : Z),
  0 < n <= 1515531528 -> Z.of_nat len <= 47546087 ->
  reduced n v10 len -> reduced n v11 len -> reduced n v2 len ->
  vec_2dot2_split v10 v11 v2 len n (2 ^ 56 mod n)
    = (Some (zdot v10 v2 len mod n), Some (zdot v11 v2 len mod n)).
Proof.
  intros v10 v11 v2 len n Hn Hl H10 H11 H2.
  assert (Hl' : Z.of_nat len <= 2 ^ 40) by lia.
  assert (R : forall v, reduced n v len -> reduced DOT2_ACC8_MAX_MODULUS v len)
    by (intros v Hv; exact (reduced_le n _ v len Hv (proj2 Hn))).
  exact (f_equal2 pair
    (dot2_split_2dot_exact v10 v2 len n _ Hn (R _ H10) (R _ H2) Hl' eq_refl Hl)
    (dot2_split_2dot_exact v11 v2 len n _ Hn (R _ H11) (R _ H2) Hl' eq_refl Hl)).
Qed.
Print Assumptions C04_vec_2dot2_split_partial.

Theorem C04_vec_2dot2_split_refuted :
  exists (v : nat -> Z) (len : nat) (n : Z),
  0 < n <= 1515531528 /\ Z.of_nat len <= 380368697 /\ reduced n v len /\
  fst (vec_2dot2_split v v v len n (2 ^ 56 mod n)) <> Some (zdot v v len mod n).
Proof.
  exists (fun _ => 1515531373 - 1), (Z.to_nat 380368695), 1515531373.
  split; [lia|]. split; [lia|]. split; [intros i _; lia|].
  destruct dot2_split_2dot_wrong as [E1 E2].
  unfold vec_2dot2_split, fst. rewrite E1, E2. intros E; discriminate E.
Qed.
Print Assumptions C04_vec_2dot2_split_refuted.

(** C05. The split-26 kernel loses a carry: refuted, with the part that holds. *)
Theorem C05_split26_refuted :
  exists (v1 v2 : nat -> Z) (len : nat) (n : Z),
  bits_le 52 v1 len /\ bits_le 52 v2 len /\ (len <= 4096)%nat /\ 0 < n /\
  dot_product_split26 v1 v2 len n <> zdot v1 v2 len mod n.
Proof.
  destruct split26_wrong as [E [H1 H2]].
  do 4 eexists. split; [exact H1|]. split; [exact H2|]. split; [|split; [|exact E]]; lia.
Qed.
Print Assumptions C05_split26_refuted.

Theorem C05_split26_partial :
  forall (v1 v2 : nat -> Z) (len : nat) (n : Z),
  bits_le 52 v1 len -> bits_le 52 v2 len -> Z.of_nat len <= 2048 ->
  zsum (fun i => (v1 i mod 2 ^ 26) * (v2 i mod 2 ^ 26)) len < 2 ^ 52 -> 0 < n ->
  dot_product_split26 v1 v2 len n = zdot v1 v2 len mod n.
Proof. exact split26_exact. Qed.
Print Assumptions C05_split26_partial.

Example C05_partial_hypotheses_met :
  let v := fun i : nat => 2 ^ 51 + Z.of_nat i in
  bits_le 52 v 3 /\ zsum (fun i => (v i mod 2 ^ 26) * (v i mod 2 ^ 26)) 3 < 2 ^ 52.
Proof. intros v. split; [intros i Hi; unfold v; lia|reflexivity]. Qed.
