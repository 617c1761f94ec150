(** Proofs about the naive multimodular reduction. *)
From Coq Require Import ZArith List Bool Lia Znumtheory.
From Verif Require Import W_word SpecW W_base W_dot_model W_dot_proof W_dot2_proof W_crt_model W_crt_proof.
Local Open Scope Z_scope.

Lemma nmod_neg_spec d a n : 0 < n -> d = a mod n -> nmod_neg d n = (- a) mod n.
Proof.
  intros Hn ->. unfold nmod_neg. destruct (Z.eqb_spec (a mod n) 0) as [E|N].
  - symmetry. apply Z.mod_opp_l_z; [lia|assumption].
  - symmetry. apply Z.mod_opp_l_nz; [lia|assumption].
Qed.

Lemma two_bits_spec p : 0 < p -> two_FLINT_BITS p = B64 mod p.
Proof.
  intros Hp. unfold two_FLINT_BITS. rewrite <- Zplus_mod. rewrite B64_eq. reflexivity.
Qed.

Lemma zsum_triple f n :
  zsum f (3 * n) = zsum (fun i => f (3 * i)%nat + f (3 * i + 1)%nat + f (3 * i + 2)%nat) n.
Proof.
  induction n as [|n IH]; [reflexivity|].
  replace (3 * S n)%nat with (S (S (S (3 * n)))) by lia.
  rewrite !zsum_S, IH.
  replace (S (3 * n)) with (3 * n + 1)%nat by lia.
  replace (S (3 * n + 1)) with (3 * n + 2)%nat by lia. ring.
Qed.

Lemma zsum_tail0 f a b : (forall i, (a <= i < a + b)%nat -> f i = 0) -> zsum f (a + b) = zsum f a.
Proof.
  intros H. rewrite zsum_add. rewrite (zsum_ext (fun i => f (a + i)%nat) (fun _ => 0)); [rewrite zsum_0; apply Z.add_0_r|].
  intros i Hi. apply H; lia.
Qed.

Lemma zsum_cong f g n len : (forall i, (i < len)%nat -> f i mod n = g i mod n) ->
  zsum f len mod n = zsum g len mod n.
Proof.
  intros H. rewrite zsum_mod, (zsum_mod g). f_equal. apply zsum_ext; assumption.
Qed.

Lemma slice_len_bounds nl : (3 * nl <= slice_len nl <= 3 * nl + 3)%nat.
Proof.
  unfold slice_len. pose proof (Nat.div_mod (3 * nl + 3) 4 ltac:(lia)).
  pose proof (Nat.mod_upper_bound (3 * nl + 3) 4 ltac:(lia)). lia.
Qed.

Lemma slice_len_mono a b : (a <= b)%nat -> (slice_len a <= slice_len b)%nat.
Proof.
  intros H. unfold slice_len. apply Nat.mul_le_mono_r, Nat.div_le_mono; lia.
Qed.

(** weights of the slices *)
Definition W (u : nat) : Z := Bp (u / 3) * 2 ^ (24 * Z.of_nat (u mod 3)).

Lemma W_3 t r : (r < 3)%nat -> W (3 * t + r) = Bp t * 2 ^ (24 * Z.of_nat r).
Proof.
  intros Hr. unfold W.
  replace ((3 * t + r) / 3)%nat with t by (rewrite Nat.mul_comm, Nat.div_add_l, Nat.div_small by lia; lia).
  replace ((3 * t + r) mod 3)%nat with r; [reflexivity|].
  rewrite Nat.add_comm, Nat.mul_comm, Nat.mod_add by lia. symmetry; apply Nat.mod_small; lia.
Qed.

Section SmallTable.
  Variables (p : Z) (len : nat).
  Hypothesis Hp : 0 < p < 2 ^ 30.
  Hypothesis Hlen : (3 <= len)%nat.

  Definition ok (v : nat -> Z) (u : nat) : Prop := v u mod p = W u mod p /\ 0 <= v u < 2 ^ 30.

  Lemma ok_upd v u x k : (u = k -> x mod p = W k mod p /\ 0 <= x < 2 ^ 30) ->
    (u <> k -> ok v k) -> ok (upd v u x) k.
  Proof.
    intros H1 H2. unfold ok, upd. destruct (Nat.eqb_spec k u) as [->|N]; [apply H1; reflexivity|].
    apply H2; congruence.
  Qed.

  Lemma mulmod_ok a b wa wb : a mod p = wa mod p -> b mod p = wb mod p ->
    ((a * b) mod p) mod p = (wa * wb) mod p /\ 0 <= (a * b) mod p < 2 ^ 30.
  Proof.
    intros Ha Hb. split.
    - rewrite Z.mod_mod by lia. rewrite Zmult_mod, Ha, Hb, <- Zmult_mod. reflexivity.
    - pose proof (Z.mod_pos_bound (a * b) p ltac:(lia)). lia.
  Qed.

  Lemma small_table_spec :
    exists v, small_table p len = Some v /\ forall u, (u < len)%nat -> ok v u.
  Proof.
    unfold small_table.
    destruct (while_inv
      (fun s : nat * (nat -> Z) => (exists t, fst s = 3 * t /\ 1 <= t)%nat /\
         forall u, (u < fst s)%nat -> (u < len)%nat -> ok (snd s) u)
      (fun s => (len - fst s)%nat)
      (fun s : nat * (nat -> Z) => Nat.ltb (fst s) len)
      (fun s => let '(u, v) := s in
      let v := upd v u ((v (u - 3)%nat * two_FLINT_BITS p) mod p) in
      let v := if Nat.ltb (u + 1) len then
                 let v := upd v (u + 1) ((v u * ((2 ^ 24) mod p)) mod p) in
                 if Nat.ltb (u + 2) len then upd v (u + 2) ((v (u + 1)%nat * ((2 ^ 24) mod p)) mod p) else v
               else v in
      ((u + 3)%nat, v)))
      with (fuel := len) (s := (3%nat, upd (upd (upd (fun _ => 0) 0 1) 1 ((2 ^ 24) mod p)) 2 ((2 ^ 48) mod p)))
      as [[u v] [E [[Ht Hv] Hf]]].
    - intros [u v] [[t [Eu Ht]] Hv] Hc; cbn [fst snd] in *. apply Nat.ltb_lt in Hc. subst u.
      split; [|lia]. split; [exists (S t); lia|].
      assert (T24 : forall x r, (r < 2)%nat -> x mod p = W (3 * t + r) mod p ->
        ((x * (2 ^ 24 mod p)) mod p) mod p = W (3 * t + (r + 1)) mod p /\ 0 <= (x * (2 ^ 24 mod p)) mod p < 2 ^ 30).
      { intros x r Hr Hx. rewrite (W_3 t (r + 1)) by lia. rewrite W_3 in Hx by lia.
        replace (Bp t * 2 ^ (24 * Z.of_nat (r + 1))) with ((Bp t * 2 ^ (24 * Z.of_nat r)) * 2 ^ 24)
          by (rewrite Nat2Z.inj_add, Z.mul_add_distr_l, Z.pow_add_r by lia; change (24 * Z.of_nat 1) with 24; ring).
        exact (mulmod_ok x (2 ^ 24 mod p) _ _ Hx (Z.mod_mod (2 ^ 24) p ltac:(lia))). }
      assert (A0 : ((v (3 * t - 3)%nat * two_FLINT_BITS p) mod p) mod p = W (3 * t) mod p
                   /\ 0 <= (v (3 * t - 3)%nat * two_FLINT_BITS p) mod p < 2 ^ 30).
      { destruct (Hv (3 * t - 3)%nat ltac:(lia) ltac:(lia)) as [E1 _].
        replace (3 * t)%nat with (3 * t + 0)%nat at 2 by lia. rewrite (W_3 t 0) by lia.
        replace (3 * t - 3)%nat with (3 * (t - 1) + 0)%nat in E1 at 2 by lia. rewrite W_3 in E1 by lia.
        assert (ET : two_FLINT_BITS p mod p = B64 mod p) by (rewrite two_bits_spec, Z.mod_mod by lia; reflexivity).
        pose proof (mulmod_ok _ _ _ _ E1 ET) as [M1 M2]. split; [|exact M2]. rewrite M1. f_equal.
        replace t with (S (t - 1)) at 2 by lia. rewrite Bp_S. ring. }
      set (x0 := (v (3 * t - 3)%nat * two_FLINT_BITS p) mod p) in *. clearbody x0.
      intros k Hk Hkl.
      destruct (Nat.ltb_spec (3 * t + 1) len) as [L1|L1]; [|].
      2: { apply ok_upd; [intros <-; exact A0|]. intros N; apply Hv; lia. }
      assert (EV : upd v (3 * t) x0 (3 * t)%nat = x0) by (unfold upd; rewrite Nat.eqb_refl; reflexivity).
      rewrite EV. clear EV.
      pose proof (T24 x0 0%nat ltac:(lia)) as A1.
      replace (3 * t + 0)%nat with (3 * t)%nat in A1 by lia. specialize (A1 (proj1 A0)).
      set (x1 := (x0 * (2 ^ 24 mod p)) mod p) in *. clearbody x1. simpl (0 + 1)%nat in A1.
      destruct (Nat.ltb_spec (3 * t + 2) len) as [L2|L2].
      + assert (EV : upd (upd v (3 * t) x0) (3 * t + 1) x1 (3 * t + 1)%nat = x1) by (unfold upd; rewrite Nat.eqb_refl; reflexivity).
        rewrite EV. clear EV.
        pose proof (T24 x1 1%nat ltac:(lia) (proj1 A1)) as A2. simpl (1 + 1)%nat in A2.
        apply ok_upd; [intros <-; exact A2|]. intros N2.
        apply ok_upd; [intros <-; exact A1|]. intros N1.
        apply ok_upd; [intros <-; exact A0|]. intros N. apply Hv; lia.
      + apply ok_upd; [intros <-; exact A1|]. intros N1.
        apply ok_upd; [intros <-; exact A0|]. intros N. apply Hv; lia.
    - cbn [fst snd]. split; [exists 1%nat; lia|]. intros u Hu _.
      pose proof (Z.mod_pos_bound (2 ^ 24) p ltac:(lia)). pose proof (Z.mod_pos_bound (2 ^ 48) p ltac:(lia)).
      apply ok_upd.
      { intros <-. rewrite Z.mod_mod by lia. split; [|lia]. reflexivity. }
      intros N2. apply ok_upd.
      { intros <-. rewrite Z.mod_mod by lia. split; [|lia]. reflexivity. }
      intros N1. apply ok_upd; [|lia].
      intros <-. split; [reflexivity|lia].
    - simpl; lia.
    - cbn [fst snd] in *. apply Nat.ltb_ge in Hf.
      exists v. split; [|intros; apply Hv; lia].
      cbv zeta. rewrite E. reflexivity.
  Qed.
End SmallTable.

(** slices *)
Lemma slices_spec a nl :
  (forall i, (i < nl)%nat ->
     slices a nl (3 * i) = limb a i mod 2 ^ 24 /\
     slices a nl (3 * i + 1) = (limb a i / 2 ^ 24) mod 2 ^ 24 /\
     slices a nl (3 * i + 2) = limb a i / 2 ^ 48) /\
  (forall j, (3 * nl <= j)%nat -> slices a nl j = 0).
Proof.
  unfold slices.
  change nl with (0 + nl)%nat at 1 5.
  apply (for_up_ind (fun k s =>
    (forall i, (i < k)%nat ->
     s (3 * i)%nat = limb a i mod 2 ^ 24 /\
     s (3 * i + 1)%nat = (limb a i / 2 ^ 24) mod 2 ^ 24 /\
     s (3 * i + 2)%nat = limb a i / 2 ^ 48) /\ (forall j, (3 * k <= j)%nat -> s j = 0))).
  - split; [intros; lia|reflexivity].
  - intros k s Hk [H1 H2].
    assert (L : forall x, Z.land x 16777215 = x mod 2 ^ 24).
    { intros x. change 16777215 with (Z.ones 24). apply Z.land_ones; lia. }
    rewrite !L, !Z.shiftr_div_pow2 by lia.
    split.
    + intros i Hi. unfold upd.
      repeat match goal with |- context [Nat.eqb ?a ?b] => destruct (Nat.eqb_spec a b); try lia end;
        try (assert (i = k) as -> by lia); auto.
      apply H1. lia.
    + intros j Hj. unfold upd.
      repeat match goal with |- context [Nat.eqb ?a ?b] => destruct (Nat.eqb_spec a b); try lia end.
      apply H2; lia.
Qed.

Lemma slice_recombine l :
  l mod 2 ^ 24 + 2 ^ 24 * ((l / 2 ^ 24) mod 2 ^ 24) + 2 ^ 48 * (l / 2 ^ 48) = l.
Proof.
  pose proof (Z.div_mod l (2 ^ 24) ltac:(lia)) as E1.
  pose proof (Z.div_mod (l / 2 ^ 24) (2 ^ 24) ltac:(lia)) as E2.
  rewrite Z.div_div in E2 by lia. change (2 ^ 24 * 2 ^ 24) with (2 ^ 48) in E2. lia.
Qed.

Lemma slices_range a nl j : 0 <= slices a nl j < 2 ^ 24.
Proof.
  destruct (slices_spec a nl) as [H1 H2].
  destruct (Nat.le_gt_cases (3 * nl) j) as [H|H]; [rewrite H2 by assumption; lia|].
  pose proof (Nat.div_mod j 3 ltac:(lia)) as E. pose proof (Nat.mod_upper_bound j 3 ltac:(lia)).
  specialize (H1 (j / 3)%nat ltac:(lia)). destruct H1 as [A [B C]].
  pose proof (limb_word a (j / 3)) as Hl. unfold word in Hl. rewrite B64_eq in Hl.
  assert (H3 : (j = 3 * (j / 3) \/ j = 3 * (j / 3) + 1 \/ j = 3 * (j / 3) + 2)%nat) by lia.
  destruct H3 as [-> | [-> | ->]].
  - rewrite A. apply Z.mod_pos_bound; lia.
  - rewrite B. apply Z.mod_pos_bound; lia.
  - rewrite C. split; [apply Z.div_pos; lia|]. apply Z.div_lt_upper_bound; lia.
Qed.

Lemma slices_sum a nl len : 0 <= a < Bp nl -> (3 * nl <= len)%nat ->
  zsum (fun j => W j * slices a nl j) len = a.
Proof.
  intros Ha Hl. destruct (slices_spec a nl) as [H1 H2].
  replace len with (3 * nl + (len - 3 * nl))%nat by lia.
  rewrite zsum_tail0 by (intros; rewrite H2 by lia; lia).
  rewrite zsum_triple.
  rewrite (zsum_ext _ (fun i => limb a i * Bp i)).
  - rewrite limb_sum. apply Z.mod_small; assumption.
  - intros i Hi. destruct (H1 i Hi) as [-> [-> ->]].
    replace (W (3 * i)) with (W (3 * i + 0)) by (f_equal; lia).
    rewrite !W_3 by lia. change (24 * Z.of_nat 0) with 0. change (24 * Z.of_nat 1) with 24.
    change (24 * Z.of_nat 2) with 48. rewrite Z.pow_0_r.
    rewrite <- (slice_recombine (limb a i)) at 4. ring.
Qed.

Section LargeTable.
  Variables (p : Z) (nl : nat).
  Hypothesis Hp : 0 < p < B64.

  Lemma large_table_spec : forall u, (u < nl)%nat ->
    large_table p nl u mod p = Bp u mod p /\ 0 <= large_table p nl u < 2 ^ nbits p.
  Proof.
    destruct (Nat.eq_dec nl 0) as [->|Hnl]; [intros; lia|].
    unfold large_table. destruct (nbits_bound p ltac:(lia)) as [Hb0 Hb].
    assert (1 <= nbits p).
    { unfold nbits. destruct (Z.eqb_spec p 0); [lia|]. pose proof (Z.log2_nonneg p); lia. }
    assert (1 < 2 ^ nbits p) by (apply Z.pow_gt_1; lia).
    set (tb := for_up 1 (nl - 1) _ _).
    enough (G : forall u, (u < 1 + (nl - 1))%nat -> tb u mod p = Bp u mod p /\ 0 <= tb u < 2 ^ nbits p)
      by (intros u Hu; apply G; lia).
    unfold tb.
    apply (for_up_ind (fun k v => forall u, (u < k)%nat -> v u mod p = Bp u mod p /\ 0 <= v u < 2 ^ nbits p)).
    - intros u Hu. assert (u = 0)%nat as -> by lia. split; [reflexivity|]. change (0 <= 1 < 2 ^ nbits p). lia.
    - intros k v Hk Hv u Hu. unfold upd. destruct (Nat.eqb_spec u k) as [->|N]; [|apply Hv; lia].
      destruct (Hv (k - 1)%nat ltac:(lia)) as [E _].
      pose proof (Z.mod_pos_bound (v (k - 1)%nat * two_FLINT_BITS p) p ltac:(lia)). split; [|lia].
      rewrite Z.mod_mod by lia. rewrite Zmult_mod, E, two_bits_spec, Z.mod_mod, <- Zmult_mod by lia.
      f_equal. replace k with (S (k - 1)) at 2 by lia. rewrite Bp_S. ring.
  Qed.
End LargeTable.

Lemma max_word_ge v len i : (i < len)%nat -> v i <= max_word v len.
Proof.
  unfold max_word. revert i. change len with (0 + len)%nat at 1.
  apply (for_up_ind (fun k acc => forall i, (i < k)%nat -> v i <= acc)); [intros; lia|].
  intros k acc _ H i Hi. destruct (Z.ltb_spec acc (v k)).
  - destruct (Nat.eq_dec i k) as [->|]; [lia|]. specialize (H i ltac:(lia)); lia.
  - destruct (Nat.eq_dec i k) as [->|]; [lia|]. apply H; lia.
Qed.

Section Reduce.
  Variables (primes : nat -> Z) (np : nat).
  Hypothesis Hp : forall i, (i < np)%nat -> 0 < primes i < B64.
  (** _mp_size is an int, so a GMP integer has fewer than 2^31 limbs *)
  Hypothesis Hsize : Z.of_nat (nlimbs (prod_primes primes np)) < 2 ^ 31.

  Let mm := multimod_naive_init primes np.
  Let P := prod_primes primes np.

  Lemma mm_prod_pos : 0 < P.
  Proof. apply prod_pos. intros i Hi; specialize (Hp i Hi); lia. Qed.

  Lemma reduce1 A i : (i < np)%nat -> Z.abs A < P -> multimod_naive_reduce1 mm A i = Some (A mod primes i).
  Proof.
    intros Hi HA. pose proof (Hp i Hi) as Hpi. pose proof mm_prod_pos as HP.
    assert (Hsm : (if A <? 0 then Some (nmod_neg (NMOD_RED (- A) (primes i)) (primes i))
                   else Some (NMOD_RED A (primes i))) = Some (A mod primes i)).
    { unfold NMOD_RED. destruct (Z.ltb_spec A 0); [|reflexivity]. f_equal.
      rewrite (nmod_neg_spec _ (- A)) by (lia || reflexivity). f_equal; lia. }
    assert (Hsg : forall d, d = Z.abs A mod primes i ->
      Some (if A <? 0 then nmod_neg d (primes i) else d) = Some (A mod primes i)).
    { intros d Hd. f_equal. destruct (Z.ltb_spec A 0).
      - rewrite (nmod_neg_spec d (Z.abs A)) by (lia || assumption). f_equal; lia.
      - rewrite Hd, Z.abs_eq by lia. reflexivity. }
    pose proof (nlimbs_mono (Z.abs A) P ltac:(lia)) as Hnl.
    pose proof (nlimbs_bound (Z.abs A) ltac:(lia)) as Hab.
    pose proof (nlimbs_pos P HP) as HnP. fold P in Hsize.
    unfold multimod_naive_reduce1.
    change (mm_primes mm i) with (primes i).
    change (mm_small mm) with (max_word primes np <? 2 ^ 30).
    change (mm_pow mm i) with (if max_word primes np <? 2 ^ 30 then
       match small_table (primes i) (slice_len (nlimbs P)) with Some v => v | None => fun _ => -1 end
       else large_table (primes i) (nlimbs P)).
    destruct (Z.ltb_spec (max_word primes np) (2 ^ 30)) as [Hs|Hl].
    - pose proof (max_word_ge primes np i Hi) as Hmax.
      unfold fmpz_reduce_small. destruct (is_mpz A) eqn:EM; cbn [negb]; [|exact Hsm].
      pose proof (slice_len_bounds (nlimbs P)) as HLP.
      destruct (small_table_spec (primes i) (slice_len (nlimbs P)) ltac:(lia) ltac:(lia)) as (v & -> & Hv).
      pose proof (slice_len_bounds (nlimbs (Z.abs A))) as HL.
      pose proof (slice_len_mono _ _ Hnl) as HLL.
      set (len := slice_len (nlimbs (Z.abs A))) in *.
      set (sl := slices (Z.abs A) (nlimbs (Z.abs A))) in *.
      assert (Hsl : forall j, 0 <= sl j < 2 ^ 24) by (intros; apply slices_range).
      rewrite (dot2_split_small_exact v sl len (primes i) (NMOD_RED (2 ^ DOT_SPLIT_BITS) (primes i))).
      + apply Hsg. unfold zdot. rewrite <- (slices_sum (Z.abs A) (nlimbs (Z.abs A)) len) by lia.
        apply zsum_cong. intros j Hj. rewrite Zmult_mod, (proj1 (Hv j ltac:(lia))), <- Zmult_mod. reflexivity.
      + unfold DOT2_ACC8_MAX_MODULUS; lia.
      + intros j Hj. pose proof (proj2 (Hv j ltac:(lia))). unfold DOT2_ACC8_MAX_MODULUS; lia.
      + intros j Hj. pose proof (Hsl j). unfold DOT2_ACC8_MAX_MODULUS; lia.
      + lia.
      + reflexivity.
      + lia.
      + lia.
      + intros j Hj. apply (Hv j). lia.
      + intros j Hj. apply Hsl.
    - unfold fmpz_reduce. destruct (is_mpz A) eqn:EM; cbn [negb]; [|exact Hsm].
      rewrite (dot_product_unbalanced_exact (large_table (primes i) (nlimbs P)) (limb (Z.abs A))
        (nlimbs (Z.abs A)) (nbits (primes i)) 64).
      + apply Hsg. unfold zdot.
        assert (EA : Z.abs A = zsum (fun j => limb (Z.abs A) j * Bp j) (nlimbs (Z.abs A)))
          by (rewrite limb_sum; symmetry; apply Z.mod_small; lia).
        set (a := Z.abs A) in *. set (k := nlimbs a) in *.
        transitivity (zsum (fun j => limb a j * Bp j) k mod primes i); [|f_equal; symmetry; exact EA].
        apply zsum_cong. intros j Hj.
        rewrite Zmult_mod, (proj1 (large_table_spec (primes i) (nlimbs P) Hpi j ltac:(lia))), <- Zmult_mod.
        f_equal; ring.
      + apply nbits_le64; lia.
      + lia.
      + intros j Hj. apply large_table_spec; lia.
      + intros j Hj. pose proof (limb_word (Z.abs A) j) as Hw. unfold word in Hw. rewrite B64_eq in Hw. exact Hw.
      + rewrite B64_eq; lia.
      + lia.
  Qed.

  Lemma multimod_reduce_exact fuel A i : (1 <= fuel)%nat -> (i < np)%nat ->
    multimod_naive_reduce fuel mm A i = Some (A mod primes i).
  Proof.
    intros Hf Hi. destruct fuel as [|f]; [lia|]. pose proof mm_prod_pos as HP.
    pose proof (Hp i Hi).
    cbn [multimod_naive_reduce]. change (mm_prod mm) with P.
    destruct (Z.leb_spec P (Z.abs A)) as [H1|H1].
    - pose proof (Z.mod_pos_bound A P HP) as HB.
      assert (Hsm : P <=? Z.abs (A mod P) = false) by (apply Z.leb_gt; lia).
      assert (E : multimod_naive_reduce f mm (A mod P) i = multimod_naive_reduce1 mm (A mod P) i).
      { destruct f; cbn [multimod_naive_reduce]; change (mm_prod mm) with P; rewrite Hsm; reflexivity. }
      rewrite E, reduce1 by (try assumption; lia). f_equal. symmetry.
      apply Zmod_div_mod; [lia|lia|]. apply prod_divide; assumption.
    - apply reduce1; assumption.
  Qed.
End Reduce.
