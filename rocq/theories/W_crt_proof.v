(** Proofs about the naive CRT and multimodular reduction. *)
From Coq Require Import ZArith List Bool Lia Znumtheory.
From Verif Require Import W_word SpecW W_base W_dot_model W_dot_proof W_dot2_proof W_crt_model.
Local Open Scope Z_scope.

Notation Bp k := (B64 ^ Z.of_nat k).

Lemma Bp_pos k : 0 < Bp k.
Proof. apply Z.pow_pos_nonneg; [apply B64_pos|lia]. Qed.

Lemma Bp_S k : Bp (S k) = B64 * Bp k.
Proof. rewrite Nat2Z.inj_succ, Z.pow_succ_r by lia. reflexivity. Qed.

Lemma Bp_0 : Bp 0 = 1. Proof. reflexivity. Qed.

Lemma limb_word a k : word (limb a k).
Proof. apply Z.mod_pos_bound, B64_pos. Qed.

(** the first k limbs of a represent a mod B^k *)
Lemma limb_sum a k : zsum (fun j => limb a j * Bp j) k = a mod Bp k.
Proof.
  induction k as [|k IH]; simpl zsum.
  - rewrite Bp_0, Z.mod_1_r. reflexivity.
  - rewrite IH, Bp_S. pose proof (Bp_pos k). pose proof B64_pos.
    rewrite (Z.mul_comm B64 (Bp k)), Z.rem_mul_r by lia. unfold limb. lia.
Qed.

Lemma nbits_bound a : 0 <= a -> 0 <= nbits a /\ a < 2 ^ nbits a.
Proof.
  intros Ha. unfold nbits. destruct (Z.eqb_spec a 0) as [->|Hn]; [split; [lia|reflexivity]|].
  pose proof (Z.log2_spec a ltac:(lia)). pose proof (Z.log2_nonneg a).
  split; [lia|]. rewrite Z.add_1_r. lia.
Qed.

Lemma nlimbs_bound a : 0 <= a -> a < Bp (nlimbs a).
Proof.
  intros Ha. destruct (nbits_bound a Ha) as [H0 H1].
  unfold nlimbs. rewrite Z2Nat.id by (apply Z.div_pos; lia).
  rewrite B64_eq. change 18446744073709551616 with (2 ^ 64).
  rewrite <- Z.pow_mul_r by (try apply Z.div_pos; lia).
  eapply Z.lt_le_trans; [exact H1|]. apply Z.pow_le_mono_r; [lia|].
  pose proof (Z.div_mod (nbits a + 63) 64 ltac:(lia)).
  pose proof (Z.mod_pos_bound (nbits a + 63) 64 ltac:(lia)). lia.
Qed.

Lemma nbits_mono a b : 0 <= a <= b -> nbits a <= nbits b.
Proof.
  intros H. unfold nbits. destruct (Z.eqb_spec a 0), (Z.eqb_spec b 0); try lia.
  - pose proof (Z.log2_nonneg b); lia.
  - pose proof (Z.log2_le_mono a b ltac:(lia)); lia.
Qed.

Lemma nlimbs_mono a b : 0 <= a <= b -> (nlimbs a <= nlimbs b)%nat.
Proof.
  intros H. unfold nlimbs. apply Z2Nat.inj_le; try (apply Z.div_pos; [|lia]).
  - destruct (nbits_bound a); lia.
  - destruct (nbits_bound b); lia.
  - apply Z.div_le_mono; [lia|]. pose proof (nbits_mono a b H). lia.
Qed.

Lemma nlimbs_pos a : 0 < a -> (1 <= nlimbs a)%nat.
Proof.
  intros H. unfold nlimbs. assert (1 <= nbits a).
  { unfold nbits. destruct (Z.eqb_spec a 0); [lia|]. pose proof (Z.log2_nonneg a); lia. }
  assert (1 <= (nbits a + 63) / 64) by (apply Z.div_le_lower_bound; lia). lia.
Qed.

Lemma nbits_le64 n : 0 <= n < B64 -> 0 <= nbits n <= 64.
Proof.
  intros Hn. split; [apply nbits_bound; lia|]. unfold nbits.
  destruct (Z.eqb_spec n 0); [lia|].
  assert (Z.log2 n < 64); [|lia]. apply Z.log2_lt_pow2; [lia|].
  rewrite B64_eq in Hn. exact (proj2 Hn).
Qed.

Lemma max_bits_spec v len : (forall i, (i < len)%nat -> 0 <= v i < B64) ->
  0 <= max_bits v len <= 64 /\ forall i, (i < len)%nat -> nbits (v i) <= max_bits v len.
Proof.
  intros Hv. unfold max_bits.
  change len with (0 + len)%nat at 4.
  apply (for_up_ind (fun k acc => 0 <= acc <= 64 /\ forall i, (i < k)%nat -> nbits (v i) <= acc)).
  - split; [lia|intros; lia].
  - intros i acc Hi [H1 H2]. pose proof (nbits_le64 (v i) ltac:(apply Hv; lia)).
    split; [lia|]. intros j Hj. destruct (Nat.eq_dec j i) as [->|]; [lia|].
    specialize (H2 j ltac:(lia)); lia.
Qed.

(** products *)
Lemma for_up_S {S : Type} (b : nat -> S -> S) n : forall lo s,
  for_up lo (Datatypes.S n) b s = b (lo + n)%nat (for_up lo n b s).
Proof.
  induction n as [|n IH]; intros lo s.
  - simpl. rewrite Nat.add_0_r. reflexivity.
  - change (for_up lo (Datatypes.S (Datatypes.S n)) b s) with (for_up (Datatypes.S lo) (Datatypes.S n) b (b lo s)).
    rewrite IH. simpl. rewrite <- plus_n_Sm. reflexivity.
Qed.

Lemma prod_S primes k : prod_primes primes (S k) = prod_primes primes k * primes k.
Proof. unfold prod_primes. rewrite for_up_S. reflexivity. Qed.

Lemma prod_pos primes np : (forall i, (i < np)%nat -> 0 < primes i) -> 0 < prod_primes primes np.
Proof.
  induction np as [|k IH]; intros H; [reflexivity|].
  rewrite prod_S. specialize (IH ltac:(intros; apply H; lia)). specialize (H k ltac:(lia)). nia.
Qed.

Lemma prod_divide primes np i : (i < np)%nat -> (primes i | prod_primes primes np).
Proof.
  induction np as [|k IH]; intros H; [lia|]. rewrite prod_S.
  destruct (Nat.eq_dec i k) as [->|]; [apply Z.divide_factor_r|].
  apply Z.divide_mul_l, IH. lia.
Qed.

(** product of all primes but the i-th *)
Lemma cofactor_eq primes np i : (i < np)%nat -> 0 < primes i ->
  primes i * (prod_primes primes np / primes i) = prod_primes primes np.
Proof.
  intros Hi Hp. destruct (prod_divide primes np i Hi) as [c Hc].
  rewrite Hc, Z.div_mul by lia. ring.
Qed.

Section Crt.
  Variables (primes : nat -> Z) (np : nat).
  Hypothesis Hp : forall i, (i < np)%nat -> 2 <= primes i < B64.
  Hypothesis Hnp : Z.of_nat np < B64.

  Let c := crt_naive_init primes np.
  Let P := prod_primes primes np.
  Let cof i := P / primes i.

  Lemma P_pos : 0 < P.
  Proof. apply prod_pos. intros i Hi; specialize (Hp i Hi); lia. Qed.

  Lemma cof_range i : (i < np)%nat -> 0 < cof i <= P.
  Proof.
    intros Hi. pose proof (Hp i Hi). pose proof P_pos.
    pose proof (cofactor_eq primes np i Hi ltac:(lia)) as E. fold P in E. fold (cof i) in E. nia.
  Qed.

  Lemma cofactor_limb_eq a k : 0 <= a -> cofactor_limb a k = limb a k.
  Proof.
    intros Ha. unfold cofactor_limb, is_mpz. pose proof B64_pos as HB. rewrite Z.abs_eq by lia.
    destruct (Z.leb_spec (2 ^ 62) a) as [Hl|Hl]; cbn [negb].
    - destruct (Nat.ltb_spec k (nlimbs a)) as [Hk|Hk]; [reflexivity|].
      unfold limb. symmetry. rewrite Z.div_small; [apply Z.mod_0_l; lia|].
      split; [lia|]. eapply Z.lt_le_trans; [apply nlimbs_bound; lia|].
      apply Z.pow_le_mono_r; lia.
    - destruct (Nat.eqb_spec k 0) as [->|Hk].
      + unfold limb. rewrite Bp_0, Z.div_1_r, Z.mod_small; [reflexivity|]. rewrite B64_eq; lia.
      + unfold limb. symmetry. rewrite Z.div_small; [apply Z.mod_0_l; lia|].
        split; [lia|]. destruct k as [|k]; [lia|]. rewrite Bp_S. pose proof (Bp_pos k).
        rewrite B64_eq. nia.
  Qed.

  Section Combine.
  Variable m : nat -> Z.
  Hypothesis Hm : bits_le (max_bits primes np) m np.

  Let S_ k := zsum (fun j => m j * (cof j mod Bp k)) np.

  Lemma m_word j : (j < np)%nat -> 0 <= m j < B64.
  Proof.
    intros Hj. pose proof (Hm j Hj). destruct (max_bits_spec primes np) as [Hb _].
    { intros i Hi; specialize (Hp i Hi); lia. }
    rewrite B64_eq. change 18446744073709551616 with (2 ^ 64).
    assert (2 ^ max_bits primes np <= 2 ^ 64) by (apply Z.pow_le_mono_r; lia). lia.
  Qed.

  Lemma S_step k : S_ (S k) = S_ k + Bp k * zdot (fun j => limb (cof j) k) m np.
  Proof.
    unfold S_, zdot. rewrite <- zsum_scal, <- zsum_plus. apply zsum_ext. intros j Hj.
    rewrite <- !limb_sum. simpl zsum. ring.
  Qed.

  Lemma S_bound k : 0 <= S_ k < Bp (k + 2).
  Proof.
    unfold S_. pose proof B64_pos.
    assert (E : Bp (k + 2) = B64 * B64 * Bp k).
    { replace (k + 2)%nat with (S (S k)) by lia. rewrite !Bp_S. ring. }
    pose proof (Bp_pos k).
    pose proof (zsum_bounds (fun j => m j * (cof j mod Bp k)) (B64 * Bp k) np) as Hb.
    rewrite E. destruct Hb as [Hb0 Hb1].
    - intros j Hj. pose proof (m_word j Hj). pose proof (Z.mod_pos_bound (cof j) (Bp k) ltac:(lia)). nia.
    - split; [assumption|]. assert (0 < B64 * Bp k) by nia. nia.
  Qed.

  Definition cinv (i : nat) (dat : nat -> Z) : Prop :=
    (forall k, word (dat k)) /\ (forall k, (i + 2 <= k)%nat -> dat k = 0) /\
    zsum (fun k => dat k * Bp k) (i + 2) = S_ i.

  Lemma zsum_upd_ge f k x len : (len <= k)%nat -> zsum (fun j => upd f k x j * Bp j) len = zsum (fun j => f j * Bp j) len.
  Proof.
    intros H. apply zsum_ext. intros j Hj. unfold upd. destruct (Nat.eqb_spec j k); [lia|reflexivity].
  Qed.

  Lemma combine_step_inv i dat : cinv i dat ->
    exists dat', combine_step c m i (Some dat) = Some dat' /\ cinv (S i) dat'.
  Proof.
    intros [Hw [Hz Hs]]. unfold combine_step.
    destruct (max_bits_spec primes np) as [Hb _].
    { intros j Hj; specialize (Hp j Hj); lia. }
    destruct (integer_dot_exact (c_coef c i) m np 64 (max_bits primes np))
      as ([[t2 t1] t0] & E & Wt & Vt); try assumption; try lia.
    { intros j Hj. unfold c, crt_naive_init, c_coef. rewrite cofactor_limb_eq.
      - pose proof (limb_word (prod_primes primes np / primes j) i) as Hl. unfold word in Hl.
        rewrite B64_eq in Hl. exact Hl.
      - pose proof (cof_range j Hj). unfold cof, P in *. lia. }
    change (c_np c) with np. change (c_pbl c) with (max_bits primes np). rewrite E.
    assert (Vt' : val3 (t2, t1, t0) = zdot (fun j => limb (cof j) i) m np).
    { rewrite Vt. unfold zdot. apply zsum_ext. intros j Hj. f_equal.
      unfold c, crt_naive_init, c_coef. rewrite cofactor_limb_eq; [reflexivity|].
      pose proof (cof_range j Hj). unfold cof, P in *. lia. }
    pose proof (S_bound (S i)) as HB. pose proof (S_step i) as HS.
    set (dt := zdot _ m np) in *. clearbody dt.
    set (d2 := dat (i + 2)%nat). set (d1 := dat (i + 1)%nat). set (d0 := dat i).
    assert (D2 : d2 = 0) by (apply Hz; lia).
    assert (Hs' : zsum (fun k => dat k * Bp k) i + Bp i * val3 (d2, d1, d0) = S_ i).
    { rewrite <- Hs. replace (i + 2)%nat with (S (S i)) by lia.
      rewrite !zsum_S, !Bp_S. unfold val3; simpl.
      fold d0. replace (S i) with (i + 1)%nat by lia. fold d1. rewrite D2. ring. }
    assert (Hlow : 0 <= zsum (fun k => dat k * Bp k) i).
    { clear - Hw. induction i as [|i IH]; simpl; [lia|]. pose proof (Bp_pos i).
      specialize (Hw i). unfold word in Hw. nia. }
    pose proof (Bp_pos i) as Hbi. pose proof B64_pos as HBpos.
    assert (Hsum : 0 <= val3 (d2, d1, d0) + val3 (t2, t1, t0) < B64 * B64 * B64).
    { split.
      - pose proof (val3_bound (t2, t1, t0) Wt).
        pose proof (val3_bound (d2, d1, d0)) as Hd. destruct Hd; [repeat split; apply Hw|]. lia.
      - assert (Bp (S i + 2) = B64 * B64 * B64 * Bp i) as EB.
        { replace (S i + 2)%nat with (S (S (S i))) by lia. rewrite !Bp_S. ring. }
        rewrite EB in HB. rewrite Vt'. rewrite HS, <- Hs' in HB.
        clear - HB Hlow Hbi. nia. }
    pose proof (add3_val d2 d1 d0 t2 t1 t0 Hsum) as Ha.
    pose proof (add3_words d2 d1 d0 t2 t1 t0) as Wa.
    destruct (add_sssaaaaaa d2 d1 d0 t2 t1 t0) as [[e2 e1] e0].
    eexists; split; [reflexivity|].
    destruct Wa as [W2 [W1 W0]]; simpl in W2, W1, W0.
    split; [|split].
    - intros k. unfold upd. destruct (Nat.eqb k i); [assumption|].
      destruct (Nat.eqb k (i + 1)); [assumption|]. destruct (Nat.eqb k (i + 2)); [assumption|apply Hw].
    - intros k Hk. unfold upd. destruct (Nat.eqb_spec k i); [lia|].
      destruct (Nat.eqb_spec k (i + 1)); [lia|]. destruct (Nat.eqb_spec k (i + 2)); [lia|]. apply Hz; lia.
    - replace (S i + 2)%nat with (S (S (S i))) by lia. rewrite !zsum_S.
      rewrite zsum_upd_ge by lia. rewrite zsum_upd_ge by lia. rewrite zsum_upd_ge by lia.
      unfold upd. rewrite Nat.eqb_refl.
      destruct (Nat.eqb_spec (S i) i); [lia|]. destruct (Nat.eqb_spec (S i) (i + 1)); [|lia].
      destruct (Nat.eqb_spec (S (S i)) i); [lia|]. destruct (Nat.eqb_spec (S (S i)) (i + 1)); [lia|].
      destruct (Nat.eqb_spec (S (S i)) (i + 2)); [|lia].
      rewrite HS, <- Hs', <- Vt', !Bp_S.
      unfold val3 in Ha; simpl in Ha. unfold val3; simpl.
      replace (zsum (fun k => dat k * Bp k) i + e0 * Bp i + e1 * (B64 * Bp i) + e2 * (B64 * (B64 * Bp i)))
        with (zsum (fun k => dat k * Bp k) i + Bp i * (e2 * (B64 * B64) + e1 * B64 + e0)) by ring.
      rewrite Ha. ring.
  Qed.

  Lemma strip_val dat : forall size, zsum (fun k => dat k * Bp k) (strip size dat) = zsum (fun k => dat k * Bp k) size.
  Proof.
    induction size as [|k IH]; simpl; [reflexivity|].
    destruct (Z.eqb_spec (dat k) 0) as [E|]; [|reflexivity]. rewrite IH, E. lia.
  Qed.

  Lemma mpz_val_zsum dat size : mpz_val dat size = zsum (fun k => dat k * Bp k) size.
  Proof.
    unfold mpz_val. induction size as [|k IH]; [reflexivity|].
    rewrite for_up_S, IH. reflexivity.
  Qed.

  Lemma combine_exact :
    crt_naive_combine c m = Some (zsum (fun i => m i * (P / primes i)) np).
  Proof.
    unfold crt_naive_combine.
    pose proof (for_up_ind (fun i (o : option (nat -> Z)) => exists dat, o = Some dat /\ cinv i dat)
      (combine_step c m) (c_nl c) 0 (Some (fun _ => 0))) as H.
    destruct H as (dat & E & [Hw [Hz Hs]]).
    - exists (fun _ => 0). split; [reflexivity|]. split; [|split].
      + intros k; split; [lia|apply B64_pos].
      + reflexivity.
      + simpl. unfold S_. rewrite (zsum_ext _ (fun _ => 0)); [rewrite zsum_0; lia|].
        intros j _. rewrite Bp_0, Z.mod_1_r. lia.
    - intros i s _ (dat & -> & Hi). apply combine_step_inv; assumption.
    - rewrite E. rewrite mpz_val_zsum. f_equal.
      assert (Estrip : forall s, s = strip (c_nl c + 2) dat ->
        zsum (fun k => dat k * Bp k) (if Nat.eqb s 1 && (dat 0%nat =? 0) then 0%nat else s)
        = zsum (fun k => dat k * Bp k) (c_nl c + 2)).
      { intros s ->. transitivity (zsum (fun k => dat k * Bp k) (strip (c_nl c + 2) dat)); [|apply strip_val].
        destruct (Nat.eqb_spec (strip (c_nl c + 2) dat) 1) as [E1|]; [|reflexivity].
        destruct (Z.eqb_spec (dat 0%nat) 0) as [E0|]; [|reflexivity].
        rewrite E1. cbn. rewrite E0. lia. }
      rewrite (Estrip _ eq_refl). rewrite Nat.add_0_l in Hs. rewrite Hs.
      unfold S_. apply zsum_ext. intros j Hj. f_equal.
      pose proof (cof_range j Hj) as Hc. apply Z.mod_small. unfold cof in *. split; [lia|].
      eapply Z.le_lt_trans; [apply Hc|]. apply nlimbs_bound. pose proof P_pos; lia.
  Qed.
  End Combine.

  (** inverses *)
  Lemma search_inv_spec x p : 1 < p -> forall fuel y,
    (exists z, y <= z < y + Z.of_nat fuel /\ (x * z) mod p = 1) ->
    y <= search_inv fuel x p y < y + Z.of_nat fuel /\ (x * search_inv fuel x p y) mod p = 1.
  Proof.
    intros H1. induction fuel as [|f IH]; intros y [z [Hz E]]; [lia|].
    cbn [search_inv]. destruct (Z.eqb_spec ((x * y) mod p) 1) as [Ey|Ny]; [split; [lia|assumption]|].
    assert (z <> y) by congruence.
    destruct (IH (y + 1)) as [A B]; [exists z; split; [lia|assumption]|]. split; [lia|assumption].
  Qed.

  Lemma n_invmod_spec x p : 1 < p -> rel_prime x p ->
    0 <= n_invmod x p < p /\ (x * n_invmod x p) mod p = 1.
  Proof.
    intros H1 Hr. unfold n_invmod.
    destruct (search_inv_spec x p H1 (Z.to_nat p) 0) as [A B].
    - destruct (rel_prime_bezout _ _ Hr) as [u v Huv].
      exists (u mod p). rewrite Z2Nat.id by lia. split; [apply Z.mod_pos_bound; lia|].
      rewrite Zmult_mod_idemp_r. replace (x * u) with (1 + (- v) * p) by lia.
      rewrite Z_mod_plus_full. apply Z.mod_small. lia.
    - rewrite Z2Nat.id in A by lia. split; [lia|assumption].
  Qed.

  Section Coprime.
  Hypothesis Hcop : forall i j, (i < np)%nat -> (j < np)%nat -> i <> j -> rel_prime (primes i) (primes j).

  Lemma rel_prime_prod q : forall k, (forall j, (j < k)%nat -> rel_prime q (primes j)) ->
    rel_prime q (prod_primes primes k).
  Proof.
    induction k as [|k IH]; intros H; [apply rel_prime_sym, rel_prime_1|].
    rewrite prod_S. apply rel_prime_mult; [apply IH; intros; apply H; lia|apply H; lia].
  Qed.

  Lemma cof_coprime i : (i < np)%nat -> rel_prime (cof i) (primes i).
  Proof.
    intros Hi. pose proof (Hp i Hi) as Hpi.
    assert (G : forall k, (i < k <= np)%nat -> exists q, prod_primes primes k = primes i * q /\ rel_prime (primes i) q).
    { induction k as [|k IH]; intros Hk; [lia|]. rewrite prod_S.
      destruct (Nat.eq_dec i k) as [->|Hik].
      - exists (prod_primes primes k). split; [ring|].
        apply rel_prime_prod. intros j Hj. apply Hcop; lia.
      - destruct (IH ltac:(lia)) as (q & E & R). exists (q * primes k). split; [rewrite E; ring|].
        apply rel_prime_mult; [assumption|apply Hcop; lia]. }
    destruct (G np ltac:(lia)) as (q & E & R).
    unfold cof, P. rewrite E, Z.mul_comm, Z.div_mul by lia. apply rel_prime_sym; assumption.
  Qed.

  Lemma cof_divide i j : (i < np)%nat -> (j < np)%nat -> i <> j -> (primes i | cof j).
  Proof.
    intros Hi Hj Hij. pose proof (Hp j Hj).
    apply (Gauss (primes i) (primes j)); [|apply Hcop; assumption].
    unfold cof, P. rewrite (cofactor_eq primes np j Hj) by lia. apply prod_divide; assumption.
  Qed.

  Lemma zsum_mod_single f q i : forall k, (i < k)%nat ->
    (forall j, (j < k)%nat -> j <> i -> (q | f j)) -> q <> 0 -> zsum f k mod q = f i mod q.
  Proof.
    assert (Z0 : forall k, (forall j, (j < k)%nat -> (q | f j)) -> (q | zsum f k)).
    { induction k as [|k IH]; intros H; simpl; [apply Z.divide_0_r|].
      apply Z.divide_add_r; [apply IH; intros; apply H; lia|apply H; lia]. }
    induction k as [|k IH]; intros Hi H Hq; [lia|]. simpl zsum.
    destruct (Nat.eq_dec i k) as [->|Hik].
    - destruct (Z0 k) as [t Ht]; [intros; apply H; lia|].
      rewrite Ht, Z.add_comm. apply Z_mod_plus_full.
    - destruct (H k ltac:(lia) ltac:(lia)) as [t ->]. rewrite Z_mod_plus_full.
      apply IH; [lia| |assumption]. intros; apply H; lia.
  Qed.

  Lemma CRT_exact m :
    exists A, crt_naive_CRT c m = Some A /\ 0 <= A < P /\
      (forall i, (i < np)%nat -> A mod primes i = m i mod primes i).
  Proof.
    unfold crt_naive_CRT. set (x := fun i => (m i * c_inv c i) mod c_primes c i).
    rewrite (combine_exact x).
    2: { intros j Hj. unfold x. change (c_primes c j) with (primes j). pose proof (Hp j Hj).
         pose proof (Z.mod_pos_bound (m j * c_inv c j) (primes j) ltac:(lia)).
         destruct (max_bits_spec primes np) as [Hb1 Hb2]; [intros; pose proof (Hp i H1); lia|].
         specialize (Hb2 j Hj). destruct (nbits_bound (primes j) ltac:(lia)).
         assert (2 ^ nbits (primes j) <= 2 ^ max_bits primes np) by (apply Z.pow_le_mono_r; lia). lia. }
    eexists; split; [reflexivity|]. pose proof P_pos as HP. change (c_prod c) with P.
    split; [apply Z.mod_pos_bound; assumption|].
    intros i Hi. pose proof (Hp i Hi) as Hpi.
    rewrite <- (Zmod_div_mod (primes i) P); try lia.
    2: { apply prod_divide; assumption. }
    rewrite (zsum_mod_single _ (primes i) i np Hi); [| |lia].
    2: { intros j Hj Hji. apply Z.divide_mul_r. apply (cof_divide i j); congruence || assumption. }
    fold (cof i). unfold x. change (c_primes c i) with (primes i).
    rewrite Zmult_mod_idemp_l.
    assert (Hr : rel_prime (cof i mod primes i) (primes i)).
    { apply rel_prime_mod; [lia|]. apply cof_coprime; assumption. }
    destruct (n_invmod_spec (cof i mod primes i) (primes i) ltac:(lia) Hr) as [_ E].
    change (c_inv c i) with (n_invmod (cof i mod primes i) (primes i)).
    set (v := n_invmod _ _) in *. rewrite Zmult_mod_idemp_l in E.
    replace (m i * v * cof i) with (m i * (cof i * v)) by ring.
    rewrite <- Zmult_mod_idemp_r, E, Z.mul_1_r. reflexivity.
  Qed.

  Lemma crt_unique A A' : 0 <= A < P -> 0 <= A' < P ->
    (forall i, (i < np)%nat -> A mod primes i = A' mod primes i) -> A = A'.
  Proof.
    intros HA HA' H.
    assert (G : forall k, (k <= np)%nat -> (prod_primes primes k | A - A')).
    { induction k as [|k IH]; intros Hk; [apply Z.divide_1_l|]. rewrite prod_S.
      destruct (IH ltac:(lia)) as [t Ht]. rewrite Ht, (Z.mul_comm t).
      apply Z.mul_divide_mono_l.
      apply (Gauss (primes k) (prod_primes primes k)).
      - rewrite Z.mul_comm, <- Ht. apply Z.mod_divide; [pose proof (Hp k Hk); lia|].
        rewrite Zminus_mod, (H k Hk), Z.sub_diag. apply Z.mod_0_l. pose proof (Hp k Hk); lia.
      - apply rel_prime_prod. intros j Hj. apply Hcop; lia. }
    destruct (G np (le_n _)) as [t Ht]. fold P in Ht. assert (t = 0) by nia. subst t. lia.
  Qed.
  End Coprime.
End Crt.

Lemma nlimbs_lt a : 0 < a -> Z.log2 a < 64 * (2 ^ 31 - 1) -> Z.of_nat (nlimbs a) < 2 ^ 31.
Proof.
  intros Ha H.
  unfold nlimbs, nbits. destruct (Z.eqb_spec a 0); [lia|].
  pose proof (Z.log2_nonneg a).
  rewrite Z2Nat.id by (apply Z.div_pos; lia).
  apply Z.div_lt_upper_bound; lia.
Qed.
