(** Proofs about the multi dot product and the split dot products. *)
From Coq Require Import ZArith List Bool Lia.
From Verif Require Import W_word SpecW W_base W_dot_model W_dot_proof.
Local Open Scope Z_scope.

Section Multi.
  Variables (u : nat -> Z) (v : nat -> nat -> Z) (len k : nat) (b1 b2 : Z).
  Hypothesis Hb1 : 0 <= b1 <= 64.
  Hypothesis Hb2 : 0 <= b2 <= 64.
  Hypothesis H1 : bits_le b1 u len.
  Hypothesis H2 : forall j, (j < k)%nat -> bits_le b2 (fun i => v i j) len.
  Hypothesis Hlen : Z.of_nat len < B64.

  Let f j := fun i => u i * v i j.
  Let M := maxprod b1 b2.

  Lemma fj_bound j i : (j < k)%nat -> (i < len)%nat -> 0 <= f j i <= M.
  Proof. intros Hj Hi. apply (f_bound u (fun i => v i j) len b1 b2 Hb1 Hb2 H1 (H2 j Hj) i Hi). Qed.

  Lemma Mn : 0 <= M. Proof. apply M_nonneg; assumption. Qed.

  Lemma sum8w_val i j :
    (j < k)%nat -> (i + 8 <= len)%nat -> Z.of_nat len * M < B64 ->
    sum8w u v i j = zsum (f j) (i + 8) - zsum (f j) i.
  Proof.
    intros Hj Hi HM. unfold sum8w. pose proof Mn.
    change (i + 8)%nat with (i + (1 + 7))%nat.
    apply (for_up_ind (fun ii r => r = zsum (f j) (i + ii) - zsum (f j) i)).
    - replace (i + 1)%nat with (S i) by lia. rewrite zsum_S.
      pose proof (fj_bound j i Hj ltac:(lia)).
      assert (M < B64) by nia.
      rewrite w64_small; unfold f, word in *; lia.
    - intros ii r Hii ->.
      pose proof (zsum_diff (f j) M i (i + ii) len (fun a => fj_bound j a Hj) ltac:(lia)).
      pose proof (zsum_diff (f j) M i (S (i + ii)) len (fun a => fj_bound j a Hj) ltac:(lia)).
      pose proof (fj_bound j (i + ii) Hj ltac:(lia)).
      assert ((Z.of_nat (S (i + ii)) - Z.of_nat i) * M <= Z.of_nat len * M) by nia.
      assert (M < B64) by nia.
      rewrite <- plus_n_Sm, zsum_S in *.
      rewrite (w64_small (u _ * _)); [|unfold f, word in *; lia].
      rewrite w64_small; unfold f, word in *; lia.
  Qed.

  Lemma multi_1_exact n : Z.of_nat len * M < B64 ->
    exists uv, dot_product_multi_1 u v len k n = Some uv /\
      forall j, (j < k)%nat -> uv j = zdot u (fun i => v i j) len mod n.
  Proof.
    intros HM. unfold dot_product_multi_1. pose proof Mn.
    assert (Hsum : forall j i, (j < k)%nat -> (i <= len)%nat -> word (zsum (f j) i)).
    { intros j i Hj Hi.
      pose proof (zsum_bounds (f j) M i ltac:(intros; apply fj_bound; lia)). unfold word; nia. }
    destruct (while_inv
      (fun s : nat * (nat -> Z) => (fst s <= len)%nat /\ forall j, (j < k)%nat -> snd s j = zsum (f j) (fst s))
      (fun s => (len - fst s)%nat)
      (fun s : nat * (nat -> Z) => Nat.ltb (fst s + 7) len)
      (fun s => ((fst s + 8)%nat,
         for_up 0 k (fun j uv => upd uv j (w64 (uv j + sum8w u v (fst s) j))) (snd s))))
      with (fuel := len) (s := (0%nat, fun _ : nat => 0)) as [[i uv] [E [[Hi Hv] _]]].
    - intros [i uv] [Hi Hv] Hc; simpl in *. apply Nat.ltb_lt in Hc. split; [|lia].
      split; [lia|]. intros j Hj.
      rewrite (for_up_upd (fun j x => w64 (x + sum8w u v i j))).
      rewrite (proj2 (Nat.ltb_lt j k) Hj), Hv, sum8w_val by (try assumption; lia).
      replace (zsum (f j) i + (zsum (f j) (i + 8) - zsum (f j) i)) with (zsum (f j) (i + 8)) by ring.
      apply w64_small, Hsum; [assumption|lia].
    - simpl; split; [lia|]. reflexivity.
    - simpl; lia.
    - rewrite E. simpl in *. eexists; split; [reflexivity|]. intros j Hj.
      rewrite (for_up_upd (fun j x => NMOD_RED x n)).
      rewrite (proj2 (Nat.ltb_lt j k) Hj). unfold NMOD_RED. f_equal.
      enough (G : forall j, (j < k)%nat ->
        for_up i (len - i) (fun ii uv => for_up 0 k
           (fun j uv => upd uv j (w64 (uv j + w64 (u ii * v ii j)))) uv) uv j = zsum (f j) (i + (len - i))).
      { rewrite G by assumption. unfold zdot, f. f_equal. lia. }
      apply (for_up_ind (fun ii (uv : nat -> Z) => forall j, (j < k)%nat -> uv j = zsum (f j) ii)); [assumption|].
      intros ii w Hii Hw j' Hj'.
      rewrite (for_up_upd (fun j x => w64 (x + w64 (u ii * v ii j)))).
      rewrite (proj2 (Nat.ltb_lt j' k) Hj'), Hw by assumption.
      pose proof (Hsum j' (S ii) Hj' ltac:(lia)) as HS. pose proof (fj_bound j' ii Hj' ltac:(lia)).
      pose proof (zsum_bounds (f j') M ii ltac:(intros; apply fj_bound; lia)).
      rewrite zsum_S in *.
      rewrite (w64_small (u ii * v ii j')); [apply w64_small; exact HS|].
      unfold f, word in *; lia.
  Qed.

  (** accumulating column by column is the same as one column at a time *)
  Lemma for_up_cols {A : Type} (g : nat -> nat -> A -> A) lo n (p : nat -> A) j :
    (j < k)%nat ->
    for_up lo n (fun i p => for_up 0 k (fun j p => upd p j (g i j (p j))) p) p j
    = for_up lo n (fun i x => g i j x) (p j).
  Proof.
    intros Hj. revert lo p. induction n as [|n IH]; intros lo p; simpl; [reflexivity|].
    rewrite IH. f_equal. rewrite for_up_upd, (proj2 (Nat.ltb_lt j k) Hj). reflexivity.
  Qed.

  Lemma multi_2_exact n : Z.of_nat len * M < B64 * B64 ->
    forall j, (j < k)%nat -> dot_product_multi_2 u v len k n j = zdot u (fun i => v i j) len mod n.
  Proof.
    intros HM j Hj. unfold dot_product_multi_2.
    rewrite (for_up_cols (fun i j x => acc2 (u i) (v i j) x)) by assumption.
    rewrite <- (dot_product_2_exact u (fun i => v i j) len b1 b2 Hb1 Hb2 H1 (H2 j Hj) n HM).
    unfold dot_product_2. destruct (for_up 0 len _ (0, 0)); reflexivity.
  Qed.

  Lemma multi_loop w (c : nat -> bool) :
    (1 <= w)%nat -> Z.of_nat w * M < B64 * B64 ->
    (forall i, c i = true -> (i + w <= len)%nat) ->
    exists i t,
      while len (fun s => c (fst s)) (fun s : nat * (nat -> Z * Z * Z) => ((fst s + w)%nat,
        for_up 0 k (fun j t => upd t j (acc3 (block2 u (fun i => v i j) (fst s) w) (t j))) (snd s)))
        (0%nat, fun _ => (0, 0, 0)) = Some (i, t)
      /\ (i <= len)%nat /\ c i = false
      /\ forall j, (j < k)%nat -> words3 (t j) /\ val3 (t j) = zsum (f j) i.
  Proof.
    intros Hw HM Hc.
    destruct (while_inv
      (fun s : nat * (nat -> Z * Z * Z) => (fst s <= len)%nat /\
         forall j, (j < k)%nat -> words3 (snd s j) /\ val3 (snd s j) = zsum (f j) (fst s))
      (fun s => (len - fst s)%nat)
      (fun s => c (fst s))
      (fun s : nat * (nat -> Z * Z * Z) => ((fst s + w)%nat,
        for_up 0 k (fun j t => upd t j (acc3 (block2 u (fun i => v i j) (fst s) w) (t j))) (snd s))))
      with (fuel := len) (s := (0%nat, fun _ : nat => (0, 0, 0))) as [[i t] [E [[Hi Hv] Hf]]].
    - intros [i t] [Hi Hv] Ec; simpl in *. pose proof (Hc _ Ec) as Hiw. split; [|lia].
      split; [lia|]. intros j Hj.
      rewrite (for_up_upd (fun j x => acc3 (block2 u (fun i => v i j) i w) x)).
      rewrite (proj2 (Nat.ltb_lt j k) Hj).
      destruct (Hv j Hj) as [Wt Vt].
      destruct (block2_val u (fun i => v i j) len b1 b2 Hb1 Hb2 H1 (H2 j Hj) i w Hw Hiw HM) as [Wb Vb].
      pose proof (total_bound u (fun i => v i j) len b1 b2 Hb1 Hb2 H1 (H2 j Hj) Hlen (i + w) Hiw).
      destruct (acc3_val (block2 u (fun i => v i j) i w) (t j) Wb Wt) as [W V].
      + rewrite Vt, Vb. unfold f. lia.
      + split; [exact W|]. rewrite V, Vt, Vb. unfold f. ring.
    - simpl; split; [lia|]. intros j _. split; [|reflexivity].
      repeat split; simpl; pose proof B64_pos; unfold word; lia.
    - simpl; lia.
    - exists i, t. simpl in *. auto.
  Qed.

  Lemma multi_3_exact n : 0 < n ->
    exists g, dot_product_multi_3 u v len k b1 b2 n = Some g /\
      forall j, (j < k)%nat -> g j = Some (zdot u (fun i => v i j) len mod n).
  Proof.
    intros Hn. pose proof Mn.
    destruct (num_terms_spec b1 b2 Hb1 Hb2) as [N1 [N2 N3]]. fold M in N2, N3.
    unfold dot_product_multi_3.
    assert (Fin : forall i t, (i <= len)%nat -> (Z.of_nat len - Z.of_nat i) * M < B64 * B64 ->
      (forall j, (j < k)%nat -> words3 (t j) /\ val3 (t j) = zsum (f j) i) ->
      forall j, (j < k)%nat ->
      (let '(t2, t1, t0) := for_up 0 k (fun j t => upd t j (acc3 (rest2 u (fun i => v i j) i len) (t j))) t j
       in NMOD_RED3 (NMOD_RED t2 n) t1 t0 n) = Some (zdot u (fun i => v i j) len mod n)).
    { intros i t Hi HM Ht j Hj.
      rewrite (for_up_upd (fun j x => acc3 (rest2 u (fun i => v i j) i len) x)).
      rewrite (proj2 (Nat.ltb_lt j k) Hj).
      destruct (Ht j Hj) as [Wt Vt].
      destruct (finish_val u (fun i => v i j) len b1 b2 Hb1 Hb2 H1 (H2 j Hj) Hlen i (t j) Hi Wt Vt HM) as [W V].
      destruct (acc3 _ (t j)) as [[t2 t1] t0].
      pose proof (red3_spec (t2, t1, t0) n Hn W) as R; simpl in R. rewrite R, V. reflexivity. }
    destruct (Z.leb_spec 8 (num_terms b1 b2)) as [H8|H8].
    - destruct (multi_loop 8 (fun i => Nat.ltb (i + 7) len)) as (i & t & -> & Hi & Hf & Ht).
      + lia.
      + specialize (N3 H8); lia.
      + intros i Hi; apply Nat.ltb_lt in Hi; lia.
      + eexists; split; [reflexivity|]. apply Nat.ltb_ge in Hf. intros j Hj.
        apply Fin; try assumption. specialize (N3 H8).
        assert (Z.of_nat len - Z.of_nat i <= 8) by lia. nia.
    - assert (Hk : Z.of_nat (Z.to_nat (num_terms b1 b2)) = num_terms b1 b2) by lia.
      destruct (multi_loop (Z.to_nat (num_terms b1 b2)) (fun i => Nat.ltb (i + Z.to_nat (num_terms b1 b2)) len))
        as (i & t & -> & Hi & Hf & Ht).
      + lia.
      + rewrite Hk; apply N2; lia.
      + intros i Hi; apply Nat.ltb_lt in Hi; lia.
      + eexists; split; [reflexivity|]. apply Nat.ltb_ge in Hf. intros j Hj.
        apply Fin; try assumption. specialize (N2 ltac:(lia)).
        assert (Z.of_nat len - Z.of_nat i <= num_terms b1 b2) by lia. nia.
  Qed.

  Lemma dot_product_multi_exact n : 0 < n -> forall j, (j < k)%nat ->
    dot_product_multi u v len k b1 b2 n j = Some (zdot u (fun i => v i j) len mod n).
  Proof.
    intros Hn j Hj. unfold dot_product_multi.
    destruct (bound_limbs_spec len b1 b2 Hb1 Hb2 Hlen) as [Hr [R2 [R1 R0]]].
    fold M in R2, R1, R0. set (r := dot_bound_limbs_unbalanced (Z.of_nat len) b1 b2) in *.
    destruct (Z.eqb_spec r 2) as [e|n2]; [rewrite multi_2_exact; auto|].
    destruct (Z.eqb_spec r 3) as [e|n3].
    { destruct (multi_3_exact n Hn) as (g & -> & Hg). auto. }
    destruct (Z.eqb_spec r 1) as [e|n1].
    { destruct (multi_1_exact n (R1 e)) as (g & -> & Hg). rewrite Hg by assumption. reflexivity. }
    assert (E : r = 0) by tauto. specialize (R0 E).
    pose proof (zsum_bounds (f j) M len (fun i => fj_bound j i Hj)).
    unfold zdot; fold (f j).
    replace (zsum (f j) len) with 0 by lia. rewrite Z.mod_0_l by lia. reflexivity.
  Qed.
End Multi.

Lemma reduced_le n m v len : reduced n v len -> n <= m -> reduced m v len.
Proof. intros H Hm i Hi; specialize (H i Hi); lia. Qed.

Section Split.
  Variables (v1 v2 : nat -> Z) (len : nat) (n pow2 : Z).
  Hypothesis Hn : 0 < n <= DOT2_ACC8_MAX_MODULUS.
  (** entries need only be below the maximal modulus, not below n *)
  Hypothesis H1 : reduced DOT2_ACC8_MAX_MODULUS v1 len.
  Hypothesis H2 : reduced DOT2_ACC8_MAX_MODULUS v2 len.
  Hypothesis Hlen : Z.of_nat len <= 2 ^ 40.
  Hypothesis Hpow : pow2 = 2 ^ 56 mod n.

  Let f := fun i => v1 i * v2 i.
  Definition NN : Z := 1515531527.
  Let M := NN * NN.

  Lemma sf_bound i : (i < len)%nat -> 0 <= f i <= M.
  Proof. intros Hi; pose proof (H1 i Hi); pose proof (H2 i Hi). unfold f, M, NN, DOT2_ACC8_MAX_MODULUS in *; nia. Qed.


  Lemma sM_bound : 0 <= M <= NN * NN.
  Proof. unfold M, NN; lia. Qed.

  Lemma s_total i : (i <= len)%nat -> 0 <= zsum f i <= Z.of_nat i * (NN * NN).
  Proof.
    intros Hi. pose proof sM_bound.
    pose proof (zsum_bounds f M i ltac:(intros; apply sf_bound; lia)). nia.
  Qed.

  Lemma split_step_spec hi lo S :
    word lo -> 0 <= hi -> hi * 2 ^ 56 + lo = S -> S < 2 ^ 119 ->
    let '(hi', lo') := split_step (hi, lo) in
    0 <= hi' /\ 0 <= lo' < 2 ^ 56 /\ hi' * 2 ^ 56 + lo' = S.
  Proof.
    intros Hlo Hhi HS Hb. unfold split_step, DOT_SPLIT_BITS.
    rewrite Z.shiftr_div_pow2 by lia.
    replace (2 ^ 56 - 1) with (Z.ones 56) by reflexivity.
    rewrite Z.land_ones by lia.
    pose proof (Z.div_mod lo (2 ^ 56) ltac:(lia)).
    pose proof (Z.mod_pos_bound lo (2 ^ 56) ltac:(lia)).
    assert (0 <= lo / 2 ^ 56) by (apply Z.div_pos; unfold word in Hlo; lia).
    rewrite w64_small; [lia|]. unfold word. rewrite B64_eq.
    change (2 ^ 119) with (9223372036854775808 * 2 ^ 56) in Hb. lia.
  Qed.

  Definition split_inv (i : nat) (s : Z * Z) : Prop :=
    0 <= fst s /\ 0 <= snd s < 2 ^ 56 /\ fst s * 2 ^ 56 + snd s = zsum f i.

  Lemma acc_lo i j hi lo :
    (i <= j <= len)%nat -> (j - i <= 8)%nat ->
    split_inv i (hi, lo) ->
    let r := for_up i (j - i) (fun ii lo => w64 (lo + w64 (v1 ii * v2 ii))) lo in
    r = lo + (zsum f j - zsum f i) /\ word r.
  Proof.
    intros Hij H8 [Hhi [Hlo Hs]]; simpl in *.
    assert (Ej : zsum f j = zsum f (i + (j - i))) by (f_equal; lia). rewrite Ej. clear Ej.
    apply (for_up_ind (fun ii r => r = lo + (zsum f ii - zsum f i) /\ word r)).
    - split; [lia|]. unfold word; rewrite B64_eq; lia.
    - intros ii r Hii [-> Hw].
      pose proof (zsum_diff f M i (S ii) len sf_bound ltac:(lia)) as Hd.
      pose proof (zsum_diff f M i ii len sf_bound ltac:(lia)) as Hd0.
      pose proof (sf_bound ii ltac:(lia)) as Hf. pose proof sM_bound as HM.
      assert (Hc : (Z.of_nat (S ii) - Z.of_nat i) * M <= 8 * M) by nia.
      rewrite zsum_S in *. unfold NN in HM.
      rewrite (w64_small (v1 ii * v2 ii)).
      2: { unfold f in Hf; unfold word; rewrite B64_eq; lia. }
      assert (Hr : word (lo + (zsum f ii + f ii - zsum f i))).
      { unfold word; rewrite B64_eq. lia. }
      replace (lo + (zsum f ii - zsum f i) + v1 ii * v2 ii)
        with (lo + (zsum f ii + f ii - zsum f i)) by (unfold f; ring).
      rewrite (w64_small _ Hr). split; [reflexivity|exact Hr].
  Qed.

  Lemma for_up_shift {S : Type} (b : nat -> S -> S) k : forall lo i s,
    for_up lo k (fun ii => b (i + ii)%nat) s = for_up (i + lo) k b s.
  Proof.
    induction k as [|k IH]; intros lo i s; simpl; [reflexivity|].
    rewrite IH. rewrite <- plus_n_Sm. reflexivity.
  Qed.

  Lemma s_lt i : (i <= len)%nat -> zsum f i < 2 ^ 119.
  Proof.
    intros Hi. pose proof (s_total i Hi). unfold NN in *. lia.
  Qed.

  Lemma split_block_inv i s :
    (i + 8 <= len)%nat -> split_inv i s -> split_inv (i + 8) (split_block v1 v2 i s).
  Proof.
    intros Hi Hs. destruct s as [hi lo]. unfold split_block.
    destruct (acc_lo i (i + 8) hi lo ltac:(lia) ltac:(lia) Hs) as [Er Wr].
    replace (i + 8 - i)%nat with 8%nat in * by lia.
    assert (EE : for_up 0 8 (fun ii lo => w64 (lo + w64 (v1 (i + ii)%nat * v2 (i + ii)%nat))) lo
                 = for_up i 8 (fun ii lo => w64 (lo + w64 (v1 ii * v2 ii))) lo).
    { pose proof (for_up_shift (fun ii lo => w64 (lo + w64 (v1 ii * v2 ii))) 8 0 i lo) as HH.
      rewrite Nat.add_0_r in HH. exact HH. }
    rewrite EE. clear EE. rewrite Er in *. clear Er.
    destruct Hs as [Hhi [Hlo Hs]]; simpl in *.
    pose proof (split_step_spec hi (lo + (zsum f (i + 8) - zsum f i)) (zsum f (i + 8)) Wr Hhi
                  ltac:(lia) (s_lt (i + 8) Hi)) as Q.
    unfold split_step in *. exact Q.
  Qed.

  Lemma split_loop_spec :
    exists i s, split_loop v1 v2 len = Some (i, s) /\ (i <= len <= i + 7)%nat /\ split_inv i s.
  Proof.
    unfold split_loop.
    destruct (while_inv (fun s : nat * (Z * Z) => (fst s <= len)%nat /\ split_inv (fst s) (snd s))
      (fun s => (len - fst s)%nat)
      (fun s : nat * (Z * Z) => Nat.ltb (fst s + 7) len)
      (fun s => ((fst s + 8)%nat, split_block v1 v2 (fst s) (snd s))))
      with (fuel := len) (s := (0%nat, (0, 0))) as [[i s] [E [[Hi Hv] Hf]]].
    - intros [i s] [Hi Hv] Hc; simpl in *. apply Nat.ltb_lt in Hc.
      split; [split; [lia|apply split_block_inv; [lia|assumption]]|lia].
    - simpl; split; [lia|]. unfold split_inv; simpl; lia.
    - simpl; lia.
    - simpl in *. apply Nat.ltb_ge in Hf. exists i, s. split; [exact E|]. split; [lia|assumption].
  Qed.

  Lemma pow2_range : 0 <= pow2 <= NN.
  Proof.
    rewrite Hpow. pose proof (Z.mod_pos_bound (2 ^ 56) n ltac:(lia)).
    unfold DOT2_ACC8_MAX_MODULUS, NN in *. lia.
  Qed.

  Lemma recombine hi lo S :
    hi * 2 ^ 56 + lo = S -> (pow2 * hi + lo) mod n = S mod n.
  Proof.
    intros <-. rewrite Hpow.
    rewrite Zplus_mod, Zmult_mod_idemp_l, <- Zplus_mod. f_equal. ring.
  Qed.

  Lemma nmod32_dot_split_exact :
    Z.of_nat len <= DOT2_ACC8_MAX_LEN ->
    nmod32_dot_split v1 v2 len n pow2 = Some (zdot v1 v2 len mod n).
  Proof.
    intros Hlen'.
    unfold nmod32_dot_split.
    destruct split_loop_spec as (i & [hi lo] & -> & Hi & Hs).
    unfold split_rest.
    destruct (acc_lo i len hi lo ltac:(lia) ltac:(lia) Hs) as [Er Wr].
    rewrite Er in *. clear Er. destruct Hs as [Hhi [Hlo Hs]]; simpl in Hhi, Hlo, Hs.
    pose proof (split_step_spec hi (lo + (zsum f len - zsum f i)) (zsum f len) Wr Hhi
                  ltac:(lia) (s_lt len (le_n _))) as Q.
    destruct (split_step _) as [hi' lo']. destruct Q as [Qh [Ql Qs]].
    pose proof pow2_range as Hp. pose proof (s_total len (le_n _)) as Ht.
    f_equal. unfold NMOD_RED.
    assert (Hw : word (pow2 * hi' + lo')).
    { unfold word. rewrite B64_eq. unfold NN, DOT2_ACC8_MAX_LEN in *.
      assert (hi' * 2 ^ 56 <= 380368697 * (1515531527 * 1515531527)) by lia.
      assert (hi' <= 12124252213) by lia.
      split; [nia|].
      assert (pow2 * hi' <= 1515531527 * 12124252213) by nia. lia. }
    rewrite (w64_small _ Hw), (recombine hi' lo' _ Qs).
    unfold w32. rewrite Z.mod_small; [reflexivity|].
    pose proof (Z.mod_pos_bound (zsum f len) n ltac:(lia)).
    unfold DOT2_ACC8_MAX_MODULUS in Hn. change B32 with 4294967296. lia.
  Qed.

  (** the value before the final reduction in the 2dot variant *)
  Lemma dot2_split_2dot_value :
    exists q lo hi, (8 * q <= len <= 8 * q + 7)%nat /\
      hi * 2 ^ 56 + lo = zsum f (8 * q) /\ 0 <= lo < 2 ^ 56 /\ 0 <= hi /\
      dot2_split_2dot v1 v2 len n pow2 =
        Some (w64 (w64 (pow2 * hi) + (lo + (zsum f len - zsum f (8 * q)))) mod n).
  Proof.
    unfold dot2_split_2dot.
    assert (L : exists i s, split_loop v1 v2 len = Some (i, s) /\ (i <= len <= i + 7)%nat /\ split_inv i s /\ exists q, i = (8 * q)%nat).
    { unfold split_loop.
      destruct (while_inv (fun s : nat * (Z * Z) => (fst s <= len)%nat /\ split_inv (fst s) (snd s) /\ exists q, fst s = (8 * q)%nat)
        (fun s => (len - fst s)%nat)
        (fun s : nat * (Z * Z) => Nat.ltb (fst s + 7) len)
        (fun s => ((fst s + 8)%nat, split_block v1 v2 (fst s) (snd s))))
        with (fuel := len) (s := (0%nat, (0, 0))) as [[i s] [E [[Hi [Hv Hq]] Hf]]].
      - intros [i s] [Hi [Hv [q Hq]]] Hc; simpl in *. apply Nat.ltb_lt in Hc.
        split; [split; [lia|split; [apply split_block_inv; [lia|assumption]|]]|lia].
        exists (S q); lia.
      - simpl; split; [lia|]. split; [unfold split_inv; simpl; lia|]. exists 0%nat; lia.
      - simpl; lia.
      - simpl in *. apply Nat.ltb_ge in Hf. exists i, s. split; [exact E|]. split; [lia|]. split; assumption. }
    destruct L as (i & [hi lo] & -> & Hi & Hs & [q ->]).
    exists q, lo, hi. split; [lia|].
    pose proof Hs as [Hhi [Hlo HS]]; simpl in Hhi, Hlo, HS.
    split; [exact HS|]. split; [exact Hlo|]. split; [exact Hhi|].
    unfold split_rest.
    destruct (acc_lo (8 * q) len hi lo ltac:(lia) ltac:(lia) Hs) as [Er Wr].
    rewrite Er. reflexivity.
  Qed.

  Lemma dot2_split_2dot_exact :
    Z.of_nat len <= 47546087 ->
    dot2_split_2dot v1 v2 len n pow2 = Some (zdot v1 v2 len mod n).
  Proof.
    intros Hl.
    destruct dot2_split_2dot_value as (q & lo & hi & Hq & HS & Hlo & Hhi & ->).
    pose proof pow2_range as Hp.
    pose proof (s_total (8 * q) ltac:(lia)) as Ht.
    pose proof sM_bound as HM.
    pose proof (zsum_diff f M (8 * q) len len sf_bound ltac:(lia)) as Hd.
    assert (Hd' : (Z.of_nat len - Z.of_nat (8 * q)) * M <= 7 * M) by nia.
    f_equal. unfold NN in *.
    assert (hi * 2 ^ 56 <= 47546087 * (1515531527 * 1515531527)) by lia.
    assert (hi <= 1515531530) by lia.
    assert (0 <= pow2 * hi <= 1515531527 * 1515531530) by nia.
    rewrite (w64_small (pow2 * hi)).
    2: { unfold word; rewrite B64_eq; lia. }
    rewrite w64_small.
    2: { unfold word; rewrite B64_eq; lia. }
    replace (pow2 * hi + (lo + (zsum f len - zsum f (8 * q))))
      with (pow2 * hi + lo + (zsum f len - zsum f (8 * q))) by ring.
    rewrite Zplus_mod, (recombine hi lo _ HS), <- Zplus_mod.
    unfold zdot. f_equal. unfold f. ring.
  Qed.

  (** smaller operands (24-bit slices against 30-bit residues): any length up
      to 2^35 *)
  Lemma dot2_split_small_exact :
    n <= 2 ^ 30 -> Z.of_nat len <= 2 ^ 35 ->
    (forall i, (i < len)%nat -> v1 i < 2 ^ 30) -> (forall i, (i < len)%nat -> v2 i < 2 ^ 24) ->
    dot2_split_2dot v1 v2 len n pow2 = Some (zdot v1 v2 len mod n).
  Proof.
    intros Hn30 Hl H30 H24.
    destruct dot2_split_2dot_value as (q & lo & hi & Hq & HS & Hlo & Hhi & ->).
    assert (Hb : forall i, (i < len)%nat -> 0 <= f i <= 2 ^ 54).
    { intros i Hi. specialize (H30 i Hi); specialize (H24 i Hi).
      pose proof (H1 i Hi); pose proof (H2 i Hi). unfold f. change (2 ^ 54) with (2 ^ 30 * 2 ^ 24). nia. }
    pose proof (zsum_bounds f (2 ^ 54) (8 * q) ltac:(intros; apply Hb; lia)) as Ht.
    pose proof (zsum_diff f (2 ^ 54) (8 * q) len len Hb ltac:(lia)) as Hd.
    assert (Hd' : (Z.of_nat len - Z.of_nat (8 * q)) * 2 ^ 54 <= 7 * 2 ^ 54) by nia.
    assert (Hp : 0 <= pow2 < 2 ^ 30).
    { rewrite Hpow. pose proof (Z.mod_pos_bound (2 ^ 56) n ltac:(lia)). lia. }
    f_equal.
    assert (hi <= 2 ^ 33) by lia.
    assert (0 <= pow2 * hi <= 2 ^ 30 * 2 ^ 33) by nia.
    rewrite (w64_small (pow2 * hi)).
    2: { unfold word; rewrite B64_eq; lia. }
    rewrite w64_small.
    2: { unfold word; rewrite B64_eq; lia. }
    replace (pow2 * hi + (lo + (zsum f len - zsum f (8 * q))))
      with (pow2 * hi + lo + (zsum f len - zsum f (8 * q))) by ring.
    rewrite Zplus_mod, (recombine hi lo _ HS), <- Zplus_mod.
    unfold zdot. f_equal. unfold f. ring.
  Qed.
End Split.
