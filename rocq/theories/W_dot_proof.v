(** Proofs about the dot product kernels. *)
From Coq Require Import ZArith List Bool Lia.
From Verif Require Import W_word SpecW W_base W_dot_model.
Local Open Scope Z_scope.

Section Acc.
  Variables (v1 v2 : nat -> Z) (len : nat) (b1 b2 : Z).
  Hypothesis Hb1 : 0 <= b1 <= 64.
  Hypothesis Hb2 : 0 <= b2 <= 64.
  Hypothesis H1 : bits_le b1 v1 len.
  Hypothesis H2 : bits_le b2 v2 len.

  Let f := fun i => v1 i * v2 i.
  Definition maxprod b1 b2 := (2 ^ b1 - 1) * (2 ^ b2 - 1).
  Let M := maxprod b1 b2.

  Lemma pow_b b : 0 <= b <= 64 -> 1 <= 2 ^ b <= B64.
  Proof.
    intros H; split.
    - pose proof (Z.pow_pos_nonneg 2 b); lia.
    - rewrite B64_eq. change 18446744073709551616 with (2 ^ 64).
      apply Z.pow_le_mono_r; lia.
  Qed.

  Lemma v1_word i : (i < len)%nat -> word (v1 i).
  Proof. intros Hi; pose proof (H1 i Hi); pose proof (pow_b b1 Hb1); unfold word; lia. Qed.
  Lemma v2_word i : (i < len)%nat -> word (v2 i).
  Proof. intros Hi; pose proof (H2 i Hi); pose proof (pow_b b2 Hb2); unfold word; lia. Qed.

  Lemma f_bound i : (i < len)%nat -> 0 <= f i <= M.
  Proof.
    intros Hi; pose proof (H1 i Hi); pose proof (H2 i Hi).
    unfold f, M, maxprod; nia.
  Qed.

  Lemma M_nonneg : 0 <= M.
  Proof. clear H1 H2. unfold M, maxprod; pose proof (pow_b b1 Hb1); pose proof (pow_b b2 Hb2); nia. Qed.

  Lemma M_lt : M < B64 * B64.
  Proof. clear H1 H2. unfold M, maxprod; pose proof (pow_b b1 Hb1); pose proof (pow_b b2 Hb2); nia. Qed.

  Lemma acc2_step i u :
    (i < len)%nat -> 0 <= val2 u + f i < B64 * B64 ->
    words2 (acc2 (v1 i) (v2 i) u) /\ val2 (acc2 (v1 i) (v2 i) u) = val2 u + f i.
  Proof.
    intros Hi Hu. unfold acc2. destruct u as [u1 u0].
    destruct (umul_ppmm (v1 i) (v2 i)) as [s1 s0] eqn:E.
    split; [apply add2_words|].
    assert (Hv : val2 (s1, s0) = f i) by (rewrite <- E; apply umul_val).
    rewrite add2_val; rewrite Hv; [reflexivity|assumption].
  Qed.

  Lemma block2_val i k :
    (1 <= k)%nat -> (i + k <= len)%nat -> Z.of_nat k * M < B64 * B64 ->
    words2 (block2 v1 v2 i k) /\ val2 (block2 v1 v2 i k) = zsum f (i + k) - zsum f i.
  Proof.
    intros Hk Hik HM. unfold block2.
    replace (i + k)%nat with (i + (1 + (k - 1)))%nat by lia.
    apply (for_up_ind (fun ii u => words2 u /\ val2 u = zsum f (i + ii) - zsum f i)).
    - split; [apply umul_words; [apply v1_word|apply v2_word]; lia|].
      rewrite umul_val. replace (i + 1)%nat with (S i) by lia. simpl. unfold f; ring.
    - intros ii u Hii [Hw Hv].
      assert (Hs : zsum f (i + S ii) = zsum f (i + ii) + f (i + ii)%nat)
        by (rewrite <- plus_n_Sm; reflexivity).
      pose proof (zsum_diff f M i (i + S ii) len f_bound ltac:(lia)) as Hd.
      assert (Z.of_nat (i + S ii) - Z.of_nat i <= Z.of_nat k) as Hc by lia.
      pose proof M_nonneg.
      destruct (acc2_step (i + ii) u) as [W V]; [lia|nia|].
      split; [exact W|]. rewrite V, Hv, Hs; ring.
  Qed.

  Lemma rest2_val i :
    (i <= len)%nat -> (Z.of_nat len - Z.of_nat i) * M < B64 * B64 ->
    words2 (rest2 v1 v2 i len) /\ val2 (rest2 v1 v2 i len) = zsum f len - zsum f i.
  Proof.
    intros Hi HM. unfold rest2.
    assert (El : zsum f len = zsum f (i + (len - i))) by (f_equal; lia); rewrite El.
    apply (for_up_ind (fun ii u => words2 u /\ val2 u = zsum f ii - zsum f i)).
    - split; [split; simpl; unfold word; pose proof B64_pos; lia|]. unfold val2; simpl; ring.
    - intros ii u Hii [Hw Hv].
      pose proof (zsum_diff f M i (S ii) len f_bound ltac:(lia)) as Hd.
      assert (Z.of_nat (S ii) - Z.of_nat i <= Z.of_nat len - Z.of_nat i) as Hc by lia.
      pose proof M_nonneg. rewrite zsum_S in Hd.
      destruct (acc2_step ii u) as [W V]; [lia|nia|].
      split; [exact W|]. rewrite V, Hv, zsum_S; ring.
  Qed.

  Lemma acc3_val u t :
    words2 u -> words3 t -> 0 <= val3 t + val2 u < B64 * B64 * B64 ->
    words3 (acc3 u t) /\ val3 (acc3 u t) = val3 t + val2 u.
  Proof.
    destruct u as [u1 u0], t as [[t2 t1] t0]. intros Hu Ht H. unfold acc3.
    split; [apply add3_words|].
    assert (E : val3 (0, u1, u0) = val2 (u1, u0)) by (unfold val3, val2; simpl; ring).
    rewrite add3_val; rewrite E; [reflexivity|assumption].
  Qed.

  Hypothesis Hlen : Z.of_nat len < B64.

  Lemma total_bound i : (i <= len)%nat -> 0 <= zsum f i < B64 * B64 * B64.
  Proof.
    intros Hi.
    pose proof (zsum_bounds f M i ltac:(intros; apply f_bound; lia)).
    pose proof M_lt. pose proof M_nonneg. pose proof B64_pos.
    assert (Z.of_nat i * M <= B64 * M) by nia.
    destruct (Z.eq_dec M 0); [rewrite e in *; nia|]. nia.
  Qed.

  Lemma num_terms_spec :
    1 <= num_terms b1 b2 /\ (num_terms b1 b2 < 8 -> num_terms b1 b2 * M < B64 * B64)
    /\ (8 <= num_terms b1 b2 -> 8 * M < B64 * B64).
  Proof.
    clear H1 H2 Hlen f.
    unfold num_terms, M, maxprod.
    assert (HL : w64 (2 * 64 - (b1 + b2)) = 128 - (b1 + b2)).
    { rewrite w64_small; [lia|]. unfold word; rewrite B64_eq; lia. }
    rewrite HL. clear HL.
    pose proof (pow_b b1 Hb1). pose proof (pow_b b2 Hb2).
    assert (HP : 2 ^ (128 - (b1 + b2)) * (2 ^ b1 * 2 ^ b2) = B64 * B64).
    { rewrite <- !Z.pow_add_r by lia. rewrite B64_eq.
      replace (128 - (b1 + b2) + (b1 + b2)) with 128 by ring. reflexivity. }
    assert (HMM : (2 ^ b1 - 1) * (2 ^ b2 - 1) <= 2 ^ b1 * 2 ^ b2 - 1) by nia.
    destruct (Z.ltb_spec (128 - (b1 + b2)) 64) as [Hl|Hl].
    - rewrite Z.shiftl_1_l.
      assert (Hw : word (2 ^ (128 - (b1 + b2)))).
      { unfold word; rewrite B64_eq; change 18446744073709551616 with (2 ^ 64). split.
        - apply Z.pow_nonneg; lia.
        - apply Z.pow_lt_mono_r; lia. }
      rewrite (w64_small _ Hw).
      assert (Hp : 1 <= 2 ^ (128 - (b1 + b2))).
      { pose proof (Z.pow_pos_nonneg 2 (128 - (b1 + b2))); lia. }
      split; [exact Hp|]. split; intros Hc; nia.
    - split; [unfold UWORD_MAX; rewrite B64_eq; lia|]. split; intros Hc; [unfold UWORD_MAX in Hc; rewrite B64_eq in Hc; lia|].
      assert (2 ^ b1 * 2 ^ b2 <= B64).
      { rewrite <- Z.pow_add_r by lia. rewrite B64_eq. change 18446744073709551616 with (2^64).
        apply Z.pow_le_mono_r; lia. }
      rewrite B64_eq in *. lia.
  Qed.

  (** the block loop, for any block size whose products fit in two limbs; the
      guard [c] is either "i+7 < len" (dot_product_3) or "8 < len-i" *)
  Lemma block_loop k (c : nat * (Z * Z * Z) -> bool) :
    (1 <= k)%nat -> Z.of_nat k * M < B64 * B64 ->
    (forall s, c s = true -> (fst s + k <= len)%nat) ->
    exists i t,
      while len c (fun s => ((fst s + k)%nat, acc3 (block2 v1 v2 (fst s) k) (snd s)))
            (0%nat, (0, 0, 0)) = Some (i, t)
      /\ (i <= len)%nat /\ words3 t /\ val3 t = zsum f i /\ c (i, t) = false.
  Proof.
    intros Hk HM Hc.
    destruct (while_inv
      (fun s : nat * (Z * Z * Z) => (fst s <= len)%nat /\ words3 (snd s) /\ val3 (snd s) = zsum f (fst s))
      (fun s => (len - fst s)%nat) c
      (fun s => ((fst s + k)%nat, acc3 (block2 v1 v2 (fst s) k) (snd s)))) with (fuel := len) (s := (0%nat, (0, 0, 0)))
      as [[i t] [E [[Hi [Hw Hv]] Hf]]].
    - intros [i t] [Hi [Hw Hv]] Ec. pose proof (Hc _ Ec) as Hik. simpl in *.
      destruct (block2_val i k Hk Hik HM) as [Wb Vb].
      assert (Ht := total_bound (i + k) Hik).
      destruct (acc3_val (block2 v1 v2 i k) t Wb Hw) as [W V].
      + rewrite Hv, Vb. lia.
      + repeat split; try assumption; try apply W; try lia.
    - simpl. split; [lia|]. split; [|reflexivity].
      repeat split; simpl; unfold word; pose proof B64_pos; lia.
    - simpl; lia.
    - exists i, t. simpl in *; auto.
  Qed.

  Lemma finish_val i t :
    (i <= len)%nat -> words3 t -> val3 t = zsum f i ->
    (Z.of_nat len - Z.of_nat i) * M < B64 * B64 ->
    words3 (acc3 (rest2 v1 v2 i len) t) /\ val3 (acc3 (rest2 v1 v2 i len) t) = zsum f len.
  Proof.
    intros Hi Hw Hv HM.
    destruct (rest2_val i Hi HM) as [Wr Vr].
    assert (Ht := total_bound len (le_n _)).
    destruct (acc3_val (rest2 v1 v2 i len) t Wr Hw) as [W V]; [lia|].
    split; [exact W|lia].
  Qed.

  Lemma dot3_limbs_exact :
    exists t, dot3_limbs v1 v2 len b1 b2 = Some t /\ words3 t /\ val3 t = zdot v1 v2 len.
  Proof.
    destruct num_terms_spec as [N1 [N2 N3]]. pose proof M_nonneg. unfold dot3_limbs.
    destruct (Z.leb_spec 8 (num_terms b1 b2)) as [H8|H8].
    - destruct (block_loop 8 (fun s => Nat.ltb (fst s + 7) len)) as (i & t & -> & Hi & Hw & Hv & Hf).
      + lia.
      + specialize (N3 H8); lia.
      + intros s Hs; apply Nat.ltb_lt in Hs; lia.
      + exists (acc3 (rest2 v1 v2 i len) t). split; [reflexivity|].
        simpl in Hf; apply Nat.ltb_ge in Hf.
        apply finish_val; try assumption.
        specialize (N3 H8). assert (Z.of_nat len - Z.of_nat i <= 8) by lia. nia.
    - assert (Hk : Z.of_nat (Z.to_nat (num_terms b1 b2)) = num_terms b1 b2) by lia.
      destruct (block_loop (Z.to_nat (num_terms b1 b2))
                  (fun s => Nat.ltb (fst s + Z.to_nat (num_terms b1 b2)) len))
        as (i & t & -> & Hi & Hw & Hv & Hf).
      + lia.
      + rewrite Hk; apply N2; lia.
      + intros s Hs; apply Nat.ltb_lt in Hs; lia.
      + exists (acc3 (rest2 v1 v2 i len) t). split; [reflexivity|].
        simpl in Hf; apply Nat.ltb_ge in Hf.
        apply finish_val; try assumption.
        specialize (N2 ltac:(lia)).
        assert (Z.of_nat len - Z.of_nat i <= num_terms b1 b2) by lia. nia.
  Qed.

  Lemma integer_dot_exact :
    exists t, integer_dot_product v1 v2 len b1 b2 = Some t /\ words3 t /\ val3 t = zdot v1 v2 len.
  Proof.
    destruct num_terms_spec as [N1 [N2 N3]]. pose proof M_nonneg. unfold integer_dot_product.
    destruct (Z.leb_spec 8 (num_terms b1 b2)) as [H8|H8].
    - destruct (block_loop 8 (fun s => Nat.ltb 8 (len - fst s))) as (i & t & -> & Hi & Hw & Hv & Hf).
      + lia.
      + specialize (N3 H8); lia.
      + intros s Hs; apply Nat.ltb_lt in Hs; lia.
      + exists (acc3 (rest2 v1 v2 i len) t). split; [reflexivity|].
        simpl in Hf; apply Nat.ltb_ge in Hf.
        apply finish_val; try assumption.
        specialize (N3 H8). assert (Z.of_nat len - Z.of_nat i <= 8) by lia. nia.
    - assert (Hk : Z.of_nat (Z.to_nat (num_terms b1 b2)) = num_terms b1 b2) by lia.
      destruct (block_loop (Z.to_nat (num_terms b1 b2))
                  (fun s => Nat.ltb (Z.to_nat (num_terms b1 b2)) (len - fst s)))
        as (i & t & -> & Hi & Hw & Hv & Hf).
      + lia.
      + rewrite Hk; apply N2; lia.
      + intros s Hs; apply Nat.ltb_lt in Hs; lia.
      + exists (acc3 (rest2 v1 v2 i len) t). split; [reflexivity|].
        simpl in Hf; apply Nat.ltb_ge in Hf.
        apply finish_val; try assumption.
        specialize (N2 ltac:(lia)).
        assert (Z.of_nat len - Z.of_nat i <= num_terms b1 b2) by lia. nia.
  Qed.

  Lemma red3_spec t n : 0 < n -> words3 t ->
    NMOD_RED3 (NMOD_RED (fst (fst t)) n) (snd (fst t)) (snd t) n = Some (val3 t mod n).
  Proof.
    clear Hlen H1 H2 Hb1 Hb2 f M.
    intros Hn Hw. destruct t as [[t2 t1] t0]; unfold NMOD_RED3, NMOD_RED, val3; simpl.
    pose proof (Z.mod_pos_bound t2 n Hn).
    rewrite (proj2 (Z.ltb_lt _ _)) by lia. f_equal.
    replace (t2 mod n * B64 * B64 + t1 * B64 + t0) with (t2 mod n * (B64 * B64) + (t1 * B64 + t0)) by ring.
    replace (t2 * (B64 * B64) + t1 * B64 + t0) with (t2 * (B64 * B64) + (t1 * B64 + t0)) by ring.
    rewrite Zplus_mod, Zmult_mod_idemp_l, <- Zplus_mod. reflexivity.
  Qed.

  Lemma dot_product_3_exact n : 0 < n -> dot_product_3 v1 v2 len b1 b2 n = Some (zdot v1 v2 len mod n).
  Proof.
    intros Hn. unfold dot_product_3.
    destruct dot3_limbs_exact as ([[t2 t1] t0] & -> & Hw & Hv).
    rewrite <- Hv. apply (red3_spec (t2, t1, t0) n Hn Hw).
  Qed.

  Lemma dot_product_1_exact n :
    Z.of_nat len * M < B64 -> dot_product_1 v1 v2 len n = zdot v1 v2 len mod n.
  Proof.
    intros HM. unfold dot_product_1, NMOD_RED. f_equal.
    pose proof M_nonneg.
    apply (for_up_ind (fun i r => r = zsum f i) _ len 0 0); [reflexivity|].
    intros i r Hi ->.
    pose proof (zsum_bounds f M (S i) ltac:(intros; apply f_bound; lia)) as Hb.
    rewrite zsum_S in *.
    pose proof (zsum_bounds f M i ltac:(intros; apply f_bound; lia)) as Hb'.
    assert (Z.of_nat (S i) * M < B64) by nia.
    rewrite (w64_small (v1 i * v2 i)); [|pose proof (f_bound i ltac:(lia)); unfold f, word in *; lia].
    apply w64_small. unfold f, word in *; lia.
  Qed.

  Lemma dot_product_2_limbs :
    Z.of_nat len * M < B64 * B64 ->
    words2 (for_up 0 len (fun i u => acc2 (v1 i) (v2 i) u) (0, 0)) /\
    val2 (for_up 0 len (fun i u => acc2 (v1 i) (v2 i) u) (0, 0)) = zdot v1 v2 len.
  Proof.
    intros HM. pose proof (rest2_val 0) as H. unfold rest2 in H. rewrite Nat.sub_0_r in H.
    destruct H as [Hw Hv]; [lia|lia|]. split; [exact Hw|]. rewrite Hv. unfold zdot, f; simpl; ring.
  Qed.

  Lemma dot_product_2_exact n :
    Z.of_nat len * M < B64 * B64 -> dot_product_2 v1 v2 len n = zdot v1 v2 len mod n.
  Proof.
    intros HM. unfold dot_product_2, NMOD2_RED2.
    destruct (dot_product_2_limbs HM) as [_ Hv].
    destruct (for_up 0 len _ (0, 0)) as [u1 u0]. rewrite <- Hv. reflexivity.
  Qed.

  Lemma bound_limbs_spec :
    let r := dot_bound_limbs_unbalanced (Z.of_nat len) b1 b2 in
    (r = 3 \/ r = 2 \/ r = 1 \/ r = 0)
    /\ (r = 2 -> Z.of_nat len * M < B64 * B64)
    /\ (r = 1 -> Z.of_nat len * M < B64)
    /\ (r = 0 -> Z.of_nat len * M = 0).
  Proof.
    clear H1 H2 f. clear v1 v2.
    assert (Ha : forall b, 0 <= b <= 64 ->
              (if b =? 64 then UWORD_MAX else w64 (Z.shiftl 1 b) - 1) = 2 ^ b - 1).
    { intros b Hb. destruct (Z.eqb_spec b 64) as [->|Hne].
      - unfold UWORD_MAX. rewrite B64_eq. reflexivity.
      - rewrite Z.shiftl_1_l, w64_small; [reflexivity|].
        unfold word; rewrite B64_eq; change 18446744073709551616 with (2 ^ 64). split.
        + apply Z.pow_nonneg; lia.
        + apply Z.pow_lt_mono_r; lia. }
    unfold dot_bound_limbs_unbalanced. rewrite !Ha by assumption. clear Ha.
    pose proof (pow_b b1 Hb1). pose proof (pow_b b2 Hb2).
    set (L := Z.of_nat len) in *.
    assert (HL : 0 <= L) by (unfold L; lia).
    assert (Wa : word (2 ^ b1 - 1)) by (unfold word; lia).
    assert (Wb : word (2 ^ b2 - 1)) by (unfold word; lia).
    assert (WL : word L) by (unfold word; lia).
    destruct (umul_ppmm (2 ^ b1 - 1) (2 ^ b2 - 1)) as [t1 t0] eqn:E1.
    assert (V1 : val2 (t1, t0) = M) by (rewrite <- E1; apply umul_val).
    assert (W1 : words2 (t1, t0)) by (rewrite <- E1; apply umul_words; assumption).
    destruct W1 as [W11 W10]; simpl in W11, W10.
    destruct (umul_ppmm t1 L) as [p2 p1] eqn:E2.
    assert (V2 : val2 (p2, p1) = t1 * L) by (rewrite <- E2; apply umul_val).
    assert (W2 : words2 (p2, p1)) by (rewrite <- E2; apply umul_words; assumption).
    destruct (umul_ppmm t0 L) as [u1 u0] eqn:E3.
    assert (V3 : val2 (u1, u0) = t0 * L) by (rewrite <- E3; apply umul_val).
    assert (W3 : words2 (u1, u0)) by (rewrite <- E3; apply umul_words; assumption).
    assert (VS : val3 (p2, p1, 0) + val3 (0, u1, u0) = L * M).
    { unfold val3, val2 in *; simpl in *.
      replace (p2 * (B64 * B64) + p1 * B64 + 0) with ((p2 * B64 + p1) * B64) by ring.
      rewrite V2. rewrite <- V1. nia. }
    destruct (add_sssaaaaaa p2 p1 0 0 u1 u0) as [[q2 q1] q0] eqn:E4.
    assert (HMlt := M_lt). assert (HMn := M_nonneg). pose proof B64_pos as HB.
    assert (V4 : val3 (q2, q1, q0) = L * M).
    { rewrite <- E4, add3_val; [exact VS|]. rewrite VS. 
      assert (L * M <= B64 * M) by nia.
      destruct (Z.eq_dec M 0) as [e|e]; [rewrite e; nia|]. nia. }
    assert (W4 : words3 (q2, q1, q0)) by (rewrite <- E4; apply add3_words).
    unfold val3, words3, word in *; simpl in *.
    destruct (Z.eqb_spec q2 0) as [->|N2]; simpl.
    2: { split; [tauto|]. repeat split; intros; discriminate. }
    destruct (Z.eqb_spec q1 0) as [->|N1]; simpl.
    2: { split; [tauto|]. repeat split; intros; try discriminate. nia. }
    destruct (Z.eqb_spec q0 0) as [->|N0]; simpl.
    2: { split; [tauto|]. repeat split; intros; try discriminate. lia. }
    split; [tauto|]. repeat split; intros; try discriminate. lia.
  Qed.

  Lemma dot_product_unbalanced_exact n :
    0 < n -> dot_product_unbalanced v1 v2 len b1 b2 n = Some (zdot v1 v2 len mod n).
  Proof.
    intros Hn. unfold dot_product_unbalanced.
    destruct bound_limbs_spec as [Hr [R2 [R1 R0]]].
    set (r := dot_bound_limbs_unbalanced (Z.of_nat len) b1 b2) in *.
    destruct (Z.eqb_spec r 2) as [e|n2]; [rewrite dot_product_2_exact; auto|].
    destruct (Z.eqb_spec r 3) as [e|n3]; [apply dot_product_3_exact; auto|].
    destruct (Z.eqb_spec r 1) as [e|n1]; [rewrite dot_product_1_exact; auto|].
    assert (E : r = 0) by tauto. specialize (R0 E).
    pose proof (zsum_bounds f M len f_bound). unfold zdot; fold f.
    replace (zsum f len) with 0 by lia. rewrite Z.mod_0_l by lia. reflexivity.
  Qed.
End Acc.
