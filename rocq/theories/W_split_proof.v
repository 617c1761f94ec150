(** The two split kernels that lose carries: witnesses, and a partial result. *)
From Coq Require Import ZArith List Bool Lia.
From Verif Require Import W_word SpecW W_base W_dot_model W_dot_proof W_dot2_proof.
Local Open Scope Z_scope.

(** Witness for [_nmod_vec_2dot2_split] at FLINT's DOT2_SPLIT bounds:
    all entries n-1 for the prime n = 1515531373, length 380368695. *)
Lemma dot2_split_2dot_wrong :
  let n := 1515531373 in
  let v := fun _ : nat => n - 1 in
  let len := Z.to_nat 380368695 in
  dot2_split_2dot v v len n (2 ^ 56 mod n) = Some 1469910991
  /\ zdot v v len mod n = 380368695.
Proof.
  intros n v len.
  assert (Hlen : Z.of_nat len = 380368695) by (unfold len; lia).
  assert (Hs : forall k, zsum (fun i => v i * v i) k = Z.of_nat k * ((n - 1) * (n - 1))).
  { intros k. unfold v. apply zsum_const. }
  split.
  - assert (Hred : reduced DOT2_ACC8_MAX_MODULUS v len).
    { intros i _. unfold v, n, DOT2_ACC8_MAX_MODULUS; lia. }
    destruct (dot2_split_2dot_value v v len n (2 ^ 56 mod n)) as (q & lo & hi & Hq & HS & Hlo & Hhi & ->);
      [ exact Hred | exact Hred | | reflexivity | ].
    + rewrite Hlen; lia.
    + rewrite Hs in HS; rewrite !Hs, Hlen.
      assert (Hq' : Z.of_nat (8 * q) = 380368688) by lia.
      rewrite Hq' in *. unfold n in HS, Hlo.
      assert (hi = 12124249446 /\ lo = 49371774508628736) as [-> ->].
      { assert (hi * 2 ^ 56 + lo = 12124249446 * 2 ^ 56 + 49371774508628736) by (rewrite HS; reflexivity). lia. }
      f_equal.
  - unfold zdot. rewrite Hs, Hlen. reflexivity.
Qed.

Lemma split26_wrong :
  let v1 := fun i : nat => match i with O => 4095 * 2 ^ 26 + 67108863 | _ => 67108863 end in
  let v2 := fun i : nat => match i with O => 2 ^ 26 + 67108863 | _ => 67108863 end in
  let n := 4503599627370449 in
  dot_product_split26 v1 v2 2 n <> zdot v1 v2 2 mod n
  /\ bits_le 52 v1 2 /\ bits_le 52 v2 2.
Proof.
  intros v1 v2 n. split.
  - Transparent B64. vm_compute. Opaque B64. discriminate.
  - split; intros [|[|i]] Hi; unfold v1, v2; lia.
Qed.

(** [_nmod_vec_dot_product_split26] is right as long as the low products do not
    carry into bit 52. *)
Section Split26.
  Variables (v1 v2 : nat -> Z) (len : nat) (n : Z).
  Hypothesis H1 : bits_le 52 v1 len.
  Hypothesis H2 : bits_le 52 v2 len.
  Hypothesis Hlen : Z.of_nat len <= 2048.
  Hypothesis Hlow : zsum (fun i => (v1 i mod 2 ^ 26) * (v2 i mod 2 ^ 26)) len < 2 ^ 52.

  Lemma lo26_spec x : lo26 x = x mod 2 ^ 26.
  Proof.
    unfold lo26. change 67108863 with (Z.ones 26). rewrite Z.land_ones by lia.
    unfold w32. change B32 with (2 ^ 6 * 2 ^ 26).
    rewrite Z.mul_comm, Z.rem_mul_r by lia.
    rewrite Zplus_mod, Z.mul_comm, Z_mod_mult, Z.add_0_r, !Zmod_mod. reflexivity.
  Qed.

  Lemma hi26_spec x : 0 <= x < 2 ^ 52 -> hi26 x = x / 2 ^ 26 /\ 0 <= x / 2 ^ 26 < 2 ^ 26.
  Proof.
    intros Hx. unfold hi26. rewrite Z.shiftr_div_pow2 by lia.
    assert (0 <= x / 2 ^ 26 < 2 ^ 26).
    { split; [apply Z.div_pos; lia|apply Z.div_lt_upper_bound; lia]. }
    split; [|assumption]. unfold w32. apply Z.mod_small. change B32 with 4294967296. lia.
  Qed.

  Lemma split26_exact : 0 < n -> dot_product_split26 v1 v2 len n = zdot v1 v2 len mod n.
  Proof.
    intros Hn. unfold dot_product_split26.
    set (a i := v1 i mod 2 ^ 26) in *. set (b i := v2 i mod 2 ^ 26) in *.
    set (c i := v1 i / 2 ^ 26). set (d i := v2 i / 2 ^ 26).
    assert (Hab : forall i, 0 <= a i < 2 ^ 26 /\ 0 <= b i < 2 ^ 26).
    { intros i; unfold a, b; split; apply Z.mod_pos_bound; lia. }
    assert (Hcd : forall i, (i < len)%nat ->
       (hi26 (v1 i) = c i /\ 0 <= c i < 2 ^ 26) /\ (hi26 (v2 i) = d i /\ 0 <= d i < 2 ^ 26)).
    { intros i Hi; split; apply hi26_spec; [apply H1|apply H2]; assumption. }
    assert (Hdm : forall i, v1 i = c i * 2 ^ 26 + a i /\ v2 i = d i * 2 ^ 26 + b i).
    { intros i; unfold a, b, c, d; split; rewrite Z.mul_comm; apply Z.div_mod; lia. }
    set (body := fun i s => _).
    assert (L : for_up 0 len body (0, 0, 0) =
      (zsum (fun i => a i * b i) len, zsum (fun i => a i * d i + c i * b i) len, zsum (fun i => c i * d i) len)).
    { apply (for_up_ind (fun i s => s = (zsum (fun i => a i * b i) i,
         zsum (fun i => a i * d i + c i * b i) i, zsum (fun i => c i * d i) i)) body len 0 (0, 0, 0)); [reflexivity|].
      intros i s Hi ->. unfold body.
      destruct (Hcd i ltac:(lia)) as [[-> Hc] [-> Hd]]. rewrite !lo26_spec. fold (a i) (b i).
      pose proof (Hab i) as [Ha Hb].
      assert (B1 : forall g M k, (k <= i)%nat -> (forall j, (j < len)%nat -> 0 <= g j <= M) -> 0 <= zsum g k <= Z.of_nat k * M).
      { intros g M k Hk Hg. apply zsum_bounds; intros; apply Hg; lia. }
      pose proof (B1 (fun i => a i * b i) (2 ^ 52 - 1) i (le_n _)) as Q1.
      pose proof (B1 (fun i => a i * d i + c i * b i) (2 ^ 53 - 2) i (le_n _)) as Q2.
      pose proof (B1 (fun i => c i * d i) (2 ^ 52 - 1) i (le_n _)) as Q3. clear B1.
      assert (G : forall j, (j < len)%nat ->
         0 <= a j * b j <= 2 ^ 52 - 1 /\ 0 <= a j * d j <= 2 ^ 52 - 1 /\ 0 <= c j * b j <= 2 ^ 52 - 1 /\ 0 <= c j * d j <= 2 ^ 52 - 1).
      { intros j Hj. pose proof (Hab j) as [? ?]. destruct (Hcd j Hj) as [[_ ?] [_ ?]]. nia. }
      specialize (Q1 ltac:(intros j Hj; apply G; assumption)).
      specialize (Q2 ltac:(intros j Hj; specialize (G j Hj); lia)).
      specialize (Q3 ltac:(intros j Hj; apply G; assumption)).
      destruct (G i ltac:(lia)) as [G1 [G2 [G3 G4]]].
      rewrite !zsum_S.
      assert (Z.of_nat i <= 2047) by lia.
      rewrite (w64_small (a i * b i)) by (unfold word; rewrite B64_eq; lia).
      rewrite (w64_small (a i * d i)) by (unfold word; rewrite B64_eq; lia).
      rewrite (w64_small (c i * b i)) by (unfold word; rewrite B64_eq; lia).
      rewrite (w64_small (c i * d i)) by (unfold word; rewrite B64_eq; lia).
      rewrite (w64_small (a i * d i + c i * b i)) by (unfold word; rewrite B64_eq; lia).
      repeat (rewrite w64_small; [|unfold word; rewrite B64_eq; lia]). reflexivity. }
    rewrite L. clear L body.
    set (ulo := zsum (fun i => a i * b i) len) in *.
    change (ulo < 2 ^ 52) in Hlow.
    set (umi := zsum (fun i => a i * d i + c i * b i) len).
    set (uhi := zsum (fun i => c i * d i) len).
    assert (G : forall j, (j < len)%nat ->
         0 <= a j * b j <= 2 ^ 52 - 1 /\ 0 <= a j * d j + c j * b j <= 2 ^ 53 - 2 /\ 0 <= c j * d j <= 2 ^ 52 - 1).
    { intros j Hj. pose proof (Hab j) as [? ?]. destruct (Hcd j Hj) as [[_ ?] [_ ?]]. nia. }
    pose proof (zsum_bounds (fun i => a i * b i) (2 ^ 52 - 1) len ltac:(intros j Hj; apply G; assumption)) as Q1.
    pose proof (zsum_bounds (fun i => a i * d i + c i * b i) (2 ^ 53 - 2) len ltac:(intros j Hj; apply G; assumption)) as Q2.
    pose proof (zsum_bounds (fun i => c i * d i) (2 ^ 52 - 1) len ltac:(intros j Hj; apply G; assumption)) as Q3.
    fold ulo in Q1. fold umi in Q2. fold uhi in Q3.
    rewrite !Z.shiftl_mul_pow2, !Z.shiftr_div_pow2 by lia.
    assert (E26 : w64 (umi * 2 ^ 26) = (umi mod 2 ^ 38) * 2 ^ 26).
    { unfold w64. rewrite B64_eq. change 18446744073709551616 with (2 ^ 38 * 2 ^ 26).
      apply Z.mul_mod_distr_r; lia. }
    assert (E52 : w64 (uhi * 2 ^ 52) = (uhi mod 2 ^ 12) * 2 ^ 52).
    { unfold w64. rewrite B64_eq. change 18446744073709551616 with (2 ^ 12 * 2 ^ 52).
      apply Z.mul_mod_distr_r; lia. }
    rewrite E26, E52.
    pose proof (Z.div_mod umi (2 ^ 38) ltac:(lia)). pose proof (Z.mod_pos_bound umi (2 ^ 38) ltac:(lia)).
    pose proof (Z.div_mod uhi (2 ^ 12) ltac:(lia)). pose proof (Z.mod_pos_bound uhi (2 ^ 12) ltac:(lia)).
    rewrite (w64_small (uhi mod 2 ^ 12 * 2 ^ 52 + ulo)) by (unfold word; rewrite B64_eq; lia).
    pose proof (add2_val (umi / 2 ^ 38) (umi mod 2 ^ 38 * 2 ^ 26) (uhi / 2 ^ 12) (uhi mod 2 ^ 12 * 2 ^ 52 + ulo)) as A.
    destruct (add_ssaaaa _ _ _ _) as [hi lo]. unfold val2 in A; simpl fst in A; simpl snd in A.
    unfold NMOD2_RED2. f_equal.
    assert (Ez : zdot v1 v2 len = uhi * 2 ^ 52 + umi * 2 ^ 26 + ulo).
    { unfold zdot, uhi, umi, ulo.
      rewrite <- (Z.mul_comm (2 ^ 52)), <- (Z.mul_comm (2 ^ 26)), <- !zsum_scal, <- !zsum_plus.
      apply zsum_ext. intros i _. destruct (Hdm i) as [E1 E2]. rewrite E1, E2. ring. }
    rewrite Ez. rewrite A; rewrite B64_eq; lia.
  Qed.
End Split26.
