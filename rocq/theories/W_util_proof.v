From Coq Require Import ZArith List Bool Lia Znumtheory Zpow_facts.
From Verif Require Import W_word W_base W_util_model.
Local Open Scope Z_scope.

(** next_power_of_two *)
Lemma np2_loop_spec X : 0 <= X <= 2 ^ 30 -> forall fuel i,
  0 <= i <= 30 -> (31 <= Z.of_nat fuel + i) -> (forall k, 0 <= k < i -> 2 ^ k < X) ->
  exists r, next_power_of_two_loop fuel X i (2 ^ i) = Ret r /\ 0 <= r /\ X <= 2 ^ r /\
            forall k, 0 <= k < r -> 2 ^ k < X.
Proof.
  intros HX fuel; induction fuel as [|f IH]; intros i Hi Hf Hk; unfold next_power_of_two_loop; fold next_power_of_two_loop.
  - exfalso; lia.
  - destruct (Z.ltb_spec (2 ^ i) X) as [Hlt|Hge].
    + assert (Hi30 : i < 30).
      { destruct (Z.eq_dec i 30) as [->|]; [lia|lia]. }
      assert (2 ^ (i + 1) = 2 * 2 ^ i) as E by (rewrite Z.add_1_r, Z.pow_succ_r by lia; reflexivity).
      assert (2 ^ (i + 1) <= 2 ^ 30) by (apply Z.pow_le_mono_r; lia).
      rewrite (proj2 (Z.leb_gt _ _)) by (change (2^31) with (2 * 2^30); lia).
      rewrite <- E. apply IH; [lia|lia|].
      intros k Hk'. destruct (Z.eq_dec k i) as [->|]; [exact Hlt|apply Hk; lia].
    + exists i. repeat split; try lia. exact Hk.
Qed.

Lemma next_power_of_two_small x : 0 <= x <= 2 ^ 30 ->
  exists r, next_power_of_two x = Ret r /\ 0 <= r /\ x <= 2 ^ r /\
            forall k, 0 <= k < r -> 2 ^ k < x.
Proof.
  intros Hx. unfold next_power_of_two.
  assert (E : to_int x = x).
  { unfold to_int. rewrite Z.mod_small by (change B32 with 4294967296; lia).
    rewrite (proj2 (Z.ltb_lt _ _)) by lia. reflexivity. }
  rewrite E. change 1 with (2 ^ 0) at 1. apply np2_loop_spec; try lia.
Qed.

Lemma np2_loop_ub X : 2 ^ 30 < X < 2 ^ 31 -> forall fuel i,
  0 <= i <= 30 -> (31 <= Z.of_nat fuel + i) ->
  next_power_of_two_loop fuel X i (2 ^ i) = UB.
Proof.
  intros HX fuel; induction fuel as [|f IH]; intros i Hi Hf; [lia|].
  unfold next_power_of_two_loop; fold next_power_of_two_loop.
  assert (2 ^ i <= 2 ^ 30) by (apply Z.pow_le_mono_r; lia).
  rewrite (proj2 (Z.ltb_lt _ _)) by lia.
  assert (2 ^ (i + 1) = 2 * 2 ^ i) as E by (rewrite Z.add_1_r, Z.pow_succ_r by lia; reflexivity).
  destruct (Z.leb_spec (2 ^ 31) (2 * 2 ^ i)) as [Hge|Hlt]; [reflexivity|].
  rewrite <- E. apply IH; [|lia].
  destruct (Z.eq_dec i 30) as [->|]; [lia|lia].
Qed.

Lemma next_power_of_two_ub x : 2 ^ 30 < x < 2 ^ 31 -> next_power_of_two x = UB.
Proof.
  intros Hx. unfold next_power_of_two.
  assert (E : to_int x = x).
  { unfold to_int. rewrite Z.mod_small by (change B32 with 4294967296; lia).
    rewrite (proj2 (Z.ltb_lt _ _)) by lia. reflexivity. }
  rewrite E. change 1 with (2 ^ 0) at 1. apply np2_loop_ub; lia.
Qed.

(** inverse_mod_power_of_two *)
Lemma newton_step_mod p ip :
  newton_step p ip = (2 * ip - p * ip * ip) mod B64.
Proof.
  unfold newton_step, w64.
  rewrite Zminus_mod_idemp_l, Zminus_mod_idemp_r.
  rewrite Zminus_mod, Zmult_mod_idemp_l, <- Zminus_mod. reflexivity.
Qed.

Lemma newton_converges p : forall fuel e ip,
  0 <= e <= 6 -> word ip -> (2 ^ (2 ^ e) | p * ip - 1) -> 7 <= Z.of_nat fuel + e ->
  exists r, newton_loop fuel p ip = Ret r /\ word r /\ (B64 | p * r - 1).
Proof.
  induction fuel as [|f IH]; intros e ip He Hw Hd Hf; [lia|].
  cbn [newton_loop].
  assert (Hodd : exists t, p * ip = 1 + 2 * t).
  { destruct Hd as [t Ht]. exists (t * 2 ^ (2 ^ e - 1)).
    assert (1 <= 2 ^ e) by (pose proof (Z.pow_pos_nonneg 2 e); lia).
    assert (2 ^ (2 ^ e) = 2 * 2 ^ (2 ^ e - 1)).
    { rewrite <- Z.pow_succ_r by lia. f_equal. lia. }
    nia. }
  destruct (Z.eqb_spec (newton_step p ip) ip) as [E|N].
  - exists (newton_step p ip). split; [reflexivity|]. rewrite E. split; [exact Hw|].
    rewrite newton_step_mod in E.
    assert (D : (B64 | ip * (p * ip - 1))).
    { exists (- ((2 * ip - p * ip * ip) / B64)).
      pose proof (Z.div_mod (2 * ip - p * ip * ip) B64 ltac:(pose proof B64_pos; lia)) as Q.
      rewrite E in Q. nia. }
    apply (Gauss B64 ip); [exact D|].
    rewrite B64_eq. change 18446744073709551616 with (2 ^ 64).
    apply rel_prime_sym, rel_prime_Zpower_r; [lia|].
    destruct Hodd as [t Ht].
    apply rel_prime_sym, bezout_rel_prime. apply Bezout_intro with (u := - t) (v := p). lia.
  - destruct (Z.eq_dec e 6) as [->|He6].
    + exfalso. apply N. rewrite newton_step_mod.
      change (2 ^ 2 ^ 6) with 18446744073709551616 in Hd. rewrite <- B64_eq in Hd.
      destruct Hd as [t Ht].
      replace (2 * ip - p * ip * ip) with (ip + (- (ip * t)) * B64)
        by (replace (p * ip * ip) with ((p * ip - 1) * ip + ip) by ring; rewrite Ht; ring).
      rewrite Z_mod_plus_full. apply Z.mod_small. exact Hw.
    + apply (IH (e + 1)); [lia| | |lia].
      * rewrite newton_step_mod. apply Z.mod_pos_bound, B64_pos.
      * rewrite newton_step_mod.
        assert (E2 : 2 ^ (2 ^ (e + 1)) = 2 ^ (2 ^ e) * 2 ^ (2 ^ e)).
        { rewrite <- Z.pow_add_r; [f_equal; rewrite Z.add_1_r, Z.pow_succ_r by lia; lia| |];
          pose proof (Z.pow_pos_nonneg 2 e); lia. }
        assert (D64 : (2 ^ (2 ^ (e + 1)) | B64)).
        { rewrite B64_eq. change 18446744073709551616 with (2 ^ 64).
          assert (2 ^ (e + 1) <= 64).
          { change 64 with (2 ^ 6). apply Z.pow_le_mono_r; lia. }
          assert (0 <= 2 ^ (e + 1)) by (apply Z.pow_nonneg; lia).
          exists (2 ^ (64 - 2 ^ (e + 1))). rewrite <- Z.pow_add_r by lia. f_equal; lia. }
        destruct D64 as [c Hc]. destruct Hd as [t Ht].
        pose proof (Z.div_mod (2 * ip - p * ip * ip) B64 ltac:(pose proof B64_pos; lia)) as Q.
        set (r := (2 * ip - p * ip * ip) mod B64) in *.
        set (d := (2 * ip - p * ip * ip) / B64) in *.
        exists (- (t * t) - p * d * c). rewrite Z.mul_sub_distr_r.
        replace (p * d * c * 2 ^ 2 ^ (e + 1)) with (p * d * B64) by (rewrite Hc; ring).
        rewrite E2.
        replace (- (t * t) * (2 ^ 2 ^ e * 2 ^ 2 ^ e)) with (- ((t * 2 ^ 2 ^ e) * (t * 2 ^ 2 ^ e))) by ring.
        rewrite <- Ht.
        assert (r = 2 * ip - p * ip * ip - B64 * d) as -> by lia. ring.
Qed.

Lemma inverse_mod_power_of_two_spec fuel p k :
  (7 <= fuel)%nat -> 0 <= p < B64 -> p mod 2 = 1 -> 0 <= k <= 62 ->
  exists q, inverse_mod_power_of_two fuel p k = Ret q /\ 0 <= q < 2 ^ k /\ (p * q) mod 2 ^ k = 1 mod 2 ^ k.
Proof.
  intros Hf Hp Hodd Hk. unfold inverse_mod_power_of_two.
  destruct (newton_converges p fuel 0 1) as (r & -> & Hw & [c Hc]); [lia| | |lia|].
  { unfold word; rewrite B64_eq; lia. }
  { exists (p / 2). pose proof (Z.div_mod p 2). change (2 ^ 2 ^ 0) with 2. lia. }
  rewrite (proj2 (Z.leb_le 0 k)) by lia. rewrite (proj2 (Z.ltb_lt k 63)) by lia. simpl andb.
  cbv iota. eexists; split; [reflexivity|].
  replace (Z.shiftl 1 k - 1) with (Z.ones k) by (rewrite Z.ones_equiv, Z.shiftl_1_l; lia).
  rewrite Z.land_ones by lia.
  assert (0 < 2 ^ k) by (apply Z.pow_pos_nonneg; lia).
  split; [apply Z.mod_pos_bound; assumption|].
  rewrite Zmult_mod_idemp_r.
  assert (E : B64 = 2 ^ (64 - k) * 2 ^ k).
  { rewrite B64_eq, <- Z.pow_add_r by lia. change 18446744073709551616 with (2 ^ 64). f_equal; lia. }
  replace (p * r) with (1 + (c * 2 ^ (64 - k)) * 2 ^ k) by (rewrite <- Z.mul_assoc, <- E; lia).
  rewrite Z_mod_plus_full. reflexivity.
Qed.

(** find_root *)
Section FindRoot.
  Variables (p n : Z).
  Hypothesis Hp : prime p.

  Lemma p_gt1 : 1 < p. Proof. destruct Hp; assumption. Qed.

  Lemma find_root_inner_spec q : 2 <= q < p ->
    exists k qk, find_root_inner n p q = Some (k, qk) /\ 1 <= k /\ (k <= n \/ k = 1) /\
      qk = q ^ k mod p /\ (forall t, 1 <= t < k -> q ^ t mod p <> 1) /\ (qk = 1 \/ n <= k).
  Proof.
    intros Hq. unfold find_root_inner.
    destruct (while_inv
      (fun s : Z * Z => 1 <= fst s /\ (fst s <= n \/ fst s = 1) /\ snd s = q ^ fst s mod p
                        /\ forall t, 1 <= t < fst s -> q ^ t mod p <> 1)
      (fun s => Z.to_nat (n - fst s))
      (fun s : Z * Z => negb (snd s =? 1) && (fst s <? n))
      (fun s => (fst s + 1, (snd s * q) mod p)))
      with (fuel := Z.to_nat n) (s := (1, q)) as [[k qk] [E [[I1 [I2 [I3 I4]]] Hc]]].
    - intros [k qk] [J1 [J2 [J3 J4]]] Hc; cbn [fst snd] in *.
      apply andb_prop in Hc as [Hc1 Hc2]. apply Z.ltb_lt in Hc2.
      apply negb_true_iff, Z.eqb_neq in Hc1.
      split; [|lia]. split; [lia|]. split; [lia|]. split.
      + rewrite J3, Zmult_mod_idemp_l, Z.pow_add_r by lia. f_equal; lia.
      + intros t Ht. destruct (Z.eq_dec t k) as [->|]; [congruence|apply J4; lia].
    - cbn [fst snd]. split; [lia|]. split; [lia|]. split; [|intros; lia].
      rewrite Z.pow_1_r, Z.mod_small; lia.
    - cbn [fst]; lia.
    - cbn [fst snd] in *. exists k, qk. split; [exact E|]. repeat split; try assumption.
      apply andb_false_iff in Hc as [Hc|Hc].
      + left. apply negb_false_iff, Z.eqb_eq in Hc. exact Hc.
      + right. apply Z.ltb_ge in Hc. exact Hc.
  Qed.

  Definition order_gt (q : Z) : Prop := forall t, 1 <= t <= n -> q ^ t mod p <> 1.

  Lemma find_root_loop_spec : forall fuel q0, 2 <= q0 -> p - q0 <= Z.of_nat fuel ->
    exists r, find_root_loop fuel n p q0 = Some r /\
      ((r <> 0 /\ q0 <= r < p /\ order_gt r) \/
       (r = 0 /\ forall q, q0 <= q < p -> exists t, 1 <= t /\ (t <= n \/ t = 1) /\ q ^ t mod p = 1)).
  Proof.
    induction fuel as [|f IH]; intros q0 Hq Hf; cbn [find_root_loop].
    - rewrite (proj2 (Z.ltb_ge q0 p)) by lia. exists 0; split; [reflexivity|]. right; split; [reflexivity|lia].
    - destruct (Z.ltb_spec q0 p) as [Hlt|Hge].
      2: { exists 0; split; [reflexivity|]. right; split; [reflexivity|lia]. }
      destruct (find_root_inner_spec q0 ltac:(lia)) as (k & qk & -> & K1 & K2 & K3 & K4 & K5).
      destruct (Z.eqb_spec qk 1) as [E|N]; cbn [negb].
      + destruct (IH (q0 + 1) ltac:(lia) ltac:(lia)) as (r & -> & [R|[R0 R1]]).
        * exists r; split; [reflexivity|]. left. intuition lia.
        * exists r; split; [reflexivity|]. right. split; [exact R0|].
          intros q Hq'. destruct (Z.eq_dec q q0) as [->|]; [|apply R1; lia].
          exists k. subst qk. auto.
      + exists q0; split; [reflexivity|]. left. split; [lia|]. split; [lia|].
        intros t Ht. destruct K5 as [K5|K5]; [congruence|].
        destruct (Z.eq_dec t k) as [->|]; [congruence|]. apply K4. lia.
  Qed.

  Lemma powers_distinct q i j :
    0 < q < p -> order_gt q -> 0 <= i -> i < j -> j <= n -> q ^ i mod p <> q ^ j mod p.
  Proof.
    intros Hq Ho Hi Hij Hj E. apply (Ho (j - i)); [lia|].
    assert (D : (p | q ^ i * (q ^ (j - i) - 1))).
    { apply Z.mod_divide; [pose proof p_gt1; lia|].
      rewrite Z.mul_sub_distr_l, <- Z.pow_add_r by lia.
      replace (i + (j - i)) with j by ring. rewrite Z.mul_1_r, Zminus_mod, E, Z.sub_diag.
      apply Z.mod_0_l. pose proof p_gt1; lia. }
    assert (G : (p | q ^ (j - i) - 1)).
    { apply Gauss with (b := q ^ i); [exact D|].
      apply rel_prime_sym.
      apply rel_prime_sym, rel_prime_Zpower_r; [lia|].
      apply rel_prime_sym, rel_prime_le_prime; [assumption|lia]. }
    destruct G as [c Hc].
    replace (q ^ (j - i)) with (1 + c * p) by lia.
    rewrite Z_mod_plus_full. apply Z.mod_small. pose proof p_gt1; lia.
  Qed.

  Lemma find_root_sound q : find_root n p = Some q -> q <> 0 ->
    0 < q < p /\ forall i j, 0 <= i -> i < j -> j <= n -> q ^ i mod p <> q ^ j mod p.
  Proof.
    intros E Hq. pose proof p_gt1.
    destruct (find_root_loop_spec (Z.to_nat p) 2 ltac:(lia) ltac:(lia)) as (r & E' & [R|[R _]]).
    - unfold find_root in E. rewrite E' in E. injection E as <-.
      split; [lia|]. intros i j Hi Hij Hj. apply powers_distinct; try lia. apply R.
    - unfold find_root in E. rewrite E' in E. injection E as <-. contradiction.
  Qed.

  Lemma find_root_complete g :
    1 <= n -> 0 < g < p -> (forall t, 1 <= t <= n -> g ^ t mod p <> 1) ->
    exists q, find_root n p = Some q /\ q <> 0.
  Proof.
    intros Hn Hg Hord. pose proof p_gt1.
    destruct (find_root_loop_spec (Z.to_nat p) 2 ltac:(lia) ltac:(lia)) as (r & E' & [R|[R0 R]]).
    - exists r. split; [exact E'|apply R].
    - exfalso. assert (g <> 1).
      { intros ->. apply (Hord 1); [lia|]. rewrite Z.pow_1_l by lia. apply Z.mod_small; lia. }
      destruct (R g ltac:(lia)) as (t & T1 & T2 & T3). apply (Hord t); [lia|exact T3].
  Qed.

  Lemma find_root_total : exists q, find_root n p = Some q.
  Proof.
    pose proof p_gt1.
    destruct (find_root_loop_spec (Z.to_nat p) 2 ltac:(lia) ltac:(lia)) as (r & E' & _).
    exists r; exact E'.
  Qed.
End FindRoot.

Lemma inverse_unique p k q q' :
  0 <= k -> 0 <= q < 2 ^ k -> 0 <= q' < 2 ^ k ->
  (p * q) mod 2 ^ k = 1 mod 2 ^ k -> (p * q') mod 2 ^ k = 1 mod 2 ^ k -> q' = q.
Proof.
  intros Hk Hq Hq' H H'.
  assert (0 < 2 ^ k) by (apply Z.pow_pos_nonneg; lia).
  rewrite <- (Z.mod_small q (2 ^ k)), <- (Z.mod_small q' (2 ^ k)) by lia.
  rewrite <- (Z.mul_1_r q'), <- (Z.mul_1_l q).
  rewrite <- (Zmult_mod_idemp_r 1), <- H, Zmult_mod_idemp_r.
  rewrite <- (Zmult_mod_idemp_l 1), <- H', Zmult_mod_idemp_l. f_equal. ring.
Qed.

Lemma inverse_mod_power_of_two_ub p : 0 <= p < B64 -> p mod 2 = 1 ->
  inverse_mod_power_of_two 7 p 63 = UB.
Proof.
  intros Hp Ho. unfold inverse_mod_power_of_two.
  destruct (newton_converges p 7 0 1) as (r & -> & Hw & Hd); [lia| | |lia|].
  { unfold word; rewrite B64_eq; lia. }
  { exists (p / 2). pose proof (Z.div_mod p 2). change (2 ^ 2 ^ 0) with 2. lia. }
  reflexivity.
Qed.
