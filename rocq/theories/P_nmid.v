(** Property C58: middle product of ntl-extras. *)
From Coq Require Import ZArith Lia.
From mathcomp Require Import all_ssreflect all_algebra zify.
From Verif Require Import A_base A_mul_model N_poly_model N_series_proof N_shift_proof N_mid_model N_mid_proof N_midlong_model.
Set Implicit Arguments.
Unset Strict Implicit.
Unset Printing Implicit Defensive.
Import GRing.Theory.
Local Open Scope ring_scope.

Section C58.
Variable F : fieldType.
Implicit Types a c p : {poly F}.

Lemma split_Xn n p : p = pshr n p * 'X^n + ptrunc n p.
Proof.
apply/polyP=> i; rewrite coefD coefMXn !coef_poly; case: ltnP => C; first by rewrite add0r.
rewrite addr0; case: ltnP => C2; first by rewrite subnKC.
by rewrite nth_default //; move: (size p) C2 => sz; lia.
Qed.
Lemma size_trunc_Xn n p : (size (ptrunc n p) < size ('X^n : {poly F}))%N.
Proof. by rewrite size_polyXn ltnS size_poly. Qed.
Lemma modp_Xn n p : p %% 'X^n = ptrunc n p.
Proof. by rewrite {1}(split_Xn n p) modp_addl_mul_small ?size_trunc_Xn. Qed.
Lemma divp_Xn n p : p %/ 'X^n = pshr n p.
Proof. by rewrite {1}(split_Xn n p) divp_addl_mul_small ?size_trunc_Xn // monic_neq0 // monicXn. Qed.

(** trunc(trunc(a, dA+1) * c div x^dA, dB+1) *)
Definition middle a c (dA dB : nat) : {poly F} := (((a %% 'X^dA.+1) * c) %/ 'X^dA) %% 'X^dB.+1.

Lemma middle_coef a c dA dB : middle a c dA dB = \poly_(j < dB.+1) (ptrunc dA.+1 a * c)`_(dA + j).
Proof.
rewrite /middle !modp_Xn divp_Xn; apply/polyP=> i; rewrite !coef_poly; case: ifP => // _.
case: ltnP => // C; rewrite nth_default //; move: (size _) C => sz; lia.
Qed.

Lemma middle_fftP a c dA dB : middle_fft a c dA dB = middle a c dA dB.
Proof.
rewrite middle_coef /middle_fft /tofft !fftmul_cyc !subn0 !slice0 /fromfft.
rewrite (_ : ((dA + dB).+1 - dA = dB.+1)%N); last by lia.
set k := next_pow2 _.
have Hk : (dA + dB + 1 <= 2 ^ k)%N by apply: up_logP.
apply/polyP=> i; rewrite !coef_poly; case: ltnP => // Hi.
have Sp : (size (ptrunc dA.+1 a * ptrunc (dA + dB).+1 c)%R <= (dA.+1 + (dA + dB).+1).-1)%N.
  by apply: size_mul_leN; apply: size_poly.
rewrite cyc_coef; [|by apply: leq_trans Sp _; lia|by lia].
rewrite [X in _ + X]nth_default ?addr0; last by apply: leq_trans Sp _; lia.
by apply: (eqm_mul (@eqm_refl _ (dA + dB).+1 _) (@eqm_trunc _ (dA + dB).+1 c)); lia.
Qed.

(** middle_product ends and returns the middle product, whatever the thresholds (KARX >= 2), the branch
    use_long of the naive product, and the content of the memory at the start. The products and sums
    of residues are exact here; see the theorems on long below. *)
Theorem C58_middle_product_partial (fuel MX KARX : nat) (ul : bool) (garb : nat -> F) a c (dA dB : nat) :
  (1 < KARX)%N -> (dA < fuel)%N -> (dB < fuel)%N ->
  middle_product fuel MX KARX ul garb a c dA dB = Some (middle a c dA dB).
Proof.
move=> HK HA HB; rewrite /middle_product.
case: ifP => [/orP[] /eqP->|_].
- by rewrite /middle mulr0 div0p mod0p.
- by rewrite /middle mod0p mul0r div0p mod0p.
case: ifP => _; first by rewrite middle_fftP.
set M1 := foldl _ garb _; set M2 := foldl _ M1 _; set M3 := foldl _ M2 _; set M4 := foldl _ M3 _.
have ME x : M4 x = if (x < dA + 1)%N then a`_(dA - x) else
   if (dA + 1 + (dB + 1) <= x < dA + 1 + (dB + 1) + (dA + dB + 1))%N then c`_(x - (dA + 1 + (dB + 1))) else garb x.
  rewrite /M4 (mloopS (g := fun _ _ => 0)) //.
  case: ifP => C1.
    rewrite ifF; last by lia.
    rewrite ifT; last by move: (size c) C1 => u; lia.
    by rewrite nth_default //; move: (size c) C1 => u; lia.
  rewrite /M3 (mloopS (g := fun _ i => c`_i)) //; case: ifP => C2.
    rewrite ifF; last by lia.
    by rewrite ifT //; move: (size c) C1 C2 => u; lia.
  rewrite /M2 (mloopS (g := fun _ i => a`_(dA - i))) //; case: ifP => C3.
    by rewrite ifT ?subn0 //; move: (size a) C3 => u; lia.
  rewrite /M1 (mloopS (g := fun _ _ => 0)) //; case: ifP => C4.
    rewrite ifT; last by move: (size a) C4 => u; lia.
    by rewrite nth_default //; move: (size a) C4 => u; lia.
  rewrite ifF; last by move: (size a) C3 C4 => u; lia.
  by rewrite ifF //; move: (size c) C1 C2 => u; lia.
have fin (M : nat -> F) : (forall j, (j < dB + 1)%N -> M (dA + 1 + j)%N =
     tsum (fun i => M4 (0 + i)%N) (fun i => M4 (dA + 1 + (dB + 1) + i)%N) (dA + 1) j) ->
   \poly_(i < dB + 1) M (dA + 1 + i)%N = middle a c dA dB.
  move=> H; rewrite middle_coef addn1 in H *; apply/polyP=> j; rewrite !coef_poly; case: ltnP => // Hj.
  rewrite H // coefM [RHS](bigID (fun i : 'I_(dA + j).+1 => (i < dA.+1)%N)) /=.
  rewrite [X in _ = _ + X]big1 ?addr0 => [|i Hi]; last by rewrite coef_poly (negbTE Hi) mul0r.
  rewrite -(big_ord_widen _ (fun i => (ptrunc dA.+1 a)`_i * c`_(dA + j - i))); last by lia.
  rewrite /tsum addn1 (reindex_inj rev_ord_inj) /=; apply: eq_bigr => i _; have := ltn_ord i => Hi.
  rewrite !ME add0n ifT; last by lia.
  rewrite ifF; last by lia.
  rewrite ifT; last by lia.
  by rewrite coef_poly Hi; congr (a`__ * c`__); lia.
case: ifP => C5.
  rewrite /=; congr Some; apply: fin => j Hj; rewrite tplainP; try by rewrite /disj; lia.
  by rewrite ifT ?addKn //; lia.
have E : (dA + dB + 1 = dA + 1 + (dB + 1) - 1)%N by lia.
have [||||||||||| M EM HM] := @tkarP F fuel KARX ul M4 (dA + 1) (dB + 1) 0 (dA + 1) (dA + 1 + (dB + 1))
   (dA + 1 + (dB + 1) + (dA + dB + 1)) (maxn (dA + 1) (dB + 1)); try by rewrite ?/disj; lia.
rewrite -E in EM; rewrite EM /=; congr Some; apply: fin => j Hj; rewrite HM; last by lia.
by rewrite ifT ?addKn //; lia.
Qed.

(** Karatsuba: with a scratch space of Kar_stk_size(n) entries, n at least both sizes, and blocks that do not
    overlap, b receives the transposed product and nothing else is written but the scratch. *)
Theorem C58_karatsuba_memory (fuel KARX : nat) (ul : bool) (M : nat -> F) (b sb a sa c stk n : nat) :
  (1 < KARX)%N -> (0 < sa <= n)%N -> (0 < sb <= n)%N -> (n <= fuel)%N ->
  exists2 s, kar_stk_size fuel KARX n = Some s &
  (disj b sb a sa -> disj b sb c (sa + sb - 1) -> disj stk s b sb -> disj stk s a sa -> disj stk s c (sa + sb - 1) ->
   exists2 M', tkar fuel KARX ul M b sb a sa c (sa + sb - 1) stk = Some M' &
     (forall j, (j < sb)%N -> M' (b + j)%N = \sum_(i < sa) M (a + i)%N * M (c + (i + j))%N) /\
     (forall x, ~~ (b <= x < b + sb)%N -> ~~ (stk <= x < stk + s)%N -> M' x = M x)).
Proof.
move=> HK Ha Hb Hn; have [s Es Hs] := @kar_stk_sizeP fuel KARX n HK ltac:(lia) Hn.
exists s => // D1 D2 D3 D4 D5.
have [||||||||||| M' -> HM] := @tkarP F fuel KARX ul M b sb a sa c stk n; try lia; try done;
  try by [apply: (disj_sub D3); lia|apply: (disj_sub D4); lia|apply: (disj_sub D5); lia].
exists M' => //; split=> [j Hj|x Hx1 Hx2].
  rewrite HM; last by rewrite /disj in D3; lia.
  by rewrite ifT ?addKn //; lia.
by rewrite HM ?(negbTE Hx1) //; lia.
Qed.
End C58.

(** non-trivial instances *)
Example C58_met (garb : nat -> 'F_7) : middle_product 200 64 32 true garb (1 + 'X^90) ('X^3) 100 100 =
  Some (middle (1 + 'X^90) ('X^3) 100 100).
Proof. by apply: C58_middle_product_partial. Qed.
Example C58_memory_met (M : nat -> 'F_7) :
  exists2 s, kar_stk_size 100 32 100 = Some s & [/\ disj 0 50 50 100, disj 0 50 150 149, disj 300 s 0 50,
    disj 300 s 50 100 & disj 300 s 150 149].
Proof. by eexists; first by vm_compute. Qed.

(** ** the accumulator of the naive product *)
Local Open Scope Z_scope.
Lemma accum_ok (a c : nat -> Z) j B i n acc : 0 <= B -> (forall k, 0 <= a k <= B) -> (forall k, 0 <= c k <= B) ->
  0 <= acc -> acc + Z.of_nat n * (B * B) < 2 ^ 63 ->
  accum_long a c j i n acc = AOk (acc + foldr (fun k s => c (k + j)%nat * a k + s) 0 (iota i n)).
Proof.
move=> HB Ha Hc; elim: n i acc => [|n IH] i acc H0 H1; first by rewrite /= Z.add_0_r.
rewrite /=.
have T : 0 <= c (i + j)%nat * a i <= B * B by have := Ha i; have := Hc (i + j)%nat; nia.
have E : Z.of_nat n.+1 * (B * B) = B * B + Z.of_nat n * (B * B) by lia.
rewrite E in H1; have N0 : 0 <= Z.of_nat n * (B * B) by nia.
have T1 := T; move: (c (i + j)%nat * a i) T1 => t T1.
rewrite (proj2 (Z.ltb_lt _ _)) ?(proj2 (Z.ltb_lt _ _)) /=; try lia.
by rewrite IH ?Z.add_assoc //; lia.
Qed.

(** With at most 8 KARX terms the accumulator does not overflow and the residue is right. *)
Theorem C58_long_accumulation (p : Z) (a c : nat -> Z) (sa j : nat) : 1 < p -> use_long p = true ->
  (forall k, 0 <= a k < p) -> (forall k, 0 <= c k < p) -> (sa <= 256)%N ->
  tplain_long p a c sa j = AOk ((foldr (fun k s => c (k + j)%nat * a k + s) 0 (iota 0 sa)) mod p).
Proof.
rewrite /use_long /sp_bound /karx => Hp U Ha Hc Hs.
have [U1 U2] : p < 2 ^ 60 / 32 /\ p * 32 < 2 ^ 60 / p by lia.
have B : p * 32 * p < 2 ^ 60.
  have : p * (2 ^ 60 / p) <= 2 ^ 60 by apply: Z.mul_div_le; lia.
  nia.
rewrite /tplain_long (@accum_ok a c j (p - 1)) //; try lia.
- by move=> k; have := Ha k; lia.
- by move=> k; have := Hc k; lia.
have : Z.of_nat sa <= 256 by lia.
nia.
Qed.

(** The branch is taken as soon as one of the two sizes is below KARX, while the number of terms is the size of
    a, which is not bounded: with 257 terms a long overflows for this prime. *)
Theorem C58_long_overflow_refuted : exists (p : Z) (a c : nat -> Z), 1 < p /\ use_long p = true /\
  (forall k, 0 <= a k < p) /\ (forall k, 0 <= c k < p) /\ tplain_long p a c 257 0 = AUB.
Proof.
exists 189812507, (fun _ => 189812506), (fun _ => 189812506).
split; first by lia.
split; first by vm_compute.
split; first by move=> k; lia.
split; first by move=> k; lia.
by vm_compute.
Qed.

Print Assumptions C58_middle_product_partial.
Print Assumptions C58_karatsuba_memory.
Print Assumptions C58_long_accumulation.
Print Assumptions C58_long_overflow_refuted.
