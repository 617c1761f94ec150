(** Property C77: left division with remainder of polynomial matrices (ntl-extras). *)
From Coq Require Import ZArith.
From mathcomp Require Import all_ssreflect all_fingroup all_algebra all_solvable all_field zify.
From Verif Require Import A_base A_mul_model A_mul_proof N_shift_proof N_multi_model N_multi_proof N_pmat_model N_trs_model N_trs_proof N_util_model N_util_proof.
From Verif Require Import N_poly_model N_series_proof N_geo_model N_geo_proof N_mfft_model N_eval_model N_mp_model P_ntrs P_nutil P_ngeo P_nord P_neval P_nmmfft P_nmp.
From Verif Require Import N_mm3_model P_nmm3 N_mm_model P_nmm N_mp3_model P_nmp3.
From Verif Require Import N_inv_model N_inv_proof P_ninv P_ninv2 N_lmul_model P_nlmul N_solve_model N_solve_proof P_nsolve N_div_model N_div_proof.
Set Implicit Arguments.
Unset Strict Implicit.
Unset Printing Implicit Defensive.
Import GRing.Theory.
Local Open Scope ring_scope.

Section Generic.
Variable F : fieldType.
Implicit Types (A B Q R : pmat F) (rho : nat -> nat).

(** rho is the vector of the row degrees of B, and B is row reduced: the matrix of the coefficients of degree rho[i] in row i, for all i,
    is invertible *)
Definition row_reduced B rho : Prop :=
  [/\ (0 < nr B)%N, nr B = nc B, (forall i j, (i < nr B)%N -> (j < nr B)%N -> (size (ent B i j) <= (rho i).+1)%N) &
      (\matrix_(i < nr B, j < nr B) (ent B i j)`_(rho i) : 'M[F]_(nr B)) \in unitmx].
(** A = B Q + R, and the degrees in row i of R are less than rho[i] *)
Definition division A B rho Q R : Prop :=
  [/\ nr Q = nr B, nc Q = nc A, nr R = nr A, nc R = nc A &
  forall i j, (i < nr A)%N -> (j < nc A)%N -> ent A i j = \sum_(k < nr B) ent B i k * ent Q k j + ent R i j /\ (size (ent R i j) <= rho i)%N].
(** d is the largest difference of the row degrees of A and rho, and d >= 0 *)
Definition degree_gap A rho (d : nat) : Prop :=
  (forall i j, (i < nr A)%N -> (j < nc A)%N -> (size (ent A i j) <= (rho i + d).+1)%N) /\
  (exists i j, [/\ (i < nr A)%N, (j < nc A)%N & size (ent A i j) = (rho i + d).+1]).

(** Q and R are unique *)
Theorem C77_unique A B rho Q R Q' R' : row_reduced B rho -> nr A = nr B -> division A B rho Q R -> division A B rho Q' R' ->
  (forall i j, (i < nr B)%N -> (j < nc A)%N -> ent Q i j = ent Q' i j) /\
  (forall i j, (i < nr A)%N -> (j < nc A)%N -> ent R i j = ent R' i j).
Proof.
move=> HB E [_ _ _ _ H] [_ _ _ _ H'].
have EQ i j : (i < nr B)%N -> (j < nc A)%N -> ent Q i j = ent Q' i j.
  move=> Hi Hj; apply/eqP; rewrite -subr_eq0; apply/eqP; move: i j Hi Hj.
  apply: (@quotient_zero F B rho (nc A) (fun i j => ent Q i j - ent Q' i j) HB) => i j; rewrite -E => Hi Hj.
  have [E1 S1] := H i j Hi Hj; have [E2 S2] := H' i j Hi Hj.
  rewrite (_ : \sum_(k < nr A) _ = ent R' i j - ent R i j).
    by apply: leq_trans (size_add _ _) _; rewrite size_opp geq_max S1 S2.
  rewrite (eq_bigr (fun k : 'I_(nr A) => ent B i k * ent Q k j - ent B i k * ent Q' k j)) => [|k _]; last by rewrite mulrBr.
  rewrite sumrB; apply/eqP; rewrite subr_eq addrAC eq_sym subr_eq; apply/eqP; rewrite addrC E -E2 E1 addrC //.
split=> // i j Hi Hj; have [E1 _] := H i j Hi Hj; have [E2 _] := H' i j Hi Hj.
apply: (addrI (\sum_(k < nr B) ent B i k * ent Q k j)); rewrite -E1 E2; congr (_ + _); apply: eq_bigr => k _; by rewrite EQ.
Qed.

Lemma gapless_rev n t g d (u : fmat {poly F}) : gapless n t g d.+1 u -> gapless n t g d.+1 (fun i j => rev d (u i j)).
Proof.
move=> H i j o Hi Hj Ho; have Ho' : (d.+1 - (o + g) + g <= d.+1)%N by move: Ho; clear; lia.
have [l Hl Nz] := H i j _ Hi Hj Ho'; exists (d - l)%N; first by move: Ho Hl; clear; lia.
have Hd : (l <= d)%N by move: Ho Hl; clear; lia.
by rewrite coef_poly ifT ?subKn //; rewrite ltnS leq_subr.
Qed.

Variable series : pmat F -> pmat F -> nat -> option (aoutcome (smat F)).
Variable mul : pmat F -> pmat F -> option (aoutcome (pmat F)).

(** what is needed of solve_series, for the reversed matrices, and of multiply *)
Definition series_right A B rho d : Prop := forall Br Ar u,
  is_pmat Br (nr B) (nr B) (fun i j => rev (rho i) (ent B i j)) -> is_pmat Ar (nr B) (nc A) (fun i j => rev (rho i + d) (ent A i j)) ->
  invertible_at_0 Br -> solution Br Ar u d.+1 ->
  exists s, series Br Ar d.+1 = Some (AOk s) /\
    [/\ sr s = nr B, sc s = nc A & forall i j, (i < nr B)%N -> (j < nc A)%N -> forall l, (sent s i j)`_l = (u i j)`_l].
Definition mul_ok A B d : Prop := forall Q, nr Q = nr B -> nc Q = nc A -> entries_below d.+1 Q -> exists C, mul B Q = Some (AOk C) /\
  is_pmat C (nr B) (nc A) (fun i j => \sum_(k < nr B) ent B i k * ent Q k j).

Lemma gap_cases A B rho (d := max_diff (row_degree A) (row_degree B) (nr B)) : row_reduced B rho -> nr A = nr B ->
  (Z.lt d 0 /\ forall i j, (i < nr A)%N -> (j < nc A)%N -> (size (ent A i j) <= rho i)%N) \/
  (exists2 k, d = Z.of_nat k & degree_gap A rho k).
Proof.
move=> HB E; have [n0 _ _ _] := HB.
have Hle z : Z.le d z <-> forall i, (i < nr B)%N -> Z.le (Z.sub (row_degree A i) (Z.of_nat (rho i))) z.
  rewrite /d max_diff_le //; split=> H i Hi; have := H i Hi; by rewrite (reduced_degree HB Hi).
have Hrow i : (i < nr B)%N -> Z.le (row_degree A i) (Z.add (Z.of_nat (rho i)) d).
  by move=> Hi; have [H _] := Hle d; have := H (Z.le_refl _) i Hi; lia.
have Hent i j : (i < nr A)%N -> (j < nc A)%N -> Z.le (zdeg (ent A i j)) (Z.add (Z.of_nat (rho i)) d).
  by rewrite E => Hi Hj; have [H _] := row_degree_le A i (Z.add (Z.of_nat (rho i)) d); have [_] := H (Hrow i Hi); apply.
case: (Z.ltb_spec d 0) => Cd; first left.
  by split=> // i j Hi Hj; have := Hent i j Hi Hj; rewrite /zdeg; lia.
right; exists (Z.to_nat d); first by rewrite Z2Nat.id.
split; first by move=> i j Hi Hj; have := Hent i j Hi Hj; rewrite /zdeg; lia.
have [i Hi Ei] : exists2 i, (i < nr B)%N & Z.le (Z.add (Z.of_nat (rho i)) d) (row_degree A i).
  case: (boolP [exists i : 'I_(nr B), Z.leb (Z.add (Z.of_nat (rho i)) d) (row_degree A i)]) => [/existsP[i Hi]|].
    by exists i => //; apply/Z.leb_le.
  rewrite negb_exists => /forallP Hn; suff : Z.le d (Z.sub d 1) by lia.
  apply/Hle => i Hi; have := Hn (Ordinal Hi); rewrite /=; lia.
have [j Hj Ej] : exists2 j, (j < nc A)%N & Z.le (Z.add (Z.of_nat (rho i)) d) (zdeg (ent A i j)).
  case: (boolP [exists j : 'I_(nc A), Z.leb (Z.add (Z.of_nat (rho i)) d) (zdeg (ent A i j))]) => [/existsP[j Hj]|].
    by exists j => //; apply/Z.leb_le.
  rewrite negb_exists => /forallP Hn; suff : Z.le (row_degree A i) (Z.sub (Z.add (Z.of_nat (rho i)) d) 1) by lia.
  apply/row_degree_le; split=> [|j Hj]; first lia.
  by have := Hn (Ordinal Hj); rewrite /=; lia.
exists i, j; split=> //; first by rewrite E.
by have := Hent i j; rewrite E => /(_ Hi Hj); move: Ej; rewrite /zdeg; lia.
Qed.

Lemma reversedE (a i0 : pmat F) (z : nat -> Z) (r : nat -> nat) : (forall i, (i < nr a)%N -> z i = Z.of_nat (r i)) ->
  is_pmat (row_reverse false i0 a z) (nr a) (nc a) (fun i j => rev (r i) (ent a i j)).
Proof. by move=> H; have [R1 R2 He] := ewiseE false (fun i _ p => zreverse p (z i)) i0 a; split=> // i j Hi Hj; rewrite He //; apply: zreverseZ; apply: H. Qed.

Lemma reversed_invertible B rho Br : row_reduced B rho -> is_pmat Br (nr B) (nr B) (fun i j => rev (rho i) (ent B i j)) -> invertible_at_0 Br.
Proof.
case=> n0 En S U [R1 R2 H]; split; rewrite ?R1 ?R2 //.
rewrite (_ : \matrix_(i, j) _ = \matrix_(i < nr B, j < nr B) (ent B i j)`_(rho i)) //.
by apply/matrixP=> i j; rewrite !mxE H // coef_poly subn0.
Qed.

Lemma quo_core A B rho k : row_reduced B rho -> nr A = nr B -> degree_gap A rho k -> series_right A B rho k -> mul_ok A B k ->
  exists s C, [/\ series (row_reverse false (new_pmat F) B (row_degree B)) (row_reverse false (new_pmat F) A (fun i => Z.add (row_degree B i) (Z.of_nat k))) k.+1 = Some (AOk s),
    mul B (sm_reverse s k) = Some (AOk C), sr s = nr B /\ sc s = nc A, nr C = nr A /\ nc C = nc A &
    forall i j, (i < nr A)%N -> (j < nc A)%N -> [/\ ent C i j = \sum_(l < nr B) ent B i l * ent (sm_reverse s k) l j,
      (size (ent A i j - ent C i j)%R <= rho i)%N & Poly (sent s i j) = rev k (ent (sm_reverse s k) i j)]].
Proof.
move=> HB E Hk Hs Hm; have [n0 En SB _] := HB.
have HBr := @reversedE B (new_pmat F) (row_degree B) rho (fun i Hi => reduced_degree HB Hi).
have [|Ra1 Ra2 Ha] := @reversedE A (new_pmat F) (fun i => Z.add (row_degree B i) (Z.of_nat k)) (fun i => (rho i + k)%N).
  by move=> i; rewrite E => Hi; rewrite (reduced_degree HB Hi); lia.
set Br := row_reverse _ _ B _ in HBr *; set Ar := row_reverse _ _ A _ in Ra1 Ra2 Ha *.
rewrite -En in HBr; have IB := reversed_invertible HB HBr; have [Rb1 Rb2 Hb] := HBr.
have [u Hu] := C76_solution_exists Ar k.+1 IB.
rewrite E in Ra1 Ha.
have [//||//|//|s [Es [S1 S2 HS]]] := Hs Br Ar u; first by split.
have HQ i j : (i < nr B)%N -> (j < nc A)%N -> ent (sm_reverse s k) i j = rev k (u i j).
  by move=> Hi Hj; apply/polyP=> l; rewrite /= /reverse_stored !coef_poly HS.
set Q := sm_reverse s k in HQ *.
have NQ : nr Q = nr B := S1.
have CQ : nc Q = nc A := S2.
have SQ : entries_below k.+1 Q by move=> i j; rewrite NQ CQ => Hi Hj; rewrite (HQ i j Hi Hj) size_rev.
have [C [EC [C1 C2 HC]]] := Hm Q NQ CQ SQ.
exists s, C; split=> //; first by rewrite C1 E.
have Su : forall i j, (i < nr B)%N -> (j < nc A)%N -> (size (u i j) <= k.+1)%N by case: (Hu) => U1 _; rewrite Rb1 Ra2 in U1.
have Hu' : solution (Pmat (nr B) (nc B) (fun i j => rev (rho i) (ent B i j))) (Pmat (nr A) (nc A) (fun i j => rev (rho i + k) (ent A i j))) u k.+1.
  case: Hu => U1 U2; rewrite Rb1 Ra2 in U2; split=> //= i j l Hi Hj Hl; rewrite -Ha // -U2 //.
  by congr (polyseq _)`_l; apply: eq_bigr => z _; rewrite Hb.
have SA : forall i j, (i < nr A)%N -> (j < nc A)%N -> (size (ent A i j) <= (rho i + k).+1)%N by case: Hk.
move=> i j Hi Hj; have HiB : (i < nr B)%N by rewrite -E.
have EC' : ent C i j = \sum_(l < nr B) ent B i l * rev k (u l j).
  by rewrite HC //; apply: eq_bigr => l _; rewrite HQ.
split; [exact: HC| |].
  by rewrite EC'; exact: (series_quotient HB E SA Hu').
by rewrite HQ // revK ?Su //; apply/polyP=> l; rewrite coef_Poly HS.
Qed.

Lemma quo_remE A B rho : row_reduced B rho -> nr A = nr B ->
  (forall d, degree_gap A rho d -> series_right A B rho d /\ mul_ok A B d) ->
  exists Q R, quo_rem series mul A B = Some (AOk (Q, R)) /\ division A B rho Q R.
Proof.
move=> HB E Hd; have [n0 En SB _] := HB; rewrite /quo_rem E (gtn_eqF n0) ltnn /=.
have := gap_cases HB E; set d := max_diff _ _ _; case=> [[d0 SA]|[k Ek Hk]].
  move/Z.ltb_lt: (d0) => ->; exists (Pmat (nr B) (nc A) (fun _ _ => 0)), A; split=> //; split=> // i j Hi Hj; rewrite SA // big1 ?add0r // => l _.
  exact: mulr0.
rewrite Ek (_ : Z.ltb _ _ = false); last by lia.
have [Hs Hm] := Hd k Hk; rewrite Nat2Z.id.
have [s [C [-> EC [S1 S2] [C1 C2] HC]]] := quo_core HB E Hk Hs Hm.
rewrite {1}/bindm EC {1}/bindm; have [||//|_ [R [ER [R1 R2 HR]]]] := @C65_add_sub F false false (new_pmat F) A C; rewrite ?C1 ?C2 //.
rewrite ER /bindm; exists (sm_reverse s k), R; split=> //; split=> //.
move=> i j Hi Hj; have [X1 X2 _] := HC i j Hi Hj; rewrite HR //; split=> //.
by rewrite -X1 addrC subrK.
Qed.

(** when R is A, the remainder is wrong *)
Lemma quo_rem_aliasE A B rho k : row_reduced B rho -> nr A = nr B -> degree_gap A rho k -> series_right A B rho k -> mul_ok A B k ->
  exists Q R R', [/\ quo_rem_R_is_A series mul A B = Some (AOk (Q, R')), division A B rho Q R &
    forall i j, (i < nr A)%N -> (j < nc A)%N -> ent R' i j = rev k (ent Q i j) - ent A i j + ent R i j].
Proof.
move=> HB E Hk Hs Hm; have [n0 En SB _] := HB; rewrite /quo_rem_R_is_A E (gtn_eqF n0) ltnn /=.
have [[d0 SA]|[k' Ek Hk']] := gap_cases HB E.
  by case: Hk => _ [i [j [Hi Hj S]]]; have := SA i j Hi Hj; rewrite S; lia.
have Ekk : k' = k.
  case: Hk => H1 [i [j [Hi Hj S]]]; case: Hk' => H1' [i' [j' [Hi' Hj' S']]].
  by have := H1 _ _ Hi' Hj'; have := H1' _ _ Hi Hj; rewrite S S'; lia.
rewrite Ek Ekk (_ : Z.ltb _ _ = false); last by lia.
rewrite Nat2Z.id.
have [s [C [-> EC [S1 S2] [C1 C2] HC]]] := quo_core HB E Hk Hs Hm.
rewrite {1}/bindm EC {1}/bindm.
have [||//|_ [R' [ER [R1 R2 HR]]]] := @C65_add_sub F true false (polys s) (polys s) C; rewrite ?C1 ?C2 // ?E //.
rewrite ER /bindm; exists (sm_reverse s k), (Pmat (nr A) (nc A) (fun i j => ent A i j - ent C i j)), R'; split=> //.
  split=> // i j Hi Hj; have [X1 X2 _] := HC i j Hi Hj; split=> //=.
  by rewrite -X1 addrC subrK.
move=> i j; rewrite -E => Hi Hj; have [X1 X2 X3] := HC i j Hi Hj; rewrite HR; last 2 first.
- by rewrite /= S1 -E.
- by rewrite /= S2.
by rewrite [ent (polys s) i j]X3 /= addrA subrK.
Qed.
End Generic.

(** *** solve_series_low_precision when the solution has degree less than the threshold, for the precision 2 T + 1 *)
Section LowZero.
Variable F : fieldType.
Variables (garb : nat -> nat -> nat -> F) (mp : pmat F -> pmat F -> nat -> nat -> option (aoutcome (pmat F))).
Variables (mp_raw : smat F -> pmat F -> nat -> nat -> option (aoutcome (pmat F))).
Variables (inv : pmat F -> nat -> option (aoutcome (pmat F))).
Variables (get : pmat F -> nat -> option (aoutcome (pmat F -> option (aoutcome (pmat F))))).
Implicit Types (A b : pmat F) (u : fmat {poly F}).

Lemma low_zero_block fuel fftp small A b u (T := default_thresh fftp small) (prec := (2 * T + 1)%N) :
  invertible_at_0 A -> nr b = nr A -> (0 < nc b)%N -> (prec <= fuel)%N ->
  inv_right inv (nr A) T -> get_right get (nr A) T -> mp_ok mp (nr A) (nc b) prec ->
  (forall x c dA dB, zero_mat x -> nr x = nc b -> nc x = nr A -> nr c = nr A -> nc c = nr A -> (T./2 <= dB)%N -> mp x c dA dB = Some AUB) ->
  solution A b u prec -> (forall i j, (i < nr A)%N -> (j < nc b)%N -> (size (u i j) <= T)%N) ->
  (exists i j, [/\ (i < nr A)%N, (j < nc b)%N & u i j != 0]) ->
  solve_series_low_precision garb mp mp_raw inv get fuel fftp small A b prec None = Some AUB.
Proof.
move=> HA Rb t0 Hf Hinv Hget Hmp Hz [_ Hu] Su Nz; have [n0 En _] := HA.
have T0 : (0 < T)%N by rewrite /T /default_thresh; case: (fftp); case: (small).
have p0 : (0 < prec)%N by rewrite /prec addn1.
have TP : (T <= prec)%N by rewrite /prec; clear; lia.
rewrite /solve_series_low_precision /odflt /oapp -/T; have [[A1 A2 HA'] [B1 B2 HB']] := truncatedP A b prec.
set Ab := truncated A b prec in A1 A2 HA' B1 B2 HB' *.
have IA : invertible_at_0 Ab.1.
  have := low_unit HA p0; case=> _ _ X; split; rewrite ?A1 ?A2 //.
  rewrite (_ : \matrix_(i, j) _ = \matrix_(i < nr A, j < nr A) (ptrunc prec (ent A i j))`_0) //.
  by apply/matrixP=> i j; rewrite !mxE HA' // -En.
have [iA [-> Hi]] := Hinv _ IA A1.
have [I1 I2 I3 I4] := Hi; rewrite A1 in I1 I2 I4.
have [//|//||//|f [Ef Hm]] := Hget iA; first exact: inverse_nonzero IA T0 Hi.
rewrite {1}/bindm Ef {1}/bindm.
apply: (@dac_zero_block F garb mp mp_raw (nr A) (nc b) T prec (ent iA) f T0 n0 t0 Hm Hz fuel Ab.1 Ab.2 u Hmp) => //; rewrite ?A2 ?B1 ?B2 //.
- by move=> i j; rewrite A1 A2 => X1 X2; rewrite HA' // size_ptrunc.
- by move=> i j; rewrite B1 B2 => X1 X2; rewrite HB' // size_ptrunc.
- by move=> i j l X1 X2 X3; case: (I4 i j l X1 X2 X3).
- apply: (solves_eq (leqnn prec) _ _ _ Hu) => // i j l X1 X2 X3; first by rewrite HA' // -?En // ptrunc_coef X3.
  by rewrite HB' ?Rb // ptrunc_coef X3.
Qed.
End LowZero.

Section Prime.
Variables (p : nat) (fftp : bool) (maxroot_p : nat) (xp : nat -> nat -> 'F_p) (nbits_p : nat).
Variables (wbits spbits : nat) (ru : nat -> nat -> nat).
Variables (q : nat -> nat) (nbits maxroot : nat -> nat) (x3 : forall i, nat -> nat -> 'F_(q i)).
Variables (trs : nat) (wak ev nv evm : nat -> nat) (cbrt : nat -> nat).
Variables (mfuel MX KARX : nat) (ul : bool) (garb : nat -> nat -> nat -> nat -> 'F_p) (garb1 : nat -> 'F_p) (garb3 : nat -> nat -> nat -> 'F_p).
Variables (rnd : seq 'F_p) (feas fft : bool).
Variable mp_raw : smat [fieldType of 'F_p] -> pmat [fieldType of 'F_p] -> nat -> nat -> option (aoutcome (pmat [fieldType of 'F_p])).
Variable x0 : pmat [fieldType of 'F_p].
Implicit Types (A B Q R : pmat [fieldType of 'F_p]) (rho : nat -> nat).
Hypotheses (Hmm : P_nmm.setting fftp maxroot_p xp wbits spbits ru q nbits) (Hmp : P_nmp3.setting fftp maxroot_p xp q KARX).
Hypothesis Hmono : forall l l' k, (l <= l')%N -> (ru l k <= ru l' k)%N.

Let ser := @series p fftp maxroot_p xp nbits_p wbits spbits ru q nbits maxroot x3 trs wak ev nv evm cbrt mfuel MX KARX ul garb garb1 garb3 rnd feas fft mp_raw.
Let mul a b := @multiply p fftp maxroot_p xp nbits_p wbits spbits ru q nbits maxroot x3 trs wak ev cbrt false x0 a b true.
(** quo_rem with the solve_series of C76 and the multiply of C71 *)
Definition division_of A B := quo_rem ser mul A B.
Definition division_R_is_A A B := quo_rem_R_is_A ser mul A B.
Let T := default_thresh fftp (nbits_p <= 25)%N.
(** there are enough points or FFT primes for n x n matrices with at most m coefficients *)
Definition enough_upto (n m : nat) : Prop := forall k, (0 < k <= m)%N -> @enough p fftp maxroot_p nbits_p q maxroot x3 mfuel rnd n k.
(** the quotient has more than 4 deg(B) coefficients (high precision); or at most T; or T / 2 consecutive coefficients of an entry are
    not all zero *)
Definition good_quotient A B rho (d : nat) : Prop := (4 * (plen B).-1 <= d)%N \/
  (@enough p fftp maxroot_p nbits_p q maxroot x3 mfuel rnd (nr B) T /\
   ((d < T)%N \/ forall Q R, division A B rho Q R -> gapless (nr B) (nc A) (uphalf T) d.+1 (ent Q))).

Lemma series_ok A B rho d : row_reduced B rho -> nr A = nr B -> degree_gap A rho d -> enough_upto (nr B) (maxn (plen A) (plen B)) ->
  good_quotient A B rho d -> series_right ser A B rho d.
Proof.
move=> HB E Hd He Hg Br Ar u HBr HAr IB Hu; have [n0 En SB _] := HB; have [B1 B2 HBe] := HBr; have [A1 A2 HAe] := HAr.
have [Su Hsol] := Hu; rewrite B1 A2 in Su.
have dA : (d < plen A)%N.
  by case: Hd => _ [i [j [Hi Hj S]]]; have := plen_size Hi Hj; rewrite S; apply: leq_trans; rewrite ltnS leq_addl.
have LB : (plen Br <= plen B)%N.
  apply/plenP=> i j; rewrite B1 B2 => Hi Hj; rewrite HBe //.
  have [k] := row_nonzero (Ordinal Hi) (let: And4 _ _ _ U := HB in U); rewrite mxE /= => Nz.
  have : (rho i < size (ent B i k))%N by rewrite ltnNge; apply: contra Nz => C; rewrite nth_default.
  by move=> C; apply: leq_trans (size_rev _ _) _; apply: leq_trans C _; apply: plen_size; rewrite -?En.
have HT : (0 < T)%N by rewrite /T /default_thresh; case: (fftp); case: (nbits_p <= 25)%N.
have Ed : @enough p fftp maxroot_p nbits_p q maxroot x3 mfuel rnd (nr B) d.+1.
  by apply: He; rewrite /= !leq_max dA.
have R1 : nr Ar = nr Br by rewrite A1 B1.
have Hres : exists s, ser Br Ar d.+1 = Some (AOk s) /\ [/\ sr s = nr Br, sc s = nc Ar & forall i j, (i < nr Br)%N -> (j < nc Ar)%N -> forall l, (sent s i j)`_l = (u i j)`_l].
  rewrite /ser /series /solve_series; case: ifP => C; last first.
    have L0 : (0 < block_len Br d.+1)%N by rewrite lt0n; apply/eqP=> /zero_plen; apply: invertible_nonzero; apply: low_unit.
    have [|s [Es [S1 S2 HS]]] := C76_high_precision (nbits_p := nbits_p) (x3 := x3) (maxroot := maxroot) (mfuel := mfuel) (rnd := rnd) trs wak ev nv evm cbrt MX ul garb garb1 garb3 feas fft Hmm Hmp Hmono IB R1 (ltn0Sn d) _ Hu.
      rewrite B1; apply: He; rewrite L0 !leq_max; apply/orP; left; apply: leq_trans _ dA.
      by apply/plenP => i j _ _; apply: size_ptrunc.
    by exists s; split=> //; split=> // i j Hi Hj; have [] := HS i j Hi Hj.
  have c0 : (0 < nc Ar)%N by rewrite A2; case: Hd => _ [i [j [Hi Hj _]]]; apply: leq_ltn_trans (leq0n j) Hj.
  have [||||s [Es [S1 S2 HS]]] := C76_low_precision (nbits_p := nbits_p) (x3 := x3) (maxroot := maxroot) (mfuel := mfuel) (rnd := rnd) trs wak ev nv evm cbrt MX ul garb garb1 garb3 feas fft mp_raw Hmm Hmp Hmono (thresh := None) IB R1 c0 HT _ _ _ Hu _.
  - by case: Ed.
  - by rewrite B1; case: Hg => [H|[]] //; exfalso; move: LB C H; clear; move: (plen Br) (plen B); lia.
  - by rewrite B1; case: Ed => _ [].
  - rewrite B1 A2; case: Hg => [H|[_ [H|H]]]; [by exfalso; move: LB C H; clear; move: (plen Br) (plen B); lia|by left|right].
    pose Q0 := Pmat (nr B) (nc A) (fun i j => rev d (u i j)).
    pose R0 := Pmat (nr A) (nc A) (fun i j => ent A i j - \sum_(k < nr B) ent B i k * ent Q0 k j).
    have Hdiv : division A B rho Q0 R0.
      split=> // i j Hi Hj; split; first by rewrite /= addrC subrK.
      apply: (@series_quotient _ A B rho d u HB E _ _ i j Hi Hj); first by case: Hd.
      split; first by move=> i' j' Hi' Hj'; apply: Su.
      move=> i' j' l Hi' Hj' Hl; have := Hsol i' j' l; rewrite B1 A2 HAe // => <- //.
      by congr (polyseq _)`_l; apply: eq_bigr => z _; rewrite HBe.
    have := gapless_rev (H Q0 R0 Hdiv) => G i j o Hi Hj Ho; have [l Hl Nz] := G i j o Hi Hj Ho; exists l => //.
    by move: Nz; rewrite revK ?Su.
  by exists s; split=> //; split=> // i j Hi Hj l; rewrite HS.
by move: Hres; rewrite B1 A2.
Qed.

Lemma multiply_ok A B rho d : row_reduced B rho -> degree_gap A rho d -> enough_upto (nr B) (maxn (plen A) (plen B)) -> mul_ok mul A B d.
Proof.
move=> HB Hd He Q R1 R2 SQ; have [n0 En SB _] := HB.
have dA : (d < plen A)%N.
  by case: Hd => _ [i [j [Hi Hj S]]]; have := plen_size Hi Hj; rewrite S; apply: leq_trans; rewrite ltnS leq_addl.
have M0 : (0 < maxn (plen A) (plen B))%N by rewrite leq_max (leq_ltn_trans _ dA).
have [|_ [[F1 F2] _]] := He (maxn (plen A) (plen B)); first by rewrite M0 leqnn.
have LQ : (plen Q <= plen A)%N by apply: leq_trans _ dA; apply/plenP.
have [||C [EC HC]] := @C71_multiply p fftp maxroot_p xp nbits_p wbits spbits ru q nbits maxroot x3 trs wak ev cbrt Hmm false x0 B Q.
- by rewrite R1 En.
- split.
    move=> i Hi k' Hk'; apply: (F1 i Hi); apply: leq_trans Hk' _; apply: leq_up_log; move: LQ; clear.
    by move: (plen A) (plen B) (plen Q); lia.
  apply: leq_ltn_trans F2; rewrite -En leq_mul2l /= !leq_mul // geq_min leq_max leqnn orbT //.
by exists C; split=> //; case: HC => C1 C2 HC; split=> //; rewrite ?C2 // => i j Hi Hj; rewrite HC ?R2 // -En.
Qed.

(** *** the result is the division *)
Theorem C77_quo_rem A B rho : row_reduced B rho -> nr A = nr B -> enough_upto (nr B) (maxn (plen A) (plen B)) ->
  (forall d, degree_gap A rho d -> good_quotient A B rho d) ->
  exists Q R, division_of A B = Some (AOk (Q, R)) /\ division A B rho Q R.
Proof.
move=> HB E He Hg; apply: quo_remE => // d Hd; split; last exact: (multiply_ok HB).
by apply: series_ok => //; apply: Hg.
Qed.

(** the number of rows of B is zero: rdegA[0] is read; so it is when A has fewer rows than B *)
Theorem C77_empty_refuted A B : (nr B = 0)%N \/ (nr A < nr B)%N -> division_of A B = Some AUB.
Proof. by rewrite /division_of /quo_rem => -[->|->]; rewrite ?orbT. Qed.

(** with R = A: the remainder is wrong, unless A is the reversed quotient *)
Theorem C77_remainder_is_A_refuted A B rho d : row_reduced B rho -> nr A = nr B -> enough_upto (nr B) (maxn (plen A) (plen B)) ->
  degree_gap A rho d -> good_quotient A B rho d ->
  exists Q R R', [/\ division_R_is_A A B = Some (AOk (Q, R')), division A B rho Q R &
    forall i j, (i < nr A)%N -> (j < nc A)%N -> (ent R' i j = ent R i j <-> ent A i j = \poly_(k < d.+1) (ent Q i j)`_(d - k))].
Proof.
move=> HB E He Hd Hg; have [||Q [R [R' [E1 E2 E3]]]] := quo_rem_aliasE (series := ser) (mul := mul) HB E Hd.
- exact: series_ok.
- exact: (multiply_ok HB).
exists Q, R, R'; split=> // i j Hi Hj; rewrite E3 //; split=> [H|->]; last by rewrite subrr add0r.
by apply/eqP; rewrite eq_sym -subr_eq0; apply/eqP; apply: (addIr (ent R i j)); rewrite add0r.
Qed.

(** A quotient divisible by X^(T+1) and of degree 2 T, for deg(B) > T / 2: solve_series calls itself for a zero right-hand side, and
    middle_product with a zero matrix (C73). For instance A = X^64 B, deg(B) = 17. *)
Theorem C77_zero_block_refuted A B rho Q R : row_reduced B rho -> nr A = nr B ->
  @enough p fftp maxroot_p nbits_p q maxroot x3 mfuel rnd (nr B) T -> (2 * T + 1 <= mfuel)%N -> @fits p q maxroot x3 (nr B) (2 * T + 1) ->
  degree_gap A rho (2 * T) -> division A B rho Q R -> (forall k j l, (k < nr B)%N -> (j < nc A)%N -> (l <= T)%N -> (ent Q k j)`_l = 0) ->
  (exists i k, [/\ (i < nr B)%N, (k < nr B)%N, (ent B i k)`_0 != 0 & (2 * T + 1 <= 4 * rho i)%N]) ->
  (nv (cbrt (nc A * nr B * nr B)) <= T./2)%N -> division_of A B = Some AUB.
Proof.
move=> HB E He Hf Hfit Hd Hdiv HQ [i0 [k0 [Hi0 Hk0 Nz Hr]]] Hn; have [n0 En SB _] := HB; rewrite /division_of /quo_rem E (gtn_eqF n0) ltnn /=.
have [[d0 SA]|[k' Ek Hk']] := gap_cases HB E.
  by case: Hd => _ [i [j [Hi Hj S]]]; have := SA i j Hi Hj; rewrite S; lia.
have Ekk : k' = (2 * T)%N.
  case: Hd => H1 [i [j [Hi Hj S]]]; case: Hk' => H1' [i' [j' [Hi' Hj' S']]].
  by have := H1 _ _ Hi' Hj'; have := H1' _ _ Hi Hj; rewrite S S'; lia.
rewrite Ek Ekk (_ : Z.ltb _ _ = false); last by lia.
rewrite Nat2Z.id.
have HBr := @reversedE _ B (new_pmat _) (row_degree B) rho (fun i Hi => reduced_degree HB Hi).
have [|Ra1 Ra2 Ha] := @reversedE _ A (new_pmat _) (fun i => Z.add (row_degree B i) (Z.of_nat (2 * T))) (fun i => (rho i + 2 * T)%N).
  by move=> i; rewrite E => Hi; rewrite (reduced_degree HB Hi); lia.
set Br := row_reverse _ _ B _ in HBr *; set Ar := row_reverse _ _ A _ in Ra1 Ra2 Ha *.
rewrite -En in HBr; have IB := reversed_invertible HB HBr; have [Rb1 Rb2 Hb] := HBr.
have [u Hu] := C76_solution_exists Ar (2 * T).+1 IB; rewrite E in Ra1 Ha.
have [Su Hsol] := Hu; rewrite Rb1 Ra2 in Su.
pose Q0 := Pmat (nr B) (nc A) (fun i j => rev (2 * T) (u i j)).
pose R0 := Pmat (nr A) (nc A) (fun i j => ent A i j - \sum_(k < nr B) ent B i k * ent Q0 k j).
have Hdiv0 : division A B rho Q0 R0.
  split=> // i j Hi Hj; split; first by rewrite /= addrC subrK.
  apply: (@series_quotient _ A B rho (2 * T) u HB E _ _ i j Hi Hj); first by case: Hd.
  split; first by move=> i' j' Hi' Hj'; apply: Su.
  move=> i' j' l; rewrite /= => Hi' Hj' Hl; have := Hsol i' j' l; rewrite Rb1 Ra2 Ha // => <- //.
  by congr (polyseq _)`_l; apply: eq_bigr => z _; rewrite Hb.
have [EQ ER] := C77_unique HB E Hdiv Hdiv0.
have Eu i j : (i < nr B)%N -> (j < nc A)%N -> u i j = rev (2 * T) (ent Q i j) by move=> Hi Hj; rewrite EQ // revK // Su.
have -> : ser Br Ar (2 * T).+1 = Some AUB; last by [].
have T0 : (0 < T)%N by rewrite /T /default_thresh; case: (fftp); case: (nbits_p <= 25)%N.
have c0 : (0 < nc A)%N by case: Hd => _ [i [j [Hi Hj _]]]; apply: leq_ltn_trans (leq0n j) Hj.
rewrite /ser /series /solve_series ifT; last first.
  have SBr : (rho i0 < size (ent Br i0 k0))%N.
    by rewrite Hb // ltnNge; apply: contra Nz => C; move/leq_sizeP: C => /(_ (rho i0) (leqnn _)); rewrite coef_poly ltnSn subnn => ->.
  by have := @plen_size _ Br i0 k0; rewrite Rb1 Rb2 => /(_ Hi0 Hk0); move: Hr SBr; clear; move: (size _) (plen _); lia.
rewrite -[(2 * T).+1]addn1; rewrite -[(2 * T).+1]addn1 in Hu.
apply: (@low_zero_block _ _ _ _ _ _ mfuel fftp (nbits_p <= 25)%N Br Ar u) => //; rewrite ?Rb1 ?Ra2 //.
- exact (inv_rightE trs wak ev nv evm cbrt MX ul garb Hmm Hmp T0 He).
- exact (get_rightE MX ul garb1 feas fft Hmm Hmp Hmono T0 He).
- exact (mp_okE nbits_p nbits nv evm cbrt MX ul garb Hmp Hf Hfit).
- by move=> x c dA dB Zx R1 R2 R3 R4 HdB; apply: C73_zero_refuted; rewrite ?R1 ?R2 ?R4 //; apply: leq_trans Hn HdB.
- move=> i j Hi Hj; rewrite Eu //; apply/leq_sizeP=> l Hl; rewrite coef_poly; case: ifP => // Cl; apply: HQ => //.
  by move: Hl Cl; rewrite -/T; clear; lia.
case: (boolP [exists i : 'I_(nr B), exists j : 'I_(nc A), u i j != 0]) => [/existsP[i /existsP[j Nu]]|].
  by exists i, j; split.
rewrite negb_exists => /forallP Hall; exfalso.
have Zu i j : (i < nr B)%N -> (j < nc A)%N -> u i j = 0.
  by move=> Hi Hj; move: (Hall (Ordinal Hi)); rewrite negb_exists => /forallP/(_ (Ordinal Hj))/negbNE/eqP.
case: Hd => _ [i [j [Hi Hj S]]]; have [_ _ _ _ H] := Hdiv0; have [E1 E2] := H i j Hi Hj.
have : ent A i j = ent R0 i j.
  rewrite {1}E1 big1 ?add0r // => l _; rewrite (_ : ent Q0 l j = 0) ?mulr0 //= Zu //; apply/polyP=> z; rewrite coef_poly !coef0; by case: ifP.
by move=> EA; move: S E2; rewrite -EA => ->; clear; lia.
Qed.
End Prime.

(** *** the hypotheses are met *)
(** there are roots of unity for the FFTs of length 2^k modulo q, if 2^K divides q - 1 and k <= K *)
Lemma fft_tables K q : prime q -> (2 ^ K %| q.-1)%N -> exists x : nat -> nat -> 'F_q, forall k, (k <= K)%N -> fft_available true K x k.
Proof.
move=> pq dv; have q1 : (0 < q.-1)%N by have := prime_gt1 pq; case: (q) => [|[]].
pose rs := [seq x <- enum 'F_q | x != 0].
have U : uniq rs by apply: filter_uniq; apply: enum_uniq.
have Srs : size rs = q.-1.
  by have := cardC1 (0 : 'F_q); rewrite card_Fp // => <-; rewrite -(card_uniqP U); apply: eq_card => z; rewrite mem_filter mem_enum !inE andbT.
have /hasP[z _ Pz] : has q.-1.-primitive_root rs.
  apply: has_prim_root; rewrite ?Srs //.
  apply/allP=> x; rewrite mem_filter => /andP[x0 _]; apply/unity_rootP; apply: (mulfI x0); rewrite mulr1 -exprS prednK ?prime_gt0 //.
  by have := expf_card x; rewrite card_Fp.
exists (fun k j => (z ^+ (q.-1 %/ 2 ^ k)) ^+ j) => k Hk.
have Pk : (2 ^ k).-primitive_root (z ^+ (q.-1 %/ 2 ^ k)) by apply: (dvdn_prim_root Pz); apply: dvdn_trans dv; exact: dvdn_exp2l.
split=> // [i j Hi Hj /eqP|i _].
  by rewrite (eq_prim_root_expr Pk) !modn_small // => /eqP.
by rewrite -(exprM _ i) mulnC (exprM _ _ i) (prim_expr_order Pk) expr1n.
Qed.

(** the same for three primes *)
Lemma fft_tables3 K (q : nat -> nat) : (forall i, (i < 3)%N -> prime (q i)) -> (forall i, (i < 3)%N -> (2 ^ K %| (q i).-1)%N) ->
  exists x3 : forall i, nat -> nat -> 'F_(q i), forall i k, (i < 3)%N -> (k <= K)%N -> fft_available true K (x3 i) k.
Proof.
move=> pq dv.
have [x0 H0] := fft_tables (pq 0%N isT) (dv 0%N isT).
have [x1 H1] := fft_tables (pq 1%N isT) (dv 1%N isT).
have [x2 H2] := fft_tables (pq 2%N isT) (dv 2%N isT).
exists (fun i => match i return nat -> nat -> 'F_(q i) with 0%N => x0 | 1%N => x1 | 2%N => x2 | _ => fun _ _ => 0 end).
by move=> [|[|[|i]]] k // _ Hk; [exact: H0|exact: H1|exact: H2].
Qed.

Example C77_met : let q i := nth 2%N [:: 257; 769; 3329]%N i in
  let B := Pmat 2 2 (fun i j => nth 0 (nth [::] [:: [:: 'X^2 + 1; 'X]; [:: 1; 'X^3]] i) j : {poly 'F_67}) in
  let A := Pmat 2 1 (fun i _ => nth 0 [:: 'X^10; 'X^5] i : {poly 'F_67}) in
  let rho i := nth 0%N [:: 2; 3]%N i in
  let B' := Pmat 1 1 (fun _ _ => 'X^17 + 1 : {poly 'F_67}) in
  let A' := Pmat 1 1 (fun _ _ => 'X^64 * ('X^17 + 1) : {poly 'F_67}) in
  exists x3 : forall i, nat -> nat -> 'F_(q i),
  [/\ P_nmm.setting false 0 (fun _ _ => 0 : 'F_67) 14 13 (fun _ k => (2 ^ k)%N) q (fun _ => 5%N),
      P_nmp3.setting false 0 (fun _ _ => 0 : 'F_67) q 2, row_reduced B rho &
      @enough_upto 67 false 0 7 q (fun _ => 8%N) x3 65 [::] 2 (maxn (plen A) (plen B))] /\
  (degree_gap A rho 8 /\ @good_quotient 67 false 0 7 q (fun _ => 8%N) x3 65 [::] A B rho 8) /\
  [/\ row_reduced B' (fun _ => 17%N), @enough 67 false 0 7 q (fun _ => 8%N) x3 65 [::] 1 32, @fits 67 q (fun _ => 8%N) x3 1 65,
      degree_gap A' (fun _ => 17%N) (2 * 32) & division A' B' (fun _ => 17%N) (Pmat 1 1 (fun _ _ => 'X^64)) (Pmat 1 1 (fun _ _ => 0))].
Proof.
move=> q B A rho B' A'.
have pq i : (i < 3)%N -> prime (q i) by case: i => [|[|[|i]]].
have dq i : (i < 3)%N -> (2 ^ 8 %| (q i).-1)%N by case: i => [|[|[|i]]].
have [x3 H3] := fft_tables3 pq dq; exists x3.
have Hready i k : (i < 3)%N -> (k <= 8)%N -> fft_ready (fun _ => 8%N) x3 i k.
  by move=> Hi Hk k' Hk'; have {Hk'} Hk' := leq_trans Hk' Hk; exact: H3.
have Hfits n m : (m <= 65)%N -> (n <= 2)%N -> @fits 67 q (fun _ => 8%N) x3 n m.
  move=> Hm Hn; split=> [i Hi|].
    apply: Hready => //; apply: (@leq_trans (next_pow2 130)); last exact (isT : (up_log 2 130 <= 8)%N).
    by apply: leq_up_log; move: Hm; clear; lia.
  rewrite (_ : 2 * _ = 66 * (2 * (n * m)) * 66)%N; last first.
    by rewrite -[(67 - 1)%N]/66%N; ring.
  apply: ltn_mul; last exact (isT : (66 < 3329)%N).
  apply: ltn_mul; first exact (isT : (66 < 257)%N).
  apply: (@leq_ltn_trans (2 * (2 * 65))%N); last exact (isT : (260 < 769)%N).
  by rewrite leq_mul2l leq_mul.
have He n m : (n <= 2)%N -> (m <= 32)%N -> @enough 67 false 0 7 q (fun _ => 8%N) x3 65 [::] n m.
  move=> Hn Hm; split; first by apply: leq_trans Hm _.
  split; first by apply: Hfits => //; apply: leq_trans Hm _.
  by split; [move: Hm; clear; lia|left; apply: leq_trans Hm _].
have S1 n : size ('X^n.+1 + 1 : {poly 'F_67}) = n.+2 by rewrite -[1]/(1%:P) size_addl size_polyXn // ltnS (leq_trans (size_polyC_leq1 _)).
have SB i j : (i < 2)%N -> (j < 2)%N -> (size (ent B i j) <= (rho i).+1)%N.
  by case: i => [|[|i]] // _; case: j => [|[|j]] // _; rewrite /B /rho [ent _ _ _]/= [nth _ _ _]/= ?S1 ?size_polyX ?size_polyXn ?size_poly1.
have LB : (plen B <= 11)%N by apply/plenP=> i j Hi Hj; apply: leq_trans (SB i j Hi Hj) _; case: i Hi => [|[|i]].
have LA : (plen A <= 11)%N by apply/plenP=> i j Hi _; case: i Hi => [|[|i]] // _; rewrite [ent _ _ _]/= size_polyXn.
split; first split.
- split; first split=> //; last first.
    split=> // i Hi; first by split; [exact: pq|case: i Hi => [|[|[|i]]]].
    by right; case: i Hi => [|[|[|i]]].
  move=> l k Hl; by rewrite Hl leqnn.
- by split.
- split=> //; rewrite (_ : \matrix_(i, j) _ = 1%:M) ?unitmx1 //.
  apply/matrixP=> i j; rewrite !mxE; case: i => [[|[|i]] Hi] //; case: j => [[|[|j]] Hj] //; rewrite -val_eqE [val _ == _]/= [nat_of_ord _]/= [nat_of_ord _]/= /B /rho [ent _ _ _]/= [nth _ _ _]/=.
  + by rewrite coefD coefXn coef1 /= addr0.
  + by rewrite coefX.
  + by rewrite coef1.
  + by rewrite coefXn.
- move=> k /andP[_ Hk]; apply: He => //; apply: leq_trans Hk _; rewrite geq_max; apply/andP; split; [exact: leq_trans LA _|exact: leq_trans LB _].
split; first split.
- split; last by exists 0%N, 0%N; split=> //; rewrite [ent _ _ _]/= size_polyXn.
  by move=> i j Hi _; case: i Hi => [|[|i]] // _; rewrite [ent _ _ _]/= size_polyXn.
- by right; split; [exact: He|left].
have SA' : size ('X^64 * ('X^17 + 1) : {poly 'F_67}) = 82%N.
  by rewrite mulrC size_Mmonic ?monicXn ?size_polyXn ?S1 ?addnS // -size_poly_eq0 S1.
split; [|exact: He|exact: Hfits| |].
- split=> //; first by move=> i j _ _; rewrite S1.
  rewrite (_ : \matrix_(i, j) _ = 1%:M) ?unitmx1 //.
  by apply/matrixP=> i j; rewrite !mxE !ord1 eqxx /B' [ent _ _ _]/= coefD coefXn coef1 /= addr0.
- split=> [i j _ _|]; first by rewrite SA'.
  by exists 0%N, 0%N; split=> //; rewrite SA'.
split=> // i j _ _; rewrite [nr _]/= (big_ord_recr 0) big_ord0 Monoid.mul1m /A' /B' /= addr0 mulrC size_poly0; by split.
Qed.

Print Assumptions C77_unique.
Print Assumptions C77_quo_rem.
Print Assumptions C77_empty_refuted.
Print Assumptions C77_remainder_is_A_refuted.
Print Assumptions C77_zero_block_refuted.
