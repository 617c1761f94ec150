(** Lemmas for N_solve_model: sums with shifts of stored vectors, the divide and conquer algorithm, the lifting by blocks. *)
From Coq Require Import ZArith.
From mathcomp Require Import all_ssreflect all_algebra zify.
From Verif Require Import A_base A_mul_model A_mul_proof N_shift_proof N_multi_model N_multi_proof N_pmat_model N_trs_model N_trs_proof N_util_model N_util_proof.
From Verif Require Import N_eval_model N_inv_proof P_ntrs P_nmp N_solve_model.
Set Implicit Arguments.
Unset Strict Implicit.
Unset Printing Implicit Defensive.
Import GRing.Theory.
Local Open Scope ring_scope.

Section Shift.
Variable F : fieldType.
Local Notation P := {poly F}.
Implicit Types (a b s : seq F) (u v : P).

Lemma loop0 (v c : nat -> F) l n k :
  foldl (fun (c : nat -> F) k => upd c k (v k)) c (iota l n) k = if (l <= k < l + n)%N then v k else c k.
Proof. exact: upd_loop. Qed.
Lemma loop_add (v c : nat -> F) l n k :
  foldl (fun (c : nat -> F) k => upd c k (c k + v k)) c (iota l n) k = if (l <= k < l + n)%N then c k + v k else c k.
Proof.
elim: n k => [|n IH] k; first by rewrite addn0 /=; case: ifP => //; lia.
rewrite foldl_iotaR /upd; case: eqP => [->|N].
  by rewrite IH ltnn andbF ifT //; lia.
by rewrite IH; congr (if _ then _ else _); lia.
Qed.

Lemma add_shift_coef garb a b k i : (add_shift_to garb a b k)`_i = a`_i + (if (k <= i)%N then b`_(i - k) else 0).
Proof.
rewrite /add_shift_to; case: ifP => H.
  rewrite -/(nth _ _ _); case: (ltnP i (maxn (size a) (size b + k))) => C; last first.
    rewrite nth_default ?size_mkseq // [a`_i]nth_default; last by move: C; move: (size a) (size b); lia.
    by case: ifP => // _; rewrite ?nth_default ?addr0 //; move: C; move: (size a) (size b); lia.
  rewrite nth_mkseq // loop0 loop_add loop0; move: H C; move E1: (size a) => sa; move E2: (size b) => sb H C.
  case: (leqP k i) => K.
    case: ifP => C1; first by rewrite [a`_i]nth_default ?add0r // E1; lia.
    case: ifP => C2; last by exfalso; lia.
    by rewrite ifF ?ifT //; lia.
  rewrite andFb ifF; last by move: K; clear; lia.
  case: ifP => C3; first by rewrite [a`_i]nth_default ?addr0 // E1; lia.
  by rewrite ifT ?addr0 //; lia.
rewrite coef_Poly; case: (ltnP i (maxn (size a) (size b + k))) => C; last first.
  rewrite nth_default ?size_mkseq // [a`_i]nth_default; last by move: C; move: (size a) (size b); lia.
  by case: ifP => // _; rewrite ?nth_default ?addr0 //; move: C; move: (size a) (size b); lia.
rewrite nth_mkseq // loop_add loop0; move: H C; move E1: (size a) => sa; move E2: (size b) => sb H C.
case: (leqP k i) => K; last by rewrite andFb ifF; [rewrite ifT ?addr0 //; lia|lia].
case: ifP => C1; first by rewrite ifF ?ifT //; lia.
by rewrite ifF; [rewrite ifT ?[b`_ _]nth_default ?addr0 ?E2 //; lia|lia].
Qed.

Lemma add_shift_size garb a b k : (size a < size b + k)%N -> size (add_shift_to garb a b k) = (size b + k)%N.
Proof.
move=> H; rewrite /add_shift_to ifT ?size_mkseq; last by move: (size a) (size b) H; lia.
by move: (size a) (size b) H; lia.
Qed.

(** equal stored vectors *)
Lemma eq_stored a b : size a = size b -> (forall i, a`_i = b`_i) -> a = b.
Proof. by move=> E H; apply: (@eq_from_nth _ 0) => // i _; apply: H. Qed.
Lemma eq_normal a u : last 1 a != 0 -> (forall i, a`_i = u`_i) -> a = u.
Proof.
move=> N H; rewrite -(PolyK N); congr polyseq; apply/polyP=> i; rewrite coef_Poly; exact: H.
Qed.

(** u with the number of coefficients L at least *)
Definition pad (L : nat) u : seq F := mkseq (nth 0 u) (maxn (size u) L).
Lemma pad_coef L u i : (pad L u)`_i = u`_i.
Proof.
rewrite /pad; case: (ltnP i (maxn (size u) L)) => C; first by rewrite nth_mkseq.
by rewrite !nth_default ?size_mkseq //; move: C; move: (size u); lia.
Qed.
Lemma pad_size L u : size (pad L u) = maxn (size u) L. Proof. exact: size_mkseq. Qed.
Lemma pad_id L u : (L <= size u)%N -> pad L u = u.
Proof. by move=> H; apply: eq_stored => [|i]; rewrite ?pad_coef ?pad_size; first by move/maxn_idPl: H. Qed.
Lemma pad_bad L u : (size u < L)%N -> last 1 (pad L u) = 0.
Proof.
move=> H; have S : size (pad L u) = L by rewrite pad_size; lia.
rewrite (last_nth 0) S /=.
case: L H S => // L H S; rewrite /= pad_coef nth_default //; lia.
Qed.

Lemma size_addXn u v k : (size u <= k)%N -> v != 0 -> size (u + 'X^k * v) = (size v + k)%N.
Proof.
move=> H v0; have Sx : size ('X^k * v) = (size v + k)%N.
  by rewrite mulrC size_Mmonic ?monicXn // size_polyXn addnS.
rewrite addrC size_addl Sx //; have : (0 < size v)%N by rewrite size_poly_gt0.
by move: (size v); lia.
Qed.

Lemma add_pad garb u v L k : (L < k)%N -> (size u <= k)%N -> add_shift_to garb (pad L u) v k = pad k (u + 'X^k * v).
Proof.
move=> HL Hu.
have Hc i : (add_shift_to garb (pad L u) v k)`_i = (pad k (u + 'X^k * v))`_i.
  by rewrite add_shift_coef !pad_coef coefD [in RHS]mulrC coefMXn ltnNge; case: (k <= i)%N.
case: (eqVneq v 0) => [Ev|v0]; last first.
  have v1 : (0 < size v)%N by rewrite size_poly_gt0.
  apply: eq_stored => //; rewrite add_shift_size pad_size ?size_addXn //; by move: (size v) v1 (size u) Hu => z z0 y; lia.
case: (ltnP (maxn (size u) L) k) => C.
  apply: eq_stored => //; rewrite add_shift_size ?pad_size Ev ?mulr0 ?addr0 ?size_poly0 ?add0n //.
  by move: (size u) Hu => y; lia.
have E : size u = k by move: (size u) Hu C => y; lia.
rewrite Ev mulr0 addr0 !pad_id ?E //; last exact: ltnW.
rewrite /add_shift_to size_poly0 add0n E minnn ltnn maxnn subnn /=.
congr polyseq; apply/polyP=> i; rewrite coef_Poly.
case: (ltnP i k) => Ci; first by rewrite nth_mkseq // Ci.
by rewrite !nth_default ?size_mkseq ?E.
Qed.

Lemma add_normal garb u v k : (size u <= k)%N -> v != 0 -> add_shift_to garb u v k = u + 'X^k * v :> seq F.
Proof.
move=> Hu v0; have v1 : (0 < size v)%N by rewrite size_poly_gt0.
apply: eq_stored => [|i].
  by rewrite add_shift_size ?size_addXn //; move: (size v) v1 (size u) Hu => z z0 y; lia.
by rewrite add_shift_coef coefD [in RHS]mulrC coefMXn ltnNge; case: (k <= i)%N.
Qed.

Lemma trunc_pad n u L : (L <= n)%N -> trunc_stored n (pad L u) = if (n < size u)%N then polyseq (ptrunc n u) else pad L u.
Proof.
move=> HL; rewrite /trunc_stored pad_size (_ : (n < maxn (size u) L)%N = (n < size u)%N); last by move: (size u); lia.
case: ifP => // C; congr polyseq; apply/polyP=> i; rewrite coef_Poly ptrunc_coef.
case: ltnP => Ci; first by rewrite nth_take // pad_coef.
by rewrite nth_default // size_take pad_size; case: ifP => // C2; move: (size u) C C2 => y; lia.
Qed.
End Shift.

(** *** solutions modulo X^m *)
Section Mod.
Variable F : fieldType.
Local Notation P := {poly F}.
Implicit Types (e f u v : fmat P).

(** e u = f modulo X^m, for a matrix e of size n and columns less than t *)
Definition solves (n t m : nat) e u f : Prop := forall i j l, (i < n)%N -> (j < t)%N -> (l < m)%N ->
  (\sum_(k < n) e i k * u k j)`_l = (f i j)`_l.

Lemma coef_sum_eq n (f g f' g' : nat -> P) m l : (l < m)%N ->
  (forall k l, (k < n)%N -> (l < m)%N -> (f k)`_l = (f' k)`_l) -> (forall k l, (k < n)%N -> (l < m)%N -> (g k)`_l = (g' k)`_l) ->
  (\sum_(k < n) f k * g k)`_l = (\sum_(k < n) f' k * g' k)`_l.
Proof.
move=> Hl Hf Hg; rewrite !coef_sum; apply: eq_bigr => k _; rewrite !coefM; apply: eq_bigr => i _.
have Hi := ltn_ord i; rewrite Hf ?Hg //; move: Hl Hi; clear; move: (nat_of_ord i); lia.
Qed.

Lemma solves_eq n t m m' e e' u u' f f' : (m' <= m)%N ->
  (forall i j l, (i < n)%N -> (j < n)%N -> (l < m')%N -> (e i j)`_l = (e' i j)`_l) ->
  (forall i j l, (i < n)%N -> (j < t)%N -> (l < m')%N -> (u i j)`_l = (u' i j)`_l) ->
  (forall i j l, (i < n)%N -> (j < t)%N -> (l < m')%N -> (f i j)`_l = (f' i j)`_l) ->
  solves n t m e u f -> solves n t m' e' u' f'.
Proof.
move=> Hm He Hu Hf H i j l Hi Hj Hl; rewrite -Hf // -H //; last exact: leq_trans Hl Hm.
apply/esym; apply: (@coef_sum_eq n (e i) (fun k => u k j) (e' i) (fun k => u' k j) m') => // k l' Hk Hl'; [exact: He|exact: Hu].
Qed.

(** the product with the inverse *)
Lemma inverse_solves n t m iA e u f : inverse_mod n m iA e -> solves n t m e u f ->
  forall i j l, (i < n)%N -> (j < t)%N -> (l < m)%N -> (\sum_(k < n) iA i k * f k j)`_l = (u i j)`_l.
Proof.
move=> Hi Hs i j l Hii Hj Hl.
have -> : (\sum_(k < n) iA i k * f k j)`_l = (\sum_(k < n) iA i k * \sum_(h < n) e k h * u h j)`_l.
  by apply: (@coef_sum_eq n (iA i) (fun k => f k j) (iA i) (fun k => \sum_(h < n) e k h * u h j) m) => // k l' Hk Hl'; rewrite Hs.
have -> : \sum_(k < n) iA i k * (\sum_(h < n) e k h * u h j) = \sum_(h < n) (\sum_(k < n) iA i k * e k h) * u h j.
  under eq_bigr do rewrite mulr_sumr.
  by rewrite exchange_big; apply: eq_bigr => h _; rewrite mulr_suml; apply: eq_bigr => k _; rewrite mulrA.
have -> : (\sum_(h < n) (\sum_(k < n) iA i k * e k h) * u h j)`_l = (\sum_(h < n) ((i == h)%:R : P) * u h j)`_l.
  apply: (@coef_sum_eq n (fun h => \sum_(k < n) iA i k * e k h) (fun h => u h j) (fun h => (i == h)%:R) (fun h => u h j) m) => // h l' Hh Hl'.
  rewrite Hi //; case: eqP => _; rewrite ?coef1 ?coef0 //=.
rewrite (bigD1 (Ordinal Hii)) //= eqxx mul1r big1 ?addr0 // => h Hh.
by rewrite (_ : (i == h) = false) ?mul0r //; apply/negP=> /eqP E; case/negP: Hh; apply/eqP/val_inj.
Qed.

(** the solution is unique *)
Lemma solves_unique n t m iA e u v f : inverse_mod n m iA e -> solves n t m e u f -> solves n t m e v f ->
  forall i j l, (i < n)%N -> (j < t)%N -> (l < m)%N -> (u i j)`_l = (v i j)`_l.
Proof. by move=> Hi Hu Hv i j l H1 H2 H3; rewrite -(inverse_solves Hi Hu) // -(inverse_solves Hi Hv). Qed.
(** and it exists *)
Lemma solves_exists n t m iA e f : inverse_mod n m e iA -> solves n t m e (fun i j => \sum_(k < n) iA i k * f k j) f.
Proof.
move=> Hi i j l Hii Hj Hl.
have -> : \sum_(k < n) e i k * (\sum_(h < n) iA k h * f h j) = \sum_(h < n) (\sum_(k < n) e i k * iA k h) * f h j.
  under eq_bigr do rewrite mulr_sumr.
  by rewrite exchange_big; apply: eq_bigr => h _; rewrite mulr_suml; apply: eq_bigr => k _; rewrite mulrA.
have -> : (\sum_(h < n) (\sum_(k < n) e i k * iA k h) * f h j)`_l = (\sum_(h < n) ((i == h)%:R : P) * f h j)`_l.
  apply: (@coef_sum_eq n (fun h => \sum_(k < n) e i k * iA k h) (fun h => f h j) (fun h => (i == h)%:R) (fun h => f h j) m) => // h l' Hh Hl'.
  rewrite Hi //; case: eqP => _; rewrite ?coef1 ?coef0 //=.
rewrite (bigD1 (Ordinal Hii)) //= eqxx mul1r big1 ?addr0 // => h Hh.
by rewrite (_ : (i == h) = false) ?mul0r //; apply/negP=> /eqP E; case/negP: Hh; apply/eqP/val_inj.
Qed.

(** the second half of the solution *)
Lemma solves_high n t m h k e u f : m = (h + k)%N -> solves n t m e u f ->
  solves n t k e (fun i j => pshr h (u i j)) (fun i j => pshr h (f i j) - pshr h (\sum_(l < n) e i l * ptrunc h (u l j))).
Proof.
move=> Em Hs i j l Hi Hj Hl; rewrite coefB !pshr_coef -Hs //; last by rewrite Em ltn_add2l.
rewrite -coefB -sumrB.
rewrite [in RHS](eq_bigr (fun k : 'I_n => e i k * pshr h (u k j) * 'X^h)); last first.
  move=> k0 _; rewrite -mulrBr -mulrA; congr (_ * _); apply/polyP=> y.
  rewrite coefB ptrunc_coef coefMXn; case: ltnP => C; first by rewrite subrr.
  by rewrite subr0 pshr_coef; congr nth; lia.
by rewrite -mulr_suml coefMXn ifF; [congr nth; lia|lia].
Qed.
End Mod.

(** *** solve_DAC *)
Section Dac.
Variable F : fieldType.
Local Notation P := {poly F}.
Variables (garb : nat -> nat -> nat -> F) (mp : pmat F -> pmat F -> nat -> nat -> option (aoutcome (pmat F))).
Variables (mp_raw : smat F -> pmat F -> nat -> nat -> option (aoutcome (pmat F))).
Variables (n t T N : nat) (iA : fmat P) (f : pmat F -> option (aoutcome (pmat F))).
Implicit Types (A b x c : pmat F) (u : fmat P) (s : smat F).

(** s is the m x p matrix of the polynomials u, without leading zeros *)
Definition is_smat s (m p : nat) u : Prop :=
  [/\ sr s = m, sc s = p & forall i j, (i < m)%N -> (j < p)%N -> sent s i j = u i j :> seq F].
(** f multiplies by the matrix iA the matrices of degree less than m *)
Definition multiplies_by (m : nat) : Prop := forall b, nr b = n -> entries_below m b ->
  exists c, f b = Some (AOk c) /\ is_pmat c n (nc b) (fun i j => \sum_(k < n) iA i k * ent b k j).
(** the middle products that are needed for the precision N *)
Definition mp_ok : Prop := forall x c h k, (0 < h <= k)%N -> (h + k <= N)%N -> nr x = t -> nc x = n -> nr c = n -> nc c = n ->
  ~ zero_mat x -> entries_below h x -> entries_below (h + k) c ->
  exists o, mp x c h k.-1 = Some o /\ middle_of x c h k.-1 o.
(** g consecutive coefficients of an entry of u, before X^m, are not all zero *)
Definition gapless (g m : nat) u : Prop := forall i j o, (i < n)%N -> (j < t)%N -> (o + g <= m)%N ->
  exists2 l, (o <= l < o + g)%N & (u i j)`_l != 0.

Lemma normal_strans s u : is_smat s n t u -> normal_mat (strans s) /\ is_pmat (polys (strans s)) t n (fun i j => u j i).
Proof.
case=> R1 R2 H; split.
  apply/all_loop => i j; rewrite /= R1 R2 => Hi Hj; rewrite H //; exact: (valP (u j i)).
by split=> //= i j Hi Hj; rewrite H // polyseqK.
Qed.

Lemma storedE (c : pmat F) m p u : is_pmat c m p u -> is_smat (stored c) m p u.
Proof. by case=> R1 R2 H; split=> // i j Hi Hj; rewrite -H. Qed.

Lemma truncE al (x a : pmat F) m : is_pmat (pm_truncate al x a m) (nr a) (nc a) (fun i j => ptrunc m (ent a i j)).
Proof. exact: ewiseE. Qed.

Lemma solve_DACE fuel A b prec u : (0 < T)%N -> multiplies_by T -> mp_ok -> (0 < n)%N -> (0 < t)%N ->
  (0 < prec <= fuel)%N -> (prec <= N)%N -> nr A = n -> nc A = n -> nr b = n -> nc b = t -> entries_below prec A -> entries_below prec b ->
  (forall i j, (i < n)%N -> (j < t)%N -> size (u i j) <= prec)%N -> solves n t prec (ent A) u (ent b) ->
  inverse_mod n (minn T prec) iA (ent A) -> (prec <= T)%N \/ gapless (uphalf T) prec u ->
  exists s, solve_DAC garb mp mp_raw fuel A b prec f T = Some (AOk s) /\ is_smat s n t u.
Proof.
move=> T0 Hf Hmp n0 t0; elim: fuel A b prec u => [|fuel IH] A b prec u /andP[p0 Hpf] HN R1 R2 R3 R4 SA Sb Su Hs Hi Hg; first by lia.
rewrite /=; case: leqP => C.
  have [|c [-> [C1 C2 Hc]]] := Hf b R3; first by move=> i j A1 A2; apply: leq_trans (Sb i j A1 A2) C.
  rewrite /bindm; eexists; split; first by [].
  have [T1 T2 HT] := truncE true c c prec.
  apply: storedE; split; rewrite ?T1 ?T2 ?C1 ?C2 // => i j A1 A2; rewrite HT ?C1 ?C2 ?R4 // Hc ?R4 //.
  have E : minn T prec = prec by apply/minn_idPr.
  rewrite E in Hi; apply/polyP=> l; rewrite ptrunc_coef.
  case: ltnP => Cl; first exact: (inverse_solves Hi Hs).
  by rewrite nth_default //; apply: leq_trans (Su i j A1 A2) Cl.
have Hgl : gapless (uphalf T) prec u by case: Hg => // H; move: C H; clear; lia.
set h := prec./2; set k := (prec - h)%N.
have Ehk : prec = (h + k)%N by rewrite /k /h; clear; lia.
have [h0 Hhk] : (0 < h)%N /\ (h <= k <= h.+1)%N by move: C T0; rewrite /k /h; clear; lia.
have [gh gk] : (uphalf T <= h)%N /\ (uphalf T <= k)%N by move: C; rewrite /k /h; clear; lia.
have [[A1 A2 HA] [B1 B2 HB]] := (truncE false (new_pmat F) A h, truncE false (new_pmat F) b h).
set bA := pm_truncate _ _ A h; set bB := pm_truncate _ _ b h; rewrite -/bA in A1 A2 HA; rewrite -/bB in B1 B2 HB.
have [||||||||||||sol [-> Hsol]] := IH bA bB h (fun i j => ptrunc h (u i j)); rewrite ?A1 ?A2 ?B1 ?B2 //.
- by move: C Hpf T0 h0; rewrite /h; clear; lia.
- by move: HN; rewrite Ehk; clear; lia.
- by move=> i j X1 X2; rewrite HA -?A1 -?A2 // size_ptrunc.
- by move=> i j X1 X2; rewrite HB -?B1 -?B2 // size_ptrunc.
- by move=> i j X1 X2; apply: size_ptrunc.
- apply: solves_eq Hs; first by rewrite Ehk leq_addr.
  + by move=> i j l X1 X2 X3; rewrite HA ?R1 ?R2 // ptrunc_coef X3.
  + by move=> i j l X1 X2 X3; rewrite ptrunc_coef X3.
  + by move=> i j l X1 X2 X3; rewrite HB ?R3 ?R4 // ptrunc_coef X3.
- have Hle : (minn T h <= minn T prec)%N by move: Ehk; clear; lia.
  apply: inverse_mod_eq (inverse_mod_le Hle Hi) => // i j l X1 X2 X3.
  by rewrite HA ?R1 ?R2 // ptrunc_coef ifT //; move: X3; clear; lia.
- right=> i j o X1 X2 X3; have [|l L1 L2] := Hgl i j o X1 X2; first by move: X3 Ehk; clear; lia.
  by exists l => //; rewrite ptrunc_coef ifT //; move: L1 X3; clear; lia.
rewrite /bindm; have [NS [S1 S2 HS]] := normal_strans Hsol.
have [U1 U2 HU] := Hsol.
have [V1 V2 HV] := transposeE bA A; rewrite R1 R2 in V1 V2 HV.
rewrite /mp_stored NS.
have [|||||||||o [-> [res [-> [M1 M2 HM]]]]] := Hmp (polys (strans sol)) (transpose bA A) h k; rewrite ?V1 ?V2 ?S1 ?S2 //.
- by rewrite h0; move: Hhk; clear; lia.
- by rewrite -Ehk.
- move=> Z; have [|l L1 L2] := Hgl 0%N 0%N 0%N n0 t0; first by move: gh Ehk; clear; lia.
  have := Z 0%N 0%N; rewrite S1 S2 HS // => /(_ t0 n0)/(congr1 (fun p : P => p`_l)).
  rewrite ptrunc_coef coef0 ifT; last by move: L1 gh; clear; lia.
  by move/eqP; apply/negP.
- by move=> i j; rewrite S1 S2 => X1 X2; rewrite HS // size_ptrunc.
- move=> i j; rewrite V1 V2 => X1 X2; rewrite HV // -Ehk; apply: SA; rewrite ?R1 ?R2 //.
rewrite -/k.
have [W1 W2 HW] := transposeE bB res; rewrite V2 ?S1 in M1 M2 HM; rewrite M1 M2 in W1 W2 HW.
set tr := transpose bB res; rewrite -/tr in W1 W2 HW.
have [X1 X2 HX] : is_pmat (pm_rshift false res b (Z.of_nat h)) (nr b) (nc b) (fun i j => rshift (ent b i j) (Z.of_nat h)) by apply: ewiseE.
set rs := pm_rshift _ _ _ _; rewrite -/rs R3 R4 in X1 X2 HX.
have [|||c [Ec [C1 C2 HC]]] := @ewise2E F false true (fun p q => p - q) tr rs tr; rewrite ?X1 ?X2 ?W1 ?W2 //.
rewrite /pm_sub_to Ec X1 X2 in C1 C2 HC *.
set bA2 := pm_truncate _ _ A k.
have [Y1 Y2 HY] := truncE false (transpose bA A) A k; rewrite -/bA2 R1 R2 in Y1 Y2 HY.
have Hc i j : (i < n)%N -> (j < t)%N -> ent c i j = pshr h (ent b i j) - \poly_(l < k) (\sum_(q < n) ent A i q * ptrunc h (u q j))`_(h + l).
  move=> I1 J1; rewrite HC // HX // HW // HM // mid_entryE prednK; last by move: h0 Hhk; clear; lia.
  congr (_ - _); first by rewrite /rshift; case E: (Z.of_nat h) => [|z|z]; [congr pshr; lia|congr pshr; lia|lia].
  apply/polyP=> l; rewrite !coef_poly; case: ifP => // _; rewrite S2; congr nth; congr polyseq; apply: eq_bigr => q _.
  rewrite HS // HV // mulrC ptrunc_id //; apply: leqW; exact: size_ptrunc.
have [||||||||||||r [-> [Q1 Q2 HQ]]] := IH bA2 c k (fun i j => pshr h (u i j)); rewrite ?Y1 ?Y2 ?C1 ?C2 //.
- by move: C Hpf T0 h0; rewrite /k /h; clear; lia.
- by move: HN; rewrite Ehk; clear; lia.
- by move=> i j; rewrite Y1 Y2 => I1 I2; rewrite HY // size_ptrunc.
- move=> i j; rewrite C1 C2 => I1 I2; rewrite Hc //; apply/leq_sizeP=> l Hl; rewrite coefB pshr_coef coef_poly ltnNge Hl /= subr0.
  by apply: nth_default; apply: leq_trans (Sb i j _ _) _; rewrite ?R3 ?R4 //; rewrite Ehk leq_add2l.
- move=> i j I1 I2; apply/leq_sizeP=> l Hl; rewrite pshr_coef nth_default //; apply: leq_trans (Su i j I1 I2) _.
  by rewrite Ehk leq_add2l.
- apply: solves_eq (solves_high Ehk Hs) => //.
  + by move=> i j l I1 I2 I3; rewrite HY // ptrunc_coef I3.
  + by move=> i j l I1 I2 I3; rewrite Hc // !coefB coef_poly I3 !pshr_coef.
- have Hle : (minn T k <= minn T prec)%N by move: Ehk; clear; lia.
  apply: inverse_mod_eq (inverse_mod_le Hle Hi) => // i j l I1 I2 I3.
  by rewrite HY // ptrunc_coef ifT //; move: I3; clear; lia.
- right=> i j y I1 I2 I3; have [|l L1 L2] := Hgl i j (h + y)%N I1 I2; first by move: I3 Ehk; clear; lia.
  by exists (l - h)%N; [move: L1; clear; lia|rewrite pshr_coef subnKC //; move: L1; clear; lia].
rewrite /sm_add_shift U1 U2 Q1 Q2 !eqxx /=; eexists; split; first by [].
split=> //= i j I1 I2; rewrite HU // HQ //.
have Nz : pshr h (u i j) != 0.
  have [|l L1 L2] := Hgl i j h I1 I2; first by move: gk Ehk; clear; lia.
  apply: contraNneq L2 => /(congr1 (fun p : P => p`_(l - h))); rewrite pshr_coef coef0 subnKC; last by move: L1; clear; lia.
  by move=> ->.
rewrite add_normal ?size_ptrunc //; congr polyseq; apply/polyP=> l.
rewrite coefD ptrunc_coef mulrC coefMXn; case: ltnP => Cl; first by rewrite addr0.
by rewrite add0r pshr_coef subnKC.
Qed.
End Dac.

(** *** solve_series_high_precision *)
Section High.
Variable F : fieldType.
Local Notation P := {poly F}.
Variables (garb : nat -> nat -> nat -> F) (n t L M : nat) (iA : fmat P) (multA multI : pmat F -> option (aoutcome (pmat F))).
Variables (A b : pmat F) (U : fmat P).
Hypotheses (L0 : (0 < L)%N) (R1 : nr A = n) (R2 : nc A = n) (R3 : nr b = n) (R4 : nc b = t) (SA : entries_below L A).
Hypotheses (HI : multiplies_by n iA multI L) (HA : multiplies_by n (ent A) multA L).
Hypotheses (Hinv : inverse_mod n L iA (ent A)) (Hs : solves n t M (ent A) U (ent b)).

(** the block q of the solution *)
Definition block (q : nat) : fmat P := fun i j => ptrunc L (pshr (q * L) (U i j)).
Definition high_inv (q : nat) (st : smat F * pmat F * nat) : Prop :=
  [/\ sr st.1.1 = n, sc st.1.1 = t, forall i j, (i < n)%N -> (j < t)%N -> sent st.1.1 i j = pad (q.-1 * L) (ptrunc (q * L) (U i j)),
      is_pmat st.1.2 n t (block q.-1) & st.2 = (q * L)%N].

Lemma set_coeff_loop1 (v : nat -> F) (p : P) m k :
  (foldl (fun p k => set_coeff p k (v k - p`_k)) p (iota 0 m))`_k = if (k < m)%N then v k - p`_k else p`_k.
Proof.
elim: m k => [|m IH] k; first by [].
rewrite foldl_iotaR set_coeffE add0n; case: (k =P m) => [->|Nk]; first by rewrite IH ltnn ltnSn.
by rewrite IH; congr (if _ then _ else _); lia.
Qed.

Lemma block_low q i j : (0 < q)%N -> ptrunc (q * L) (U i j) = ptrunc (q.-1 * L) (U i j) + block q.-1 i j * 'X^(q.-1 * L).
Proof.
case: q => // q _; apply/polyP=> l; rewrite coefD coefMXn !ptrunc_coef pshr_coef mulSn.
case: ltnP => C1; case: ltnP => C2; rewrite ?addr0 ?add0r //; try lia.
  by rewrite ifT; [congr nth; lia|lia].
by rewrite ifF //; lia.
Qed.
Lemma block_high q i j : ptrunc (q * L) (U i j) + 'X^(q * L) * block q i j = ptrunc (q.+1 * L) (U i j).
Proof. by rewrite (@block_low q.+1) // mulrC. Qed.

Lemma step_solves q (upper : fmat P) : (0 < q)%N -> (q.+1 * L <= M)%N ->
  (forall i j k, (i < n)%N -> (j < t)%N -> (k < L)%N ->
    (upper i j)`_k = (ent b i j)`_(k + q * L) - (\sum_(l < n) ent A i l * block q.-1 l j)`_(L + k)) ->
  solves n t L (ent A) (block q) upper.
Proof.
move=> q0 HM Hu.
have EM : M = (q * L + (M - q * L))%N by move: HM; rewrite mulSn; clear; lia.
apply: solves_eq (solves_high EM Hs) => //; first by move: HM; rewrite mulSn; clear; lia.
  by move=> i j l I1 I2 I3; rewrite /block ptrunc_coef I3.
move=> i j l I1 I2 I3; rewrite Hu // coefB !pshr_coef [(l + _)%N]addnC; congr (_ - _).
rewrite (eq_bigr (fun k : 'I_n => ent A i k * ptrunc (q.-1 * L) (U k j) + ent A i k * block q.-1 k j * 'X^(q.-1 * L))); last first.
  by move=> k _; rewrite block_low // mulrDr mulrA.
rewrite big_split coefD /= -mulr_suml coefMXn ifF; last by move: q0; case: (q) => // q' _; rewrite mulSn; clear; lia.
rewrite coef_sum big1 ?add0r; first by congr nth; move: q0; case: (q) => // q' _; rewrite mulSn /=; clear; lia.
move=> k _; apply: nth_default; apply: leq_trans (size_mul_leq _ _) _.
have H1 : (size (ent A i k) <= L)%N by apply: SA; rewrite ?R1 ?R2.
have H2 : (size (ptrunc (q.-1 * L) (U k j)) <= q.-1 * L)%N by apply: size_ptrunc.
move: q0 H1 H2; case: (q) => // q' _; rewrite [(q'.+1 * L)%N]mulSn /=; clear -L0; move: (size _) (size _); lia.
Qed.

Lemma high_stepE q st : (0 < q)%N -> (q.+1 * L <= M)%N -> high_inv q st ->
  exists st', high_step garb L multA multI b st = Some (AOk st') /\ high_inv q.+1 st'.
Proof.
move=> q0 HM; case: st => [[u sol] sh] [Q1 Q2 HQ [S1 S2 HS] Esh]; rewrite /= in Q1 Q2 HQ S1 S2 HS Esh; rewrite /high_step Esh.
have [|up [-> [U1 U2 HU]]] := HA S1.
  by move=> i j; rewrite S1 S2 => I1 I2; rewrite HS // size_ptrunc.
rewrite {1}/bindm.
have [V1 V2 HV] : is_pmat (pm_rshift true up up (Z.of_nat L)) (nr up) (nc up) (fun i j => rshift (ent up i j) (Z.of_nat L)) by apply: ewiseE.
set rs := pm_rshift _ _ _ _; rewrite -/rs U1 U2 S2 in V1 V2 HV.
set upper := Pmat _ _ _.
have Hup i j k : (i < n)%N -> (j < t)%N -> (ent upper i j)`_k = if (k < L)%N then (ent b i j)`_(k + q * L) - (\sum_(l < n) ent A i l * block q.-1 l j)`_(L + k) else 0.
  move=> I1 I2; rewrite /upper /= winE; last by move=> i' j' A1 A2 ->.
  rewrite /= !add0n R3 R4 I1 I2 /= set_coeff_loop1.
  have -> : (ent rs i j)`_k = (\sum_(l < n) ent A i l * block q.-1 l j)`_(L + k).
    rewrite HV // HU ?S2 //; have -> : forall p : P, rshift p (Z.of_nat L) = pshr L p.
      by move=> p; rewrite /rshift; case E: (Z.of_nat L) => [|z|z]; [congr pshr; lia|congr pshr; lia|lia].
    by rewrite pshr_coef; congr nth; congr polyseq; apply: eq_bigr => l _; rewrite HS.
  case: ifP => // Ck; rewrite coef_sum big1 // => l _; apply: nth_default; apply: leq_trans (size_mul_leq _ _) _.
  have H1 : (size (ent A i l) <= L)%N by apply: SA; rewrite ?R1 ?R2.
  have H2 : (size (block q.-1 l j) <= L)%N by apply: size_ptrunc.
  by move: Ck H1 H2; clear -L0; move: (size _) (size _); lia.
have Hsv : solves n t L (ent A) (block q) (ent upper) by apply: step_solves => // i j k I1 I2 I3; rewrite Hup // I3.
have [||so [-> [W1 W2 HW]]] := HI (b := upper); first by rewrite /upper /= V1.
  move=> i j; rewrite [nr upper]V1 [nc upper]V2 => I1 I2; apply/leq_sizeP=> k Hk; rewrite Hup // ltnNge Hk //.
rewrite /bindm; have [T1 T2 HT] := truncE true so so L; rewrite W1 W2 [nc upper]V2 in T1 T2 HT.
have Hso : is_pmat (pm_truncate true so so L) n t (block q).
  split=> // i j I1 I2; rewrite HT // HW ?[nc upper]V2 //; apply/polyP=> l; rewrite ptrunc_coef.
  case: ltnP => Cl; first by rewrite (inverse_solves Hinv Hsv).
  by rewrite /block nth_default //; apply: leq_trans Cl; apply: size_ptrunc.
have [Z1 Z2 HZ] := storedE Hso.
rewrite /sm_add_shift Q1 Q2 Z1 Z2 !eqxx; eexists; split; first by [].
split=> //; last by rewrite mulSn addnC.
move=> i j I1 I2; transitivity (add_shift_to (garb i j) (sent u i j) (sent (stored (pm_truncate true so so L)) i j) (q * L)); first by [].
rewrite HQ // HZ // add_pad ?block_high //; last exact: size_ptrunc.
by rewrite ltn_mul2r L0; move: q0; clear; lia.
Qed.

Lemma high_loop m st : (m.+1 * L <= M)%N -> high_inv 1 st ->
  exists st', foldl (fun st _ => bindm st (high_step garb L multA multI b)) (Some (AOk st)) (iota 1 m) = Some (AOk st') /\ high_inv m.+1 st'.
Proof.
elim: m => [|m IH] HM H; first by exists st.
rewrite foldl_iotaR; have [|//|st' [-> H']] := IH.
  by apply: leq_trans HM; rewrite leq_mul2r; apply/orP; right.
exact: high_stepE.
Qed.

Lemma high_startE : (L <= M)%N -> exists c, multI (pm_truncate false (new_pmat F) b L) = Some (AOk c) /\
  high_inv 1 (stored (pm_truncate true c c L), pm_truncate true c c L, L).
Proof.
move=> HM; have [T1 T2 HT] := truncE false (new_pmat F) b L; rewrite R3 R4 in T1 T2 HT.
set tb := pm_truncate _ _ _ _; rewrite -/tb in T1 T2 HT.
have [||c [-> [C1 C2 HC]]] := HI (b := tb) => //.
  by move=> i j; rewrite T1 T2 => I1 I2; rewrite HT // size_ptrunc.
exists c; split=> //; have [W1 W2 HW] := truncE true c c L; rewrite C1 C2 T2 in W1 W2 HW.
have Hb : is_pmat (pm_truncate true c c L) n t (fun i j => ptrunc L (U i j)).
  split=> // i j I1 I2; rewrite HW // HC ?T2 //; apply/polyP=> l; rewrite !ptrunc_coef; case: ifP => // Cl.
  have Hs1 : solves n t L (ent A) U (ent tb).
    by apply: solves_eq HM _ _ _ Hs => // i' j' l' X1 X2 X3; rewrite HT // ptrunc_coef X3.
  exact: (inverse_solves Hinv Hs1).
have [Z1 Z2 HZ] := storedE Hb.
split=> //; last by rewrite mul1n.
  by move=> i j I1 I2; rewrite /= mul1n mul0n pad_id // -HZ.
split=> // i j I1 I2; case: Hb => _ _ -> //; rewrite /block mul0n; congr ptrunc.
by apply/polyP=> l; rewrite pshr_coef.
Qed.
End High.
