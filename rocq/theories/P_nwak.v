(** Property C67: the naive product and Waksman's product of matrices of polynomials (ntl-extras). *)
From mathcomp Require Import all_ssreflect all_algebra zify.
From Verif Require Import A_base A_mul_model N_multi_model N_multi_proof N_shift_proof N_pmat_model N_trs_model N_trs_proof N_geo2_proof.
From Verif Require Import N_util_model N_util_proof N_wak_model N_ring2 P_ntrs.
Set Implicit Arguments.
Unset Strict Implicit.
Unset Printing Implicit Defensive.
Import GRing.Theory.
Local Open Scope ring_scope.

Lemma vec_win (T : Type) (g : nat -> (nat -> T) -> T) (v : nat -> T) c n j :
  (forall j v v', v j = v' j -> g j v = g j v') ->
  foldl (fun v j => upd v j (g j v)) v (iota c n) j = if (c <= j < c + n)%N then g j v else v j.
Proof.
move=> L; elim: n j => [|n IH] j; first by rewrite /= addn0 (_ : (c <= j < c)%N = false) //; lia.
rewrite foldl_iotaR /upd; case: (j =P (c + n)%N) => [->|N].
  rewrite (_ : (c <= c + n < c + n.+1)%N); last by lia.
  by apply: L; rewrite IH (_ : (c <= c + n < c + n)%N = false) //; lia.
by rewrite IH /=; congr (if _ then _ else _); lia.
Qed.

Section C67.
Variable F : fieldType.
Local Notation P := {poly F}.
Implicit Types (a b c x : pmat F) (al : bool).

(** *** the naive product *)
Lemma naive_entry a b i j (M : fmat P) v : (0 < v)%N ->
  let M' := foldl (fun M k => upd2 M i j (M i j + ent a i k * ent b k j)) (upd2 M i j (ent a i 0%N * ent b 0%N j)) (iota 1 (v - 1)) in
  forall i' j', M' i' j' = if (i' == i) && (j' == j) then \sum_(k < v) ent a i k * ent b k j else M i' j'.
Proof.
case: v => // v _; rewrite subn1 /=; elim: v => [|v IH] i' j'.
  by rewrite /= upd2E big_ord_recl big_ord0 addr0.
rewrite foldl_iotaR upd2E IH eqxx /=; case: ifP => C; last by rewrite IH C.
by rewrite eqxx /= [in RHS]big_ord_recr add1n.
Qed.

Lemma naiveE al x a b : (nc a <= nr b)%N -> (0 < nc a)%N || (nr a == 0)%N || (nc b == 0)%N ->
  product_of a b (multiply_naive al x a b).
Proof.
move=> Ed E; rewrite /multiply_naive; case: ifP => [C|_]; first by move: C E; lia.
eexists; split; first by []; split=> // i j Hi Hj /=.
set M0 := if _ then _ else _; move: M0 => M0.
have v0 : (0 < nc a)%N by move: E Hi Hj; lia.
transitivity (win (fun i j _ => \sum_(k < nc a) ent a i k * ent b k j) 0 (nr a) 0 (nc b) M0 i j); last first.
  by rewrite winE // !add0n Hi Hj.
rewrite /win.
have inner u n (M M' : fmat P) : (forall i j, M i j = M' i j) -> forall i j,
    foldl (fun M j => foldl (fun M k => upd2 M u j (M u j + ent a u k * ent b k j)) (upd2 M u j (ent a u 0%N * ent b 0%N j)) (iota 1 (nc a - 1))) M (iota 0 n) i j =
    foldl (fun M j => upd2 M u j (\sum_(k < nc a) ent a u k * ent b k j)) M' (iota 0 n) i j.
  move=> H; elim: n => [|n IH] i' j'; first exact: H.
  rewrite [in LHS]foldl_iotaR [in RHS]foldl_iotaR naive_entry // upd2E add0n IH; case: ifP => // /andP[/eqP-> /eqP->] //.
suff H m : forall M M' : fmat P, (forall i j, M i j = M' i j) -> forall i j,
    foldl (fun M i => foldl (fun M j => foldl (fun M k => upd2 M i j (M i j + ent a i k * ent b k j)) (upd2 M i j (ent a i 0%N * ent b 0%N j)) (iota 1 (nc a - 1))) M (iota 0 (nc b))) M (iota 0 m) i j =
    foldl (fun M i => foldl (fun M j => upd2 M i j (\sum_(k < nc a) ent a i k * ent b k j)) M (iota 0 (nc b))) M' (iota 0 m) i j.
  exact: H.
elim: m => [|m IH] M M' H i' j'; first exact: H.
by rewrite [in LHS]foldl_iotaR [in RHS]foldl_iotaR; apply: inner => i2 j2; apply: IH.
Qed.

(** *** Waksman's product *)
Definition wak_inv (m p : nat) (c0 : nat -> nat -> P) (d0 e0 : nat -> P) (st : fmat P * (nat -> P) * (nat -> P)) : Prop :=
  [/\ forall l k, (l < m)%N -> (k < p)%N -> st.1.1 l k = c0 l k,
      forall k, (k < p)%N -> st.1.2 k = d0 k &
      forall l, (0 < l)%N -> (l < m)%N -> st.2 l = e0 l].

Lemma wak_stepE first a b j2 st : (0 < nr a)%N -> (0 < nc b)%N ->
  let acc (old new : P) := if first then new else old + new in
  wak_inv (nr a) (nc b) (fun l k => acc (st.1.1 l k) (wak_plus a b j2 l k))
    (fun k => acc (st.1.2 k) (wak_minus a b j2 0%N k)) (fun l => acc (st.2 l) (wak_minus a b j2 l 0%N)) (wak_step first a b j2 st).
Proof.
move=> m0 p0 acc; case: st => [[c d] e].
pose g l k (M : fmat P) := acc (M l k) (wak_plus a b j2 l k).
have -> : wak_step first a b j2 (c, d, e) = (win g 1 (nr a - 1) 1 (nc b - 1) (win g 1 (nr a - 1) 0 1 (win g 0 1 0 (nc b) c)),
    foldl (fun (d : nat -> P) k => upd d k (acc (d k) (wak_minus a b j2 0%N k))) d (iota 0 (nc b)),
    foldl (fun (e : nat -> P) l => upd e l (acc (e l) (wak_minus a b j2 l 0%N))) e (iota 1 (nr a - 1))) by [].
have L : local_g g by move=> l k M M' E; rewrite /g E.
split=> /=.
- move=> l k Hl Hk; rewrite winE //; case: ifP => C1.
    rewrite /g winE // ifF; last by lia.
    by rewrite winE // ifF //; lia.
  rewrite winE //; case: ifP => C2.
    by rewrite /g winE // ifF //; lia.
  by rewrite winE // ifT //; lia.
- move=> k Hk; rewrite (vec_win (g := fun k (d : nat -> P) => acc (d k) (wak_minus a b j2 0%N k))); last by move=> j v v' ->.
  by rewrite add0n Hk.
- move=> l l0 Hl; rewrite (vec_win (g := fun l (e : nat -> P) => acc (e l) (wak_minus a b j2 l 0%N))); last by move=> j v v' ->.
  by rewrite ifT //; lia.
Qed.

Lemma wak_loopE a b M h : (0 < nr a)%N -> (0 < nc b)%N -> (0 < h)%N ->
  wak_inv (nr a) (nc b) (fun l k => \sum_(j < h) wak_plus a b (2 * j + 1) l k)
    (fun k => \sum_(j < h) wak_minus a b (2 * j + 1) 0%N k) (fun l => \sum_(j < h) wak_minus a b (2 * j + 1) l 0%N)
    (foldl (fun st j => wak_step false a b (2 * j - 1) st) (wak_step true a b 1 (M, fun _ => 0, fun _ => 0)) (iota 2 (h - 1))).
Proof.
move=> m0 p0; case: h => // h _; rewrite subn1 /=; elim: h => [|h [IH1 IH2 IH3]].
  have [H1 H2 H3] := wak_stepE true 1 (M, fun _ => 0, fun _ => 0) m0 p0.
  split=> [l k Hl Hk|k Hk|l l0 Hl]; rewrite ?H1 ?H2 ?H3 // big_ord_recl big_ord0 addr0 /=; congr (_ _ _ _ _); lia.
rewrite foldl_iotaR; move: (foldl _ _ _) IH1 IH2 IH3 => st IH1 IH2 IH3.
have [H1 H2 H3] := wak_stepE false (2 * (2 + h) - 1) st m0 p0.
have E : (2 * (2 + h) - 1 = 2 * h.+1 + 1)%N by lia.
by split=> [l k Hl Hk|k Hk|l l0 Hl]; rewrite ?H1 ?H2 ?H3 // big_ord_recr /= E ?IH1 ?IH2 ?IH3.
Qed.

Lemma wak_finalE m p st (C : nat -> nat -> P) (D E : nat -> P) : (0 < m)%N -> (0 < p)%N -> wak_inv m p C D E st ->
  let h (p : P) : P := (2%:R : F)^-1 *: p in
  forall l k, (l < m)%N -> (k < p)%N -> wak_final m p st l k =
    if (k == 0)%N then if (l == 0)%N then C 0%N 0%N - h (D 0%N + C 0%N 0%N) else C l 0%N - h (E l + C l 0%N)
    else if (l == 0)%N then C 0%N k - h (D k + C 0%N k)
    else C l k - (h (D k + C 0%N k) - h (D 0%N + C 0%N 0%N) + h (E l + C l 0%N)).
Proof.
case: st => [[c d] e] m0 p0 [HC HD HE] h; rewrite /= in HC HD HE.
rewrite /wak_final; set st := foldl _ (c, e) _.
have [Hc He] : (forall l k, st.1 l k = if (0 < l < m)%N && (k == 0)%N then c l k - h (e l + c l 0%N) else c l k) /\
    (forall l, (0 < l)%N -> (l < m)%N -> st.2 l = h (e l + c l 0%N)).
  have : (forall l k, st.1 l k = if (0 < l < m)%N && (k == 0)%N then c l k - h (e l + c l 0%N) else c l k) /\
    (forall l, st.2 l = if (0 < l < m)%N then h (e l + c l 0%N) else e l).
    rewrite /st; have -> : m = (1 + (m - 1))%N by lia.
    rewrite addKn; elim: (m - 1)%N => [|n [IH1 IH2]].
      by split=> [l k|l] /=; rewrite ifF //; lia.
    rewrite foldl_iotaR; move: (foldl _ _ _) IH1 IH2 => [c' e'] /= IH1 IH2.
    have F1 : e' (1 + n)%N = e (1 + n)%N by rewrite IH2 ifF //; lia.
    have F2 k : c' (1 + n)%N k = c (1 + n)%N k by rewrite IH1 ifF //; lia.
    split=> [l k|l].
      rewrite upd2E !upd_eq F1 !F2; case: ifP => [/andP[/eqP-> /eqP->]|C1]; first by rewrite ifT //; lia.
      by rewrite IH1; congr (if _ then _ else _); lia.
    rewrite /upd; case: (l =P (1 + n)%N) => [->|N]; first by rewrite eqxx F1 F2 ifT //; lia.
    by rewrite IH2; congr (if _ then _ else _); lia.
  by case=> A B; split=> // l l0 Hl; rewrite B l0 Hl.
case: st Hc He => c1 e1 /= Hc He.
have c00 k : c1 0%N k = c 0%N k by rewrite Hc.
set c2 := upd2 c1 0%N 0%N _.
set buf0 := _ *: (d 0%N + _).
have inner (cc : fmat P) k z i j : foldl (fun (c : fmat P) l => upd2 c l k (c l k - (z + e1 l))) cc (iota 1 (m - 1)) i j =
    if (0 < i < m)%N && (j == k) then cc i j - (z + e1 i) else cc i j.
  have -> : m = (1 + (m - 1))%N by lia.
  rewrite addKn; elim: (m - 1)%N i j => [|n IH] i j; first by rewrite /= ifF //; lia.
  rewrite foldl_iotaR upd2E; case: ifP => [/andP[/eqP-> /eqP->]|C1].
    by rewrite IH ifF ?ifT //; lia.
  by rewrite IH; congr (if _ then _ else _); lia.
have H n : (n <= p - 1)%N -> forall l k, (l < m)%N -> (k < p)%N ->
   foldl (fun (c : fmat P) k =>
    let buf1 := (2%:R)^-1 *: (d k + c 0%N k) in
    let c := upd2 c 0%N k (c 0%N k - buf1) in
    let buf1 := buf1 - buf0 in
    foldl (fun (c : fmat P) l => upd2 c l k (c l k - (buf1 + e1 l))) c (iota 1 (m - 1))) c2 (iota 1 n) l k =
   if (0 < k < 1 + n)%N then if (l == 0)%N then c2 0%N k - h (d k + c2 0%N k) else c2 l k - (h (d k + c2 0%N k) - buf0 + e1 l) else c2 l k.
  elim: n => [|n IH] Hn l k Hl Hk; first by rewrite ifF //; lia.
  rewrite foldl_iotaR /= inner; set cc := foldl _ c2 _ in IH *.
  have K i : (i < m)%N -> cc i (1 + n)%N = c2 i (1 + n)%N by move=> Hi; rewrite IH //; [rewrite ifF //; lia|lia|lia].
  rewrite !K // !upd2E; case: ifP => C1.
    have [Ek l0] : k = (1 + n)%N /\ (l == 0)%N = false by split; lia.
    by rewrite l0 /= Ek K // ifT //; lia.
  case: ifP => [/andP[/eqP-> /eqP->]|C2]; first by rewrite ifT //; lia.
  rewrite IH //; last by lia.
  by congr (if _ then _ else _); lia.
move=> l k Hl Hk; rewrite H //.
have -> : (0 < k < 1 + (p - 1))%N = (k != 0)%N by lia.
rewrite /buf0 /c2 !upd2E c00.
case: (k =P 0%N) => [->|K0]; case: (l =P 0%N) => [->|L0]; rewrite ?andbF /= ?c00 ?HD ?HC //.
- rewrite Hc ifT; last by lia.
  by rewrite !HC ?HE //; lia.
- rewrite He; [|lia|lia]; rewrite Hc ifF; last by lia.
  by rewrite !HC ?HE //; lia.
Qed.

Lemma halve (z : P) : (2%:R : F) != 0 -> (2%:R : F)^-1 *: (z + z) = z.
Proof. by move=> N; rewrite -mulr2n -scaler_nat scalerA mulVf // scale1r. Qed.

Lemma sum_pairs (f : nat -> P) n : \sum_(k < n) f k =
  \sum_(j < n./2) (f (2 * j + 1 - 1)%N + f (2 * j + 1)%N) + (if odd n then f (n - 1)%N else 0).
Proof.
have E h : \sum_(k < 2 * h) f k = \sum_(j < h) (f (2 * j + 1 - 1)%N + f (2 * j + 1)%N).
  elim: h => [|h IH]; first by rewrite !big_ord0.
  have -> : (2 * h.+1 = (2 * h).+2)%N by lia.
  by rewrite big_ord_recr big_ord_recr /= IH big_ord_recr /= addn1 subn1 /= addrA.
have En : n = (odd n + 2 * n./2)%N by rewrite mul2n odd_double_half.
have S m : n = m -> \sum_(k < n) f k = \sum_(k < m) f k by move=> ->.
rewrite (S _ En); case: (odd n) En => En; last by rewrite add0n E addr0.
by rewrite add1n big_ord_recr /= E; congr (_ + f _); lia.
Qed.

Lemma waksmanE al x a b : (nc a <= nr b)%N -> (0 < nr a)%N -> (0 < nc b)%N -> (1 < nc a)%N -> (2%:R : F) != 0 ->
  product_of a b (multiply_waksman al x a b).
Proof.
move=> Ed m0 p0 n1 two; rewrite /multiply_waksman (negbTE two) /= ltnNge n1 /= (_ : _ || _ = false); last by lia.
set M0 := (if _ == _ then _ else _); move: M0 => M0.
eexists; split; first by []; split=> // i j Hi Hj /=.
have h0 : (0 < (nc a)./2)%N by lia.
have W := wak_finalE m0 p0 (wak_loopE M0 m0 p0 h0).
set c := wak_final _ _ _ in W *.
rewrite (sum_pairs (fun k => ent a i k * ent b k j)).
pose A l := \sum_(t < (nc a)./2) ent a l (2 * t + 1 - 1)%N * ent a l (2 * t + 1)%N.
pose B k := \sum_(t < (nc a)./2) ent b (2 * t + 1 - 1)%N k * ent b (2 * t + 1)%N k.
pose X l k := \sum_(t < (nc a)./2) (ent a l (2 * t + 1 - 1)%N * ent b (2 * t + 1 - 1)%N k + ent a l (2 * t + 1)%N * ent b (2 * t + 1)%N k).
have HC l k : \sum_(t < (nc a)./2) wak_plus a b (2 * t + 1) l k = A l + B k + X l k.
  rewrite -!big_split /=; apply: eq_bigr => t _; rewrite /wak_plus.
  exact: wak_plus_id.
have HD l k : \sum_(t < (nc a)./2) wak_minus a b (2 * t + 1) l k = A l + B k - X l k.
  rewrite -!big_split -sumrB /=; apply: eq_bigr => t _; rewrite /wak_minus.
  exact: wak_minus_id.
have HS l k : (2%:R : F)^-1 *: ((A l + B k - X l k) + (A l + B k + X l k)) = A l + B k.
  by rewrite addrACA addNr addr0 halve.
have Hc : c i j = X i j.
  rewrite W // !(HC, HD) !HS; case: (j =P 0%N) => [->|_]; case: (i =P 0%N) => [->|_]; rewrite [A _ + B _ + X _ _]addrC ?addrK //.
  by rewrite wak_tail_id addrK.
case: ifP => Ho; last by rewrite Hc addr0.
rewrite winE; last by move=> u v M M' ->.
by rewrite !add0n Hi Hj /= Hc.
Qed.

(** c = a b, whatever c contains before, also when it is one of the operands *)
Theorem C67_naive al x a b : nc a = nr b -> (0 < nc a)%N -> product_of a b (multiply_naive al x a b).
Proof. by move=> E v0; apply: naiveE; rewrite ?E // -E v0. Qed.
Theorem C67_waksman al x a b : nc a = nr b -> (0 < nc a)%N -> (0 < nr a)%N -> (0 < nc b)%N ->
  product_of a b (multiply_waksman al x a b).
Proof.
move=> E v0 m0 p0; case: (boolP (((2%:R : F) == 0) || (nc a < 2)%N)) => [C|/norP[C n2]].
  by rewrite /multiply_waksman C; apply: C67_naive.
by apply: waksmanE => //; [rewrite E|rewrite ltnNge -ltnS].
Qed.

(** matrices without columns, by matrices without rows: a[0][0] and b[0][0] are read although they do not exist *)
Theorem C67_naive_empty_refuted al x a b : nc a = 0%N -> (0 < nr a)%N -> (0 < nc b)%N ->
  multiply_naive al x a b = AUB /\ multiply_waksman al x a b = AUB.
Proof.
move=> E m0 p0; have H : multiply_naive al x a b = AUB by rewrite /multiply_naive E m0 p0.
by rewrite /multiply_waksman E orbT.
Qed.
(** an empty product is not computed either by Waksman's algorithm: the entry (0, 0) of the result is used *)
Theorem C67_waksman_empty_refuted al x a b : (2%:R : F) != 0 -> (1 < nc a)%N -> nr a = 0%N \/ nc b = 0%N ->
  multiply_waksman al x a b = AUB.
Proof.
move=> two n1 H; rewrite /multiply_waksman (negbTE two) /= ltnNge n1 /= ifT //.
by case: H => ->; rewrite // orbT.
Qed.
End C67.

(** a product of 2 x 5 by 5 x 3 matrices over the rationals *)
Example C67_met :
  let a := Pmat 2 5 (fun i j => 'X^(i + j) : {poly rat}) in let b := Pmat 5 3 (fun i j => 'X^i + 1 : {poly rat}) in
  ((2%:R : rat) != 0) /\ product_of a b (multiply_waksman false a a b).
Proof. by move=> a b; split=> //; apply: C67_waksman. Qed.

Print Assumptions C67_naive.
Print Assumptions C67_waksman.
Print Assumptions C67_naive_empty_refuted.
Print Assumptions C67_waksman_empty_refuted.
