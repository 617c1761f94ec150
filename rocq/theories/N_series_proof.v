(** Power series division. *)
From mathcomp Require Import all_ssreflect all_algebra zify.
From Verif Require Import A_base A_mul_model N_poly_model.
Set Implicit Arguments.
Unset Strict Implicit.
Unset Printing Implicit Defensive.
Import GRing.Theory.
Local Open Scope ring_scope.

Section Series.
Variable F : fieldType.
Local Notation P := {poly F}.
Implicit Types (p q a b x : P).

(** equality modulo X^m *)
Definition eqm (m : nat) p q := forall i, (i < m)%N -> p`_i = q`_i.

Lemma eqm_refl m p : eqm m p p. Proof. by []. Qed.
Lemma eqm_sym m p q : eqm m p q -> eqm m q p. Proof. by move=> H i /H. Qed.
Lemma eqm_trans m p q r : eqm m p q -> eqm m q r -> eqm m p r.
Proof. by move=> H1 H2 i Hi; rewrite H1 ?H2. Qed.
Lemma eqm_le m n p q : (m <= n)%N -> eqm n p q -> eqm m p q.
Proof. by move=> L H i Hi; apply: H; exact: leq_trans Hi L. Qed.
Lemma eqm_add m p p' q q' : eqm m p p' -> eqm m q q' -> eqm m (p + q) (p' + q').
Proof. by move=> H1 H2 i Hi; rewrite !coefD H1 ?H2. Qed.
Lemma eqm_opp m p p' : eqm m p p' -> eqm m (- p) (- p').
Proof. by move=> H1 i Hi; rewrite !coefN H1. Qed.
Lemma eqm_mul m p p' q q' : eqm m p p' -> eqm m q q' -> eqm m (p * q) (p' * q').
Proof.
move=> H1 H2 i Hi; rewrite !coefM; apply: eq_bigr => j _.
have Lj := ltn_ord j.
by rewrite H1 ?H2 //; lia.
Qed.
Lemma eqm_Xn k m p q : eqm m p q -> eqm (k + m) ('X^k * p) ('X^k * q).
Proof.
move=> H i Hi; rewrite !coefXnM; case: ltnP => // C; apply: H; lia.
Qed.
Lemma eqm_trunc m p : eqm m (ptrunc m p) p.
Proof. by move=> i Hi; rewrite coef_poly Hi. Qed.
Lemma size_ptrunc m p : (size (ptrunc m p) <= m)%N. Proof. exact: size_poly. Qed.

Lemma eqmP m p q : reflect (eqm m p q) (('X^m : P) %| p - q).
Proof.
apply: (iffP idP) => [/dvdpP[r E] i Hi|H].
  by apply/eqP; rewrite -subr_eq0 -coefB E coefMXn Hi.
apply/dvdpP; exists (\poly_(i < size (p - q) - m) (p - q)`_(m + i)).
apply/polyP=> i; rewrite coefMXn coef_poly; case: ltnP => C; first by rewrite coefB H // subrr.
case: ltnP => C2; first by rewrite subnKC.
by apply: nth_default; move: (size _) C2 => u; lia.
Qed.

(** ** cyclic convolution *)
Lemma size_cyc_mod k : size ('X^(2 ^ k) - 1 : P) = (2 ^ k).+1.
Proof. by rewrite size_addl size_polyXn // size_opp size_poly1 ltnS expn_gt0. Qed.

Lemma size_cyc k p : (size (cyc k p) <= 2 ^ k)%N.
Proof.
rewrite -ltnS -(size_cyc_mod k) /cyc ltn_modp -size_poly_eq0 size_cyc_mod //.
Qed.

Lemma cyc_small k p : (size p <= 2 ^ k)%N -> cyc k p = p.
Proof. by move=> H; rewrite /cyc modp_small // size_cyc_mod ltnS. Qed.

Lemma cyc_mul k p q : cyc k (cyc k p * cyc k q) = cyc k (p * q).
Proof. by rewrite /cyc modp_mul mulrC modp_mul mulrC. Qed.

Lemma cyc_coef k p i : (size p <= 2 * 2 ^ k)%N -> (i < 2 ^ k)%N -> (cyc k p)`_i = p`_i + p`_(i + 2 ^ k).
Proof.
move=> H Hi; set N := (2 ^ k)%N in H Hi *.
pose lo : P := \poly_(j < N) p`_j; pose hi : P := \poly_(j < N) p`_(j + N).
have E : p = hi * ('X^N - 1) + (lo + hi).
  rewrite mulrBr mulr1 addrACA addrA subrK addrC; apply/polyP=> j; rewrite coefD coefMXn !coef_poly.
  case: (ltnP j N) => C; first by rewrite addr0.
  rewrite add0r; case: ltnP => C2; first by rewrite subnK.
  by rewrite nth_default //; move: (size p) H => sz; lia.
have -> : cyc k p = lo + hi.
  rewrite /cyc -/N {1}E modpD modp_mull add0r modp_small // size_cyc_mod ltnS.
  by apply: (leq_trans (size_add _ _)); rewrite geq_max !size_poly.
by rewrite coefD !coef_poly Hi.
Qed.

Lemma fftmul_cyc k p q : fftmul k (cyc k p) (cyc k q) = cyc k (p * q).
Proof. exact: cyc_mul. Qed.

Lemma size_mul_leN (m n : nat) p q : (size p <= m)%N -> (size q <= n)%N -> (size (p * q)%R <= (m + n).-1)%N.
Proof.
move=> Hp Hq; apply: leq_trans (size_mul_leq p q) _; move: (size p) (size q) Hp Hq => u v; lia.
Qed.

Lemma slice0 (n : nat) p : \poly_(i < n) p`_(0 + i) = ptrunc n p.
Proof. by []. Qed.

(** ** one Newton step *)
Lemma newton_stepP a x t : (size x <= 2 ^ t)%N -> eqm (2 ^ t) (a * x) 1 ->
  (size (newton_step a x t) <= 2 ^ t.+1)%N /\ eqm (2 ^ t.+1) (a * newton_step a x t) 1.
Proof.
move=> Sx Hx; rewrite /newton_step expnS; set k := (2 ^ t)%N in Sx Hx *.
have k0 : (0 < k)%N by rewrite expn_gt0.
split; first exact: size_poly.
have k2 : ((2 * k).-1.+1 = 2 * k)%N by lia.
rewrite /tofft !fftmul_cyc subn0 k2 (slice0 (2 * k) a).
pose A := ptrunc (2 * k) a; rewrite -/A.
have -> : (2 * k - k = k)%N by lia.
rewrite /fromfft !subn0 k2 prednK //.
have -> : (2 * k - k = k)%N by lia.
rewrite (slice0 k).
set p1 := \poly_(i < k) _.
have Sp : (size p1 <= k)%N by exact: size_poly.
have SA : (size (A * x)%R <= 3 * k)%N.
  by apply: leq_trans (size_mul_leN (size_ptrunc _ _) Sx) _; lia.
have p1E i : (i < k)%N -> p1`_i = (a * x)`_(k + i).
  move=> Hi; rewrite coef_poly Hi cyc_coef ?expnS -/k; last by lia.
    rewrite [X in _ + X]nth_default ?addr0; last by apply: leq_trans SA _; lia.
    by apply: (eqm_mul (@eqm_trunc (2 * k) a) (@eqm_refl (2 * k) x)); lia.
  by apply: leq_trans SA _; lia.
rewrite cyc_small; last by apply: leq_trans (size_mul_leN Sp Sx) _; rewrite expnS -/k; lia.
set p2 := ptrunc k (p1 * x).
have -> : \poly_(i < 2 * k) (if (i < k)%N then x`_i else - p2`_(i - k)) = x - 'X^k * p2.
  apply/polyP=> i; rewrite coef_poly coefB coefXnM; case: (ltnP i k) => C.
    by rewrite subr0; case: ltnP => // C2; lia.
  rewrite (nth_default _ (leq_trans Sx C)) sub0r; case: ltnP => // C2.
  by rewrite [p2`__]nth_default ?oppr0 //; apply: leq_trans (size_ptrunc _ _) _; lia.
have E1 : eqm (2 * k) (a * x) (1 + 'X^k * p1).
  move=> i Hi; rewrite coefD coefXnM; case: ltnP => C; first by rewrite addr0 Hx.
  rewrite coef1 p1E; last by lia.
  by rewrite subnKC // (_ : (i == 0%N) = false) ?add0r //; lia.
rewrite mulrBr mulrCA.
have E2 : eqm (2 * k) ('X^k * (a * p2)) ('X^k * p1).
  have -> : (2 * k = k + k)%N by lia.
  apply: eqm_Xn; apply: (@eqm_trans _ _ (a * (p1 * x))); first exact: eqm_mul (@eqm_refl _ _) (@eqm_trunc _ _).
  by rewrite mulrCA -[X in eqm _ _ X]mulr1; apply: eqm_mul.
apply: (@eqm_trans _ _ (1 + 'X^k * p1 - 'X^k * p1)); last by rewrite addrK.
exact: eqm_add E1 (eqm_opp E2).
Qed.

Lemma newton_loopP fuel a x t m : (m <= fuel + 2 * 2 ^ t)%N -> (2 ^ t < m)%N -> (size x <= 2 ^ t)%N -> eqm (2 ^ t) (a * x) 1 ->
  exists x' t', [/\ newton_loop fuel a x t m = Some (x', t'), (size x' <= 2 ^ t')%N, eqm (2 ^ t') (a * x') 1
    & (2 ^ t' < m <= 2 * 2 ^ t')%N].
Proof.
elim: fuel x t => [|fuel IH] x t Hf Ht Sx Hx /=.
  by exists x, t; rewrite ifT //; split=> //; rewrite Ht.
case: leqP => C; first by exists x, t; split=> //; rewrite Ht.
have [S1 H1] := newton_stepP Sx Hx.
have k0 : (0 < 2 ^ t)%N by rewrite expn_gt0.
by apply: IH => //; rewrite expnS; lia.
Qed.

(** ** the last step *)
Lemma last_smallP b a x t m : (size x <= 2 ^ t)%N -> eqm (2 ^ t) (a * x) 1 -> (2 ^ t < m <= 2 * 2 ^ t)%N ->
  (size a <= 2 ^ t)%N -> (size b <= 2 ^ t)%N -> eqm m (a * newton_last_small b a x t m) b.
Proof.
move=> Sx Hx Hm Sa Sb; rewrite /newton_last_small; set k := (2 ^ t)%N in Sx Hx Hm Sa Sb *.
have k0 : (0 < k)%N by rewrite expn_gt0.
rewrite !fftmul_cyc; set r0 := fromfft (cyc t.+1 (x * b)) 0 k.-1.
have E0 : r0 = ptrunc k (x * b).
  rewrite /r0 /fromfft subn0 prednK // (slice0 k) cyc_small // expnS -/k.
  by apply: leq_trans (size_mul_leN Sx Sb) _; lia.
have S0 : (size r0 <= k)%N by rewrite E0 size_ptrunc.
have H0 : eqm k (a * r0) b.
  rewrite E0; apply: (@eqm_trans _ _ (a * (x * b))); first exact: eqm_mul (@eqm_refl _ _) (@eqm_trunc _ _).
  by rewrite mulrA -[X in eqm _ _ X]mul1r; apply: eqm_mul.
have Sra : (size (r0 * a)%R <= (k + k).-1)%N by exact: size_mul_leN.
set q := fromfft (cyc t (r0 * a)) 0 (2 * k - 2) - b.
have Eq : forall i, q`_i = (r0 * a)`_(i + k).
  move=> i; rewrite /q coefB /fromfft coef_poly subn0 add0n.
  case: (ltnP i k) => C.
    rewrite cyc_coef -/k //; last by apply: leq_trans Sra _; lia.
    have -> : (r0 * a)`_i = b`_i by rewrite mulrC H0.
    case: ltnP => C2; first by rewrite addrC addrA addNr add0r.
    by exfalso; lia.
  rewrite [(r0 * a)`__]nth_default; last by apply: leq_trans Sra _; lia.
  rewrite (nth_default _ (leq_trans Sb C)) subr0; case: ifP => // _.
  by apply: nth_default; apply: leq_trans (size_cyc _ _) _; rewrite -/k.
have Sq : (size q <= k)%N.
  apply/leq_sizeP=> j Hj; rewrite Eq nth_default //; apply: leq_trans Sra _; lia.
rewrite cyc_small; last by apply: leq_trans (size_mul_leN Sq Sx) _; rewrite expnS -/k; lia.
rewrite {1}/fromfft subn0 prednK ?subn_gt0; last by lia.
rewrite (slice0 (m - k)); set q2 := ptrunc _ _.
have -> : \poly_(i < m) (if (i < k)%N then r0`_i else - q2`_(i - k)) = r0 - 'X^k * q2.
  apply/polyP=> i; rewrite coef_poly coefB coefXnM; case: (ltnP i k) => C.
    by rewrite subr0; case: ltnP => // C2; lia.
  rewrite (nth_default _ (leq_trans S0 C)) sub0r; case: ltnP => // C2.
  by rewrite [q2`__]nth_default ?oppr0 //; apply: leq_trans (size_ptrunc _ _) _; lia.
have E1 : a * r0 = b + 'X^k * q.
  apply/polyP=> i; rewrite coefD coefXnM; case: ltnP => C; first by rewrite addr0 H0.
  by rewrite (nth_default _ (leq_trans Sb C)) add0r Eq subnK // mulrC.
rewrite mulrBr mulrCA E1.
have E2 : eqm m ('X^k * (a * q2)) ('X^k * q).
  have Em : (m = k + (m - k))%N by lia.
  rewrite {1}Em; apply: eqm_Xn; apply: (@eqm_trans _ _ (a * (q * x))).
    exact: eqm_mul (@eqm_refl _ _) (@eqm_trunc _ _).
  rewrite mulrCA -[X in eqm _ _ X]mulr1; apply: eqm_mul => //.
  by apply: eqm_le Hx; lia.
apply: (@eqm_trans _ _ (b + 'X^k * q - 'X^k * q)); last by rewrite addrK.
exact: eqm_add (@eqm_refl _ _) (eqm_opp E2).
Qed.

Lemma eqm_sub m p q r s : eqm m p q -> eqm m r s -> eqm m (p - r) (q - s).
Proof. by move=> H1 H2; apply: eqm_add H1 (eqm_opp H2). Qed.

Lemma coef_split n p : p = ptrunc n p + 'X^n * \poly_(i < size p - n) p`_(n + i).
Proof.
apply/polyP=> i; rewrite coefD coefXnM !coef_poly; case: ltnP => C; first by rewrite addr0.
rewrite add0r; case: ltnP => C2; first by rewrite subnKC.
by rewrite nth_default //; move: (size p) C2 => sz; lia.
Qed.

Lemma last_largeP b a x t m : (size x <= 2 ^ t)%N -> eqm (2 ^ t) (a * x) 1 -> (2 ^ t < m <= 2 * 2 ^ t)%N ->
  eqm m (a * newton_last_large b a x t m) b.
Proof.
move=> Sx Hx Hm; rewrite /newton_last_large; set k := (2 ^ t)%N in Sx Hx Hm *.
have k0 : (0 < k)%N by rewrite expn_gt0.
have m1 : (m.-1.+1 = m)%N by lia.
have lk : ((m.-1 - k).+1 = m - k)%N by lia.
rewrite /tofft !fftmul_cyc /fromfft !subn0 !m1 !prednK // !lk !slice0.
set b0 := ptrunc k b; set b1 := \poly_(i < m - k) b`_(k + i); set A := ptrunc m a.
have S0 : (size b0 <= k)%N by exact: size_ptrunc.
have S1 : (size b1 <= m - k)%N by exact: size_poly.
have SA : (size A <= m)%N by exact: size_ptrunc.
rewrite (cyc_small (p := x * b1)); last by apply: leq_trans (size_mul_leN Sx S1) _; rewrite expnS -/k; lia.
rewrite (cyc_small (p := x * b0)); last by apply: leq_trans (size_mul_leN Sx S0) _; rewrite expnS -/k; lia.
set p1 := \poly_(i < m - k) (cyc t.+1 (x * A))`_(k + i).
have SxA : (size (x * A)%R <= k + 2 * k)%N by apply: leq_trans (size_mul_leN Sx SA) _; lia.
have p1E i : (i < m - k)%N -> p1`_i = (a * x)`_(k + i).
  move=> Hi; rewrite coef_poly Hi cyc_coef ?expnS -/k; last by lia.
    rewrite [X in _ + X]nth_default ?addr0; last by apply: leq_trans SxA _; lia.
    by rewrite mulrC; apply: (eqm_mul (@eqm_trunc m a) (@eqm_refl m x)); lia.
  by apply: leq_trans SxA _; lia.
set p2l := ptrunc m (x * b0); set p2h := ptrunc (m - k) (x * b1).
have Sp : (size p1 <= m - k)%N by exact: size_poly.
rewrite (_ : ptrunc (m - k) p1 = p1); last first.
  by apply/polyP=> i; rewrite coef_poly; case: ltnP => // C; rewrite nth_default // (leq_trans Sp).
rewrite (cyc_small (p := p1 * _)); last first.
  by apply: leq_trans (size_mul_leN Sp (size_ptrunc _ _)) _; rewrite expnS -/k; lia.
set p3 := ptrunc (m - k) (p1 * _).
have -> : \poly_(i < m) (if (i < k)%N then p2l`_i else
     (if (k < size b)%N then p2l`_i + p2h`_(i - k) else p2l`_i) - p3`_(i - k)) = p2l + 'X^k * p2h - 'X^k * p3.
  apply/polyP=> i; rewrite coef_poly coefB coefD !coefXnM.
  case: (ltnP i m) => C; last first.
    rewrite [p2l`_i]nth_default ?(leq_trans (size_ptrunc _ _)) //.
    by rewrite [p2h`__]nth_default ?[p3`__]nth_default ?(leq_trans (size_ptrunc _ _)) ?leq_sub2r // !if_same add0r subrr.
  case: (ltnP i k) => C2; first by rewrite addr0 subr0.
  case: (ltnP k (size b)) => C3 //.
  have b10 : b1 = 0.
    by apply/polyP=> j; rewrite coef_poly coef0; case: ifP => // _; rewrite nth_default //; move: (size b) C3 => sz; lia.
  by rewrite /p2h b10 mulr0 /ptrunc coef_poly coef0 if_same addr0.
have Em : (m = k + (m - k))%N by lia.
have E1 : eqm m (a * x) (1 + 'X^k * p1).
  move=> i Hi; rewrite coefD coefXnM; case: ltnP => C; first by rewrite addr0 Hx.
  rewrite coef1 p1E; last by lia.
  by rewrite subnKC // (_ : (i == 0%N) = false) ?add0r //; lia.
have Eb : eqm m b (b0 + 'X^k * b1).
  move=> i Hi; rewrite coefD coefXnM !coef_poly; case: ltnP => C; first by rewrite addr0.
  by rewrite add0r subnKC // ifT //; lia.
have Hx' : eqm (m - k) (a * x) 1 by apply: eqm_le Hx; lia.
have T1 : eqm m (a * p2l) (b0 + 'X^k * (p1 * b0)).
  apply: (@eqm_trans _ _ (a * (x * b0))); first exact: eqm_mul (@eqm_refl _ _) (@eqm_trunc _ _).
  rewrite mulrA [X in eqm _ _ X](_ : _ = (1 + 'X^k * p1) * b0); first exact: eqm_mul.
  by rewrite mulrDl mul1r mulrA.
have T2 : eqm m ('X^k * (a * p2h)) ('X^k * b1).
  rewrite {1}Em; apply: eqm_Xn; apply: (@eqm_trans _ _ (a * (x * b1))).
    exact: eqm_mul (@eqm_refl _ _) (@eqm_trunc _ _).
  by rewrite mulrA -[X in eqm _ _ X]mul1r; apply: eqm_mul.
have T3 : eqm m ('X^k * (a * p3)) ('X^k * (p1 * b0)).
  rewrite {1}Em; apply: eqm_Xn; apply: (@eqm_trans _ _ (a * (p1 * (x * b0)))).
    apply: eqm_mul (@eqm_refl _ _) _; apply: eqm_trans (@eqm_trunc _ _) _.
    apply: eqm_mul (@eqm_refl _ _) _; apply: eqm_trans (@eqm_trunc _ _) _.
    by apply: eqm_le (@eqm_trunc _ _); lia.
  rewrite mulrCA; apply: eqm_mul (@eqm_refl _ _) _.
  by rewrite mulrA -[X in eqm _ _ X]mul1r; apply: eqm_mul.
rewrite mulrBr mulrDr ![a * ('X^k * _)]mulrCA.
apply: (@eqm_trans _ _ (b0 + 'X^k * (p1 * b0) + 'X^k * b1 - 'X^k * (p1 * b0))).
  by apply: eqm_sub T3; apply: eqm_add.
by rewrite addrAC addrK; apply: eqm_sym.
Qed.

(** ** the naive algorithm *)
Lemma foldl_subE (x : nat -> F) (g : nat -> F) s z :
  foldl (fun buf i => buf - x i * g i) z s = z - \sum_(i <- s) x i * g i.
Proof.
elim: s z => [|i s IH] z /=; first by rewrite big_nil subr0.
by rewrite IH big_cons opprD addrA.
Qed.

Lemma plain_invP b a m : a`_0 != 0 -> (0 < m)%N ->
  exists f, [/\ plain_inv_trunc_mul b a m = AOk f, (size f <= m)%N & eqm m (a * f) b].
Proof.
move=> a0 m0; rewrite /plain_inv_trunc_mul.
have an0 : (a == 0) = false by apply/eqP=> H; move: a0; rewrite H coef0 eqxx.
have sa0 : (0 < size a)%N by rewrite lt0n size_poly_eq0 an0.
rewrite an0 (negbTE a0).
case: eqP => [na|/eqP na].
  eexists; split; first by [].
    by apply: leq_trans (size_poly _ _) _; rewrite geq_minl.
  have sa : size a = 1%N by lia.
  have -> : a = (a`_0)%:P by apply: size1_polyC; rewrite sa.
  move=> i Hi; rewrite coefCM coefC eqxx coef_poly leq_min Hi /=.
  case: ltnP => C; last by rewrite mulr0 (nth_default _ C).
  case: eqP => [E|_]; last by rewrite mulrCA mulfV // mulr1.
  have -> : a`_0 = 1 by rewrite -[LHS]invrK E invr1.
  by rewrite mul1r.
set s := (a`_0)^-1.
set x0 := upd _ _ _; set upk := (fun (x : nat -> F) k => upd x k _).
have x0E j : (0 < j)%N -> (j < m)%N -> x0 j = b`_j.
  move=> Hj Hm; rewrite /x0 /upd; case: eqP => [|_]; first by lia.
  rewrite leq_min Hm; case: ltnP => // C; by rewrite nth_default.
have sk y : (if s == 1 then y else y * s) * a`_0 = y.
  case: eqP => [E|_]; last by rewrite -mulrA mulVf // mulr1.
  by rewrite (_ : a`_0 = 1) ?mulr1 // -[LHS]invrK -/s E invr1.
have INV n : (n < m)%N -> let x := foldl upk x0 (iota 1 n) in
    (forall j, (n < j < m)%N -> x j = b`_j) /\
    forall j, (j <= n)%N -> \sum_(i < j.+1) x i * a`_(j - i) = b`_j.
  elim: n => [|n IH] Hn.
    split=> [j Hj|j]; first by apply: x0E; lia.
    rewrite leqn0 => /eqP->; rewrite big_ord_recl big_ord0 addr0 subnn /= {1}/x0 /upd eqxx leq_min m0.
    rewrite -mulrA mulVf // mulr1; case: ltnP => // C; by rewrite nth_default.
  have {IH} := IH (ltnW Hn); rewrite -(addn1 n) iotaD foldl_cat /= add1n.
  set x := foldl _ _ _ => -[H1 H2]; rewrite addn1.
  have xo j : j != n.+1 -> upk x n.+1 j = x j by rewrite /upk /upd => /negbTE->.
  split=> [j Hj|j]; first by rewrite xo ?H1 //; lia.
  rewrite leq_eqVlt => /orP[/eqP->|Hj]; last first.
    by rewrite -[RHS]H2 //; apply: eq_bigr => i _; rewrite xo //; have := ltn_ord i; lia.
  rewrite big_ord_recr /= subnn {2}/upk /upd eqxx sk foldl_subE H1; last by lia.
  rewrite addrC -addrA addrC -[RHS]add0r; congr (_ + _).
  rewrite (eq_bigr (fun i : 'I_n.+1 => x i * a`_(n.+1 - i))); last first.
    by move=> i _; rewrite xo //; have := ltn_ord i; lia.
  rewrite -(big_mkord xpredT (fun i => x i * a`_(n.+1 - i))) /index_iota subn0.
  have E : (n.+1 = (n.+1 - (size a).-1) + (n.+1 - (n.+1 - (size a).-1)))%N by lia.
  rewrite [X in iota 0 X]E iotaD big_cat /= add0n [X in _ + (X + _)]big1_seq ?add0r ?addNr //.
  move=> i; rewrite mem_iota => /= Hi; rewrite [a`__]nth_default ?mulr0 //; by move: Hi sa0; clear; move: (size a) => sz; lia.
have [_ INVm] := INV m.-1 ltac:(lia).
eexists; split; [reflexivity|exact: size_poly|].
move=> i Hi; rewrite -[RHS]INVm; last by lia.
rewrite mulrC coefM; apply: eq_bigr => j _; rewrite coef_poly ifT ?subn1 //.
by have := ltn_ord j; lia.
Qed.

Lemma next_pow2_lt CR : (4 < CR)%N -> (2 <= next_pow2 CR - 1)%N /\ (2 ^ (next_pow2 CR - 3) < CR)%N.
Proof.
move=> H; have /andP[] : (2 ^ (up_log 2 CR).-1 < CR <= 2 ^ up_log 2 CR)%N by apply: up_log_bounds => //; lia.
rewrite /next_pow2; set u := up_log _ _ => H1 H2.
have u3 : (2 < u)%N by rewrite -(ltn_exp2l (m := 2)) //; apply: leq_trans H2; lia.
split; first by lia.
by apply: leq_ltn_trans H1; rewrite leq_exp2l //; lia.
Qed.

Lemma inv_trunc_mulP fuel CR b a m : (4 < CR)%N -> (m <= fuel)%N -> a`_0 != 0 ->
  exists f, [/\ inv_trunc_mul fuel CR b a m = Some (AOk f), (size f <= m)%N & eqm m (a * f) b].
Proof.
move=> HC Hf a0; rewrite /inv_trunc_mul; case: eqP => [->|/eqP m0].
  by exists 0; split=> //; rewrite size_poly0.
case: ifP => [/andP[Cm Ca]|_]; last first.
  by have [f [-> S E]] := @plain_invP b a m a0 ltac:(by rewrite lt0n); exists f.
rewrite /newton_inv_trunc_mul /plain_inv_trunc.
have [_ Ht] := next_pow2_lt HC.
have [x [-> Sx Ex]] := @plain_invP 1 a (2 ^ (next_pow2 CR - 3)) a0 ltac:(by rewrite expn_gt0).
have [x' [t' [-> Sx' Ex' Hm]]] := @newton_loopP fuel a x (next_pow2 CR - 3) m ltac:(lia) ltac:(lia) Sx Ex.
rewrite /=; eexists; split; first by [].
  case C: (_ && _); first exact: size_poly.
  by apply: leq_trans (size_poly _ _) _; move: Hm; clear; lia.
case C: (_ && _); last exact: last_largeP.
by have /andP[Sa Sb] := C; apply: last_smallP.
Qed.

Lemma inv_trunc_mul_err fuel CR b a m : (0 < m)%N -> a`_0 = 0 ->
  inv_trunc_mul fuel CR b a m = Some AUB.
Proof.
move=> m0 a0; rewrite /inv_trunc_mul (gtn_eqF m0) /newton_inv_trunc_mul /plain_inv_trunc /plain_inv_trunc_mul.
by rewrite a0 eqxx; case: ifP => _; case: ifP.
Qed.
End Series.
