(** Row by row echelon form computation (uref_lex_xgcd): invariants. *)
From mathcomp Require Import all_ssreflect all_algebra fraction zify.
From Verif Require Import A_base SpecA SpecForms SpecWP SpecHermite SpecLU A_rot_model A_rot_proof A_rowops_proof
  A_wpopov_proof A_hermite_model A_hermite_ops_proof A_uref_proof A_uref2_proof.
Set Implicit Arguments.
Unset Strict Implicit.
Unset Printing Implicit Defensive.
Import GRing.Theory Num.Theory.
Local Open Scope ring_scope.

Section Lex.
Variables (F : fieldType) (m n cT : nat).
Local Notation P := {poly F}.
Variables (A0 : fmat P) (T0 : option (fmat P)) (pv0 : nat -> nat) (mrp0 : option (nat -> int)).
Implicit Types (A : fmat P) (T : option (fmat P)) (pv : nat -> nat) (mrp : option (nat -> int)).
Local Notation trans := (trans m n cT).
Local Notation pivs := (pivs n).
Local Notation zrows := (zrows m).
Local Notation tr := (tr m n cT A0 T0).
Local Notation lspan := (lspan m n A0).
Local Notation lowrow := (lowrow m n A0).
Variable xgcd : P -> P -> P * P * P.
Hypothesis XS : xgcd_spec xgcd.

(** pivot_row is the inverse of pivind *)
Definition prow_ok pv (prow : nat -> int) rk : Prop :=
  forall j, (j < n)%N -> (exists i, [/\ (i < rk)%N, prow j = i%:Z & pv i = j]) \/
    (prow j = -1 /\ forall i, (i < rk)%N -> pv i != j).

(** the k first entries of mrp *)
Definition lmrp pv rk k (r0 r : nat -> int) : Prop :=
  [/\ forall i, (i < k)%N -> (r i = -1 /\ exists2 b, lowrow i b & lead n b n) \/
        exists i', [/\ (i' < rk)%N, r i = (pv i')%:Z & exists2 b, lowrow i b & lead n b (pv i')],
      (forall i i', (i < k)%N -> (i' < k)%N -> 0 <= r i -> r i = r i' -> i = i') &
      forall i, (k <= i)%N -> r i = r0 i].

Record linv A T pv mrp prow rk zr : Prop := Linv {
  l_tr : tr A T;
  l_rk : (rk + zr <= m)%N;
  l_piv : pivs A rk pv;
  l_prow : prow_ok pv prow rk;
  l_zero : zrows A (m - zr)%N n;
  l_frame : forall i, (rk <= i)%N -> pv i = pv0 i;
  l_span : forall i, (i < rk)%N -> lspan (rk + zr)%N (A i);
  l_rest : forall i k, (rk <= i < m - zr)%N -> (k < n)%N -> A i k = A0 (i + zr)%N k;
  l_mrp : opt_rel (lmrp pv rk (rk + zr)%N) mrp0 mrp }.

(** during the elimination in row rk, before column j *)
Record rinv A T pv rk zr j : Prop := Rinv {
  r_tr : tr A T;
  r_piv : pivs A rk pv;
  r_zrow : forall k, (k < j)%N -> A rk k = 0;
  r_low : lowrow (rk + zr)%N (A rk);
  r_span : forall i, (i < rk)%N -> lspan (rk + zr).+1 (A i);
  r_span' : forall i, (i < rk)%N -> (j <= pv i)%N -> lspan (rk + zr)%N (A i) }.

Lemma inc_foldE (prow : nat -> int) lo cnt x :
  foldl (fun p jj => if 0 <= p jj then upd p jj (p jj + 1) else p) prow (iota lo cnt) x =
  if (lo <= x < lo + cnt)%N && (0 <= prow x) then prow x + 1 else prow x.
Proof.
elim: cnt => [|cnt IH]; first by rewrite addn0 /=; have -> : (lo <= x < lo)%N = false by lia.
rewrite -[cnt.+1]addn1 iotaD foldl_cat /=.
set q := foldl _ _ _ in IH *.
have K : (if 0 <= q (lo + cnt)%N then upd q (lo + cnt)%N (q (lo + cnt)%N + 1) else q) x =
   if (x == lo + cnt)%N && (0 <= q x) then q x + 1 else q x.
  case: (x =P (lo + cnt)%N) => [->|N] /=; first by case: ifP => //; rewrite /upd eqxx.
  by case: ifP => // _; rewrite /upd; have -> : (x == lo + cnt)%N = false by apply/eqP.
rewrite K IH; case: (x =P (lo + cnt)%N) => [->|N] /=.
  have -> : (lo <= lo + cnt < lo + cnt)%N = false by lia.
  by have -> : (lo <= lo + cnt < lo + (cnt + 1))%N by lia.
by have -> : (lo <= x < lo + cnt)%N = (lo <= x < lo + (cnt + 1))%N by lia.
Qed.

Lemma lex_placeP A rk pv j : pivs A rk pv -> (forall i, (i < rk)%N -> pv i != j) ->
  let p := lex_place pv rk j in
  [/\ (p <= rk)%N, (forall i, (i < p)%N -> (pv i < j)%N) & forall i, (p <= i < rk)%N -> (j < pv i)%N].
Proof.
move=> [P1 P2] N; rewrite /lex_place; set a := fun i => _; set p := find _ _.
have L : (p <= rk)%N by rewrite -[X in (_ <= X)%N](size_iota 0 rk); exact: find_size.
split=> // i Hi.
  have := @before_find _ 0%N a (iota 0 rk) i Hi; rewrite nth_iota; last by lia.
  by rewrite add0n /a => /negbFE.
have Hp : (p < rk)%N by lia.
have : has a (iota 0 rk) by rewrite has_find size_iota.
move=> /(nth_find 0%N); rewrite -/p nth_iota // add0n /a -leqNgt => H.
have H' : (j < pv p)%N by rewrite ltn_neqAle H andbT eq_sym N.
case: (i =P p) => [->|Ni] //; apply: ltn_trans H' _; apply: P2; lia.
Qed.

Lemma lex_rowP A T pv mrp prow rk zr : (rk + zr < m)%N -> prow_ok pv prow rk ->
  (forall i, (rk <= i)%N -> pv i = pv0 i) -> opt_rel (lmrp pv rk (rk + zr)%N) mrp0 mrp ->
  forall cnt A T j, (j + cnt = n)%N -> rinv A T pv rk zr j -> zrows A (m - zr)%N n ->
  (forall i k, (rk < i < m - zr)%N -> (k < n)%N -> A i k = A0 (i + zr)%N k) ->
  let '(LX A' T' pv' mrp' prow' rk' zr', found) := lex_row xgcd n cT cnt (LX A T pv mrp prow rk zr) j in
  if found then zr' = zr /\ rk' = rk.+1 /\ linv A' T' pv' mrp' prow' rk.+1 zr
  else [/\ [/\ pv' = pv, mrp' = mrp, prow' = prow, rk' = rk & zr' = zr],
        rinv A' T' pv rk zr n, zrows A' (m - zr)%N n &
        (forall i k, (rk < i < m - zr)%N -> (k < n)%N -> A' i k = A0 (i + zr)%N k)].
Proof.
move=> Hrk Hprow Hfr Hmrp; elim=> [|cnt IH] {A T}A T j Hj I Z R /=.
  by move: Hj; rewrite addn0 => Ej; rewrite Ej in I.
have [Htr Pv Zr Low Sp Sp'] := I; have Hjn : (j < n)%N by lia.
have [P1 P2] := Pv.
case: (A rk j =P 0) => [E0|/eqP N0].
  apply: IH => //; first by lia.
  split=> // [k Hk|i Hi Hij]; last by apply: Sp' => //; lia.
  by case: (k =P j) => [->|N] //; apply: Zr; lia.
have [[i [Hi Ei Epi]]|[-> Nj]] := Hprow j Hjn.
  rewrite Ei /=.
  have [p1 p2 p3] := P1 i Hi; rewrite Epi in p2 p3.
  have Nir : i != rk by lia.
  have Him : (i < m)%N by lia.
  have Hrm : (rk < m)%N by lia.
  have [u [v [p [q]]]] := @xgcd_collisionP _ m n cT xgcd A T i rk j XS Him Hrm Nir Hjn p2 N0 p3 Zr.
  case: (xgcd_collision xgcd n cT A T i rk j) => A' T' [[E1 Np Epj] Tr1 EA E0 Mo].
  have Hsp : lspan (rk + zr) (A i) by apply: Sp' => //; rewrite Epi.
  have EAo a k : (a != i) -> (a != rk) -> (k < n)%N -> A' a k = A a k.
    by move=> Na Nb Hk; rewrite EA // (negbTE Na) (negbTE Nb).
  apply: IH => //; first by lia.
  - split=> //.
    + exact: tr1 Htr Tr1.
    + split=> // a Ha; case: (a =P i) => [->|Na].
        rewrite Epi; split=> //; first by rewrite monic_neq0.
        by move=> k Hk; rewrite EA ?eqxx ?p3 ?Zr ?mulr0 ?addr0 //; lia.
      have [a1 a2 a3] := P1 a Ha; split=> //; first by rewrite EAo //; lia.
      by move=> k Hk; rewrite EAo ?a3 //; lia.
    + move=> k Hk; rewrite EA; last by lia.
      have -> : (rk == i) = false by lia.
      rewrite eqxx; case: (k =P j) => [->|Nk].
        by move: E0; rewrite EA // eqxx; have -> : (rk == i) = false by lia.
      by rewrite p3 ?Zr ?mulr0 ?subr0 //; lia.
    + apply: (@lowrow_ext _ m n A0 _ (fun k => p * A rk k + (- q) * A i k)); last exact: lowrow_comb.
      move=> k Hk; rewrite EA //; have -> : (rk == i) = false by lia.
      by rewrite eqxx mulNr.
    + move=> a Ha; case: (a =P i) => [->|Na].
        apply: (@lspan_ext _ m n A0 _ (fun k => u * A i k + v * A rk k)).
          by move=> k Hk; rewrite EA // eqxx.
        by apply: lspan_comb; [apply: Sp|apply: lowrow_lspan].
      by apply: (lspan_ext _ (Sp a Ha)) => k Hk; rewrite EAo //; lia.
    + move=> a Ha Hja; apply: (@lspan_ext _ m n A0 _ (A a)); last by apply: Sp' => //; lia.
      by move=> k Hk; rewrite EAo //; [apply/eqP=> E; move: Hja; rewrite E Epi|]; lia.
  - by move=> a k Ha Hk; rewrite EAo ?Z //; lia.
  - by move=> a k Ha Hk; rewrite EAo ?R //; lia.
have [L1 L2 L3] := lex_placeP Pv Nj; set i0 := lex_place pv rk j in L1 L2 L3 *.
have [A2 [vec [-> EA2 EA Ev]]] := rot_dn A (Some (upd pv rk j)) L1.
case: vec Ev => //= pv2 Ev.
have Q1 : pv2 i0 = j by rewrite Ev eqxx /upd eqxx.
have Q2 i : (i0 < i <= rk)%N -> pv2 i = pv i.-1.
  move=> C; rewrite Ev C /upd; have -> : (i == i0) = false by lia.
  by have -> : (i.-1 == rk) = false by lia.
have Q3 i : (i < i0)%N || (rk < i)%N -> pv2 i = pv i.
  move=> C; rewrite Ev /upd; have -> : (i == i0) = false by lia.
  have -> : (i0 < i <= rk)%N = false by lia.
  by have -> : (i == rk) = false by lia.
have Q4 i : (i < rk)%N -> exists2 i', (i' < rk.+1)%N & pv2 i' = pv i.
  move=> Hi; case: (ltnP i i0) => C; first by exists i; [lia|rewrite Q3 //; lia].
  by exists i.+1; [lia|rewrite Q2 //; lia].
have A1E : A2 i0 = A rk by rewrite EA eqxx.
have A2E i : (i0 < i <= rk)%N -> A2 i = A i.-1.
  by move=> C; rewrite EA C; have -> : (i == i0) = false by lia.
have A3E i : (i < i0)%N || (rk < i)%N -> A2 i = A i.
  move=> C; rewrite EA; have -> : (i == i0) = false by lia.
  by have -> : (i0 < i <= rk)%N = false by lia.
split=> //; split=> //; split.
- have := @trans_down _ m n cT A T i0 (rk - i0)%N; rewrite subnKC // => /(_ ltac:(lia)).
  by rewrite -EA2; apply: tr_step.
- by lia.
- split=> [i Hi|i i' Hi].
    case: (i =P i0) => [->|Ni]; first by rewrite Q1 A1E.
    case: (ltnP i i0) => C; first by rewrite Q3 ?A3E; [apply: P1|..]; lia.
    by rewrite Q2 ?A2E; [apply: P1|..]; lia.
  case: (i =P i0) Hi => [->|Ni] Hi.
    by rewrite Q1 Q2; [apply: L3|]; lia.
  case: (i' =P i0) Hi => [->|Ni'] Hi.
    by rewrite Q1 Q3; [apply: L2|]; lia.
  case: (ltnP i i0) => C; case: (ltnP i' i0) => C'.
  + by rewrite !Q3; [apply: P2|..]; lia.
  + by rewrite Q3 ?Q2; [apply: P2|..]; lia.
  + by lia.
  + by rewrite !Q2; [apply: P2|..]; lia.
- move=> x Hx; rewrite inc_foldE /upd.
  case: (x =P j) => [->|Nx].
    rewrite ltnn /=; left; exists i0; split=> //; lia.
  have -> : (j < x < j.+1 + (n - j.+1))%N = (j < x)%N by lia.
  case: (Hprow x Hx) => [[i [Hi -> Ei]]|[-> Nx']].
    left; case: (ltnP j x) => C /=.
      exists i.+1; split=> //; first by rewrite -addn1 PoszD.
      rewrite Q2 //; apply/andP; split; last by [].
      by rewrite ltnS leqNgt; apply/negP=> C'; have := L2 i C'; lia.
    exists i; split=> //; first by lia.
    rewrite Q3 //; apply/orP; left; rewrite ltnNge; apply/negP=> C'.
    by have := L3 i; rewrite C' Hi => /(_ isT); lia.
  right; rewrite andbF; split=> // i Hi.
  case: (i =P i0) => [->|Ni]; first by rewrite Q1; apply/eqP=> E; rewrite E in Nx.
  by case: (ltnP i i0) => C; [rewrite Q3 ?Nx' //; lia|rewrite Q2 ?Nx' //; lia].
- by move=> i k Hi Hk; rewrite A3E ?Z //; lia.
- by move=> i Hi; rewrite Q3 ?Hfr //; lia.
- move=> i Hi; rewrite addSn.
  case: (i =P i0) => [->|Ni]; first by rewrite A1E; apply: lowrow_lspan.
  by case: (ltnP i i0) => C; [rewrite A3E; [apply: Sp|]; lia|rewrite A2E; [apply: Sp|]; lia].
- by move=> i k Hi Hk; rewrite A3E ?R //; lia.
case: mrp0 mrp Hmrp {IH} => [r0|] [r|] //= [M1 M2 M3].
have D1 i : (i < rk + zr)%N -> (i == rk + zr)%N = false by lia.
have D2 i : (i < rk + zr)%N -> r i != j%:Z.
  move=> Hi; case: (M1 i Hi) => [[-> _]|[i' [Hi' -> _]]] //.
  by apply/eqP => -[E]; have := Nj i' Hi'; rewrite E eqxx.
have Eq i : (i < rk.+1 + zr)%N -> i != (rk + zr)%N -> (i < rk + zr)%N by lia.
split=> [i Hi|i i' Hi Hi'|i Hi]; rewrite /upd.
- case: (i =P (rk + zr)%N) => [->|/eqP Ni].
    by right; exists i0; rewrite Q1; split=> //; exists (A rk) => //; split=> // k _; apply: Zr.
  case: (M1 i (Eq _ Hi Ni)) => [|[i' [Hi' -> Hb]]]; [by left|right].
  by have [i2 Hi2 E2] := Q4 i' Hi'; exists i2; rewrite E2.
- case: (i =P (rk + zr)%N) => [->|/eqP Ni]; case: (i' =P (rk + zr)%N) => [->|/eqP Ni'] //.
  + by move=> _ E; have := D2 i' (Eq _ Hi' Ni'); rewrite -E eqxx.
  + by move=> _ E; have := D2 i (Eq _ Hi Ni); rewrite E eqxx.
  + by apply: M2; apply: Eq.
have -> : (i == rk + zr)%N = false by lia.
by apply: M3; lia.
Qed.

Lemma rot_upw A i j : (i <= j)%N ->
  forall k, (rotate_rows_upward (V := nat) A None i j).1 k =
    if k == j then A i else if (i <= k < j)%N then A k.+1 else A k.
Proof.
move=> H k; rewrite /rotate_rows_upward; case: (i =P j) => [->|N] /=; last by rewrite rot_upE.
have -> : (j <= k < j)%N = false by lia.
by case: eqP => // ->.
Qed.

Lemma lex_rowsP fuel A T pv mrp prow rk zr : (m - (rk + zr) <= fuel)%N -> linv A T pv mrp prow rk zr ->
  exists A' T' pv' mrp' prow' rk' zr', [/\ (rk' + zr' = m)%N, linv A' T' pv' mrp' prow' rk' zr' &
    lex_rows xgcd m n cT fuel (LX A T pv mrp prow rk zr) = Some (LX A' T' pv' mrp' prow' rk' zr')].
Proof.
elim: fuel A T pv mrp prow rk zr => [|fuel IH] A T pv mrp prow rk zr Hf I; have Hle := l_rk I.
all: rewrite /=; case: (ltnP (rk + zr) m) => C; last by
  exists A, T, pv, mrp, prow, rk, zr; split=> //; lia.
  by lia.
have R0 : rinv A T pv rk zr 0.
  have [Htr _ Pv Hp Z Fr Sp R M] := I; split=> //.
  - apply: (@lowrow_ext _ m n A0 _ (A0 (rk + zr)%N)); last exact: lowrow_id.
    by move=> k Hk; rewrite R //; lia.
  - by move=> i Hi; apply: lspan_mono (Sp i Hi).
  - by move=> i Hi _; apply: Sp.
have := @lex_rowP A T pv mrp prow rk zr C (l_prow I) (l_frame I) (l_mrp I) n A T 0%N (add0n _) R0 (l_zero I).
have Re i k : (rk < i < m - zr)%N -> (k < n)%N -> A i k = A0 (i + zr)%N k.
  by move=> Hi; apply: (l_rest I); lia.
move=> /(_ Re); case: lex_row => -[A' T' pv' mrp' prow' rk' zr'] [] /=.
  by case=> -> [-> J]; apply: IH => //; lia.
case=> [[-> -> -> -> ->] J Z' R']; apply: IH; first by lia.
have [_ _ _ Hp _ Fr _ _ M] := I; have [Htr [P1 P2] Zr Low Sp _] := J.
have Hr1 : (rk <= m - 1)%N by lia.
have E := rot_upw A' Hr1; set A2 := (rotate_rows_upward _ _ _ _).1 in E *.
have E1 k : (k < rk)%N -> A2 k = A' k.
  move=> Hk; rewrite E; have -> : (k == m - 1)%N = false by lia.
  by have -> : (rk <= k < m - 1)%N = false by lia.
have E2 k : (rk <= k < m - 1)%N -> A2 k = A' k.+1.
  by move=> Hk; rewrite E Hk; have -> : (k == m - 1)%N = false by lia.
have E3 : A2 (m - 1)%N = A' rk by rewrite E eqxx.
split=> //.
- have := @trans_up _ m n cT A' T' rk (m - 1 - rk)%N; rewrite subnKC // => /(_ ltac:(lia)).
  exact: tr_step.
- by lia.
- by split=> // i Hi; rewrite E1 //; apply: P1.
- move=> i k Hi Hk; case: (i =P (m - 1)%N) => [->|Ni]; first by rewrite E3 Zr.
  by rewrite E2 ?Z' //; lia.
- by move=> i Hi; rewrite E1 // addnS; apply: Sp.
- by move=> i k Hi Hk; rewrite E2 ?R' ?addnS //; lia.
case: mrp0 mrp M {I} => [r0|] [r|] //= [M1 M2 M3].
have Eq i : (i < rk + zr.+1)%N -> i != (rk + zr)%N -> (i < rk + zr)%N by lia.
split=> [i Hi|i i' Hi Hi'|i Hi]; rewrite /upd.
- case: (i =P (rk + zr)%N) => [->|/eqP Ni]; last by apply: M1; apply: Eq.
  by left; split=> //; exists (A' rk) => //; split=> [|k Hk _]; [rewrite ltnn|apply: Zr].
- case: (i =P (rk + zr)%N) => [->|/eqP Ni]; case: (i' =P (rk + zr)%N) => [->|/eqP Ni'] //.
    by move=> H H'; rewrite H' in H.
  by apply: M2; apply: Eq.
have -> : (i == rk + zr)%N = false by lia.
by apply: M3; lia.
Qed.

Lemma lex_mrp_final A T pv mrp prow rk zr : (rk + zr = m)%N -> linv A T pv mrp prow rk zr ->
  opt_rel (fun r0 r => matrix_rank_profile m n A0 r /\ forall i, (m <= i)%N -> r i = r0 i) mrp0 mrp.
Proof.
move=> Em [_ _ [P1 _] _ _ _ _ _]; rewrite Em; case: mrp0 mrp => [r0|] [r|] //= [M1 M2 M3]; split=> //.
pose g k := if r k == -1 then n else `|r k|%N.
have G1 i : r i = -1 -> g i = n by rewrite /g => ->.
have G2 i i' : r i = (pv i')%:Z -> g i = pv i' by rewrite /g => ->.
apply: (@low_mrp _ m n A0 r g) => [k Hk|k Hk|k k' Hk Hk'].
- case: (M1 k Hk) => [[E Hb]|[i' [Hi' E Hb]]]; first by rewrite G1.
  by rewrite (G2 _ _ E).
- case: (M1 k Hk) => [[E Hb]|[i' [Hi' E Hb]]]; first by right; rewrite G1.
  by left; rewrite (G2 _ _ E) E; have [] := P1 i' Hi'.
case: (M1 k Hk) => [[E Hb]|[i1 [Hi1 E1 _]]]; first by rewrite G1 // ltnn.
rewrite (G2 _ _ E1) => L; case: (M1 k' Hk') => [[E Hb]|[i2 [Hi2 E2 _]]]; first by rewrite G1 //; lia.
by rewrite (G2 _ _ E2) => E; apply: M2 => //; rewrite E1 // E2 E.
Qed.
End Lex.
