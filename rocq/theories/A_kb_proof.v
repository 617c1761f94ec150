(** Hermite form with delayed zeroes (Kannan and Bachem): invariants. *)
From mathcomp Require Import all_ssreflect all_algebra fraction zify.
From Verif Require Import A_base SpecA SpecForms SpecWP SpecHermite SpecLU A_rot_model A_rot_proof A_rowops_proof
  A_wpopov_proof A_hermite_model A_hermite_ops_proof A_uref_proof A_uref2_proof A_hnf_proof A_kb_key.
Set Implicit Arguments.
Unset Strict Implicit.
Unset Printing Implicit Defensive.
Import GRing.Theory Num.Theory.
Local Open Scope ring_scope.

Section KB.
Variables (F : fieldType) (m n cT : nat).
Local Notation P := {poly F}.
Variables (A0 : fmat P).
Implicit Types (A : fmat P) (T : option (fmat P)) (pv : nat -> nat).
Local Notation trans := (trans m n cT).
Local Notation pivs := (pivs n).
Local Notation lspan := (lspan m n A0).
Local Notation lowrow := (lowrow m n A0).
Variable xgcd : P -> P -> P * P * P.
Hypothesis XS : xgcd_spec xgcd.

(** rows and the rows of the input they come from: a pivot row contains multiples of input rows
    before t, and the remaining rows coming from before t vanish up to its pivot column *)
Record wm A pv (perm : nat -> nat) i : Prop := Wm {
  w_inc : forall b b', (i <= b < b')%N -> (b' < m)%N -> (perm b < perm b')%N;
  w_low : forall b, (i <= b < m)%N -> lowrow (perm b) (A b);
  w_span : forall a, (a < i)%N -> exists2 t, lspan t (A a) &
     forall b, (i <= b < m)%N -> (perm b < t)%N -> forall c, (c <= pv a)%N -> A b c = 0 }.

Section Elim.
Variables (H : fmat P) (TH : option (fmat P)) (pv : nat -> nat) (prow : nat -> int) (i ii j : nat).
Hypotheses (Hii : (i <= ii < m)%N) (Hjn : (j <= n)%N) (PH : pivs H i pv) (NH : nrm H i pv).
Hypothesis Hlt : forall a, (a < i)%N -> (pv a < j)%N.
Hypothesis Hz : forall b c, (i <= b < ii)%N -> (c <= j)%N -> (c < n)%N -> H b c = 0.

Record stage A T x k : Prop := Stage {
  s_tr : trans 1 H TH A T;
  s_k : [/\ (k <= i)%N, (forall a, (a < k)%N -> (pv a < x)%N) & forall a, (k <= a < i)%N -> (x <= pv a)%N];
  s_piv : pivs A i pv;
  s_nrm : nrm A k pv;
  s_size : forall l, (l < k)%N -> (size (A l (pv l)) <= size (H l (pv l)))%N;
  s_same : forall a c, (k <= a)%N -> a != ii -> (c < n)%N -> A a c = H a c;
  s_zero : forall c, (c < x)%N -> A ii c = 0;
  s_comb : forall a, (a < k)%N -> exists z, lcomb n H (H ii) k z (A a);
  s_ii : exists2 z, z != 0 & lcomb n H (H ii) k z (A ii);
  s_wm : forall perm, wm H pv perm i -> wm A pv perm i }.

Lemma stage_skip A T x k : (x < j)%N -> pv k = x -> (k < i)%N -> stage A T x k -> A ii x = 0 -> stage A T x.+1 k.+1.
Proof.
move=> Hx Ek Hk [Tr [K1 K2 K3] Pv Nm Sz Sm Ze Co [z Nz Ci] W] E0.
have [P1 P2] := Pv; have [H1 H2] := PH; have Hkii : k != ii by slia.
have Hxn : (x < n)%N by slia.
split=> //.
- split=> // [a|a] Ha; last by rewrite -Ek; apply: P2.
  by case: (a =P k) => [->|N]; rewrite ?Ek //; apply: leq_trans (K2 a _) _ => //; slia.
- move=> l; rewrite ltnS leq_eqVlt => /orP[/eqP ->|]; last exact: Nm.
  rewrite Ek; have Ekx := Sm k x (leqnn _) Hkii Hxn; rewrite Ekx.
  have [Mk Sk] := NH Hk; rewrite Ek in Mk Sk; split=> //.
  apply: (@kb_key _ n H A (H ii) (A ii) pv k x _ z) => //.
  + by move=> l' Hl'; have [|h _ _] := P1 l'; first by slia.
  + by rewrite size_poly_gt0 monic_neq0.
  + move=> a l' Hl; have [|_ _ ->] // := H1 a; first by slia.
    by apply: H2; slia.
  + by move=> l' Hl; have [|_ h _] := H1 l'; first by slia.
  + by move=> a l' Hl; have [|_ h] := NH (i := l'); [slia|apply: h; slia].
  + move=> a l' Hl; have [|_ _ ->] // := P1 a; first by slia.
    by apply: P2; slia.
  + by move=> a l' Hl; have [|_ h] := Nm l'; [slia|apply: h; slia].
  + by move=> l' Hl; rewrite Ze // K2.
- move=> l; rewrite ltnS leq_eqVlt => /orP[/eqP ->|]; last exact: Sz.
  by rewrite Ek Sm.
- by move=> a c Ha; apply: Sm; slia.
- by move=> c; rewrite ltnS leq_eqVlt => /orP[/eqP ->|]; [|exact: Ze].
- move=> a; rewrite ltnS leq_eqVlt => /orP[/eqP ->|Ha].
    by exists 0; apply: (@lcomb_ext _ n H _ _ _ (H k)); [move=> c Hc; apply: Sm|exact: lcomb_row].
  by have [z' Hz'] := Co a Ha; exists z'; apply: lcomb_S.
by exists z => //; apply: lcomb_S.
Qed.

Lemma stage_elim A T x k : (x < j)%N -> pv k = x -> (k < i)%N -> stage A T x k -> A ii x != 0 ->
  let '(A1, T1) := xgcd_collision xgcd n cT A T k ii x in
  exists A2 T2, uref_reduce_above n cT A1 T1 k x = AOk (A2, T2) /\ stage A2 T2 x.+1 k.+1.
Proof.
move=> Hx Ek Hk [Tr [K1 K2 K3] Pv Nm Sz Sm Ze Co [z Nz Ci] W] N0.
have [P1 P2] := Pv; have [H1 H2] := PH; have Hkii : k != ii by slia.
have Hxn : (x < n)%N by slia.
have Hkm : (k < m)%N by slia.
have Him : (ii < m)%N by slia.
have [p1 p2 p3] := P1 k Hk; rewrite Ek in p1 p2 p3.
have [u [v [p [q]]]] := @xgcd_collisionP _ m n cT xgcd A T k ii x XS Hkm Him Hkii Hxn p2 N0 p3 Ze.
case: (xgcd_collision xgcd n cT A T k ii x) => A1 T1 [[E1 Np Epj] Tr1 EA Ei0 Mo].
have N1 : A1 k x != 0 by rewrite monic_neq0.
have E1k c : (c < n)%N -> A1 k c = u * A k c + v * A ii c by move=> Hc; rewrite EA // eqxx.
have Z1 c : (c < x)%N -> A1 k c = 0.
  by move=> Hc; rewrite E1k ?p3 ?Ze ?mulr0 ?addr0 //; slia.
have [A2 [T2 [qq [-> Tr2 E2 S2]]]] := @reduce_aboveP _ m n cT A1 T1 k x Hkm Hxn N1 Z1.
exists A2, T2; split=> //.
have B1 a c : (a < k)%N -> (c < n)%N -> A2 a c = A a c + qq a * A1 k c.
  move=> Ha Hc; rewrite E2 // Ha EA //; have -> : (a == k) = false by slia.
  by have -> : (a == ii) = false by slia.
have B2 c : (c < n)%N -> A2 k c = A1 k c by move=> Hc; rewrite E2 // ltnn.
have B3 c : (c < n)%N -> A2 ii c = p * A ii c - q * A k c.
  move=> Hc; rewrite E2 //; have -> : (ii < k)%N = false by slia.
  rewrite EA // eqxx; by have -> : (ii == k) = false by slia.
have B4 a c : (k < a)%N -> a != ii -> (c < n)%N -> A2 a c = A a c.
  move=> Ha Na Hc; rewrite E2 //; have -> : (a < k)%N = false by slia.
  rewrite EA // (negbTE Na); by have -> : (a == k) = false by slia.
have B1' a c : (a < k)%N -> (c < x)%N -> A2 a c = A a c.
  by move=> Ha Hc; rewrite B1 ?Z1 ?mulr0 ?addr0 //; slia.
have ZZ c : (c < x.+1)%N -> A2 ii c = 0.
  rewrite ltnS leq_eqVlt => /orP[/eqP ->|Hc].
    by rewrite E2 // ltnNge; have -> : (k <= ii)%N by slia.
  by rewrite B3 ?p3 ?Ze ?mulr0 ?subr0 //; slia.
have Co1 : lcomb n H (H ii) k.+1 (u * 0 + v * z) (A1 k).
  apply: (@lcomb_ext _ n H _ _ _ (fun c => u * A k c + v * A ii c)) => //.
  apply: lcomb_lin; last exact: lcomb_S.
  by apply: (@lcomb_ext _ n H _ _ _ (H k)); [move=> c Hc; apply: Sm|exact: lcomb_row].
split=> //.
- by have := trans_comp (trans_comp Tr Tr1) Tr2; rewrite !mulr1.
- split=> // [a|a] Ha; last by rewrite -Ek; apply: P2.
  by case: (a =P k) => [->|N]; rewrite ?Ek //; apply: leq_trans (K2 a _) _ => //; slia.
- split=> // a Ha; have [a1 a2 a3] := P1 a Ha; split=> //.
    case: (ltngtP a k) => C.
    + by rewrite B1' // K2.
    + by rewrite B4 //; slia.
    by rewrite C Ek B2.
  move=> c Hc; have Hcn : (c < n)%N by slia.
  case: (ltngtP a k) => C.
  + by rewrite B1' ?a3 //; have := K2 a C; slia.
  + by rewrite B4 ?a3 //; slia.
  by rewrite C B2 // Z1 // -Ek -C.
- move=> l; rewrite ltnS leq_eqVlt => /orP[/eqP ->|Hl].
    by rewrite Ek B2 //; split=> // a Ha; apply: S2.
  have [Ml Sl] := Nm l Hl; rewrite B1' ?K2 //; split=> // a Ha.
  by rewrite B1' ?K2 ?Sl //; slia.
- move=> l; rewrite ltnS leq_eqVlt => /orP[/eqP ->|Hl]; last by rewrite B1' ?K2 // Sz.
  rewrite Ek B2 // -(Sm k x) // Epj size_mul //.
  by move: Np; rewrite -size_poly_gt0; move: (size p) (size (A1 k x)) => s1 s2; slia.
- by move=> a c Ha Na Hc; rewrite B4 // Sm //; slia.
- move=> a; rewrite ltnS leq_eqVlt => /orP[/eqP ->|Ha].
    by exists (u * 0 + v * z); apply: lcomb_ext Co1.
  have [z' Hz'] := Co a Ha; exists (1 * z' + qq a * (u * 0 + v * z)).
  apply: (@lcomb_ext _ n H _ _ _ (fun c => 1 * A a c + qq a * A1 k c)).
    by move=> c Hc; rewrite mul1r B1.
  by apply: lcomb_lin => //; apply: lcomb_S.
- exists (p * z + (- q) * 0); first by rewrite mulr0 addr0 mulf_neq0.
  apply: (@lcomb_ext _ n H _ _ _ (fun c => p * A ii c + (- q) * A k c)).
    by move=> c Hc; rewrite mulNr B3.
  apply: lcomb_lin; first exact: lcomb_S.
  by apply: (@lcomb_ext _ n H _ _ _ (H k)); [move=> c Hc; apply: Sm|exact: lcomb_row].
move=> perm WH; have [I Lo Sp] := W _ WH.
have Tk : lspan (perm ii) (A k).
  have [t Ht Hb] := Sp k Hk; apply: lspan_mono Ht; rewrite leqNgt; apply/negP=> C.
  by move/eqP: N0; apply; apply: (Hb ii) => //; rewrite Ek.
have Ti : lspan (perm ii).+1 (A ii) by apply: lowrow_lspan; apply: Lo; slia.
have T1k : lspan (perm ii).+1 (A1 k).
  apply: (@lspan_ext _ m n A0 _ (fun c => u * A k c + v * A ii c)) => //.
  by apply: lspan_comb => //; apply: lspan_mono Tk.
have Zb b c : (i <= b < m)%N -> b != ii -> (perm b <= perm ii)%N -> (c <= x)%N -> A2 b c = 0.
  move=> Hb Nb Lb Hc; have Hbi : (b < ii)%N.
    by case: (ltngtP b ii) Nb => // C _; have := I ii b; slia.
  by rewrite B4 ?Sm ?Hz //; slia.
split=> //.
- move=> b Hb; case: (b =P ii) => [->|/eqP Nb].
    apply: (@lowrow_ext _ m n A0 _ (fun c => p * A ii c + (- q) * A k c)).
      by move=> c Hc; rewrite mulNr B3.
    by apply: lowrow_comb => //; apply: Lo; slia.
  by apply: (lowrow_ext _ (Lo b Hb)) => c Hc; rewrite B4 //; slia.
- move=> a Ha; have [t Ht Hb] := Sp a Ha; have [a1 _ _] := P1 a Ha.
  case: (ltngtP a k) => C.
  + exists (maxn t (perm ii).+1).
      apply: (@lspan_ext _ m n A0 _ (fun c => 1 * A a c + qq a * A1 k c)).
        by move=> c Hc; rewrite mul1r B1.
      by apply: lspan_comb; [apply: lspan_mono Ht|apply: lspan_mono T1k]; slia.
    have Kx := K2 a C; move=> b Hb1 Hb2 c Hc; case: (b =P ii) => [->|/eqP Nb]; first by apply: ZZ; slia.
    case: (leqP (perm b) (perm ii)) => D; first by apply: Zb => //; slia.
    by rewrite B4; [apply: Hb|..]; slia.
  + exists t; first by apply: (lspan_ext _ Ht) => c Hc; rewrite B4 //; slia.
    move=> b Hb1 Hb2 c Hc; have Hxa : (x < pv a)%N by rewrite -Ek; apply: P2; slia.
    case: (b =P ii) Hb2 => [->|/eqP Nb] Hb2; last by rewrite B4; [apply: Hb|..]; slia.
    by case/eqP: N0; apply: Hb Hb2 _ _; slia.
  exists (perm ii).+1; first by rewrite C; apply: (lspan_ext _ T1k) => c Hc; rewrite B2.
  move=> b Hb1 Hb2 c; rewrite C Ek => Hc; case: (b =P ii) => [->|/eqP Nb]; first exact: ZZ.
  exact: Zb.
Qed.

Lemma kb_elimP cnt A T x k : (x + cnt = j)%N -> stage A T x k ->
  (forall y, (x <= y < j)%N -> exists a, [/\ (a < i)%N, prow y = a%:Z & pv a = y]) ->
  exists A' T', kb_elim xgcd n cT cnt A T prow ii x = AOk (A', T') /\ stage A' T' j i.
Proof.
elim: cnt A T x k => [|cnt IH] A T x k Ex S Hp /=.
  exists A, T; split=> //; rewrite -Ex addn0; suff <- : k = i by [].
  have [K1 K2 K3] := s_k S; apply/eqP; rewrite eqn_leq K1 leqNgt; apply/negP=> C.
  by have := K3 k; have := Hlt C; slia.
have [a [Ha Ea Epa]] := Hp x ltac:(slia).
have [K1 K2 K3] := s_k S; have [P1 P2] := s_piv S.
have Eak : a = k.
  apply/eqP; rewrite eqn_leq; apply/andP; split; rewrite leqNgt; apply/negP=> C.
    by have := K3 k; have := P2 k a; slia.
  by have := K2 a C; slia.
rewrite Eak in Ha Ea Epa.
case: eqP => [E0|/eqP N0].
  apply: (IH _ _ _ k.+1); [slia|by apply: stage_skip => //; slia|by move=> y Hy; apply: Hp; slia].
rewrite Ea /=; have := @stage_elim A T x k ltac:(slia) Epa Ha S N0.
case: (xgcd_collision xgcd n cT A T k ii x) => A1 T1 [A2 [T2 [-> S2]]] /=.
by apply: (IH _ _ _ k.+1) => //; [slia|move=> y Hy; apply: Hp; slia].
Qed.
End Elim.

(** invariant of the main loop *)
Record kinv A pv (prow : nat -> int) i j ii : Prop := Kinv {
  k_ii : (i <= ii <= m)%N;
  k_j : (j <= n)%N;
  k_piv : pivs A i pv;
  k_nrm : nrm A i pv;
  k_lt : forall a, (a < i)%N -> (pv a < j)%N;
  k_prow : forall x, (x < j)%N -> (exists a, [/\ (a < i)%N, prow x = a%:Z & pv a = x]) \/
     forall a, (a < i)%N -> pv a != x;
  k_z1 : forall b c, (i <= b < ii)%N -> (c <= j)%N -> (c < n)%N -> A b c = 0;
  k_z2 : forall x b c, (x < j)%N -> (forall a, (a < i)%N -> pv a != x) -> (i <= b < m)%N -> (c <= x)%N -> A b c = 0 }.

Lemma elim_row A T pv prow i j ii jj : kinv A pv prow i j ii -> (ii < m)%N -> (jj <= j)%N ->
  (forall c, (c < jj)%N -> A ii c = 0) -> ((jj < j)%N -> A ii jj != 0) ->
  exists A' T', [/\ kb_elim xgcd n cT (j - jj) A T prow ii jj = AOk (A', T'), trans 1 A T A' T',
    [/\ kinv A' pv prow i j ii, (forall c, (c < j)%N -> A' ii c = 0) &
        forall a c, (i <= a)%N -> a != ii -> (c < n)%N -> A' a c = A a c] &
    forall perm, wm A pv perm i -> wm A' pv perm i].
Proof.
move=> [Ki Kj Kp Kn Kl Kr K1 K2] Hii Hjj Z0 N0.
have Hii' : (i <= ii < m)%N by slia.
have [k [Hk1 Hk2 Hk3]] : exists k, [/\ (k <= i)%N, (forall a, (a < k)%N -> (pv a < jj)%N) &
    forall a, (k <= a < i)%N -> (jj <= pv a)%N].
  have [P1 P2] := Kp.
  have K t : (t <= i)%N -> exists k, [/\ (k <= t)%N, (forall a, (a < k)%N -> (pv a < jj)%N) &
    forall a, (k <= a < t)%N -> (jj <= pv a)%N]; last exact: K.
  elim: t => [|t IH] Ht; first by exists 0%N; split=> // a; slia.
  have [k [h1 h2 h3]] := IH (ltnW Ht); case: (ltnP (pv t) jj) => C.
    exists t.+1; split=> // a Ha; last by slia.
    case: (a =P t) => [->|N] //; apply: ltn_trans C; apply: P2; slia.
  exists k; split=> // [|a Ha]; first by slia.
  by case: (a =P t) => [->|N] //; apply: h3; slia.
have Hp y : (jj <= y < j)%N -> exists a, [/\ (a < i)%N, prow y = a%:Z & pv a = y].
  move=> Hy; case: (Kr y) => //; [slia|move=> Ny]; have Hj' : (jj < j)%N by slia.
  case/eqP: (N0 Hj'); apply: (K2 y) => //; slia.
have S0 : stage A T pv i ii A T jj k.
  split=> //.
  - exact: trans_refl.
  - by move=> l Hl; apply: Kn; slia.
  - by move=> a Ha; exists 0; apply: lcomb_row.
  - by exists 1; [rewrite oner_eq0|apply: lcomb_r].
have [A' [T' [E [S1 S2 S3 S4 S5 S6 S7 S8 S9 S10]]]] := @kb_elimP A T pv prow i ii j Hii' Kj Kp Kn Kl K1 (j - jj) A T jj k ltac:(slia) S0 Hp.
have Sm a c : (i <= a)%N -> a != ii -> (c < n)%N -> A' a c = A a c by exact: S6.
exists A', T'; split=> //; split=> //; split=> //.
- by move=> b c Hb Hc Hcn; rewrite Sm ?K1 //; slia.
move=> x b c Hx Nx Hb Hc; case: (b =P ii) => [->|/eqP Nb]; first by apply: S7; slia.
by rewrite Sm ?(K2 x) //; slia.
Qed.

Lemma kb_next_rowP A j ii : (ii <= m)%N -> let p := kb_next_row m A j ii in
  [/\ (ii <= p <= m)%N, (forall b c, (ii <= b < p)%N -> (c <= j)%N -> A b c = 0) &
      (p < m)%N -> exists2 c, (c <= j)%N & A p c != 0].
Proof.
move=> Hii; rewrite /kb_next_row; set f := fun k => has _ _; set q := find f (iota ii (m - ii)).
have Hq : (q <= m - ii)%N by rewrite -[X in (_ <= X)%N](size_iota ii (m - ii)); exact: find_size.
split=> /=; first by slia.
- move=> b c Hb Hc; have Hbq : (b - ii < q)%N by slia.
  have := @before_find _ 0%N f (iota ii (m - ii)) (b - ii)%N Hbq; rewrite nth_iota; last by slia.
  have -> : (ii + (b - ii) = b)%N by slia.
  move/negbT/hasPn => /(_ c); rewrite mem_iota => /(_ ltac:(slia)) /negPn /eqP -> //.
move=> Hp; have : has f (iota ii (m - ii)) by rewrite has_find size_iota -/q; slia.
move=> /(nth_find 0%N); rewrite -/q nth_iota; last by slia.
by case/hasP => c; rewrite mem_iota => Hc Nc; exists c => //; slia.
Qed.

Lemma find_colP A b j c0 : (c0 <= j)%N -> A b c0 != 0 -> let jj := find (fun jj => A b jj != 0) (iota 0 j.+1) in
  [/\ (jj <= j)%N, A b jj != 0 & forall c, (c < jj)%N -> A b c = 0].
Proof.
move=> H0 N0; set f := fun jj => _; set q := find f _.
have Hh : has f (iota 0 j.+1) by apply/hasP; exists c0 => //; rewrite mem_iota; slia.
have Hq : (q < j.+1)%N by rewrite -[X in (_ < X)%N](size_iota 0 j.+1) -has_find.
split=> //; first by have := nth_find 0%N Hh; rewrite -/q nth_iota // add0n.
move=> c Hc; have := @before_find _ 0%N f (iota 0 j.+1) c Hc; rewrite nth_iota ?add0n; last by slia.
by move/negbT/negPn/eqP.
Qed.

Variables (T0 : option (fmat P)) (pv0 : nat -> nat) (mrp0 : option (nat -> int)).

Definition trc A T : Prop := exists2 c : F, c != 0 & trans c%:P A0 T0 A T.

Lemma trc_step A T A' T' (c : F) : trc A T -> c != 0 -> trans c%:P A T A' T' -> trc A' T'.
Proof.
case=> d Nd H Nc H'; exists (c * d); first by rewrite mulf_neq0.
by rewrite polyCM; apply: trans_comp H H'.
Qed.

Definition kmrp A pv perm i (r0 r : nat -> int) : Prop :=
  [/\ is_perm m perm, wm A pv perm i, (forall b, (i <= b < m)%N -> r (perm b) = -1),
      (forall a, (a < i)%N -> r (perm a) = (pv a)%:Z /\ exists2 b, lowrow (perm a) b & lead n b (pv a)) &
      forall k, (m <= k)%N -> r k = r0 k].

Record kst A T pv mrp prow perm i j ii : Prop := Kst {
  t_tr : trc A T;
  t_inv : kinv A pv prow i j ii;
  t_fr : forall a, (i <= a)%N -> pv a = pv0 a;
  t_mrp : opt_rel (kmrp A pv perm i) mrp0 mrp }.

Definition mu j ii := ((n - j) * m.+1 + (m - ii))%N.

Lemma kb_stepP A T pv mrp prow perm i j ii : kst A T pv mrp prow perm i j ii -> (i < m)%N -> (j < n)%N ->
  exists A' T' pv' mrp' prow' perm' i' j' ii', [/\
    kb_step xgcd m n cT (KB A T pv mrp prow perm i j ii) = AOk (KB A' T' pv' mrp' prow' perm' i' j' ii'),
    kst A' T' pv' mrp' prow' perm' i' j' ii' & (mu j' ii' < mu j ii)%N].
Proof.
move=> [Tc K Fr M] Him Hjn.
have [Ki Kj Kp Kn Kl Kr K1 K2] := K.
have [|R1 R2 R3] := @kb_next_rowP A j ii; first by slia.
rewrite /kb_step; set p := kb_next_row m A j ii in R1 R2 R3 *.
have Z1 b c : (i <= b < p)%N -> (c <= j)%N -> (c < n)%N -> A b c = 0.
  by move=> Hb Hc Hcn; case: (ltnP b ii) => C; [apply: K1|apply: R2]; slia.
case: eqP => [Ep|Np].
  exists A, T, pv, mrp, prow, perm, i, j.+1, i; split=> //; last first.
    rewrite /mu; have -> : (n - j = (n - j.+1).+1)%N by slia.
    by rewrite mulSn; slia.
  split=> //; split=> //.
  - by slia.
  - by move=> a Ha; apply: ltnW; apply: Kl.
  - move=> x Hx; case: (x =P j) => [->|Nx]; last by apply: Kr; slia.
    by right=> a Ha; have := Kl a Ha; slia.
  - by move=> b c; slia.
  move=> x b c Hx Nx Hb Hc; case: (x =P j) => [Ex|Nx']; last by apply: (K2 x) => //; slia.
  by apply: Z1; slia.
have Hpm : (p < m)%N by slia.
have [c0 Hc0 Nc0] := R3 Hpm.
have [J1 J2 J3] := find_colP Hc0 Nc0; set jj := find _ _ in J1 J2 J3 *.
have Kp' : kinv A pv prow i j p by split=> //; slia.
have [A' [T' [-> Tr' [KA ZA Sm] WA]]] := @elim_row A T pv prow i j p jj Kp' Hpm J1 J3 (fun _ => J2).
have Tc' : trc A' T' by apply: (trc_step Tc (oner_neq0 _)).
rewrite /=; case: eqP => [E0|/eqP N0].
  exists A', T', pv, mrp, prow, perm, i, j, p.+1; split=> //; last by rewrite /mu ltn_add2l; slia.
  split=> //.
    have [? ? ? ? ? ? Kz ?] := KA; split=> //; first by slia.
    move=> b c Hb Hc Hcn; case: (b =P p) => [->|Nb]; last by apply: Kz => //; slia.
    by case: (c =P j) => [->|Nc] //; apply: ZA; slia.
  by move: M; case: mrp0 (mrp) => [r0|] [r|] //= [h1 h2 h3 h4 h5]; split=> //; apply: WA.
have Hip : (i <= p)%N by slia.
have [A1 [vec [-> EA1 EA Ev]]] := rot_dn A' (omap (fun _ => perm) mrp) Hip.
set perm1 := if vec is Some q then q else perm; set T1 := omap _ T'.
have Q1 : A1 i = A' p by rewrite EA eqxx.
have N1 : A1 i j != 0 by rewrite Q1.
have Z1i c : (c < j)%N -> A1 i c = 0 by move=> Hc; rewrite Q1 ZA.
have [A2 [T2 [d [-> Nd Tr2 E2 M2]]]] := @uref_normalizeP _ m n cT A1 T1 i j Him Hjn N1 Z1i.
rewrite /=.
have N2 : A2 i j != 0 by rewrite monic_neq0.
have Z2 c : (c < j)%N -> A2 i c = 0.
  by move=> Hc; rewrite E2 ?eqxx ?Z1i ?scaler0 //; slia.
have [A3 [T3 [q [-> Tr3 E3 S3]]]] := @reduce_aboveP _ m n cT A2 T2 i j Him Hjn N2 Z2.
rewrite /=; eexists _, _, _, _, _, _, _, _, _; split; first reflexivity; last first.
  rewrite /mu; have -> : (n - j = (n - j.+1).+1)%N by slia.
  by rewrite mulSn; slia.
have [? _ Pv' Nm' _ _ _ K2'] := KA; have [P1 P2] := Pv'.
have F1 a c : (a < i)%N -> (c < n)%N -> A3 a c = A' a c + q a * A2 i c.
  move=> Ha Hc; rewrite E3 // Ha E2 //; have -> : (a == i) = false by slia.
  rewrite EA; have -> : (a == i) = false by slia.
  by have -> : (i < a <= p)%N = false by slia.
have F1' a c : (a < i)%N -> (c < j)%N -> A3 a c = A' a c.
  by move=> Ha Hc; rewrite F1 ?Z2 ?mulr0 ?addr0 //; slia.
have F2 c : (c < n)%N -> A3 i c = A2 i c by move=> Hc; rewrite E3 // ltnn.
have F2' c : (c < n)%N -> A2 i c = d%:P * A' p c.
  by move=> Hc; rewrite E2 // eqxx Q1 mul_polyC.
pose src b := if (b <= p)%N then b.-1 else b.
have F3 b c : (i < b)%N -> (c < n)%N -> A3 b c = A' (src b) c.
  move=> Hb Hc; rewrite E3 // E2 //; have -> : (b < i)%N = false by slia.
  have -> : (b == i) = false by slia.
  rewrite EA /src; have -> : (b == i) = false by slia.
  by rewrite Hb /=; case: ifP.
have Hsrc b : (i < b < m)%N -> (i <= src b < m)%N /\ src b != p.
  by rewrite /src; case: ifP; slia.
have Mpv a : (a < i)%N -> upd pv i j a = pv a.
  by move=> Ha; rewrite /upd; have -> : (a == i) = false by slia.
split.
- have Tc1 : trc A1 T1.
    have := @trans_down _ m n cT A' T' i (p - i)%N; rewrite subnKC // => /(_ Hpm); rewrite -EA1 => Tr1.
    apply: (@trc_step A' T' A1 T1 ((-1) ^+ odd (p - i))) => //; first by rewrite signr_eq0.
    by rewrite rmorphX rmorphN1.
  by apply: (trc_step (trc_step Tc1 Nd Tr2) (oner_neq0 _)).
- split.
  + by slia.
  + by slia.
  + split=> [a|a b Hab]; last first.
      rewrite {2}/upd; case: (b =P i) => [Eb|Nb]; first by rewrite Mpv ?Kl //; slia.
      by rewrite Mpv ?P2 //; slia.
    rewrite ltnS leq_eqVlt => /orP[/eqP ->|Ha].
      by rewrite /upd eqxx; split=> //; [rewrite F2|move=> c Hc; rewrite F2 ?Z2 //; slia].
    rewrite Mpv //; have [a1 a2 a3] := P1 a Ha; have La := Kl a Ha; split=> //; first by rewrite F1'.
    by move=> c Hc; rewrite F1' ?a3 //; slia.
  + move=> l; rewrite ltnS leq_eqVlt => /orP[/eqP ->|Hl].
      by rewrite /upd eqxx F2 //; split=> // a Ha; apply: S3.
    have [Ml Sl] := Nm' l Hl; rewrite Mpv // F1' ?Kl //; split=> // a Ha.
    by rewrite F1' ?Kl ?Sl //; slia.
  + by move=> a Ha; rewrite /upd; case: eqP => // N; apply: ltnW; apply: Kl; slia.
  + move=> x Hx; rewrite {1}/upd; case: (x =P j) => [->|Nx].
      by left; exists i; split=> //; rewrite /upd eqxx.
    case: (Kr x) => [|[a [Ha Ea Epa]]|N]; first by slia.
      by left; exists a; rewrite Mpv //; split=> //; slia.
    right=> a Ha; rewrite /upd; case: (a =P i) => [_|Na]; first by apply/eqP=> E; rewrite E in Nx.
    by apply: N; slia.
  + by move=> b c; slia.
  + move=> x b c Hx Nx Hb Hc.
    have Nxj : x != j by apply/eqP=> E; have := Nx i (ltnSn _); rewrite /upd eqxx E eqxx.
    have [S1 S2] := Hsrc b Hb; rewrite F3; try slia.
    apply: (K2' x) => //; first by slia.
    by move=> a Ha; have := Nx a (ltnW Ha); rewrite Mpv.
- move=> a Ha; rewrite /upd; have -> : (a == i) = false by slia.
  by apply: Fr; slia.
move: M Ev; rewrite /perm1; case: mrp0 (mrp) => [r0|] [r|] //= [Hp Wp Hr Hg Hm].
case: (vec) => //= qp Eq.
have [Hp2 Hp3] := Hp; have [I Lo Sp] := WA _ Wp.
have G1 : qp i = perm p by rewrite Eq eqxx.
have G2 b : (i < b)%N -> qp b = perm (src b).
  move=> Hb; rewrite Eq /src; have -> : (b == i) = false by slia.
  by rewrite Hb /=; case: ifP.
have G3 b : (b < i)%N -> qp b = perm b.
  move=> C; rewrite Eq; have -> : (b == i) = false by slia.
  by have -> : (i < b <= p)%N = false by slia.
have Lp : lspan (perm p).+1 (A2 i).
  apply: (@lspan_ext _ m n A0 _ (fun c => d%:P * A' p c + 0 * A' p c)).
    by move=> c Hc; rewrite mul0r addr0 F2'.
  by apply: lspan_comb; apply: lowrow_lspan; apply: Lo; slia.
have Zs b c : (i < b < m)%N -> (perm (src b) <= perm p)%N -> (c <= j)%N -> A3 b c = 0.
  move=> Hb Hs Hc; have [S1 S2] := Hsrc b Hb; rewrite F3; try slia.
  have S4 : (src b < p)%N by case: (ltngtP (src b) p) S2 => // C _; have := I p (src b); slia.
  by rewrite Sm ?Z1 //; slia.
have Hpr b : (i < b < m)%N -> perm (src b) != perm p.
  move=> Hb; have [S1 S2] := Hsrc b Hb; apply/eqP=> E; case/eqP: S2; apply: Hp3 E; slia.
split.
- split=> [k Hk|k l Hk Hl]; rewrite !Eq.
    by do ?[case: ifP => ?]; apply: Hp2; slia.
  by do ![case: ifP => ?] => /Hp3; slia.
- split.
  + move=> b b' Hb Hb'; rewrite !G2; try slia.
    by apply: I; rewrite /src; do ![case: ifP]; slia.
  + move=> b Hb; rewrite G2; last by slia.
    have [S1 S2] := Hsrc b Hb; apply: (lowrow_ext _ (Lo _ S1)) => c Hc; rewrite F3 //; slia.
  + move=> a; rewrite ltnS leq_eqVlt => /orP[/eqP ->|Ha].
      exists (perm p).+1; first by apply: (lspan_ext _ Lp) => c Hc; rewrite F2.
      move=> b Hb Hbt c; rewrite /upd eqxx => Hc; apply: Zs => //.
      by move: Hbt; rewrite G2 //; slia.
    have [t Ht Hb] := Sp a Ha; exists (maxn t (perm p).+1).
      apply: (@lspan_ext _ m n A0 _ (fun c => 1 * A' a c + q a * A2 i c)).
        by move=> c Hc; rewrite mul1r F1.
      by apply: lspan_comb; [apply: lspan_mono Ht|apply: lspan_mono Lp]; slia.
    move=> b Hb1 Hb2 c; rewrite Mpv // => Hc; have La := Kl a Ha.
    rewrite G2 in Hb2; last by slia.
    case: (leqP (perm (src b)) (perm p)) => C; first by apply: Zs => //; slia.
    have [S1 S2] := Hsrc b Hb1; rewrite F3; try slia.
    by apply: Hb => //; slia.
- move=> b Hb; have [S1 S2] := Hsrc b Hb; rewrite G1 G2; last by slia.
  by rewrite /upd (negbTE (Hpr _ Hb)); apply: Hr.
- move=> a; rewrite ltnS leq_eqVlt => /orP[/eqP ->|Ha].
    rewrite G1 /upd !eqxx; split=> //; exists (A' p); first by apply: Lo; slia.
    by split=> // c _; apply: ZA.
  have [E [b Hb1 Hb2]] := Hg a Ha; rewrite Mpv // G1 (G3 a) // /upd.
  rewrite ifF ?E; first by split=> //; exists b.
  by apply/eqP=> E'; have := Hp3 a p; rewrite E'; slia.
move=> k Hk; rewrite G1 /upd; case: eqP => [E|_]; last exact: Hm.
by have := Hp2 p Hpm; slia.
Qed.
End KB.

Section Loop.
Local Arguments kb_step : simpl never.
Variables (F : fieldType) (m n cT : nat).
Local Notation P := {poly F}.
Variables (A0 : fmat P) (T0 : option (fmat P)) (pv0 : nat -> nat) (mrp0 : option (nat -> int)).
Implicit Types (A : fmat P) (T : option (fmat P)) (pv : nat -> nat).
Variable xgcd : P -> P -> P * P * P.
Hypothesis XS : xgcd_spec xgcd.
Local Notation kst := (@kst F m n cT A0 T0 pv0 mrp0).

Lemma kb_loopP fuel A T pv mrp prow perm i j ii : (mu m n j ii <= fuel)%N -> kst A T pv mrp prow perm i j ii ->
  exists A' T' pv' mrp' prow' perm' i' j' ii', [/\
    kb_loop xgcd m n cT fuel (KB A T pv mrp prow perm i j ii) = Some (AOk (KB A' T' pv' mrp' prow' perm' i' j' ii')),
    kst A' T' pv' mrp' prow' perm' i' j' ii' & (i' = m \/ j' = n)].
Proof.
elim: fuel A T pv mrp prow perm i j ii => [|fuel IH] A T pv mrp prow perm i j ii Hf S.
all: have [K1 K2 _ _ _ _ _ _] := t_inv S; rewrite [kb_loop _ _ _ _ _ _]/= /kb_i /kb_j.
all: case: ifP => C; last by exists A, T, pv, mrp, prow, perm, i, j, ii; split=> //; lia.
  by exfalso; move: Hf; rewrite /mu; have -> : (n - j = (n - j.+1).+1)%N by lia.
have [A' [T' [pv' [mrp' [prow' [perm' [i' [j' [ii' [-> S' Hm]]]]]]]]]] :=
  kb_stepP XS S (proj1 (andP C)) (proj2 (andP C)).
by apply: IH => //; lia.
Qed.

(** completing the elimination of the remaining rows, which the program does not do when the last
    pivot is found in the last column *)
Lemma kb_complete A T pv prow i ii : kinv m n A pv prow i n ii ->
  exists B TB, [/\ trans m n cT 1 A T B TB, kinv m n B pv prow i n m &
    forall perm, wm m n A0 A pv perm i -> wm m n A0 B pv perm i].
Proof.
move=> K; have Hle := k_ii K.
have [d Ed] : exists d, (m - ii = d)%N by exists (m - ii)%N.
elim: d A T ii K Hle Ed => [|d IH] A T ii K Hle Ed.
  have Ei : ii = m by lia.
  by rewrite Ei in K; exists A, T; split=> //; exact: trans_refl.
have Hii : (ii < m)%N by lia.
have next A' T' : trans m n cT 1 A T A' T' -> kinv m n A' pv prow i n ii -> (forall c, (c < n)%N -> A' ii c = 0) ->
   (forall perm, wm m n A0 A pv perm i -> wm m n A0 A' pv perm i) ->
   exists B TB, [/\ trans m n cT 1 A T B TB, kinv m n B pv prow i n m &
    forall perm, wm m n A0 A pv perm i -> wm m n A0 B pv perm i].
  move=> Tr [? ? ? ? ? ? Kz Kz2] Z W.
  have K' : kinv m n A' pv prow i n ii.+1.
    split=> //; first by lia.
    by move=> b c Hb Hc Hcn; case: (b =P ii) => [->|N]; [apply: Z|apply: Kz => //; lia].
  have [|B [TB [Tr' K2 W2]]] := IH A' T' ii.+1 K' ltac:(lia); first by lia.
  exists B, TB; split=> //; first by have := trans_comp Tr Tr'; rewrite mulr1.
  by move=> perm /W /W2.
case E: (find (fun c => A ii c != 0%R) (iota 0 n) < n)%N.
  set jj := find _ _ in E.
  have Hh : has (fun c => A ii c != 0) (iota 0 n) by rewrite has_find size_iota.
  have N0 : A ii jj != 0 by have := nth_find 0%N Hh; rewrite -/jj nth_iota.
  have Z0 c : (c < jj)%N -> A ii c = 0.
    move=> Hc; have := @before_find _ 0%N _ _ _ Hc; rewrite nth_iota; last by lia.
    by rewrite add0n => /negbT/negPn/eqP.
  have [A' [T' [_ Tr' [KA ZA _] WA]]] := @elim_row F m n cT A0 xgcd XS A T pv prow i n ii jj K Hii (ltnW E) Z0 (fun _ => N0).
  exact: (next A' T').
apply: (next A T) => //; first exact: trans_refl.
move=> c Hc; apply/eqP; apply: contraT => Nc; move: E; rewrite -[X in (_ < X)%N](size_iota 0 n) -has_find.
by move/hasP; case; exists c => //; rewrite mem_iota.
Qed.

Lemma kb_final A T pv mrp prow perm i j ii : kst A T pv mrp prow perm i j ii -> (i = m \/ j = n) -> (0 < n)%N ->
  [/\ column_rank_profile m n A0 i pv, prank (mx_of m n A0) = i,
      opt_rel (fun r0 r => matrix_rank_profile m n A0 r /\ forall k, (m <= k)%N -> r k = r0 k) mrp0 mrp,
      [/\ (i <= m)%N, pivs n A i pv & nrm A i pv] &
      (i = m \/ (forall a, (a < i)%N -> (pv a).+1 != n)) -> zrows m A i n].
Proof.
move=> S He Hn; have [[c Nc Tr] K Fr M] := S.
have Him : (i <= m)%N by have := k_ii K; lia.
have [B [TB [TrB PB ZB WB]]] : exists B TB, [/\ trans m n cT 1 A T B TB, pivs n B i pv, zrows m B i n &
    forall perm, wm m n A0 A pv perm i -> wm m n A0 B pv perm i].
  case: (i =P m) => [Ei|Ni].
    by exists A, T; split=> //; [exact: trans_refl|exact: k_piv K|move=> a b; rewrite Ei; lia].
  have Ej : j = n by case: He.
  rewrite Ej in K; have [B [TB [h1 h2 h3]]] := kb_complete T K; exists B, TB; split=> //; first exact: k_piv h2.
  by move=> b x Hb Hx; apply: (k_z1 h2) => //; apply: ltnW.
have Nc' : c%:P != 0 by rewrite polyC_eq0.
have := trans_comp Tr TrB; rewrite mul1r => TrAll.
have [C1 C2] := trans_crp Nc' Him TrAll PB ZB.
split=> //.
- move: M; case: mrp0 (mrp) => [r0|] [r|] //= [Hp Wp Hr Hg Hm]; split=> //.
  have [I Lo Sp] := WB _ Wp; have [P1 P2] := PB.
  pose g k := if r k == -1 then n else `|r k|%N.
  have G1 a : (i <= a < m)%N -> g (perm a) = n by move=> /Hr E; rewrite /g E.
  have G2 a : (a < i)%N -> g (perm a) = pv a by move=> /Hg[E _]; rewrite /g E.
  apply: (@low_mrp _ m n A0 r g) => [k|k|k k'] Hk.
  + have [a Ha <-] := is_perm_surj Hp Hk; case: (ltnP a i) => C.
      by rewrite G2 //; have [_ [b Hb1 Hb2]] := Hg a C; exists b.
    rewrite G1; last by lia.
    exists (B a); first by apply: Lo; lia.
    split=> [|x Hx _]; first by rewrite ltnn.
    by apply: ZB => //; lia.
  + have [a Ha <-] := is_perm_surj Hp Hk; case: (ltnP a i) => C.
      by left; rewrite G2 //; have [h _ _] := P1 a C; have [-> _] := Hg a C.
    by right; rewrite G1 ?Hr //; lia.
  have [a Ha <-] := is_perm_surj Hp Hk => Hk'; have [a' Ha' <-] := is_perm_surj Hp Hk'.
  case: (ltnP a i) => C; last by rewrite G1; lia.
  rewrite G2 //; case: (ltnP a' i) => C' L; last by rewrite G1; lia.
  by rewrite G2 // => E; rewrite (pivs_inj PB C C' E).
- by split=> //; [exact: k_piv K|exact: k_nrm K].
case=> [Ei|N] b x Hb Hx; first by lia.
case: (i =P m) => [|Ni]; first by lia.
have Ej : j = n by case: He.
apply: (k_z2 K (x := n.-1)) => //; try lia.
by move=> a Ha; apply/eqP=> E; have := N a Ha; rewrite E; lia.
Qed.
End Loop.
