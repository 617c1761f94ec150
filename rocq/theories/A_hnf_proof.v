(** Normalisation of an echelon form into a Hermite form; uniqueness of the Hermite form. *)
From mathcomp Require Import all_ssreflect all_algebra fraction zify.
From Verif Require Import A_base SpecA SpecForms SpecWP SpecHermite A_rot_model A_rot_proof A_rowops_proof
  A_wpopov_proof A_hermite_model A_hermite_ops_proof A_uref_proof.
Set Implicit Arguments.
Unset Strict Implicit.
Unset Printing Implicit Defensive.
Import GRing.Theory Num.Theory.
Local Open Scope ring_scope.

Section Normalize.
Variables (F : fieldType) (m n cT : nat).
Local Notation P := {poly F}.
Implicit Types (A : fmat P) (T : option (fmat P)) (pv : nat -> nat).
Local Notation trans := (trans m n cT).
Local Notation pivs := (pivs n).

(** the t first pivots are monic and the entries above them have smaller degree *)
Definition nrm A t pv : Prop :=
  forall i, (i < t)%N -> A i (pv i) \is monic /\ forall a, (a < i)%N -> (size (A a (pv i)) < size (A i (pv i)))%N.

Lemma normalize_urefP A T pv rk : (rk <= m)%N -> pivs A rk pv ->
  exists A' T' (c : F), [/\ normalize_uref n cT A T pv rk = AOk (A', T'), c != 0,
    trans c%:P A T A' T', pivs A' rk pv /\ nrm A' rk pv &
    forall i k, (rk <= i)%N -> (k < n)%N -> A' i k = A i k].
Proof.
move=> L Pv; rewrite /normalize_uref.
have K t : (t <= rk)%N -> exists A' T' (c : F),
  [/\ foldl (fun st i => abind st (fun x => abind (uref_normalize_pivot n cT x.1 x.2 i (pv i))
         (fun y => uref_reduce_above n cT y.1 y.2 i (pv i)))) (AOk (A, T)) (iota 0 t) = AOk (A', T'),
    c != 0, trans c%:P A T A' T', pivs A' rk pv /\ nrm A' t pv &
    forall i k, (t <= i)%N -> (k < n)%N -> A' i k = A i k]; last exact: K.
elim: t => [|t IH] Ht.
  by exists A, T, 1; split=> //; [rewrite oner_eq0|exact: trans_refl].
have [|A1 [T1 [c [E Nc Tr1 [[P1 P2] Nm] Fr]]]] := IH; first by lia.
rewrite -[t.+1]addn1 iotaD foldl_cat E /= add0n.
have [h1 h2 h3] := P1 t Ht; have Htm : (t < m)%N by lia.
have [A2 [T2 [d [-> Nd Tr2 E2 M2]]]] := @uref_normalizeP _ m n cT A1 T1 t (pv t) Htm h1 h2 h3.
rewrite /=.
have N2 : A2 t (pv t) != 0 by rewrite monic_neq0.
have Z2 k : (k < pv t)%N -> A2 t k = 0.
  by move=> Hk; rewrite E2 ?eqxx ?h3 ?scaler0 //; lia.
have [A3 [T3 [q [-> Tr3 E3 S3]]]] := @reduce_aboveP _ m n cT A2 T2 t (pv t) Htm h1 N2 Z2.
exists A3, T3, (d * c); split=> //.
- by rewrite mulf_neq0.
- by have := trans_comp (trans_comp Tr1 Tr2) Tr3; rewrite mul1r polyCM.
- have EQ a k : (a != t) -> (k < pv t)%N -> A3 a k = A1 a k.
    move=> Na Hk; have Hkn : (k < n)%N by lia.
    by rewrite E3 // Z2 // mulr0 addr0 if_same E2 // (negbTE Na).
  have Et k : (k < n)%N -> A3 t k = A2 t k by move=> Hk; rewrite E3 // ltnn.
  split.
    split=> // i Hi; case: (i =P t) => [->|/eqP Ni].
      by split=> //; [rewrite Et|move=> k Hk; rewrite Et ?Z2 //; lia].
    have [i1 i2 i3] := P1 i Hi; split=> //.
      case: (ltnP i t) => C; first by rewrite EQ // P2 //; lia.
      by rewrite E3 // ltnNge C /= E2 // (negbTE Ni).
    move=> k Hk; have Hkn : (k < n)%N by lia.
    case: (ltnP i t) => C; first by rewrite EQ ?i3 //; have := P2 i t; lia.
    by rewrite E3 // ltnNge C /= E2 // (negbTE Ni) i3.
  move=> i; rewrite addn1 ltnS leq_eqVlt => /orP[/eqP ->|Hi].
    by rewrite Et //; split=> // a Ha; apply: S3.
  have Hpi : (pv i < pv t)%N by apply: P2; lia.
  have [Mi Si] := Nm i Hi; rewrite EQ //; last by lia.
  by split=> // a Ha; rewrite EQ ?Si //; lia.
- move=> i k Hi Hk; rewrite E3 // E2 //; have -> : (i < t)%N = false by lia.
  have -> : (i == t) = false by lia.
  by apply: Fr => //; lia.
Qed.

Lemma nrm_hermite A rk pv : uref_with (mx_of m n A) rk pv -> nrm A rk pv -> hermite_with (mx_of m n A) rk pv.
Proof.
move=> U N; split=> // i j Hi Ej; rewrite !mxE -Ej; have [M S] := N i Hi; split=> // i' Hi'.
by rewrite !mxE -Ej; apply: S.
Qed.

Lemma hermite_nrm A rk pv : hermite_with (mx_of m n A) rk pv -> nrm A rk pv.
Proof.
move=> [U H] i Hi; have [L [P1 P2] Z] := uref_pivs U; have [h1 h2 h3] := P1 i Hi.
have Him : (i < m)%N by lia.
have [M S] := H (Ordinal Him) (Ordinal h1) Hi erefl; rewrite !mxE /= in M.
split=> // a Ha; have Ham : (a < m)%N by lia.
by have := S (Ordinal Ham) Ha; rewrite !mxE.
Qed.
End Normalize.

(** ** uniqueness *)
Section Unique.
Variables (F : fieldType) (m n : nat).
Local Notation P := {poly F}.
Implicit Types (A B : fmat P) (pv : nat -> nat).
Local Notation pivs := (pivs n).
Local Notation zrows := (zrows m).

(** the rows of B are combinations of the rows of A *)
Definition rows_in A B : Prop := exists W : 'M[P]_m, mx_of m n B = W *m mx_of m n A.

(** coefficients of a row of B in terms of the pivot rows of A: the coefficients of the rows whose
    pivot is left of the leading entry vanish *)
Lemma comb_lead A rk pv (w : nat -> P) (v : nat -> P) j : (rk <= m)%N -> pivs A rk pv -> zrows A rk n ->
  (forall c, (c < n)%N -> v c = \sum_(l < m) w l * A l c) -> (forall k, (k < j)%N -> (k < n)%N -> v k = 0) ->
  forall i, (i < rk)%N -> (pv i < j)%N -> w i = 0.
Proof.
move=> L [P1 P2] Z E V; elim/ltn_ind=> i IH Hi Hj; have [h1 h2 h3] := P1 i Hi.
have : v (pv i) = 0 by apply: V.
rewrite E //; have Him : (i < m)%N by lia.
rewrite (bigD1 (Ordinal Him)) //= big1 ?addr0; first by move/eqP; rewrite mulf_eq0 (negbTE h2) orbF => /eqP.
move=> l Nl; have Nl' : (l : nat) != i by rewrite -val_eqE in Nl.
case: (ltnP l rk) => Cl; last by rewrite Z ?mulr0 //; have := ltn_ord l; lia.
case: (ltngtP l i) Nl' => // C _; last first.
  by have [_ _ ->] := P1 l Cl; rewrite ?mulr0 //; apply: P2; lia.
by rewrite IH ?mul0r //; apply: ltn_trans Hj; apply: P2; lia.
Qed.

Lemma rows_in_coef A B i : rows_in A B -> (i < m)%N ->
  exists w : nat -> P, forall c, (c < n)%N -> B i c = \sum_(l < m) w l * A l c.
Proof.
case=> W E Hi; exists (fun l => if insub l is Some o then W (Ordinal Hi) o else 0) => c Hc.
have := congr1 (fun M : 'M_(m, n) => M (Ordinal Hi) (Ordinal Hc)) E; rewrite !mxE => ->.
by apply: eq_bigr => l _; rewrite valK mxE.
Qed.

(** leading columns of the rows of B are leading columns of the rows of A *)
Lemma lead_col A B rk pv rk' pv' i : (rk <= m)%N -> pivs A rk pv -> zrows A rk n -> rows_in A B ->
  (rk' <= m)%N -> pivs B rk' pv' -> (i < rk')%N ->
  exists2 a, (a < rk)%N & pv a = pv' i.
Proof.
move=> L Pv Z R L' [P1' P2'] Hi; have [h1 h2 h3] := P1' i Hi.
have [|w E] := rows_in_coef (i := i) R; first by lia.
have W := comb_lead L Pv Z E (fun k Hk _ => h3 k Hk).
case: (pickP (fun a : 'I_rk => pv a == pv' i)) => [a /eqP Ea|N]; first by exists a.
exfalso; move/eqP: h2; apply; rewrite E // big1 // => l _.
case: (ltnP l rk) => Cl; last by rewrite Z ?mulr0 //; have := ltn_ord l; lia.
have := N (Ordinal Cl) => /= /eqP Ne; case: (ltngtP (pv l) (pv' i)) => // C; first by rewrite W ?mul0r.
by have [P1 _] := Pv; have [_ _ ->] := P1 l Cl; rewrite ?mulr0.
Qed.

Lemma pivs_unique A B rk pv rk' pv' : (rk <= m)%N -> pivs A rk pv -> zrows A rk n ->
  (rk' <= m)%N -> pivs B rk' pv' -> zrows B rk' n -> rows_in A B -> rows_in B A ->
  rk = rk' /\ forall i, (i < rk)%N -> pv i = pv' i.
Proof.
move=> L Pv Z L' Pv' Z' R R'.
have S (C : fmat P) k q : pivs C k q -> sorted ltn (map q (iota 0 k)).
  case=> _ P2; elim: k P2 => [|k IH] P2 //.
  rewrite -[k.+1]addn1 iotaD map_cat /= add0n cats1.
  have {IH} : sorted ltn (map q (iota 0 k)) by apply: IH => a b Hab; apply: P2; lia.
  case: k P2 => [|k] //= P2; rewrite rcons_path => -> /=.
  have La : forall b a, last (q a) (map q (iota a.+1 b)) = q (a + b)%N.
    by elim=> [|b IHb] a /=; rewrite ?addn0 // IHb addSnnS.
  rewrite La add0n.
  by apply: P2; lia.
have E : map pv (iota 0 rk) = map pv' (iota 0 rk').
  apply: (@irr_sorted_eq _ ltn ltn_trans ltnn) => [||x]; [exact: S Pv|exact: S Pv'|].
  apply/mapP/mapP => -[a]; rewrite mem_iota add0n /= => Ha ->.
    have [b Hb Eb] := lead_col L' Pv' Z' R' L Pv Ha; exists b => //; by rewrite mem_iota add0n.
  have [b Hb Eb] := lead_col L Pv Z R L' Pv' Ha; exists b => //; by rewrite mem_iota add0n.
have Erk : rk = rk' by have := congr1 size E; rewrite !size_map !size_iota.
split=> // i Hi; have := congr1 (fun s => nth 0%N s i) E.
rewrite -Erk !(nth_map 0%N) ?size_iota // nth_iota //.
Qed.

Lemma hermite_unique A B rk pv rk' pv' : (rk <= m)%N -> pivs A rk pv -> zrows A rk n -> nrm A rk pv ->
  (rk' <= m)%N -> pivs B rk' pv' -> zrows B rk' n -> nrm B rk' pv' -> rows_in A B -> rows_in B A ->
  [/\ rk = rk', (forall i, (i < rk)%N -> pv i = pv' i) & feq m n A B].
Proof.
move=> L Pv Z N L' Pv' Z' N' R R'.
have [Erk Epv] := pivs_unique L Pv Z L' Pv' Z' R R'; split=> //.
rewrite -Erk in L' Pv' Z' N'.
have {}Pv' : pivs B rk pv by apply: pivs_pv Pv'.
have {}N' : nrm B rk pv by move=> i Hi; rewrite Epv //; apply: N'.
have [P1 P2] := Pv; have [Q1 Q2] := Pv'.
(* coefficient of row i of one matrix on the pivot i *)
have D (C1 C2 : fmat P) i (w : nat -> P) : pivs C1 rk pv -> zrows C1 rk n -> pivs C2 rk pv -> (i < rk)%N ->
    (forall c, (c < n)%N -> C2 i c = \sum_(l < m) w l * C1 l c) ->
    C2 i (pv i) = w i * C1 i (pv i) /\ forall l, (l < i)%N -> w l = 0.
  move=> PC1 ZC1 [PC2 _] Hi E; have [h1 h2 h3] := PC2 i Hi.
  have W l : (l < i)%N -> w l = 0.
    move=> Hl; apply: (comb_lead L PC1 ZC1 E (fun k Hk _ => h3 k Hk)); first by lia.
    by apply: P2; lia.
  split=> //; have Him : (i < m)%N by lia.
  rewrite E // (bigD1 (Ordinal Him)) //= big1 ?addr0 // => l Nl.
  have Nl' : (l : nat) != i by rewrite -val_eqE in Nl.
  case: (ltngtP l i) Nl' => // C _; first by rewrite W // mul0r.
  case: (ltnP l rk) => Cl; last by rewrite ZC1 ?mulr0 //; have := ltn_ord l; lia.
  by case: PC1 => PC1 _; have [_ _ ->] := PC1 l Cl; rewrite ?mulr0 //; apply: P2; lia.
have Dg i : (i < rk)%N -> A i (pv i) = B i (pv i).
  move=> Hi; have Him : (i < m)%N by lia.
  have [w E] := rows_in_coef R Him; have [w' E'] := rows_in_coef R' Him.
  have [E1 _] := D A B i w Pv Z Pv' Hi E; have [E2 _] := D B A i w' Pv' Z' Pv Hi E'.
  have [M1 _] := N i Hi; have [M2 _] := N' i Hi.
  apply/eqP; rewrite -eqp_monic //; apply/andP; split; apply/dvdpP.
    by exists (w i).
  by exists (w' i).
move=> i c Him Hc; case: (ltnP i rk) => Hi; last by rewrite Z ?Z' //; lia.
have [w E] := rows_in_coef R Him; have [E1 W] := D A B i w Pv Z Pv' Hi E.
have Wi : w i = 1.
  have [_ h2 _] := P1 i Hi; apply: (mulIf h2); rewrite mul1r -E1; exact/esym/Dg.
have Wk : forall k, (i < k < rk)%N -> w k = 0.
  elim/ltn_ind=> k IH Hk; have Hkr : (k < rk)%N by lia.
  have Hkm : (k < m)%N by lia.
  have [k1 k2 k3] := P1 k Hkr; have := E (pv k) k1.
  have Nik : Ordinal Hkm != Ordinal Him by rewrite -val_eqE /=; lia.
  rewrite (bigD1 (Ordinal Him)) //= (bigD1 (Ordinal Hkm)) //= big1 ?addr0; last first.
    move=> l /andP[]; rewrite -!val_eqE /= => Nl1 Nl2.
    case: (ltnP l rk) => Cl; last by rewrite Z ?mulr0 //; have := ltn_ord l; lia.
    case: (ltngtP l i) Nl1 => // C1 _; first by rewrite W ?mul0r.
    case: (ltngtP l k) Nl2 => // C2 _; first by rewrite IH ?mul0r //; lia.
    by have [_ _ ->] := P1 l Cl; rewrite ?mulr0 //; apply: P2; lia.
  rewrite Wi mul1r => E3; apply/eqP; apply: contraT => Nw.
  have E4 : B i (pv k) - A i (pv k) = w k * A k (pv k) by rewrite E3 addrC addKr.
  have [_ S1] := N k Hkr; have [_ S2] := N' k Hkr.
  have Hik : (i < k)%N by lia.
  have := S1 i Hik; have := S2 i Hik; rewrite -Dg // => T2 T1.
  have : (size (B i (pv k) - A i (pv k) : P)%R < size (A k (pv k)))%N.
    apply: leq_ltn_trans (size_add _ _) _; rewrite size_opp gtn_max T2 T1 //.
  rewrite E4 size_mul // ltnNge; case/negP.
  have : (0 < size (w k))%N by rewrite size_poly_gt0.
  by move: (size _) (size _) => x y; lia.
rewrite E // (bigD1 (Ordinal Him)) //= Wi mul1r big1 ?addr0 // => l Nl.
have Nl' : (l : nat) != i by rewrite -val_eqE in Nl.
case: (ltnP l rk) => Cl; last by rewrite Z ?mulr0 //; have := ltn_ord l; lia.
case: (ltngtP l i) Nl' => // C _; first by rewrite W ?mul0r.
by rewrite Wk ?mul0r //; lia.
Qed.
End Unique.
