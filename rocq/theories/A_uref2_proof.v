(** The three echelon form algorithms. *)
From mathcomp Require Import all_ssreflect all_algebra perm fraction zify.
From Verif Require Import A_base SpecA SpecForms SpecLU SpecWP SpecHermite A_rot_model A_rot_proof A_wpopov_model.
From Verif Require Import A_rowops_proof A_hermite_model A_hermite_ops_proof A_uref_proof.
Set Implicit Arguments.
Unset Strict Implicit.
Unset Printing Implicit Defensive.
Import Order.TTheory GRing.Theory Num.Theory.
Local Open Scope ring_scope.

Section Algos.
Variable F : fieldType.
Local Notation P := {poly F}.
Variables m n cT : nat.
Variables (A0 : fmat P) (T0 : option (fmat P)) (pv0 : nat -> nat).
Implicit Types (A B : fmat P) (T : option (fmat P)) (pv : nat -> nat).
Local Notation trans := (trans m n cT).
Local Notation pivs := (pivs n).
Local Notation zrows := (zrows m).

(** (A, T) is obtained from the input by a transformation of determinant 1 or -1 *)
Definition tr A T : Prop := exists b : bool, trans ((-1) ^+ b) A0 T0 A T.

Lemma tr0 : tr A0 T0.
Proof. by exists false; exact: trans_refl. Qed.

Lemma tr_step A T A' T' (b : bool) : tr A T -> trans ((-1) ^+ b) A T A' T' -> tr A' T'.
Proof.
case=> b0 H H'; exists (b (+) b0); rewrite signr_addb; exact: trans_comp H H'.
Qed.

Lemma tr1 A T A' T' : tr A T -> trans 1 A T A' T' -> tr A' T'.
Proof. by move=> H H'; apply: (@tr_step _ _ _ _ false H). Qed.

Lemma tr_ext A T A' : tr A T -> feq m n A A' -> tr A' T.
Proof. by case=> b H E; exists b; apply: trans_ext H E. Qed.

(** ** maximal degree *)
Lemma maxdeg_selectP A j pi1 : (pi1.+1 < m)%N ->
  let '(p1, p2) := maxdeg_select m A j pi1 in
  [/\ (pi1 <= p1 < m)%N, (pi1 <= p2 < m)%N, p1 != p2, (size (A p2 j) <= size (A p1 j))%N &
      forall i, (pi1 <= i < m)%N -> i != p1 -> (size (A i j) <= size (A p2 j))%N].
Proof.
move=> H; rewrite /maxdeg_select.
pose I x (p : nat * nat) := [/\ (pi1 <= p.1 < x)%N, (pi1 <= p.2 < x)%N, p.1 != p.2,
  (size (A p.2 j) <= size (A p.1 j))%N &
   forall i, (pi1 <= i < x)%N -> i != p.1 -> (size (A i j) <= size (A p.2 j))%N].
set f := fun p i => _.
have K c : (pi1.+2 + c <= m)%N -> forall p, I pi1.+2 p ->
    I (pi1.+2 + c)%N (foldl f p (iota pi1.+2 c)).
  elim: c => [|c IH] Hc p Ip; first by rewrite addn0.
  have [|h1 h2 h3 h4 h5] := IH _ p Ip; first by lia.
  rewrite -[c.+1]addn1 iotaD foldl_cat; set q := foldl _ p _ in h1 h2 h3 h4 h5 *.
  rewrite [foldl _ _ _]/= /f; set x := (pi1.+2 + c)%N in h1 h2 h5 *.
  have Ex : (pi1.+2 + (c + 1) = x.+1)%N by rewrite /x; lia.
  rewrite Ex; case: (ltnP (size (A q.1 j)) (size (A x j))) => C1.
    split=> /=; try lia; first by move: (size _) (size _) C1 => a b; lia.
    move=> i Hi Ni; case: (i =P q.1) => [->|Nq] //.
    by apply: leq_trans h4; apply: h5; [lia|apply/eqP].
  case: (ltnP (size (A q.2 j)) (size (A x j))) => C2.
    split=> /=; try lia; first by [].
    move=> i Hi Ni; case: (i =P x) => [->|Nx] //.
    by apply: leq_trans (ltnW C2); apply: h5; lia.
  split=> //=; try lia.
  move=> i Hi Ni; case: (i =P x) => [->|Nx] //.
  by apply: h5; lia.
have Mx : maxn pi1 pi1.+1 = pi1.+1 by lia.
have Mx' : maxn pi1.+1 pi1 = pi1.+1 by lia.
have Em : (pi1.+2 + (m - pi1.+2) = m)%N by lia.
have I1 : (size (A pi1 j) < size (A pi1.+1 j))%N -> I pi1.+2 (pi1.+1, pi1).
  move=> C; split=> //=; try lia; first by move: (size _) (size _) C => a b; lia.
  by move=> i Hi Ni; have -> : i = pi1 by lia.
have I2 : ~~ (size (A pi1 j) < size (A pi1.+1 j))%N -> I pi1.+2 (pi1, pi1.+1).
  rewrite -leqNgt => C; split=> //=; try lia.
  by move=> i Hi Ni; have -> : i = pi1.+1 by lia.
case: ifP => C; [rewrite Mx'|rewrite Mx].
  have := K (m - pi1.+2)%N; rewrite Em => /(_ (leqnn _) _ (I1 C)).
  by case: foldl => a b [].
have := K (m - pi1.+2)%N; rewrite Em => /(_ (leqnn _) _ (I2 (negbT C))).
by case: foldl => a b [].
Qed.

(** invariant between two columns *)
Record cinv A T pv rk j : Prop := Cinv {
  c_tr : tr A T;
  c_rk : (rk <= m)%N;
  c_piv : pivs A rk pv;
  c_lt : forall i, (i < rk)%N -> (pv i < j)%N;
  c_zero : zrows A rk j;
  c_frame : forall i, (rk <= i)%N -> pv i = pv0 i }.

(** a pivot placed in row rk *)
Lemma pivs_new A A' rk pv j : (rk < m)%N -> (j < n)%N -> pivs A rk pv ->
  (forall i, (i < rk)%N -> (pv i < j)%N) -> (forall i k, (i < rk)%N -> (k < n)%N -> A' i k = A i k) ->
  A' rk j != 0 -> (forall k, (k < j)%N -> A' rk k = 0) -> pivs A' rk.+1 (upd pv rk j).
Proof.
move=> Hrk Hj Pv Hlt E Nz Z; have [P1 P2] := pivs_ext E Pv; split=> [i Hi|i i' Hi]; rewrite /upd.
  case: (i =P rk) => [->|N] //; apply: P1; lia.
case: (i' =P rk) => [E'|N].
  have -> : (i == rk) = false by lia.
  by apply: Hlt; lia.
have -> : (i == rk) = false by lia.
by apply: P2; lia.
Qed.

Lemma found_inv A T pv rk j p : (j < n)%N -> (rk <= p < m)%N -> cinv A T pv rk j -> A p j != 0 ->
  (forall i, (rk <= i < m)%N -> i != p -> A i j = 0) ->
  cinv (swap_rows A p rk) (omap (fun B => swap_rows B p rk) T) (upd pv rk j) rk.+1 j.+1.
Proof.
move=> Hj Hp [Htr Hrk Pv Hlt Z Fr] Np Z'; have Hp' : (p < m)%N by lia.
have Hrk' : (rk < m)%N by lia.
have E i : swap_rows A p rk i = if i == p then A rk else if i == rk then A p else A i by exact: swap_rowsE.
have Erk : swap_rows A p rk rk = A p by rewrite E eqxx; case: eqP => // ->.
split=> //.
- exact: tr_step Htr (trans_swap n cT A T Hp' Hrk').
- apply: (pivs_new _ _ Pv) => //.
  + move=> i k Hi _; rewrite E.
    have -> : (i == p) = false by lia.
    by have -> : (i == rk) = false by lia.
  + by rewrite Erk.
  + by move=> k Hk; rewrite Erk Z.
- move=> i Hi; rewrite /upd; case: eqP => // N; apply: ltnW; apply: Hlt; lia.
- move=> i k Hi Hk; rewrite E; have -> : (i == rk) = false by lia.
  have K a : (rk <= a < m)%N -> a != p -> A a k = 0.
    by move=> Ha Na; case: (k =P j) => [->|Nk]; [apply: Z'|apply: Z; lia].
  by case: (i =P p) => [Ei|Nip]; apply: K; lia.
- move=> i Hi; rewrite /upd; have -> : (i == rk) = false by lia.
  by apply: Fr; lia.
Qed.

Lemma maxdeg_colP N A T pv rk j : (j < n)%N -> (\sum_(i < m) size (A i j) < N)%N -> cinv A T pv rk j ->
  exists A' T' pv' rk', cinv A' T' pv' rk' j.+1 /\
    forall fuel, (N <= fuel)%N -> maxdeg_col m n cT fuel A T pv rk j = Some (AOk (A', T', pv', rk')).
Proof.
move=> Hj; elim: N A T => [|N IH] A T HN I; first by [].
have [Htr Hrk Pv Hlt Z Fr] := I.
have [B1 B2 B3] := first_nzP A j Hrk; set p := first_nz m A j rk in B1 B2 B3.
case: (p =P m) => [Epm|Npm].
  exists A, T, pv, rk; split; last by case=> // fuel _ /=; rewrite -/p Epm eqxx.
  split=> // [i Hi|i k Hi Hk]; first by apply: ltnW; apply: Hlt.
  case: (k =P j) => [->|Nk]; [apply: B2; lia|apply: Z; lia].
have Hp : (p < m)%N by lia.
have Np : (p == m) = false by apply/eqP.
case: (p =P (m - 1)%N) => [Ep1|Np1].
  eexists _, _, _, _; split; last first.
    by case=> // fuel _ /=; rewrite -/p Np Ep1 eqxx.
  rewrite -Ep1; apply: found_inv => //; first by lia.
    exact: B3.
  by move=> i Hi Ni; apply: B2; lia.
have Np1' : (p == m - 1)%N = false by apply/eqP.
have Hp2 : (p.+1 < m)%N by lia.
case Es : (maxdeg_select m A j p) (maxdeg_selectP A j Hp2) => [p1 p2] [S1 S2 S3 S4 S5].
have Sp : (size (A p j) <= size (A p1 j))%N.
  case: (p =P p1) => [<-|/eqP N1] //; apply: leq_trans S4; apply: S5 => //; lia.
have Np1z : A p1 j != 0 by rewrite -size_poly_gt0; apply: leq_trans Sp; rewrite size_poly_gt0 B3.
case: (A p2 j =P 0) => [E2|/eqP N2].
  eexists _, _, _, _; split; last first.
    by case=> // fuel _ /=; rewrite -/p Np Np1' Es E2 eqxx.
  apply: found_inv => //; first by lia.
  move=> i Hi Ni; case: (ltnP i p) => L; first by apply: B2; lia.
  apply/eqP; rewrite -size_poly_eq0 -leqn0 -(size_poly0 F) -E2; apply: S5 => //; lia.
have [|||||||A1 [T1 [q [E1 Tr1 EA Sz]]]] := @uref_atomicP F m n cT A T p1 p2 j => //; try lia.
  by move=> k Hk; apply: Z => //; lia.
have I1 : cinv A1 T1 pv rk j.
  split=> //; first exact: tr1 Htr Tr1.
    apply: pivs_ext Pv => i k Hi Hk; rewrite EA //.
    by have -> : (i == p1) = false by lia.
  move=> i k Hi Hk; rewrite EA; last by lia.
  by case: eqP => _; rewrite !Z ?mulr0 ?addr0 //; lia.
have HN1 : (\sum_(i < m) size (A1 i j) < N)%N.
  have Hp1 : (p1 < m)%N by lia.
  move: HN; rewrite ltnS; apply: leq_trans.
  rewrite (bigD1 (Ordinal Hp1)) //= [X in (_ <= X)%N](bigD1 (Ordinal Hp1)) //= -addSn.
  apply: leq_add => //; apply: leq_sum => i; rewrite -val_eqE /= => Ni.
  by rewrite EA // (negbTE Ni).
have [A' [T' [pv' [rk' [I' H']]]]] := IH A1 T1 HN1 I1.
exists A', T', pv', rk'; split=> //; case=> // fuel Hf /=.
rewrite -/p Np Np1' Es (negbTE N2) E1; exact: H'.
Qed.

Lemma maxdeg_colsP cnt A T pv rk j : (j + cnt = n)%N -> cinv A T pv rk j ->
  exists N A' T' pv' rk', cinv A' T' pv' rk' n /\
    forall fuel, (N <= fuel)%N -> maxdeg_cols m n cT fuel cnt A T pv rk j = Some (AOk (A', T', pv', rk')).
Proof.
elim: cnt A T pv rk j => [|cnt IH] A T pv rk j Hj I.
  by exists 0%N, A, T, pv, rk; move: Hj; rewrite addn0 => <-.
have Hjn : (j < n)%N by lia.
have [A1 [T1 [pv1 [rk1 [I1 H1]]]]] := maxdeg_colP Hjn (ltnSn _) I.
have [|N [A' [T' [pv' [rk' [I' H']]]]]] := IH A1 T1 pv1 rk1 j.+1 _ I1; first by lia.
exists (maxn N (\sum_(i < m) size (A i j)).+1), A', T', pv', rk'; split=> // fuel Hf /=.
rewrite H1; last by lia.
apply: H'; lia.
Qed.

(** ** first nonzero entries *)
Variable xgcd : P -> P -> P * P * P.
Hypothesis XS : xgcd_spec xgcd.

Lemma revlex_elimP fuel A T rk pi ii j : (j < n)%N -> (rk <= pi < ii)%N -> (ii <= m)%N ->
  ((m - ii).+1 <= fuel + (A ii j == 0%R))%N -> zrows A rk j -> A pi j != 0 ->
  (forall i, (pi < i < ii)%N -> A i j = 0) ->
  exists A' T', [/\ revlex_elim xgcd m n cT fuel A T pi ii j = Some (A', T'), trans 1 A T A' T',
    [/\ zrows A' rk j, A' pi j != 0 & forall i, (pi < i < m)%N -> A' i j = 0],
    (forall i k, (i < pi)%N -> (k < n)%N -> A' i k = A i k) &
    forall (M : fmat P) (w : nat -> nat), (forall i i', (pi <= i < i')%N -> (i' < m)%N -> (w i < w i')%N) ->
      (forall i, (pi < i < m)%N -> lowrow m n M (w i) (A i)) ->
      (forall i, (ii <= i < m)%N -> A i j != 0 -> lspan m n M (w i) (A pi)) ->
      forall i, (pi < i < m)%N -> lowrow m n M (w i) (A' i)].
Proof.
move=> Hj; elim: fuel A T ii => [|fuel IH] A T ii Hpi Hii Hf Z Np Zi /=.
all: case: (ltnP ii m) => C; last first.
1,3: exists A, T; split=> //; [exact: trans_refl|split=> // i Hi; apply: Zi; lia].
  by exfalso; case: (A ii j == 0) Hf => /=; lia.
have [B1 B2 B3] := first_nzP A j Hii; set p := first_nz m A j ii in B1 B2 B3 *.
have Zp i : (pi < i < p)%N -> A i j = 0.
  by move=> Hi; case: (ltnP i ii) => L; [apply: Zi|apply: B2]; lia.
case: (ltnP p m) => Cp; last first.
  exists A, T; split=> //; first exact: trans_refl.
  by split=> // i Hi; apply: Zp; lia.
have Npi : pi != p by lia.
have Zr i k : (rk <= i < m)%N -> (k < j)%N -> A i k = 0 by exact: Z.
have [||||||||u [v [a [b]]]] := @xgcd_collisionP F m n cT xgcd A T pi p j XS => //; try lia.
- by move=> k Hk; apply: Zr => //; lia.
- by move=> k Hk; apply: Zr => //; lia.
case: (xgcd_collision xgcd n cT A T pi p j) => A1 T1 [[_ Na Eg] Tr1 EA Ep Mg].
have N1 : A1 pi j != 0 by apply: monic_neq0.
have Np' : (p == pi) = false by lia.
have Z1 : zrows A1 rk j.
  move=> i k Hi Hk; rewrite EA; last by lia.
  rewrite !Zr ?mulr0 ?addr0 ?subr0 ?if_same //; lia.
have Ei i k : (k < n)%N -> i != pi -> i != p -> A1 i k = A i k.
  by move=> Hk /negbTE h1 /negbTE h2; rewrite EA // h1 h2.
have [|||i Hi|A' [T' [E' Tr' [Z' N' ZZ'] Fr' Low]]] := IH A1 T1 p _ _ _ Z1 N1.
- by lia.
- by lia.
- rewrite Ep eqxx addn1; case: (A ii j =P 0) Hf => [E0|/eqP N0] /=; rewrite ?addn0 ?addn1; last by lia.
  suff: p != ii by lia.
  by apply/eqP => Epi; move: (B3 Cp); rewrite Epi E0 eqxx.
- rewrite Ei ?Zp //; lia.
exists A', T'; split=> //.
- by rewrite -[1](mulr1 1); apply: trans_comp Tr1 Tr'.
- by move=> i k Hi Hk; rewrite Fr' // Ei //; lia.
move=> M w Hw HL HS; apply: Low => //.
  move=> i Hi; case: (i =P p) => [->|/eqP Nip]; last first.
    apply: lowrow_ext (HL i Hi) => c Hc; apply: Ei => //; lia.
  apply: (@lowrow_ext _ _ _ _ _ (fun c => a * A p c + (- b) * A pi c)).
    by move=> c Hc; rewrite EA // Np' eqxx mulNr.
  apply: lowrow_comb => //; first by apply: HL; lia.
  apply: HS; [lia|exact: B3].
move=> i Hi Ni; apply: (@lspan_ext _ _ _ _ _ (fun c => u * A pi c + v * A p c)).
  by move=> c Hc; rewrite EA // eqxx.
have Nip : i != p by apply: contraNneq Ni => ->; rewrite Ep.
have Hwp : (w p < w i)%N by apply: Hw; lia.
apply: lspan_comb.
  apply: (@lspan_mono _ _ _ _ (w p)); first by lia.
  by apply: HS; [lia|exact: B3].
by apply: lspan_mono Hwp _; apply: lowrow_lspan; apply: HL; lia.
Qed.

Lemma rot_dn (V : Type) A (vec : option (nat -> V)) i j : (i <= j)%N ->
  exists A' vec', [/\ rotate_rows_downward A vec i j = (A', vec'),
    A' = (rotate_rows_downward (V := nat) A None i j).1,
    (forall k, A' k = if k == i then A j else if (i < k <= j)%N then A k.-1 else A k) &
    opt_rel (fun v v' => forall k, v' k = if k == i then v j else if (i < k <= j)%N then v k.-1 else v k)
      vec vec'].
Proof.
move=> H; rewrite /rotate_rows_downward; case: (i =P j) => [->|N] /=.
  exists A, vec; split=> //; last case: vec => //= v.
    move=> k; have -> : (j < k <= j)%N = false by lia.
    by case: eqP => // ->.
  move=> k; have -> : (j < k <= j)%N = false by lia.
  by case: eqP => // ->.
eexists _, _; split=> //; first by move=> k; rewrite rot_downE.
by case: vec => //= v k; rewrite rot_downE.
Qed.

(** rows and matrix rank profile *)
Definition rmrp A pv rk (perm : nat -> nat) (r : nat -> int) : Prop :=
  [/\ is_perm m perm, (forall i i', (rk <= i < i')%N -> (i' < m)%N -> (perm i < perm i')%N),
      (forall i, (rk <= i < m)%N -> lowrow m n A0 (perm i) (A i) /\ r (perm i) = -1) &
      forall i, (i < rk)%N -> r (perm i) = (pv i)%:Z /\
         exists2 b, lowrow m n A0 (perm i) b & lead n b (pv i)].

Lemma is_perm_surj (p : nat -> nat) k : is_perm m p -> (k < m)%N -> exists2 i, (i < m)%N & p i = k.
Proof.
case=> [Hp Ip] Hk.
pose q (i : 'I_m) : 'I_m := Ordinal (Hp i (ltn_ord i)).
have qI : injective q by move=> a b /(congr1 val) /= /Ip E; apply: val_inj; exact: E.
have [q' h1 h2] := injF_bij qI.
by exists (q' (Ordinal Hk)) => //; have := h2 (Ordinal Hk) => /(congr1 val).
Qed.

Lemma rmrp_final A T pv rk perm r : cinv A T pv rk n -> rmrp A pv rk perm r ->
  matrix_rank_profile m n A0 r.
Proof.
move=> I [Hp Hi H1 H2]; have Hrk := c_rk I; have [P1 P2] := c_piv I.
pose g k := if r k == -1 then n else `|r k|%N.
have G1 i : (rk <= i < m)%N -> g (perm i) = n by move=> /H1[_ E]; rewrite /g E.
have G2 i : (i < rk)%N -> g (perm i) = pv i by move=> /H2[E _]; rewrite /g E.
apply: (@low_mrp _ m n A0 r g) => [k|k|k k'] Hk.
- have [i Hik <-] := is_perm_surj Hp Hk; case: (ltnP i rk) => C.
    by rewrite G2 //; have [_ [b Hb1 Hb2]] := H2 i C; exists b.
  rewrite G1; last by lia.
  have [|Hl _] := H1 i; first by lia.
  exists (A i) => //; split=> [|c Hc _]; first by rewrite ltnn.
  by apply: (c_zero I) => //; lia.
- have [i Hik <-] := is_perm_surj Hp Hk; case: (ltnP i rk) => C.
    by left; rewrite G2 //; have [h _ _] := P1 i C; have [-> _] := H2 i C.
  right; rewrite G1; last by lia.
  by have [|_ ->] := H1 i; first by lia.
have [i Hik <-] := is_perm_surj Hp Hk => Hk'; have [i' Hik' <-] := is_perm_surj Hp Hk'.
case: (ltnP i rk) => C; last by rewrite G1; lia.
rewrite G2 //; case: (ltnP i' rk) => C' L; last by rewrite G1; lia.
by rewrite G2 // => E; rewrite (pivs_inj (c_piv I) C C' E).
Qed.

Lemma revlex_colsP fuel cnt A T pv mrp perm rk j : (m <= fuel)%N -> (j + cnt = n)%N ->
  cinv A T pv rk j -> (if mrp is Some r then rmrp A pv rk perm r else True) ->
  exists res, [/\ revlex_cols xgcd m n cT fuel cnt A T pv mrp perm rk j = Some res,
    cinv (ur_mat res) (ur_tsf res) (ur_pivind res) (ur_rk res) n &
    opt_rel (fun r r' => matrix_rank_profile m n A0 r' /\ forall i, (m <= i)%N -> r' i = r i) mrp (ur_mrp res)].
Proof.
move=> Hf; elim: cnt A T pv mrp perm rk j => [|cnt IH] A T pv mrp perm rk j Hj I Im /=.
  move: Hj; rewrite addn0 => Ej; rewrite Ej in I; eexists; split; [reflexivity|exact: I|].
  by case: mrp Im => //= r Ir; split=> //; apply: rmrp_final I Ir.
have [Htr Hrk Pv Hlt Z Fr] := I.
have Hjn : (j < n)%N by lia.
have [B1 B2 B3] := first_nzP A j Hrk; set p := first_nz m A j rk in B1 B2 B3 *.
case: (ltnP p m) => Cp; last first.
  apply: IH => //; first by lia.
  split=> // [i Hi|i k Hi Hk]; first by apply: ltnW; apply: Hlt.
  case: (k =P j) => [->|Nk]; [apply: B2; lia|apply: Z; lia].
have Hp : (p < m)%N by [].
have Np := B3 Hp.
have Hrp : (rk <= p)%N by lia.
have Hf' : ((m - p.+1).+1 <= fuel + (A p.+1 j == 0%R))%N by lia.
have Hpp : (rk <= p < p.+1)%N by lia.
have Hpz i : (p < i < p.+1)%N -> A i j = 0 by lia.
have [A1 [T1 [-> Tr1 [Z1 N1 ZZ1] Fr1 Low]]] := @revlex_elimP fuel A T rk p p.+1 j Hjn Hpp Hp Hf' Z Np Hpz.
have [A2 [vec [-> EA2 EA Ev]]] := rot_dn A1 (omap (fun _ => perm) mrp) Hrp.
set T2 := omap _ T1; set perm2 := if vec is Some q then q else perm.
have I2 : cinv A2 T2 (upd pv rk j) rk.+1 j.+1.
  split=> //.
  - have := @trans_down _ m n cT A1 T1 rk (p - rk)%N; rewrite subnKC // => /(_ Hp).
    rewrite -EA2; apply: tr_step; exact: tr1 Htr Tr1.
  - by lia.
  - apply: (pivs_new _ _ Pv) => //.
    + by lia.
    + move=> i k Hi Hk; rewrite EA.
      have -> : (i == rk) = false by lia.
      have -> : (rk < i <= p)%N = false by lia.
      by rewrite Fr1 //; lia.
    + by rewrite EA eqxx.
    + by move=> k Hk; rewrite EA eqxx Z1 //; lia.
  - by move=> i Hi; rewrite /upd; case: eqP => // N; apply: ltnW; apply: Hlt; lia.
  - move=> i k Hi Hk; rewrite EA; have -> : (i == rk) = false by lia.
    case: ifP => C.
      rewrite Fr1; try lia.
      by case: (k =P j) => [->|Nk]; [apply: B2; lia|apply: Z; lia].
    by case: (k =P j) => [->|Nk]; [apply: ZZ1; lia|apply: Z1; lia].
  - move=> i Hi; rewrite /upd; have -> : (i == rk) = false by lia.
    by apply: Fr; lia.
have J : if omap (fun r => upd r (perm2 rk) j%:Z) mrp is Some r then rmrp A2 (upd pv rk j) rk.+1 perm2 r else True.
  case: mrp Im Ev @perm2 {IH} => //= r [Hp1 Hinc Hl Hr]; case: vec => //= q Eq.
  have [Hp2 Hp3] := Hp1.
  have Q1 : q rk = perm p by rewrite Eq eqxx.
  have Q2 i : (rk < i <= p)%N -> q i = perm i.-1.
    by move=> C; rewrite Eq C; have -> : (i == rk) = false by lia.
  have Q3 i : (i < rk)%N || (p < i)%N -> q i = perm i.
    move=> C; rewrite Eq; have -> : (i == rk) = false by lia.
    by have -> : (rk < i <= p)%N = false by lia.
  have Pq : is_perm m q.
    split=> [k Hk|k l Hk Hkl]; rewrite !Eq.
      by do ?[case: ifP => ?]; apply: Hp2; lia.
    by do ![case: ifP => ?] => /Hp3; lia.
  split=> //.
  - move=> i i' Hi Hi'; case: (leqP i p) => C; case: (leqP i' p) => C'.
    + by rewrite !Q2; try lia; apply: Hinc; lia.
    + by rewrite Q2 ?Q3; try lia; apply: Hinc; lia.
    + by lia.
    + by rewrite !Q3; try lia; apply: Hinc; lia.
  - move=> i Hi; split; last first.
      rewrite /upd; case: eqP => [E|N]; first by case: Pq => _ /(_ _ _ _ _ E); lia.
      case: (leqP i p) => C.
        by rewrite Q2; [case: (Hl i.-1)|]; lia.
      by rewrite Q3; [case: (Hl i)|]; lia.
    case: (leqP i p) => C.
      rewrite Q2; last by lia.
      apply: (@lowrow_ext _ m n A0 (perm i.-1) (A i.-1)); last by case: (Hl i.-1) => //; lia.
      move=> c Hc; rewrite EA; have -> : (i == rk) = false by lia.
      have -> : (rk < i <= p)%N by lia.
      by rewrite Fr1 //; lia.
    rewrite Q3; last by lia.
    rewrite EA; have -> : (i == rk) = false by lia.
    have -> : (rk < i <= p)%N = false by lia.
    apply: (Low A0 perm) => [a b Ha Hb|a Ha|a Ha _|]; last by lia.
    + by apply: Hinc => //; lia.
    + by case: (Hl a) => //; lia.
    have [|Hlp _] := Hl p; first by lia.
    apply: lspan_mono (lowrow_lspan Hlp); apply: Hinc; lia.
  - move=> i Hi; case: (i =P rk) => [->|N].
      rewrite /upd !eqxx; split=> //; have [|Hlp _] := Hl p; first by lia.
      exists (A p); first by rewrite Q1.
      by split=> // c Hc C; apply: Z; lia.
    rewrite (Q3 i); last by lia.
    have [|E [b Hb1 Hb2]] := Hr i; first by lia.
    rewrite /upd; have -> : (i == rk) = false by lia.
    rewrite ifF ?E; first by split=> //; exists b.
    by apply/eqP=> E'; have := Hp3 i p; rewrite E' Q1; lia.
have [|res [E1 J1 J2]] := IH A2 T2 (upd pv rk j) (omap (fun r => upd r (perm2 rk) j%:Z) mrp) perm2 rk.+1 j.+1
   ltac:(lia) I2; first by move: J; case: (mrp).
exists res; split=> //; move: Im Ev J J2; rewrite /perm2; case: (mrp) => //= r Ir; case: (vec) => //= q Eq.
case: (ur_mrp res) => //= r' Jq [h1 h2]; split=> // i Hi; rewrite h2 // /upd; case: eqP => // E.
by have [Hp1 _ _ _] := Jq; have [Hq1 _] := Hp1; have := Hq1 rk; rewrite -E; lia.
Qed.
End Algos.
