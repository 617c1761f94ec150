(** Lemmas on Newton iteration over a ring of matrices and on the memory of the entries, for N_inv_model. *)
From Coq Require Import ZArith.
From mathcomp Require Import all_ssreflect all_algebra zify.
From Verif Require Import A_base A_mul_model A_mul_proof N_shift_proof N_multi_model N_multi_proof N_pmat_model N_trs_proof N_util_model N_util_proof.
From Verif Require Import N_poly_model N_series_proof N_mfft_model N_eval_model N_mp_model N_inv_model.
Set Implicit Arguments.
Unset Strict Implicit.
Unset Printing Implicit Defensive.
Import GRing.Theory.
Local Open Scope ring_scope.

(** *** inverses modulo a power of X, over any ring *)
Section Ring.
Variable R : ringType.
Implicit Types a x y e p q : {poly R}.

Definition inv_mod (m : nat) x a : Prop := forall l, (l < m)%N -> (x * a)`_l = (l == 0%N)%:R.

Lemma low_zero p k : (forall l, (l < k)%N -> p`_l = 0) -> exists q, p = q * 'X^k.
Proof.
move=> H; exists (\poly_(i < size p) p`_(i + k)); apply/polyP=> l; rewrite coefMXn.
case: ltnP => C; first exact: H.
by rewrite coef_poly subnK //; case: ltnP => // D; rewrite nth_default // (leq_trans D) // leq_subr.
Qed.
Lemma low_zeroM p q l : (p * q * 'X^l = p * 'X^l * q)%R.
Proof. by rewrite -!mulrA commr_polyXn. Qed.

Lemma newton_ring k x a e y : inv_mod k x a -> (0 < k)%N ->
  (forall l, (l < k)%N -> e`_l = (x * a)`_(k + l)) -> (forall l, (l < k)%N -> y`_l = (e * x)`_l) ->
  inv_mod (2 * k) (x - y * 'X^k) a.
Proof.
move=> Hi k0 He Hy.
have [|d Ed] := @low_zero (x * a - 1) k.
  by move=> l Hl; rewrite coefB Hi // coef1 subrr.
have Exa : x * a = 1 + d * 'X^k by rewrite -Ed addrC subrK.
have [|w Ew] := @low_zero (e - d) k.
  move=> l Hl; rewrite coefB He // Exa coefD coef1 coefMXn ltnNge leq_addr /= addKn.
  by rewrite (_ : (k + l == 0)%N = false) ?add0r ?subrr //; move: k0; clear; lia.
have [|u Eu] := @low_zero (y - e * x) k.
  by move=> l Hl; rewrite coefB Hy // subrr.
have Ee : e = d + w * 'X^k by rewrite -Ew addrC subrK.
have Ey : y = e * x + u * 'X^k by rewrite -Eu addrC subrK.
have Eya : y * a = e + (e * d + u * a) * 'X^k.
  by rewrite Ey mulrDl -!mulrA Exa -commr_polyXn mulrDr mulr1 mulrDl -!addrA !mulrA.
have E : (x - y * 'X^k) * a = 1 - (w + e * d + u * a) * 'X^(2 * k).
  rewrite mulrBl Exa -mulrA -commr_polyXn mulrA Eya mul2n -addnn exprD mulrA.
  rewrite -[w + _ + _]addrA; move: (e * d + u * a) => v; rewrite Ee.
  rewrite (_ : d + w * 'X^k + v * 'X^k = d + (w + v) * 'X^k); last by rewrite mulrDl addrA.
  by rewrite [X in _ - X]mulrDl opprD addrA addrK.
move=> l Hl; rewrite E coefB coef1 coefMXn Hl subr0 //.
Qed.

(** a left inverse is a right inverse, if this holds for the constant coefficients *)
Lemma inv_mod_swap m x a : a`_0 * x`_0 = 1 -> inv_mod m x a -> inv_mod m a x.
Proof.
move=> H0 Hi; pose e := a * x - 1.
have He l : (l < m)%N -> e`_l = 0.
  elim/ltn_ind: l => l IH Hl.
  have Z : (x * e)`_l = 0.
    have -> : x * e = (x * a - 1) * x by rewrite /e mulrBr mulrBl mulr1 mul1r mulrA.
    rewrite coefM big1 // => i _; rewrite coefB Hi ?coef1 ?subrr ?mul0r //.
    by apply: leq_ltn_trans Hl; rewrite -ltnS.
  move: Z; rewrite coefM big_ord_recl subn0 big1 => [|i _]; last first.
    by rewrite IH ?mulr0 //; move: Hl (ltn_ord i); rewrite /= /bump /=; lia.
  by rewrite addr0 => Z; rewrite -[LHS]mul1r -H0 -mulrA Z mulr0.
move=> l Hl; have := He l Hl; rewrite /e coefB coef1 => /eqP; by rewrite subr_eq0 => /eqP.
Qed.

Lemma inv_mod_le m m' x a : (m' <= m)%N -> inv_mod m x a -> inv_mod m' x a.
Proof. by move=> H Hi l Hl; apply: Hi; apply: leq_trans Hl H. Qed.
Lemma inv_mod_eq m x x' a a' : (forall l, (l < m)%N -> x`_l = x'`_l) -> (forall l, (l < m)%N -> a`_l = a'`_l) ->
  inv_mod m x a -> inv_mod m x' a'.
Proof.
move=> H H' Hi l Hl; rewrite -Hi // !coefM; apply: eq_bigr => i _.
by rewrite H ?H' //; apply: leq_ltn_trans Hl; rewrite ?leq_subr // -ltnS.
Qed.
End Ring.

(** *** matrices of polynomials as polynomials over the matrices *)
Section Conv.
Variable F : fieldType.
Local Notation P := {poly F}.
Variable n : nat.
Local Notation s := n.+1.
Implicit Types e f g : fmat P.

Definition pmx e : {poly 'M[F]_s} :=
  \poly_(k < \max_(i < s) \max_(j < s) size (e i j)) \matrix_(i, j) (e i j)`_k.
Lemma pmxE e k : (pmx e)`_k = \matrix_(i, j) (e i j)`_k.
Proof.
rewrite coef_poly; case: ltnP => // H; apply/matrixP=> i j; rewrite !mxE nth_default //.
apply: leq_trans H; apply: leq_trans (leq_bigmax (F := fun i : 'I_s => \max_(j < s) size (e i j)) i).
exact: (leq_bigmax (F := fun j : 'I_s => size (e i j))).
Qed.
Lemma pmx_eq e f : (forall i j, (i < s)%N -> (j < s)%N -> e i j = f i j) -> pmx e = pmx f.
Proof. by move=> H; apply/polyP=> k; rewrite !pmxE; apply/matrixP=> i j; rewrite !mxE H. Qed.
Lemma pmxM e f : pmx e * pmx f = pmx (fun i j => \sum_(l < s) e i l * f l j).
Proof.
apply/polyP=> k; rewrite coefM pmxE; apply/matrixP=> i j; rewrite !mxE summxE coef_sum.
rewrite [RHS](eq_bigr (fun l : 'I_s => \sum_(u < k.+1) (e i l)`_u * (f l j)`_(k - u))); last by move=> l _; rewrite coefM.
rewrite exchange_big; apply: eq_bigr => u _; rewrite !pmxE mxE; apply: eq_bigr => l _; by rewrite !mxE.
Qed.

(** the product of the matrices e and f is the identity modulo X^m *)
Definition inverse_mod (t m : nat) e f : Prop := forall i j l, (i < t)%N -> (j < t)%N -> (l < m)%N ->
  (\sum_(u < t) e i u * f u j)`_l = ((i == j) && (l == 0%N))%:R.
Lemma inverse_modP m e f : inverse_mod s m e f <-> inv_mod m (pmx e) (pmx f).
Proof.
split=> H.
  move=> l Hl; rewrite pmxM pmxE; apply/matrixP=> i j; rewrite mxE H //.
  by case: (l == 0%N); rewrite ?andbF ?andbT mxE.
move=> i j l Hi Hj Hl; have /matrixP/(_ (Ordinal Hi) (Ordinal Hj)) := H l Hl; rewrite pmxM pmxE mxE /= => ->.
by case: (l == 0%N); rewrite ?andbF ?andbT mxE.
Qed.
Lemma pmx0_unit m e f : (0 < m)%N -> inverse_mod s m e f -> (pmx f)`_0 * (pmx e)`_0 = 1.
Proof.
move=> m0 /inverse_modP/(_ 0%N m0); rewrite coefM big_ord1 => /=; exact: mulmx1C.
Qed.
Lemma inverse_mod_swap m e f : (0 < m)%N -> inverse_mod s m e f -> inverse_mod s m f e.
Proof.
by move=> m0 H; apply/inverse_modP; apply: inv_mod_swap; [apply: pmx0_unit H|apply/inverse_modP].
Qed.
End Conv.

Section Mod.
Variable F : fieldType.
Local Notation P := {poly F}.
Implicit Types e f g : fmat P.

(** the step of Newton iteration, on the entries *)
Lemma newton_entries (s k : nat) e f (d y : fmat P) : (0 < k)%N -> inverse_mod s k e f ->
  (forall i j l, (i < s)%N -> (j < s)%N -> (l < k)%N -> (d i j)`_l = (\sum_(u < s) e i u * f u j)`_(k + l)) ->
  (forall i j l, (i < s)%N -> (j < s)%N -> (l < k)%N -> (y i j)`_l = (\sum_(u < s) d i u * e u j)`_l) ->
  inverse_mod s (2 * k) (fun i j => e i j - y i j * 'X^k) f.
Proof.
case: s => [|n]; first by move=> _ _ _ _ i j l.
move=> k0 /inverse_modP Hi Hd Hy; apply/inverse_modP.
have -> : pmx n (fun i j => e i j - y i j * 'X^k) = pmx n e - pmx n y * 'X^k.
  apply/polyP=> l; rewrite coefB coefMXn !pmxE; apply/matrixP=> i j; rewrite !mxE coefB coefMXn.
  by case: ltnP => _; rewrite mxE.
apply: (newton_ring (e := pmx n d) Hi k0) => l Hl; rewrite !(pmxM, pmxE); apply/matrixP=> i j; rewrite !mxE; first exact: Hd.
exact: Hy.
Qed.

Lemma inverse_mod_eq s m e e' f f' :
  (forall i j l, (i < s)%N -> (j < s)%N -> (l < m)%N -> (e i j)`_l = (e' i j)`_l) ->
  (forall i j l, (i < s)%N -> (j < s)%N -> (l < m)%N -> (f i j)`_l = (f' i j)`_l) ->
  inverse_mod s m e f -> inverse_mod s m e' f'.
Proof.
case: s => [|n]; first by move=> _ _ _ i j l.
move=> H H' /inverse_modP Hi; apply/inverse_modP; apply: inv_mod_eq Hi => l Hl; rewrite !pmxE; apply/matrixP=> i j; rewrite !mxE.
  exact: H.
exact: H'.
Qed.
Lemma inverse_mod_le s m m' e f : (m' <= m)%N -> inverse_mod s m e f -> inverse_mod s m' e f.
Proof. by move=> H Hi i j l H1 H2 H3; apply: Hi => //; apply: leq_trans H3 H. Qed.
Lemma inverse_mod_sym s m e f : (0 < m)%N -> inverse_mod s m e f -> inverse_mod s m f e.
Proof. by case: s => [|n]; [move=> _ _ i j l|apply: inverse_mod_swap]. Qed.
End Mod.

(** *** the memory *)
Section Memory.
Variable F : fieldType.
Local Notation P := {poly F}.
Local Notation arr := (nat -> F).
Implicit Types (x : raw F) (a b : pmat F).

Definition look x (i j : nat) : arr * nat := (cells x i j, lens x i j).
(** g modifies the entry (i, j) only, in a way that depends on this entry only *)
Definition acts (g : nat -> nat -> raw F -> raw F) (G : nat -> nat -> arr * nat -> arr * nat) : Prop :=
  forall i j x, [/\ rr (g i j x) = rr x, rc (g i j x) = rc x &
    forall i' j', look (g i j x) i' j' = if (i' == i) && (j' == j) then G i j (look x i j) else look x i' j'].
Lemma set_entry_look x i j c l i' j' : look (set_entry x i j c l) i' j' = if (i' == i) && (j' == j) then (c, l) else look x i' j'.
Proof. by rewrite /look /= !upd2E; case: ifP. Qed.

Lemma eachE g G s t x (x' := each s t g x) : acts g G ->
  [/\ rr x' = rr x, rc x' = rc x & forall i j, look x' i j = if (i < s)%N && (j < t)%N then G i j (look x i j) else look x i j].
Proof.
move=> H; rewrite {}/x' /each.
have row i y : [/\ rr (foldl (fun x j => g i j x) y (iota 0 t)) = rr y, rc (foldl (fun x j => g i j x) y (iota 0 t)) = rc y &
    forall i' j, look (foldl (fun x j => g i j x) y (iota 0 t)) i' j = if (i' == i) && (j < t)%N then G i j (look y i j) else look y i' j].
  elim: t => [|t [I1 I2 I3]]; first by split=> // i' j; rewrite ltn0 andbF.
  rewrite foldl_iotaR add0n; have [-> -> E] := H i t (foldl (fun x j => g i j x) y (iota 0 t)); split=> // i' j.
  rewrite E !I3 eqxx ltnn /=; case: (i' =P i) => [->|//] /=; by rewrite [in RHS]ltnS [in RHS]leq_eqVlt; case: (j =P t) => [->|//].
elim: s => [|s [Q1 Q2 Q3]]; first by split.
rewrite foldl_iotaR add0n; have [-> -> E] := row s (foldl (fun x i => foldl (fun x j => g i j x) x (iota 0 t)) x (iota 0 s)).
split=> // i j; by rewrite E !Q3 ltnn /= [in RHS]ltnS [in RHS]leq_eqVlt; case: (i =P s) => [->|//] /=; rewrite ltnn.
Qed.

Lemma norm_lenE (c : arr) n : (norm_len c n <= n)%N /\ \poly_(k < norm_len c n) c k = \poly_(k < n) c k.
Proof.
have S : (norm_len c n <= n)%N by apply: size_poly.
split=> //; apply/polyP=> k; rewrite !coef_poly; case: ltnP => C.
  by rewrite (leq_trans C S).
by have := nth_default 0 C; rewrite coef_poly => E; rewrite E.
Qed.

(** the s x s matrix x has at most k coefficients, which are in its memory up to k *)
Definition holds (s k : nat) x : Prop := [/\ rr x = s, rc x = s &
  forall i j, (i < s)%N -> (j < s)%N -> (size (ent (value x) i j) <= k)%N /\
    forall l, (l < k)%N -> cells x i j l = (ent (value x) i j)`_l].

Lemma ent_look x i j : ent (value x) i j = \poly_(k < (look x i j).2) (look x i j).1 k.
Proof. by []. Qed.

(** the arrays c i j of length n, normalized *)
Lemma holds_norm s k x (c : nat -> nat -> arr) : rr x = s -> rc x = s ->
  (forall i j, (i < s)%N -> (j < s)%N -> look x i j = (c i j, norm_len (c i j) k)) ->
  holds s k x /\ forall i j, (i < s)%N -> (j < s)%N -> ent (value x) i j = \poly_(l < k) c i j l.
Proof.
move=> R1 R2 H.
have E i j : (i < s)%N -> (j < s)%N -> ent (value x) i j = \poly_(l < k) c i j l.
  by move=> Hi Hj; rewrite ent_look H //=; have [_ ->] := norm_lenE (c i j) k.
split=> //; split=> // i j Hi Hj; rewrite E //; split; first exact: size_poly.
by move=> l Hl; rewrite coef_poly Hl; have := H i j Hi Hj; case=> ->.
Qed.

Lemma raw_dimsE x s t : rr (raw_dims x s t) = s /\ rc (raw_dims x s t) = t.
Proof. by rewrite /raw_dims; case: eqP. Qed.

(** the constant matrices *)
Lemma raw_constE x s (c : fmat F) (x' := raw_const x s c) :
  [/\ rr x' = s, rc x' = s, forall i j, (i < s)%N -> (j < s)%N -> ent (value x') i j = (c i j)%:P &
      forall i j, (i < s)%N -> (j < s)%N -> cells x' i j = if c i j == 0 then cells (raw_dims x s s) i j
        else upd (cells (raw_dims x s s) i j) 0%N (c i j)].
Proof.
rewrite {}/x'; pose G i j (cl : arr * nat) := if c i j == 0 then (cl.1, 0%N) else (upd cl.1 0%N (c i j), 1%N).
have [|E1 E2 E3] := @eachE _ G s s (raw_dims x s s) (_ : acts (fun i j x => if c i j == 0 then set_entry x i j (cells x i j) 0%N
                         else set_entry x i j (upd (cells x i j) 0%N (c i j)) 1%N) G).
  by move=> i j y; rewrite /G; case: ifP => _; split=> // i' j'; rewrite set_entry_look; case: ifP.
have [D1 D2] := raw_dimsE x s s; split.
- by rewrite [LHS]E1.
- by rewrite [LHS]E2.
- move=> i j Hi Hj; rewrite ent_look [look _ _ _]E3 Hi Hj /= /G; case: eqP => [->|N] /=.
    by apply/polyP=> k; rewrite coef_poly coef0.
  by apply/polyP=> k; rewrite coef_poly coefC; case: k.
- move=> i j Hi Hj; have := E3 i j; rewrite Hi Hj /= /G /look; by case: eqP => _ [].
Qed.

Lemma upd_loop (v : nat -> F) (c : arr) l n k :
  foldl (fun c k => upd c k (v k)) c (iota l n) k = if (l <= k < l + n)%N then v k else c k.
Proof.
elim: n => [|n IH]; first by rewrite addn0; case: ifP => //; lia.
rewrite foldl_iotaR /upd IH; case: (k =P (l + n)%N) => [->|N]; first by rewrite ifT //; lia.
by congr (if _ then _ else _); lia.
Qed.

Lemma raw_vecE x s len (v : nat -> fmat F) : len != 1%N ->
  holds s len (raw_vec x s len v) /\
  forall i j, (i < s)%N -> (j < s)%N -> ent (value (raw_vec x s len v)) i j = \poly_(k < len) v k i j.
Proof.
move=> /negbTE N1; rewrite /raw_vec N1.
pose C i j (c : arr) := foldl (fun c k => upd c k (v k i j)) c (iota 0 len).
pose G i j (cl : arr * nat) := (C i j cl.1, norm_len (C i j cl.1) len).
set g := (X in each _ _ X _).
have [|E1 E2 E3] := @eachE g G s s (raw_dims x s s); first by move=> i j y; split=> // i' j'; rewrite set_entry_look.
have [D1 D2] := raw_dimsE x s s.
have [|||H1 H2] := @holds_norm s len (each s s g (raw_dims x s s)) (fun i j => C i j (cells (raw_dims x s s) i j)).
- by rewrite E1.
- by rewrite E2.
- by move=> i j Hi Hj; rewrite E3 Hi Hj.
split=> // i j Hi Hj; rewrite H2 //; apply/polyP=> k; rewrite !coef_poly; case: ifP => // Hk.
by rewrite /C upd_loop Hk.
Qed.

Lemma raw_truncE x s n (x' := raw_trunc x n) : rr x = s -> rc x = s ->
  [/\ rr x' = s, rc x' = s & forall i j, (i < s)%N -> (j < s)%N -> ent (value x') i j = ptrunc n (ent (value x) i j) /\ cells x' i j = cells x i j].
Proof.
move=> R1 R2; rewrite {}/x' /raw_trunc R1 R2.
pose G (i j : nat) (cl : arr * nat) := if (n < cl.2)%N then (cl.1, norm_len cl.1 n) else cl.
set g := (X in each _ _ X _).
have [|E1 E2 E3] := @eachE g G s s x.
  move=> i j y; rewrite /g; case: ifP => C; split=> // i' j'; first by rewrite set_entry_look /G /= C.
  by case: andP => // -[/eqP-> /eqP->]; rewrite /G /= C.
split; [by rewrite E1|by rewrite E2|move=> i j Hi Hj].
have L := E3 i j; rewrite Hi Hj /= in L; rewrite !ent_look L /G.
split; last by move: L; rewrite /G /look /=; case: ifP => _ [].
case: ltnP => C /=.
  have [_ ->] := norm_lenE (cells x i j) n; apply/polyP=> k; rewrite ptrunc_coef !coef_poly.
  by case: ltnP => // D; rewrite (ltn_trans D C).
by rewrite ptrunc_id // (leq_trans (size_poly _ _)).
Qed.
Lemma raw_trunc_holds x s k n : holds s k x -> (n <= k)%N -> holds s n (raw_trunc x n).
Proof.
case=> R1 R2 H Hn; have [T1 T2 T3] := raw_truncE n R1 R2; split=> // i j Hi Hj.
have [-> ->] := T3 i j Hi Hj; have [S C] := H i j Hi Hj; split; first exact: size_ptrunc.
by move=> l Hl; rewrite ptrunc_coef Hl C // (leq_trans Hl Hn).
Qed.

Lemma raise_entriesE x s k (p : nat -> nat -> P) (x' := raise_entries s k p x) : holds s k x ->
  holds s (2 * k) x' /\ forall i j, (i < s)%N -> (j < s)%N -> ent (value x') i j = ent (value x) i j - ptrunc k (p i j) * 'X^k.
Proof.
case=> R1 R2 H; rewrite {}/x' /raise_entries.
pose C i j (c : arr) := write_high k (p i j) c.
pose G i j (cl : arr * nat) := (C i j cl.1, norm_len (C i j cl.1) (2 * k)).
set g := (X in each _ _ X _).
have [|E1 E2 E3] := @eachE g G s s x; first by move=> i j y; split=> // i' j'; rewrite set_entry_look.
have [|||H1 H2] := @holds_norm s (2 * k) (each s s g x) (fun i j => C i j (cells x i j)).
- by rewrite E1.
- by rewrite E2.
- by move=> i j Hi Hj; rewrite E3 Hi Hj.
split=> // i j Hi Hj; rewrite H2 //; have [S Hc] := H i j Hi Hj; apply/polyP=> l; rewrite coef_poly coefB coefMXn ptrunc_coef.
rewrite /C /write_high upd_loop; case: (ltnP l k) => A.
  rewrite andFb (_ : (l < 2 * k)%N); last by lia.
  by rewrite Hc // subr0.
rewrite [(ent _ _ _)`_l]nth_default ?sub0r; last exact: leq_trans S A.
rewrite (_ : (l < 2 * k)%N = (l < k + k)%N); last by lia.
rewrite (_ : (l - k < k)%N = (l < k + k)%N); last by lia.
by case: ltnP => _; rewrite ?oppr0 //=; case: leqP => // D; rewrite nth_default ?oppr0.
Qed.
End Memory.

(** *** the naive algorithm *)
Section Plain.
Variable F : fieldType.
Local Notation P := {poly F}.
Variables (s d : nat) (ac : nat -> fmat F).
Hypothesis d0 : (0 < d)%N.
Local Notation mx := (mx_of s s).

Lemma mx_of_fadd (A B : fmat F) : mx (fun u v => A u v + B u v) = mx A + mx B.
Proof. by apply/matrixP=> i j; rewrite !mxE. Qed.
Lemma mx_of_fopp (A : fmat F) : mx (fun u v => - A u v) = - mx A.
Proof. by apply/matrixP=> i j; rewrite !mxE. Qed.

Lemma plain_coefE xc k : (0 < k)%N ->
  mx (plain_coef s d ac xc k) = - ((\sum_(1 <= i < (minn k d).+1) mx (xc (k - i)%N) *m mx (ac i)) *m mx (xc 0%N)).
Proof.
move=> k0; rewrite /plain_coef mx_of_fopp mx_of_mul; congr (- (_ *m _)).
have [N ->] : exists N, minn k d = N.+1 by exists (minn k d).-1; rewrite prednK // leq_min k0.
rewrite (_ : N.+1 - 1 = N)%N ?subSS ?subn0 //; elim: N => [|N IH]; first by rewrite big_nat1 mx_of_mul.
by rewrite foldl_iotaR mx_of_fadd IH mx_of_mul [in RHS]big_nat_recr.
Qed.

Definition plain_run (x0 : fmat F) (K : nat) : nat -> fmat F :=
  foldl (fun xc k => upd xc k (plain_coef s d ac xc k)) (upd (fun _ _ _ => 0) 0%N x0) (iota 1 K).
Lemma plain_runE x0 K : plain_run x0 K 0%N = x0 /\
  forall k, (0 < k <= K)%N -> mx (plain_run x0 K k) =
    - ((\sum_(1 <= i < (minn k d).+1) mx (plain_run x0 K (k - i)%N) *m mx (ac i)) *m mx x0).
Proof.
elim: K => [|K [I0 IH]]; first by split=> // k; lia.
rewrite /plain_run foldl_iotaR add1n -/(plain_run x0 K); set xc := plain_run x0 K in I0 IH *.
have U j : (j <= K)%N -> upd xc K.+1 (plain_coef s d ac xc K.+1) j = xc j.
  by move=> Hj; rewrite /upd; case: eqP => // E; move: Hj; rewrite E ltnn.
split=> [|k /andP[k0 Hk]]; first by rewrite U.
have S : \sum_(1 <= i < (minn k d).+1) mx (upd xc K.+1 (plain_coef s d ac xc K.+1) (k - i)%N) *m mx (ac i) =
    \sum_(1 <= i < (minn k d).+1) mx (xc (k - i)%N) *m mx (ac i).
  by rewrite !big_nat; apply: eq_bigr => i /andP[i1 _]; rewrite U //; move: i1 Hk; clear; lia.
rewrite S; case: (ltnP K k) => C; last by rewrite U // IH // k0.
have -> : k = K.+1 by apply/eqP; rewrite eqn_leq Hk C.
by rewrite {1}/upd eqxx plain_coefE // I0.
Qed.

(** the coefficients of a, of degree at most d *)
Variables (e : fmat P) (m : nat).
Hypothesis He : forall i j, (i < s)%N -> (j < s)%N -> (size (e i j) <= d.+1)%N.
Hypothesis Hac : forall k i j, (k < minn d.+1 m)%N -> (i < s)%N -> (j < s)%N -> ac k i j = (e i j)`_k.

Lemma plain_inverse x0 : (0 < m)%N -> mx x0 *m mx (ac 0%N) = 1%:M ->
  inverse_mod s m (fun i j => \poly_(k < m) plain_run x0 (m - 1) k i j) e.
Proof.
move=> m0 H0; have [R0 R] := plain_runE x0 (m - 1); set xc := plain_run x0 (m - 1) in R0 R *.
pose A k : 'M[F]_s := \matrix_(i, j) (e i j)`_k.
have EA k : (k < minn d.+1 m)%N -> mx (ac k) = A k by move=> Hk; apply/matrixP=> i j; rewrite !mxE Hac.
have A0 k : (d < k)%N -> A k = 0.
  by move=> Hk; apply/matrixP=> i j; rewrite !mxE nth_default //; apply: leq_trans (He _ _) Hk.
have Hx l : (l < m)%N -> \sum_(v < l.+1) mx (xc (l - v)%N) *m A v = (l == 0%N)%:R%:M.
  move=> Hl; case: (posnP l) => [->|l0].
    by rewrite big_ord1 subn0 R0 -EA ?H0 ?leq_min ?m0.
  rewrite big_ord_recl subn0 R; last by rewrite l0; lia.
  rewrite -EA ?leq_min ?m0 // mulNmx -mulmxA H0 mulmx1 raddf0; apply/eqP; rewrite addrC subr_eq0; apply/eqP.
  rewrite -(big_mkord predT (fun i => mx (xc (l - bump 0 i)%N) *m A (bump 0 i))).
  rewrite (_ : \sum_(0 <= i < l) _ = \sum_(1 <= i < l.+1) mx (xc (l - i)%N) *m A i); last first.
    by rewrite big_add1; apply: eq_bigr => i _; rewrite /bump add1n.
  rewrite (@big_cat_nat _ _ _ (minn l d).+1) //= ?ltnS ?geq_minl // [X in _ + X]big_nat.
  rewrite [X in _ + X]big1 ?addr0 => [|i /andP[H1 H2]].
    by rewrite !big_nat; apply: eq_bigr => i /andP[H1 H2]; rewrite EA //; move: H2 Hl; clear; lia.
  by rewrite A0 ?mulmx0 //; move: H1 H2; clear; lia.
move=> i j l Hi Hj Hl; have /matrixP/(_ (Ordinal Hi) (Ordinal Hj)) := Hx l Hl.
rewrite summxE coef_sum mxE => E.
transitivity ((l == 0%N)%:R *+ (Ordinal Hi == Ordinal Hj) : F); last first.
  by rewrite -val_eqE /=; case: (i == j); case: (l == 0%N).
rewrite -E (eq_bigr (fun u : 'I_s => \sum_(v < l.+1) mx (xc (l - v)%N) (Ordinal Hi) u * A v u (Ordinal Hj))); last first.
  move=> u _; rewrite coefMr; apply: eq_bigr => v _; rewrite coef_poly !mxE /= ifT //.
  by apply: leq_ltn_trans Hl; rewrite leq_subr.
by rewrite exchange_big; apply: eq_bigr => v _; rewrite mxE.
Qed.
End Plain.
