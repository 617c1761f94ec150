(** Degree argument for the Hermite form with delayed zeroes: a pivot column in which no elimination
    takes place keeps entries of small degree above its pivot. *)
From mathcomp Require Import all_ssreflect all_algebra zify.
From Verif Require Import A_base.
Set Implicit Arguments.
Unset Strict Implicit.
Unset Printing Implicit Defensive.
Import GRing.Theory.
Local Open Scope ring_scope.

(** lia after removal of the hypotheses that are not about natural numbers *)
Ltac slia :=
  repeat match goal with
  | H : ?T |- _ => lazymatch T with
     | is_true (leq _ _) => revert H
     | is_true (andb _ _) => revert H
     | is_true (orb _ _) => revert H
     | is_true (negb (leq _ _)) => revert H
     | is_true (@eq_op ?E _ _) => tryif unify E nat_eqType then revert H else clear H
     | is_true (negb (@eq_op ?E _ _)) => tryif unify E nat_eqType then revert H else clear H
     | @eq nat _ _ => revert H
     | @eq bool _ _ => revert H
     | @eq (Equality.sort nat_eqType) _ _ => revert H
     | not (@eq nat _ _) => revert H
     | not (@eq (Equality.sort nat_eqType) _ _) => revert H
     | nat => fail
     | _ => clear H
     end
  end; intros; lia.

Section Key.
Variable F : fieldType.
Local Notation P := {poly F}.
Variable n : nat.

(** v is a combination of the k first rows of H and of z times the row r *)
Definition lcomb (H : fmat P) (r : nat -> P) k (z : P) (v : nat -> P) : Prop :=
  exists W : nat -> P, forall c, (c < n)%N -> v c = \sum_(b < k) W b * H b c + z * r c.

Lemma lcomb_lin H r k z z' v v' (a b : P) : lcomb H r k z v -> lcomb H r k z' v' ->
  lcomb H r k (a * z + b * z') (fun c => a * v c + b * v' c).
Proof.
case=> W E [W' E']; exists (fun l => a * W l + b * W' l) => c Hc; rewrite E // E' //.
rewrite !mulrDr !mulr_sumr !mulrA mulrDl addrACA -big_split /=; congr (_ + _).
by apply: eq_bigr => l _; rewrite mulrDl !mulrA.
Qed.

Lemma lcomb_ext H r k z v v' : (forall c, (c < n)%N -> v' c = v c) -> lcomb H r k z v -> lcomb H r k z v'.
Proof. by move=> E [W H']; exists W => c Hc; rewrite E // H'. Qed.

Lemma lcomb_S H r k z v : lcomb H r k z v -> lcomb H r k.+1 z v.
Proof.
case=> W E; exists (fun b => if b == k then 0 else W b) => c Hc; rewrite E // big_ord_recr /= eqxx mul0r addr0.
congr (_ + _); apply: eq_bigr => b _; have -> // : (b == k :> nat) = false by have := ltn_ord b; lia.
Qed.

Lemma lcomb_row H r k b : (b < k)%N -> lcomb H r k 0 (H b).
Proof.
move=> Hb; exists (fun l => (l == b)%:R) => c Hc; rewrite mul0r addr0 (bigD1 (Ordinal Hb)) //= eqxx mul1r big1 ?addr0 //.
by move=> l; rewrite -val_eqE /= => /negbTE ->; rewrite mul0r.
Qed.

Lemma lcomb_r H r k : lcomb H r k 1 r.
Proof. by exists (fun _ => 0) => c Hc; rewrite mul1r big1 ?add0r // => l _; rewrite mul0r. Qed.

Lemma size_mulM (h d y : P) : (size h <= size d)%N -> (size (h * y)%R <= size (d * y)%R)%N.
Proof.
move=> L; case: (y =P 0) => [->|/eqP Ny]; first by rewrite !mulr0.
case: (h =P 0) => [->|/eqP Nh]; first by rewrite mul0r size_poly0.
have Nd : d != 0 by rewrite -size_poly_gt0; apply: leq_trans L; rewrite size_poly_gt0.
by rewrite !size_mul //; move: (size h) (size d) (size y) L => a b c; lia.
Qed.

Lemma kb_key (H A : fmat P) (r r' : nat -> P) (pv : nat -> nat) k x (sd : nat) (z' : P) :
  (forall l, (l < k)%N -> (pv l < n)%N) -> (x < n)%N -> (0 < sd)%N ->
  (forall a l, (l < a < k)%N -> H a (pv l) = 0) -> (forall l, (l < k)%N -> H l (pv l) != 0) ->
  (forall a l, (a < l < k)%N -> (size (H a (pv l)) < size (H l (pv l)))%N) ->
  (forall a, (a < k)%N -> (size (H a x) < sd)%N) ->
  (forall a l, (l < a < k)%N -> A a (pv l) = 0) ->
  (forall a l, (a < l < k)%N -> (size (A a (pv l)) < size (A l (pv l)))%N) ->
  (forall l, (l < k)%N -> (size (A l (pv l)) <= size (H l (pv l)))%N) ->
  (forall a, (a < k)%N -> exists z, lcomb H r k z (A a)) ->
  z' != 0 -> lcomb H r k z' r' -> (forall l, (l < k)%N -> r' (pv l) = 0) -> r' x = 0 ->
  forall a, (a < k)%N -> (size (A a x) < sd)%N.
Proof.
move=> Hpv Hx Hsd UH DH NH BH UA NA SA CA Nz' [g Eg] R1 R2.
pose Hp : 'M[P]_k := \matrix_(a, l) H a (pv l).
pose e := \det Hp.
have Ne : e != 0.
  rewrite /e -det_tr det_trig; last by apply/is_trig_mxP => i j Hij; rewrite !mxE UH //; have := ltn_ord j; lia.
  by apply/prodf_neq0 => l _; rewrite !mxE DH.
pose b : 'cV[P]_k := \col_a H a x.
have [Y EY] : exists Y : 'cV[P]_k, Hp *m Y = e *: b.
  by exists (\adj Hp *m b); rewrite mulmxA mul_mx_adj mul_scalar_mx.
pose phi (v : nat -> P) := \sum_(l < k) v (pv l) * Y l 0 - e * v x.
have phiH a : (a < k)%N -> phi (H a) = 0.
  move=> Ha; have := congr1 (fun M : 'cV_k => M (Ordinal Ha) 0) EY; rewrite !mxE /phi => <-.
  by apply/eqP; rewrite subr_eq0; apply/eqP/eq_bigr => l _; rewrite mxE.
have phiL v z W : (forall c, (c < n)%N -> v c = \sum_(b < k) W b * H b c + z * r c) -> phi v = z * phi r.
  move=> E; have -> : phi v = \sum_(b < k) W b * phi (H b) + z * phi r.
    rewrite /phi E //; under eq_bigr => l _ do rewrite E ?Hpv // mulrDl mulr_suml.
    rewrite big_split /= exchange_big /= mulrDr !mulrBr opprD addrACA; congr (_ + _).
      rewrite mulr_sumr -sumrN -big_split /=; apply: eq_bigr => l _.
      rewrite mulrBr mulr_sumr; congr (_ - _); last by rewrite mulrCA.
      by apply: eq_bigr => l' _; rewrite mulrA.
    rewrite mulr_sumr mulrCA; congr (_ - _).
    by apply: eq_bigr => l _; rewrite mulrA.
  by rewrite big1 ?add0r // => l _; rewrite phiH ?mulr0.
have phir : phi r = 0.
  have : phi r' = 0.
    by rewrite /phi R2 mulr0 subr0 big1 // => l _; rewrite R1 ?mul0r.
  by rewrite (phiL _ _ _ Eg) => /eqP; rewrite mulf_eq0 (negbTE Nz') => /eqP.
have phiA a : (a < k)%N -> \sum_(l < k) A a (pv l) * Y l 0 = e * A a x.
  move=> Ha; have [z [W E]] := CA a Ha; have := phiL _ _ _ E; rewrite phir mulr0 /phi => /eqP.
  by rewrite subr_eq0 => /eqP.
pose N := (sd + size e - 1)%N.
have He : (0 < size e)%N by rewrite size_poly_gt0.
have Sum (I : finType) (Q : pred I) (f : I -> P) : (forall i, Q i -> (size (f i) < N)%N) -> (size (\sum_(i | Q i) f i)%R < N)%N.
  move=> Hf; apply: (big_ind (fun p : P => (size p < N)%N)) => //; first by rewrite size_poly0 /N; lia.
  by move=> p q Hp1 Hq; apply: leq_ltn_trans (size_add _ _) _; rewrite gtn_max Hp1.
have DY : forall d (l : 'I_k), (k - l <= d)%N -> (size (H l (pv l) * Y l 0)%R < N)%N.
  elim=> [|d IH] l Hl; first by have := ltn_ord l; lia.
  have E : H l (pv l) * Y l 0 = e * H l x - \sum_(l' < k | (l < l')%N) H l (pv l') * Y l' 0.
    have := phiH l (ltn_ord l); rewrite /phi => /eqP; rewrite subr_eq0 => /eqP <-.
    rewrite (bigID (fun l' : 'I_k => (l < l')%N)) /= addrAC subrr add0r.
    rewrite (bigD1 l) ?ltnn //= big1 ?addr0 // => l' /andP[C1 C2].
    by rewrite UH ?mul0r //; move: C2; rewrite -val_eqE /=; have := ltn_ord l; lia.
  rewrite E; apply: leq_ltn_trans (size_add _ _) _; rewrite size_opp gtn_max; apply/andP; split.
    case: (H l x =P 0) => [->|/eqP Nl]; first by rewrite mulr0 size_poly0 /N; lia.
    rewrite size_mul // /N; have := BH l (ltn_ord l); move: He; move: (size e) (size (H l x)) => u v; lia.
  apply: Sum => l' Hl'; have K := IH l' ltac:(lia).
  by apply: leq_ltn_trans K; apply: size_mulM; apply: ltnW; apply: NH; rewrite Hl' ltn_ord.
move=> a Ha.
have : (size (e * A a x)%R < N)%N.
  rewrite -phiA //; apply: Sum => l _; apply: leq_ltn_trans (DY k l (leq_subr _ _)).
  apply: size_mulM; case: (ltngtP a l) => C.
  - by apply: leq_trans (SA l (ltn_ord l)); apply: ltnW; apply: NA; rewrite C ltn_ord.
  - by rewrite UA ?size_poly0 // C.
  - by rewrite C; apply: SA.
case: (A a x =P 0) => [->|/eqP Na]; first by rewrite size_poly0.
rewrite size_mul // /N; move: He; move: (size e) (size (A a x)) => u v; lia.
Qed.
End Key.
