(** C91: Hankel-like matrices given by generators (ntl-extras). *)
From mathcomp Require Import all_ssreflect all_algebra zify.
From Verif Require Import A_base A_mul_model N_pmat_model N_util_model N_str_model N_circ_model P_nstr P_ncirc N_tlike_model P_ntlike N_hlike_model.
Set Implicit Arguments.
Unset Strict Implicit.
Unset Printing Implicit Defensive.
Import GRing.Theory.
Local Open Scope ring_scope.

Section Hlike.
Variable F : fieldType.
Variable MX : nat.

(** *** specification: Z1 A - A Z0^t = G H^t and Z0^t A - A Z1 = G H^t for an m x n matrix A; Zent is Z_lzz_p *)
Definition hdisp_plus (m n alpha : nat) (A G H : nat -> nat -> F) : Prop := forall i j, (i < m)%N -> (j < n)%N ->
  \sum_(k < m) Zent m 1 i k * A k j - \sum_(k < n) A i k * Zent n 0 j k = \sum_(g < alpha) G i g * H j g.
Definition hdisp_minus (m n alpha : nat) (A G H : nat -> nat -> F) : Prop := forall i j, (i < m)%N -> (j < n)%N ->
  \sum_(k < m) Zent m 0 k i * A k j - \sum_(k < n) A i k * Zent n 1 k j = \sum_(g < alpha) G i g * H j g.

Lemma Zflip n (c : F) i k : (i < n)%N -> (k < n)%N -> Zent n c (n - 1 - i) (n - 1 - k) = Zent n c k i.
Proof.
move=> Hi Hk; rewrite /Zent.
have -> : (n - 1 - i == (n - 1 - k).+1)%N = (k == i.+1)%N by lia.
have -> : ((n - 1 - i == 0) && ((n - 1 - k).+1 == n))%N = ((k == 0) && (i.+1 == n))%N by lia.
by [].
Qed.

Lemma flip_plus m n alpha A G H : hdisp_plus m n alpha A G H ->
  displacement 1 0 m n alpha (fun i j => A i (n - 1 - j)%N) G (fun j g => H (n - 1 - j)%N g).
Proof.
move=> D i j Hi Hj; have Hj' : (n - 1 - j < n)%N by lia.
rewrite -(D _ _ Hi Hj'); congr (_ - _); rewrite (reindex_inj rev_ord_inj) /=; apply: eq_bigr => k _; have Hk := ltn_ord k.
have -> : (n - 1 - (n - k.+1) = k)%N by lia.
congr (_ * _); rewrite -(Zflip 0 Hk Hj').
by congr Zent; lia.
Qed.
Lemma flip_minus m n alpha A G H : hdisp_minus m n alpha A G H ->
  displacement 0 1 m n alpha (fun i j => A (m - 1 - i)%N j) (fun i g => G (m - 1 - i)%N g) H.
Proof.
move=> D i j Hi Hj; have Hi' : (m - 1 - i < m)%N by lia.
rewrite -(D _ _ Hi' Hj); congr (_ - _); rewrite (reindex_inj rev_ord_inj) /=; apply: eq_bigr => k _; have Hk := ltn_ord k.
have -> : (m - 1 - (m - k.+1) = k)%N by lia.
congr (_ * _); rewrite -(Zflip 0 Hi' Hk).
by congr Zent; lia.
Qed.

Theorem C91_plus_right (A : nat -> nat -> F) (G H : cmat F) (v : seq F) :
  (0 < cr G)%N -> (0 < cr H)%N -> cc H = cc G -> size v = cr H -> hdisp_plus (cr G) (cr H) (cc G) A (cent G) (cent H) ->
  hplus_right MX G H v = AOk (mkseq (fun i => \sum_(j < cr H) A i j * v`_j) (cr G)).
Proof.
move=> Hm Hn Ha Hv /flip_plus D; set m := cr G; set n := cr H; rewrite /hplus_right Ha Hv !ltnn (gtn_eqF Hm) andbF /=.
pose H' := Cmat n (cc G) (fun j g => cent H (n - 1 - j)%N g).
have VE g : hplus_vecH H g = plus_vecH H' g by apply: mkseq_eq => j Hj; rewrite /= -/n; congr cent; lia.
pose w := mkseq (fun i => v`_(n - 1 - i)) n; rewrite -/n -/w.
pose t g i := \sum_(k < n) (plus_vecG G n g)`_(cmod m i k) * \sum_(l < n) lt_entry (plus_vecH H' g) k l * w`_l.
rewrite (sum_termsP (t := t)) => [|g _]; last first.
  have SH : size (plus_vecH H' g) = n by rewrite size_mkseq.
  have SG : size (plus_vecG G n g) = m by rewrite size_mkseq.
  rewrite VE C88_ltt_right ?SH ?size_mkseq //= C89_column_right ?SG ?size_mkseq //; congr AOk; apply: mkseq_eq => i Hi.
  by apply: eq_bigr => k _; congr (_ * _); apply: nth_mkseq.
congr AOk; apply: mkseq_eq => i Hi; rewrite /t.
transitivity (\sum_(l < n) \sum_(g < cc G) \sum_(k < n) (plus_vecG G n g)`_(cmod m i k) * (lt_entry (plus_vecH H' g) k l * w`_l)).
  rewrite [RHS]exchange_big /=; apply: eq_bigr => g _; rewrite [RHS]exchange_big /=; apply: eq_bigr => k _; exact: mulr_sumr.
rewrite [RHS](reindex_inj rev_ord_inj) /=; apply: eq_bigr => l _; have Hl := ltn_ord l.
have := @plus_core _ (fun i j => A i (n - 1 - j)%N) G H' w`_l i l Hm Hn erefl D Hi Hl; rewrite /= -/n => ->.
rewrite nth_mkseq //; have -> : (n - l.+1 = n - 1 - l)%N by lia.
by [].
Qed.

Theorem C91_minus_right (A : nat -> nat -> F) (G H : cmat F) (v : seq F) :
  (0 < cr G)%N -> (0 < cr H)%N -> cc H = cc G -> size v = cr H -> hdisp_minus (cr G) (cr H) (cc G) A (cent G) (cent H) ->
  hminus_right MX G H v = AOk (mkseq (fun i => \sum_(j < cr H) A i j * v`_j) (cr G)).
Proof.
move=> Hm Hn Ha Hv /flip_minus D; set m := cr G; set n := cr H; rewrite /hminus_right Ha ltnn (gtn_eqF Hm) (gtn_eqF Hn) andbF.
pose G' := Cmat m (cc G) (fun i g => cent G (m - 1 - i)%N g).
pose t g i := \sum_(k < m) lt_entry (minus_vecG G' g) i k * \sum_(l < n) (minus_vecH H g)`_(cmod n k l.+1) * v`_l.
rewrite (sum_termsP (t := fun g i => t g (m - 1 - i)%N)) => [|g _]; last first.
  have SH : size (minus_vecH H g) = n by rewrite size_mkseq.
  have SG : size (minus_vecG G' g) = m by rewrite size_mkseq.
  rewrite -[hminus_vecG G g]/(minus_vecG G' g) C89_row_right ?SH //= C88_ltt_right ?SG ?size_mkseq //=; congr AOk; apply: mkseq_eq => i Hi.
  rewrite nth_mkseq; last by rewrite -/m; lia.
  by apply: eq_bigr => k _; congr (_ * _); apply: nth_mkseq.
congr AOk; apply: mkseq_eq => i Hi; rewrite /t.
transitivity (\sum_(l < n) \sum_(g < cc G) \sum_(k < m) lt_entry (minus_vecG G' g) (m - 1 - i) k * ((minus_vecH H g)`_(cmod n k l.+1) * v`_l)).
  rewrite [RHS]exchange_big /=; apply: eq_bigr => g _; rewrite [RHS]exchange_big /=; apply: eq_bigr => k _; exact: mulr_sumr.
apply: eq_bigr => l _; have Hl := ltn_ord l.
have Hi' : (m - 1 - i < m)%N by rewrite -/m in Hi *; lia.
have := @minus_core _ (fun i j => A (m - 1 - i)%N j) G' H v`_l (m - 1 - i)%N l Hm Hn Ha D Hi' Hl; rewrite /= -/n => ->.
by congr (A _ _ * _); rewrite -/m in Hi *; lia.
Qed.
End Hlike.

(** 2 x 2 matrices and their generators *)
Example C91_plus_example : hdisp_plus 2 2 1 (ex2 6%:R 11%:R 3%:R 10%:R) (cent exG) (cent exH).
Proof. by move=> [|[|i]] [|[|j]] // _ _; rewrite !big_ord_recl !big_ord0; apply/eqP. Qed.
Example C91_minus_example : hdisp_minus 2 2 1 (ex2 (- 10%:R) (- 11%:R) (- 8%:R) (- 6%:R)) (cent exG) (cent exH).
Proof. by move=> [|[|i]] [|[|j]] // _ _; rewrite !big_ord_recl !big_ord0; apply/eqP. Qed.

Print Assumptions C91_plus_right.
Print Assumptions C91_minus_right.
