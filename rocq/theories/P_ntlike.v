(** C90: Toeplitz-like matrices given by generators (ntl-extras). *)
From mathcomp Require Import all_ssreflect all_algebra zify.
From Verif Require Import A_base A_mul_model N_pmat_model N_util_model N_str_model N_circ_model P_nstr P_ncirc N_tlike_model.
Set Implicit Arguments.
Unset Strict Implicit.
Unset Printing Implicit Defensive.
Import GRing.Theory.
Local Open Scope ring_scope.

Section Tlike.
Variable F : fieldType.
Variable MX : nat.

(** *** specification *)
(** the matrix Z_lzz_p(n, c): ones below the diagonal, c at the top right *)
Definition Zent (n : nat) (c : F) (i j : nat) : F := if i == j.+1 then 1 else if (i == 0%N) && (j.+1 == n) then c else 0.
(** Z1 A - A Z0 = G H^t and Z0 A - A Z1 = G H^t for an m x n matrix A *)
Definition displacement (c d : F) (m n alpha : nat) (A G H : nat -> nat -> F) : Prop := forall i j, (i < m)%N -> (j < n)%N ->
  \sum_(k < m) Zent m c i k * A k j - \sum_(k < n) A i k * Zent n d k j = \sum_(g < alpha) G i g * H j g.

Lemma Zrow n c i (f : nat -> F) : (i < n)%N -> \sum_(k < n) Zent n c i k * f k = if i is i'.+1 then f i' else c * f n.-1.
Proof.
move=> Hi; case: i Hi => [|i] Hi.
  case: n Hi => // n _; rewrite big_ord_recr /= big1 ?add0r => [|k _]; first by rewrite /Zent /= eqxx.
  by rewrite /Zent /= eqSS ltn_eqF ?mul0r.
have Hi' : (i < n)%N by lia.
rewrite (bigD1 (Ordinal Hi')) //= {1}/Zent eqxx mul1r big1 ?addr0 // => k /eqP Nk.
rewrite /Zent /= eqSS; case: eqP => [E|_]; last by rewrite mul0r.
by case: Nk; apply/val_inj.
Qed.
Lemma Zcol n c j (f : nat -> F) : (j < n)%N -> \sum_(k < n) f k * Zent n c k j = if (j.+1 < n)%N then f j.+1 else f 0%N * c.
Proof.
move=> Hj; case: ltnP => H.
  rewrite (bigD1 (Ordinal H)) //= {1}/Zent eqxx mulr1 big1 ?addr0 // => k /eqP Nk.
  rewrite /Zent; case: eqP => [E|_]; first by case: Nk; apply/val_inj.
  by rewrite (ltn_eqF H) andbF mulr0.
have E : j.+1 = n by lia.
have H0 : (0 < n)%N by lia.
rewrite (bigD1 (Ordinal H0)) //= big1 ?addr0; last first.
  move=> k /eqP Nk; rewrite /Zent E ltn_eqF //; case: eqP => [E0|_]; last by rewrite mulr0.
  by case: Nk; apply/val_inj.
by rewrite /Zent E (ltn_eqF H0) !eqxx.
Qed.

Lemma sum_termsP alpha m (term : nat -> aoutcome (seq F)) (t : nat -> nat -> F) :
  (forall g, (g < alpha)%N -> term g = AOk (mkseq (t g) m)) ->
  sum_terms alpha m term = AOk (mkseq (fun j => \sum_(g < alpha) t g j) m).
Proof.
rewrite /sum_terms; elim: alpha => [|a IH] H.
  rewrite /=; congr AOk; apply: (@eq_from_nth _ 0); rewrite size_nseq ?size_mkseq // => i Hi.
  by rewrite nth_nseq Hi nth_mkseq // big_ord0.
rewrite -[in iota 0 _]addn1 iotaD foldl_cat IH /=; last by move=> g Hg; apply: H; lia.
rewrite add0n H //=; congr AOk; apply: mkseq_eq => i Hi; rewrite !nth_mkseq // big_ord_recr //=.
Qed.

(** *** Z1 A - A Z0 *)
Lemma plus_sol m n alpha A G H : (0 < m)%N -> displacement 1 0 m n alpha A G H ->
  forall d j i, (j + d = n)%N -> (0 < d)%N -> (i < m)%N ->
  A i j = \sum_(j <= t < n) \sum_(g < alpha) G ((i.+1 + (t - j)) %% m)%N g * H t g.
Proof.
move=> Hm D; elim=> // d IH j i Hd _ Hi.
have Hj : (j < n)%N by lia.
have Hi1 : (i.+1 %% m < m)%N by rewrite ltn_mod.
have := D _ _ Hi1 Hj; rewrite (Zrow 1 (fun k => A k j)) // (Zcol 0 (fun k => A (i.+1 %% m)%N k)) // mulr0.
have -> : match (i.+1 %% m)%N with 0%N => 1 * A m.-1 j | i'.+1 => A i' j end = A i j.
  have [E|N] := eqVneq i.+1 m; first by rewrite E modnn mul1r -E.
  by rewrite modn_small //; lia.
move/eqP; rewrite subr_eq => /eqP->; rewrite big_ltn // subnn addn0; congr (_ + _).
case: ltnP => C; last by rewrite big_geq //; lia.
rewrite (IH j.+1 (i.+1 %% m)%N) //; try lia.
rewrite big_nat [RHS]big_nat; apply: eq_bigr => t Ht; apply: eq_bigr => g _; congr (G _ _ * _).
by rewrite -(addn1 (i.+1 %% m)) -addnA modnDml; congr (_ %% _)%N; lia.
Qed.

Lemma iter_up n j m : (0 < m)%N -> iter j (fun idx => if idx.+1 == m then 0%N else idx.+1) (n %% m)%N = ((n + j) %% m)%N.
Proof.
move=> Hm; elim: j => [|j IH]; first by rewrite addn0.
have -> : ((n + j.+1) %% m = ((n + j) %% m).+1 %% m)%N by rewrite -(addn1 ((n + j) %% m)) modnDml addn1 addnS.
rewrite iterS IH; have : ((n + j) %% m < m)%N by rewrite ltn_mod.
move: ((n + j) %% m)%N => z Hz; case: eqP => [->|/eqP N]; first by rewrite modnn.
by rewrite modn_small // ltn_neqAle N.
Qed.

Lemma plus_core (A : nat -> nat -> F) (G H : cmat F) x i l : (0 < cr G)%N -> (0 < cr H)%N -> cc H = cc G ->
  displacement 1 0 (cr G) (cr H) (cc G) A (cent G) (cent H) -> (i < cr G)%N -> (l < cr H)%N ->
  \sum_(g < cc G) \sum_(k < cr H) (plus_vecG G (cr H) g)`_(cmod (cr G) i k) * (lt_entry (plus_vecH H g) k l * x) = A i l * x.
Proof.
set m := cr G; set n := cr H => Hm Hn Ha D Hi Hl.
rewrite (plus_sol Hm D (d := (n - l)%N)); try lia.
rewrite mulr_suml exchange_big /= -(big_mkord xpredT (fun k => \sum_(g < cc G) (plus_vecG G n g)`_(cmod m i k) * (lt_entry (plus_vecH H g) k l * x))).
rewrite (big_cat_nat _ _ _ (leq0n l) (ltnW Hl)) /= big_nat big1 ?add0r; last first.
  by move=> k Hk; rewrite big1 // => g _; rewrite /lt_entry ifF ?mul0r ?mulr0 //; lia.
rewrite big_nat_rev big_nat [RHS]big_nat; apply: eq_bigr => s Hs; rewrite mulr_suml; apply: eq_bigr => g _; rewrite mulrA; congr (_ * _).
have [C1 C2] := cmod_spec i (l + n - s.+1) Hm.
rewrite /lt_entry ifT; last lia.
rewrite !nth_mkseq //; last (rewrite -/n; lia).
rewrite iter_up //; congr (cent G _ _ * cent H _ _); last (rewrite -/n; lia).
apply/eqP; rewrite -(eqn_modDr (l + n - s.+1)) -addnA -modnDmr C2 modnDmr; apply/eqP; congr (_ %% _)%N; lia.
Qed.

(** mul_right is the product by the matrix whose generators are given *)
Theorem C90_plus_right (A : nat -> nat -> F) (G H : cmat F) (v : seq F) :
  (0 < cr G)%N -> (0 < cr H)%N -> cc H = cc G -> size v = cr H -> displacement 1 0 (cr G) (cr H) (cc G) A (cent G) (cent H) ->
  plus_right MX G H v = AOk (mkseq (fun i => \sum_(j < cr H) A i j * v`_j) (cr G)).
Proof.
move=> Hm Hn Ha Hv D; set m := cr G; set n := cr H; rewrite /plus_right Ha ltnn (gtn_eqF Hm) andbF.
pose t g i := \sum_(k < n) (plus_vecG G n g)`_(cmod m i k) * \sum_(l < n) lt_entry (plus_vecH H g) k l * v`_l.
rewrite (sum_termsP (t := t)) => [|g _]; last first.
  have SH : size (plus_vecH H g) = n by rewrite size_mkseq.
  have SG : size (plus_vecG G n g) = m by rewrite size_mkseq.
  rewrite C88_ltt_right ?SH //= C89_column_right ?SG ?size_mkseq //; congr AOk; apply: mkseq_eq => i Hi.
  by apply: eq_bigr => k _; congr (_ * _); apply: nth_mkseq.
congr AOk; apply: mkseq_eq => i Hi; rewrite /t.
under eq_bigr => g _ do (under eq_bigr => k _ do rewrite mulr_sumr); rewrite /=.
under eq_bigr => g _ do rewrite exchange_big /=.
rewrite exchange_big /=; apply: eq_bigr => l _; have Hl := ltn_ord l.
exact: plus_core.
Qed.

(** *** Z0 A - A Z1 *)
Lemma cmod2 n i a b : (0 < n)%N -> cmod n (cmod n i a) b = cmod n i (a + b).
Proof.
move=> Hn; have [H1 H2] := cmod_spec i a Hn; have [H3 H4] := cmod_spec (cmod n i a) b Hn.
by apply/esym/cmod_uniq => //; rewrite (addnC a) addnA -modnDml H4 modnDml H2.
Qed.

Lemma minus_sol m n alpha A G H : (0 < n)%N -> displacement 0 1 m n alpha A G H ->
  forall i j, (i < m)%N -> (j < n)%N -> A i j = - \sum_(k < i.+1) \sum_(g < alpha) G (i - k)%N g * H (cmod n j k.+1) g.
Proof.
move=> Hn D.
have W a j : (j < n)%N -> (if ((cmod n j 1).+1 < n)%N then A a (cmod n j 1).+1 else A a 0%N) = A a j.
  move=> Hj; have [C1] := cmod_spec j 1 Hn; rewrite addn1; case: ltnP => C; first by rewrite !modn_small // => ->.
  have -> : (cmod n j 1).+1 = n by move: (cmod n j 1) C1 C => z; lia.
  by rewrite modnn modn_small // => <-.
elim=> [|i IH] j Hi Hj; have [C1 _] := cmod_spec j 1 Hn.
  have := D _ _ Hi C1; rewrite (Zrow 0 (fun k => A k (cmod n j 1))) // (Zcol 1 (A 0%N)) // mulr1 W //.
  by rewrite mul0r sub0r big_ord_recl big_ord0 addr0 subn0 => /eqP; rewrite eqr_oppLR => /eqP.
have := D _ _ Hi C1; rewrite (Zrow 0 (fun k => A k (cmod n j 1))) // (Zcol 1 (A i.+1)) // mulr1 W //.
rewrite IH //; last lia.
move/(canRL (subrK _)) => E; apply: (addrI (\sum_(g < alpha) G i.+1 g * H (cmod n j 1) g)); rewrite -E.
rewrite [X in _ = _ - X]big_ord_recl /= subn0 opprD addrA subrr add0r; congr (- _).
by apply: eq_bigr => k _; rewrite cmod2 // subSS.
Qed.

Lemma iter_down n j : (0 < n)%N -> iter j (fun idx => if idx is k.+1 then k else (n - 1)%N) (n - 2)%N = cmod n (n - 2) j.
Proof.
move=> Hn; elim: j => [|j IH]; first by rewrite /= -[LHS](cmod_uniq (n := n) (i := n - 2) (j := 0)) ?addn0 //; lia.
rewrite iterS IH; have [H1 H2] := cmod_spec (n - 2) j Hn.
case E : (cmod n (n - 2) j) => [|k]; rewrite E in H1 H2; apply/esym/cmod_uniq; try lia.
  by rewrite -H2 addnS -addSn (_ : (n - 1).+1 = n) ?modnDl //; lia.
by rewrite -H2 addSnnS.
Qed.

Lemma minus_core (A : nat -> nat -> F) (G H : cmat F) x i l : (0 < cr G)%N -> (0 < cr H)%N -> cc H = cc G ->
  displacement 0 1 (cr G) (cr H) (cc G) A (cent G) (cent H) -> (i < cr G)%N -> (l < cr H)%N ->
  \sum_(g < cc G) \sum_(k < cr G) lt_entry (minus_vecG G g) i k * ((minus_vecH H g)`_(cmod (cr H) k l.+1) * x) = A i l * x.
Proof.
set m := cr G; set n := cr H => Hm Hn Ha D Hi Hl.
rewrite (minus_sol Hn D) // exchange_big /= -(big_mkord xpredT (fun k => \sum_(g < cc G) lt_entry (minus_vecG G g) i k * ((minus_vecH H g)`_(cmod n k l.+1) * x))).
rewrite (big_cat_nat _ _ _ (leq0n i.+1) Hi) /= [X in _ + X]big_nat [X in _ + X]big1 ?addr0; last first.
  by move=> k Hk; rewrite big1 // => g _; rewrite /lt_entry ifF ?mul0r //; lia.
rewrite big_mkord mulNr mulr_suml -sumrN; apply: eq_bigr => k _; have Hk := ltn_ord k; rewrite mulr_suml -sumrN; apply: eq_bigr => g _.
have [C1 C2] := cmod_spec k l.+1 Hn.
rewrite mulrA -mulNr; congr (_ * _); rewrite /lt_entry ifT; last lia.
rewrite !nth_mkseq //; last (rewrite -/m; lia).
rewrite iter_down // mulNr; congr (- (_ * cent H _ _)); apply: cmod_uniq.
  by have [] := cmod_spec l k.+1 Hn.
have [_ C3] := cmod_spec l k.+1 Hn; apply/eqP; rewrite -(eqn_modDr (k.+1 + l.+1)).
rewrite (_ : (cmod n l k.+1 + cmod n k l.+1 + (k.+1 + l.+1) = (cmod n l k.+1 + k.+1) + (cmod n k l.+1 + l.+1))%N); last lia.
rewrite -modnDm C3 C2 modnDm.
have M1 a b : n = 1%N -> (a = b %[mod n])%N by move=> ->; rewrite !modn1.
have [E|N] := eqVneq n 1%N; first by apply/eqP/M1.
by rewrite (_ : (cr H - 2 + (k.+1 + l.+1) = n + (l + k))%N) ?modnDl //; move: Hl; rewrite -/n; lia.
Qed.

Theorem C90_minus_right (A : nat -> nat -> F) (G H : cmat F) (v : seq F) :
  (0 < cr G)%N -> (0 < cr H)%N -> cc H = cc G -> size v = cr H -> displacement 0 1 (cr G) (cr H) (cc G) A (cent G) (cent H) ->
  minus_right MX G H v = AOk (mkseq (fun i => \sum_(j < cr H) A i j * v`_j) (cr G)).
Proof.
move=> Hm Hn Ha Hv D; set m := cr G; set n := cr H; rewrite /minus_right Ha ltnn (gtn_eqF Hm) (gtn_eqF Hn) andbF.
pose t g i := \sum_(k < m) lt_entry (minus_vecG G g) i k * \sum_(l < n) (minus_vecH H g)`_(cmod n k l.+1) * v`_l.
rewrite (sum_termsP (t := t)) => [|g _]; last first.
  have SH : size (minus_vecH H g) = n by rewrite size_mkseq.
  have SG : size (minus_vecG G g) = m by rewrite size_mkseq.
  rewrite C89_row_right ?SH //= C88_ltt_right ?SG ?size_mkseq //; congr AOk; apply: mkseq_eq => i Hi.
  by apply: eq_bigr => k _; congr (_ * _); apply: nth_mkseq.
congr AOk; apply: mkseq_eq => i Hi; rewrite /t.
under eq_bigr => g _ do (under eq_bigr => k _ do rewrite mulr_sumr); rewrite /=.
under eq_bigr => g _ do rewrite exchange_big /=.
rewrite exchange_big /=; apply: eq_bigr => l _; have Hl := ltn_ord l.
exact: minus_core.
Qed.

(** to_dense in a new matrix, or in one with another number of columns *)
Theorem C90_dense_partial (A : nat -> nat -> F) (x G H : cmat F) : cr x = 0%N \/ cc x <> cr H -> (0 < cr G)%N -> (0 < cr H)%N -> cc H = cc G ->
  (displacement 1 0 (cr G) (cr H) (cc G) A (cent G) (cent H) ->
   [/\ cr (plus_dense x G H) = cr G, cc (plus_dense x G H) = cr H &
     forall i j, (i < cr G)%N -> (j < cr H)%N -> cent (plus_dense x G H) i j = A i j]) /\
  (displacement 0 1 (cr G) (cr H) (cc G) A (cent G) (cent H) ->
   [/\ cr (minus_dense x G H) = cr G, cc (minus_dense x G H) = cr H &
     forall i j, (i < cr G)%N -> (j < cr H)%N -> cent (minus_dense x G H) i j = A i j]).
Proof.
move=> Hx Hm Hn Ha.
have X i : (cc x == cr H) && (i < cr x)%N = false by case: Hx => [->|/eqP/negbTE->]; rewrite ?ltn0 ?andbF.
split=> D; split=> // i j Hi Hj; rewrite /= X add0r -[RHS]mulr1.
  rewrite -(plus_core 1 Hm Hn Ha D Hi Hj); apply: eq_bigr => g _; apply: eq_bigr => k _; rewrite mulr1.
  have SG : size (plus_vecG G (cr H) g) = cr G by rewrite size_mkseq.
  have [_ /(_ i k)] := C89_dense (plus_vecG G (cr H) g) (cr H); rewrite SG => /(_ Hm)[E _].
  rewrite /= SG in E; congr (_ * _); first exact: E.
  by rewrite /lt_entry andbF.
rewrite -(minus_core 1 Hm Hn Ha D Hi Hj); apply: eq_bigr => g _; apply: eq_bigr => k _; rewrite mulr1.
have SH : size (minus_vecH H g) = cr H by rewrite size_mkseq.
have [_ /(_ k j)] := C89_dense (minus_vecH H g) (cr G); rewrite SH => /(_ Hn)[_ E]; rewrite /= SH in E; congr (_ * _); last exact: E.
by rewrite /lt_entry andbF.
Qed.
End Tlike.

(** 2 x 2 matrices and their generators *)
Definition exG : cmat rat_fieldType := Cmat 2 1 (fun i _ => if i == 0%N then 1 else 2%:R).
Definition exH : cmat rat_fieldType := Cmat 2 1 (fun i _ => if i == 0%N then 3%:R else 4%:R).
Definition ex2 (a b c d : rat) (i j : nat) : rat := if i == 0%N then if j == 0%N then a else b else if j == 0%N then c else d.
Example C90_plus_example : displacement (1 : rat) 0 2 2 1 (ex2 10%:R 8%:R 11%:R 4%:R) (cent exG) (cent exH).
Proof. by move=> [|[|i]] [|[|j]] // _ _; rewrite !big_ord_recl !big_ord0; apply/eqP. Qed.
Example C90_minus_example : displacement (0 : rat) 1 2 2 1 (ex2 (- 4%:R) (- 3%:R) (- 11%:R) (- 10%:R)) (cent exG) (cent exH).
Proof. by move=> [|[|i]] [|[|j]] // _ _; rewrite !big_ord_recl !big_ord0; apply/eqP. Qed.

Theorem C90_unimplemented_refuted (F : fieldType) (x : seq F) (y : cmat F) (G H : cmat F) (v : seq F) (b : cmat F) :
  like_left x G H v = AOk x /\ like_mat y G H b = AOk y.
Proof. by []. Qed.
Theorem C90_dense_stale_refuted : exists x y : cmat rat_fieldType,
  cent (plus_dense x exG exH) 0%N 0%N = 10%:R /\ cent (plus_dense y exG exH) 0%N 0%N <> 10%:R.
Proof.
exists (Cmat 0 0 (fun _ _ => 0)), (Cmat 2 2 (fun _ _ => 1)).
by split; rewrite /plus_dense /= !big_ord_recl !big_ord0 //=; apply/eqP.
Qed.

Print Assumptions C90_plus_right.
Print Assumptions C90_minus_right.
Print Assumptions C90_unimplemented_refuted.
Print Assumptions C90_dense_stale_refuted.
Print Assumptions C90_dense_partial.
