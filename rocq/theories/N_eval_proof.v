(** Loops of the products by evaluation and interpolation. *)
From mathcomp Require Import all_ssreflect all_algebra zify.
From Verif Require Import A_base A_mul_model A_mul_proof N_shift_proof N_multi_model N_multi_proof N_pmat_model.
From Verif Require Import N_trs_proof N_util_model N_util_proof N_geo2_proof N_eval_model P_ntrs.
Set Implicit Arguments.
Unset Strict Implicit.
Unset Printing Implicit Defensive.
Import GRing.Theory.
Local Open Scope ring_scope.

(** a nested loop whose step (i, j) modifies the column i n + j *)
Lemma flat_cols (T X : Type) (obs : T -> nat -> X) (f : nat -> nat -> T -> T) (g : nat -> nat -> X -> X) m n t c :
  (forall i j t c, (i < m)%N -> (j < n)%N -> obs (f i j t) c = if c == (i * n + j)%N then g i j (obs t c) else obs t c) ->
  obs (foldl (fun t i => foldl (fun t j => f i j t) t (iota 0 n)) t (iota 0 m)) c =
  if (c < m * n)%N then g (c %/ n)%N (c %% n)%N (obs t c) else obs t c.
Proof.
move=> H.
have inner i k t' c' : (i < m)%N -> (k <= n)%N -> obs (foldl (fun t j => f i j t) t' (iota 0 k)) c' =
    if (i * n <= c' < i * n + k)%N then g i (c' - i * n)%N (obs t' c') else obs t' c'.
  move=> Hi; elim: k => [|k IH] Hk; first by rewrite /= ifF //; lia.
  rewrite foldl_iotaR H // IH //; last by lia.
  case: eqP => [->|N]; first by rewrite ifF ?ifT ?addKn //; lia.
  by congr (if _ then _ else _); lia.
have : (m <= m)%N by [].
elim: {-2}m => [|k IH] Hk; first by [].
rewrite foldl_iotaR add0n inner //; rewrite IH; last by lia.
case: (ltnP c (k * n)) => C1.
  rewrite /=.
  by rewrite ifT //; apply: (leq_trans C1); rewrite leq_mul2r leqnSn orbT.
case: (ltnP c (k * n + n)) => C2 /=; last by rewrite ifF // mulSn; lia.
rewrite ifT; last by rewrite mulSn; lia.
have n0 : (0 < n)%N by lia.
have -> : c = (k * n + (c - k * n))%N by lia.
have L : (c - k * n < n)%N by lia.
by have [-> ->] := divmod_col k L; rewrite addKn.
Qed.

(** a sequence of assignments *)
Lemma foldl_upd_key (A : eqType) (T : Type) (key : A -> nat) (val : A -> T) (M : nat -> T) (s : seq A) (a : A) : a \in s ->
  (forall b, b \in s -> key b = key a -> val b = val a) ->
  foldl (fun M b => upd M (key b) (val b)) M s (key a) = val a.
Proof.
move=> Ha H; elim/last_ind: s Ha H => // s b IH; rewrite mem_rcons inE -cats1 foldl_cat /= => Ha H.
rewrite {1}/upd; case: eqP => [E|N]; first by apply: H; rewrite ?mem_cat ?mem_head ?orbT.
apply: IH => [|b' Hb']; last by apply: H; rewrite mem_cat Hb'.
by case/orP: Ha => // /eqP E; case: N; rewrite E.
Qed.

Lemma col_upd (T : Type) (q : nat -> T) M c a l k c' :
  foldl (fun M k => upd2 M k c (q k)) M (iota a l) k c' = if (c' == c) && (a <= k < a + l)%N then q k else M k c'.
Proof.
elim: l => [|l IH]; first by rewrite /= addn0 (_ : (a <= k < a)%N = false) ?andbF //; lia.
rewrite foldl_iotaR upd2E IH; case: (c' =P c) => _ //=; last by rewrite andbF.
by rewrite andbT; case: (k =P (a + l)%N) => [->|N]; [rewrite ifT //; lia|congr (if _ then _ else _); lia].
Qed.

Lemma col_lt m p u v : (u < m)%N -> (v < p)%N -> (u * p + v < m * p)%N.
Proof.
move=> Hu Hv; have : (u.+1 * p <= m * p)%N by rewrite leq_mul2r Hu orbT.
by rewrite mulSn; lia.
Qed.

Section Eval.
Variable F : fieldType.
Local Notation P := {poly F}.
Implicit Types a b : pmat F.

Lemma fillE m n (g : nat -> nat -> F) M u v : fill m n g M u v = if (u < m)%N && (v < n)%N then g u v else M u v.
Proof. by rewrite /fill (win_gen _ _ _ _ _ _ _ (g := fun i j _ => g i j)). Qed.

Lemma vdm_rowE (pt : F) s1 s2 nb i st : (0 < nb)%N -> let st' := vdm_row pt s1 s2 nb i st in
  [/\ forall j, (j < nb)%N -> st'.1.1 i j = pt ^+ j,
      forall j, (j < nb)%N -> (j < s1)%N -> st'.1.2 i j = pt ^+ j,
      forall j, (j < nb)%N -> (j < s2)%N -> st'.2 i j = pt ^+ j
    & forall i' j, i' != i -> [/\ st'.1.1 i' j = st.1.1 i' j, st'.1.2 i' j = st.1.2 i' j & st'.2 i' j = st.2 i' j]].
Proof.
case: st => [[V V1] V2] n0; rewrite /vdm_row.
have -> : nb = (nb - 1).+1 by lia.
rewrite subSS subn0; elim: (nb - 1)%N => [|k [IH1 IH2 IH3 IH4]].
  split=> [[|j]|[|j]|[|j]|i' j N] //=; rewrite !upd2E ?eqxx ?expr0 //.
  by rewrite (negbTE N).
rewrite foldl_iotaR; move: (foldl _ _ _) IH1 IH2 IH3 IH4 => [[W W1] W2] /= IH1 IH2 IH3 IH4.
rewrite add1n /=; have E : W i k * pt = pt ^+ k.+1 by rewrite IH1 // exprSr.
split=> [j Hj|j Hj Hs|j Hj Hs|i' j N].
- by rewrite upd2E eqxx /=; case: eqP => [->|Nj]; [exact: E|apply: IH1; lia].
- have L : j <> k.+1 -> W1 i j = pt ^+ j by move=> Nj; apply: IH2; lia.
  case: (j =P k.+1) => [Ej|Nj]; first by rewrite Ej in Hs *; rewrite Hs !upd2E !eqxx /= E.
  by case: ifP => _; rewrite ?upd2E ?(introF eqP Nj) ?andbF; apply: L.
- have L : j <> k.+1 -> W2 i j = pt ^+ j by move=> Nj; apply: IH3; lia.
  case: (j =P k.+1) => [Ej|Nj]; first by rewrite Ej in Hs *; rewrite Hs !upd2E !eqxx /= E.
  by case: ifP => _; rewrite ?upd2E ?(introF eqP Nj) ?andbF; apply: L.
- have [H1 H2 H3] := IH4 i' j N; rewrite upd2E (negbTE N) /=; split=> //.
    by case: ifP => _ //; rewrite upd2E (negbTE N).
  by case: ifP => _ //; rewrite upd2E (negbTE N).
Qed.

(** the three Vandermonde matrices *)
Definition is_vdm (x : nat -> F) s1 s2 nb (st : fmat F * fmat F * fmat F) : Prop :=
  forall i j, (i < nb)%N -> (j < nb)%N ->
   [/\ st.1.1 i j = x i ^+ j, (j < s1)%N -> st.1.2 i j = x i ^+ j & (j < s2)%N -> st.2 i j = x i ^+ j].

Lemma vdm_loop (x : nat -> F) s1 s2 nb i0 st : (0 < nb)%N -> (i0 <= nb)%N ->
  (forall i j, (i < i0)%N -> (j < nb)%N -> [/\ st.1.1 i j = x i ^+ j, (j < s1)%N -> st.1.2 i j = x i ^+ j & (j < s2)%N -> st.2 i j = x i ^+ j]) ->
  is_vdm x s1 s2 nb (foldl (fun st i => vdm_row (x i) s1 s2 nb i st) st (iota i0 (nb - i0))).
Proof.
move=> n0 Hi0 H0; rewrite /is_vdm.
suff G k : (i0 + k <= nb)%N -> forall i j, (i < i0 + k)%N -> (j < nb)%N ->
   let st' := foldl (fun st i => vdm_row (x i) s1 s2 nb i st) st (iota i0 k) in
   [/\ st'.1.1 i j = x i ^+ j, (j < s1)%N -> st'.1.2 i j = x i ^+ j & (j < s2)%N -> st'.2 i j = x i ^+ j].
  by move=> i j Hi Hj; apply: G => //; lia.
elim: k => [|k IH] Hk i j Hi Hj; first by apply: H0 => //; lia.
rewrite foldl_iotaR; move: (foldl _ _ _) (IH ltac:(lia)) => st1 {}IH.
have [H1 H2 H3 H4] := vdm_rowE (x (i0 + k)%N) s1 s2 (i0 + k) st1 n0.
case: (i =P (i0 + k)%N) => [->|N].
  by split=> [|S|S]; [apply: H1|apply: H2|apply: H3].
have Ni : i != (i0 + k)%N by apply/eqP.
move=> st'; rewrite /st'; have [E1 E2 E3] := H4 i j Ni; rewrite E1 E2 E3; apply: IH => //; lia.
Qed.

Lemma vandermondeE s1 s2 nb : (0 < nb)%N -> is_vdm (fun i => i%:R) s1 s2 nb (vandermonde F s1 s2 nb).
Proof.
move=> n0; apply: vdm_loop => // i j; rewrite ltnS leqn0 => /eqP-> _ /=.
by rewrite !upd2E eqxx /= expr0n; case: j.
Qed.

Lemma vandermonde2E s1 s2 nb : (0 < nb)%N -> is_vdm (vdm_points2 F) s1 s2 nb (vandermonde2 F s1 s2 nb).
Proof.
move=> n0; rewrite /vandermonde2; set z := fun _ _ : nat => (0 : F).
by have := @vdm_loop (vdm_points2 F) s1 s2 nb 0 (z, z, z) n0 isT; rewrite subn0; apply.
Qed.

Lemma inv_vdm (x : nat -> F) s1 s2 nb st : distinct nb x -> is_vdm x s1 s2 nb st ->
  inv_mat nb st.1.1 = AOk (finv nb (vdm x)).
Proof.
move=> D H; have E : mx_of nb nb st.1.1 = mx_of nb nb (vdm x).
  by apply/matrixP=> i j; rewrite !mxE; have [-> _ _] := H i j (ltn_ord i) (ltn_ord j).
by rewrite /inv_mat E vdm_unit // /finv E.
Qed.

(** product with a Vandermonde matrix evaluates the columns *)
Lemma fmul_vdm (V : fmat F) (x : nat -> F) l (M : fmat F) (q : P) i c : (forall k, (k < l)%N -> V i k = x i ^+ k) ->
  (forall k, (k < l)%N -> M k c = q`_k) -> (size q <= l)%N -> fmul l V M i c = q.[x i].
Proof.
move=> HV HM Hq; rewrite /fmul -(eval_coefs (x i) Hq); apply: eq_bigr => k _.
by rewrite HV // HM.
Qed.

(** the loop on the points: the entries of the product at the point i, in the row i *)
Lemma points_loop m n p (A B : fmat F) (z : fmat F * fmat F * fmat F) nb i u v : (i < nb)%N -> (u < m)%N -> (v < p)%N ->
  (foldl (fun (st : fmat F * fmat F * fmat F) i => let: (valAp, valBp, valC) := st in
          let valAp := fill m n (fun u v => A i (u * n + v)%N) valAp in
          let valBp := fill n p (fun u v => B i (u * p + v)%N) valBp in
          let valCp := fmul n valAp valBp in
          (valAp, valBp,
           foldl (fun M u => foldl (fun M v => upd2 M i (u * p + v)%N (valCp u v)) M (iota 0 p)) valC (iota 0 m)))
        z (iota 0 nb)).2 i (u * p + v)%N = \sum_(l < n) A i (u * n + l)%N * B i (l * p + v)%N.
Proof.
move=> Hi Hu Hv; elim: nb Hi => // k IH Hi; rewrite foldl_iotaR add0n.
move: (foldl _ _ _) IH => [[Ap Bp] C] /= IH.
have Hc := col_lt Hu Hv.
set vC := fmul n _ _.
rewrite (@flat_cols _ _ (fun M : fmat F => M i) (fun u v M => upd2 M k (u * p + v) (vC u v)) (fun u v x => if i == k then vC u v else x)); last first.
  move=> i' j' M c' _ _; rewrite upd2E; case: (i =P k) => [->|N] /=; first by [].
  by rewrite if_same.
rewrite Hc; have [-> ->] := divmod_col u Hv.
case: (i =P k) => [->|N]; last by apply: IH; lia.
by apply: eq_bigr => l _; rewrite !fillE Hu Hv ltn_ord.
Qed.

(** even and odd parts of an entry, in the column ell of two matrices *)
Lemma pairs_loop (q : P) ell st n k c :
  let st' := foldl (fun (st : fmat F * fmat F) k => let: (E, D) := st in
      (upd2 E k ell q`_(2 * k), upd2 D k ell q`_(2 * k + 1))) st (iota 0 n) in
  st'.1 k c = (if (c == ell) && (k < n)%N then q`_(2 * k) else st.1 k c) /\
  st'.2 k c = (if (c == ell) && (k < n)%N then q`_(2 * k + 1) else st.2 k c).
Proof.
case: st => E D /=.
have -> : forall s, foldl (fun (st : fmat F * fmat F) k => let: (E, D) := st in
      (upd2 E k ell q`_(2 * k), upd2 D k ell q`_(2 * k + 1))) (E, D) s =
   (foldl (fun E k => upd2 E k ell q`_(2 * k)) E s, foldl (fun D k => upd2 D k ell q`_(2 * k + 1)) D s).
  by move=> s; elim: s E D => //= x s IH E D; rewrite IH.
by split; [exact: (col_upd (fun k => q`_(2 * k)) E ell 0 n k c)|exact: (col_upd (fun k => q`_(2 * k + 1)) D ell 0 n k c)].
Qed.

Lemma split_aE (q : P) ell st k c :
  (split_a q ell st).1 k c = (if (c == ell) && (k < (size q).+1./2)%N then q`_(2 * k) else st.1 k c) /\
  (split_a q ell st).2 k c = (if (c == ell) && (k < (size q)./2)%N then q`_(2 * k + 1) else st.2 k c).
Proof.
rewrite /split_a; set n0 := (((size q).-1).+1)./2.
have En : (0 < size q)%N -> n0 = (size q)./2 by rewrite /n0 => Z; rewrite prednK.
have En0 : size q = 0%N -> n0 = 0%N by rewrite /n0 => ->.
move: n0 En En0 => n0 En En0.
have [H1 H2] := pairs_loop q ell st n0 k c; move: H1 H2; set st' := foldl _ _ _; case: st' => E D /= H1 H2.
have [Z|Z] : size q = 0%N \/ (0 < size q)%N by move: (size q) => z; lia.
  by rewrite (En0 Z) in H1 H2; rewrite Z /= in H1 H2 *; rewrite H1 H2.
rewrite (En Z) in H1 H2; rewrite Z /=; case: ifP => Ho /=; rewrite ?H1 ?H2; last first.
  split=> //; congr (if _ then _ else _); congr (_ && _); move: (size q) Z Ho => z; lia.
split=> //; rewrite upd2E H1; case: (c =P ell) => [_|_] /=; last by rewrite andbF.
rewrite andbT; case: (k =P _) => [->|N].
  rewrite ifT; first by congr (_`_ _); move: (size q) Z Ho => z; lia.
  by move: (size q) Z Ho => z; lia.
by congr (if _ then _ else _); move: (size q) Z Ho N => z; lia.
Qed.

Lemma zeros_loop ell (st : fmat F * fmat F) (a : nat) n k c :
  let st' := foldl (fun (st : fmat F * fmat F) k => let: (E, D) := st in (upd2 E k ell 0, upd2 D k ell 0)) st (iota a n) in
  st'.1 k c = (if (c == ell) && (a <= k < a + n)%N then 0 else st.1 k c) /\
  st'.2 k c = (if (c == ell) && (a <= k < a + n)%N then 0 else st.2 k c).
Proof.
case: st => E D /=.
have -> : forall s, foldl (fun (st : fmat F * fmat F) k => let: (E, D) := st in (upd2 E k ell 0, upd2 D k ell 0)) (E, D) s =
   (foldl (fun E k => upd2 E k ell 0) E s, foldl (fun D k => upd2 D k ell 0) D s).
  by move=> s; elim: s E D => //= x s IH E D; rewrite IH.
by split; [exact: (col_upd (fun k => 0) E ell a n k c)|exact: (col_upd (fun k => 0) D ell a n k c)].
Qed.

Lemma split_bE (q : P) ell st sB k c : (k < sB)%N ->
  (split_b sB q ell st).1 k c = (if c == ell then q`_(2 * k) else st.1 k c) /\
  (split_b sB q ell st).2 k c = (if c == ell then q`_(2 * k + 1) else st.2 k c).
Proof.
move=> Hk; rewrite /split_b; set n0 := (((size q).-1).+1)./2.
have En : (0 < size q)%N -> n0 = (size q)./2 by rewrite /n0 => Z; rewrite prednK.
have En0 : size q = 0%N -> n0 = 0%N by rewrite /n0 => ->.
move: n0 En En0 => n0 En En0.
have [H1 H2] := pairs_loop q ell st n0 k c; move: H1 H2; set st' := foldl _ _ _; case: st' => E D /= H1 H2.
have [Z|Z] : size q = 0%N \/ (0 < size q)%N by move: (size q) => z; lia.
  rewrite (En0 Z) in H1 H2; rewrite (En0 Z) Z /=; have [-> ->] := zeros_loop ell (E, D) 0 (sB - 0) k c.
  rewrite /= H1 H2 add0n subn0 Hk andbT andbF.
  by have /eqP : size q = 0%N by []; rewrite size_poly_eq0 => /eqP->; rewrite !coef0.
rewrite (En Z) in H1 H2; rewrite (En Z) Z /=; case: ifP => Ho.
  have [-> ->] := zeros_loop ell (upd2 E (size q)./2 ell q`_(size q).-1, upd2 D (size q)./2 ell 0) (size q)./2.+1 (sB - (size q)./2.+1) k c.
  rewrite /= !upd2E H1 H2; case: (c =P ell) => [_|_] /=; last by rewrite andbF.
  rewrite andbT; have [C|[C|C]] : (k < (size q)./2)%N \/ k = (size q)./2 \/ ((size q)./2 < k)%N by move: (size q)./2 => z; lia.
  - by rewrite C !ifF //; move: C Hk; clear; move: (size q)./2 => z; lia.
  - rewrite C eqxx ltnn /=; split; first by move/eqP: Ho => <-.
    by rewrite nth_default //; move: (size q) Z Ho => z; lia.
  have -> : ((size q)./2 < k < (size q)./2.+1 + (sB - (size q)./2.+1))%N by move: C Hk; clear; move: (size q)./2 => z; lia.
  by split; rewrite nth_default //; move: (size q) Z C => z; lia.
have [-> ->] := zeros_loop ell (E, D) (size q)./2 (sB - (size q)./2) k c.
rewrite /= H1 H2; case: (c =P ell) => [_|_] //=.
have [C|C] : (k < (size q)./2)%N \/ ((size q)./2 <= k)%N by move: (size q)./2 => z; lia.
  by rewrite C !ifF //; move: C Hk; clear; move: (size q)./2 => z; lia.
have -> : ((size q)./2 <= k < (size q)./2 + (sB - (size q)./2))%N by move: C Hk; clear; move: (size q)./2 => z; lia.
by split; rewrite nth_default //; move: (size q) Z Ho C => z; lia.
Qed.

(** a loop that multiplies the rows *)
Lemma rows_loop (f : nat -> F -> F) n (M : fmat F) i nb c : (i < nb)%N -> (c < n)%N ->
  foldl (fun M i => foldl (fun M j => upd2 M i j (f i (M i j))) M (iota 0 n)) M (iota 0 nb) i c = f i (M i c).
Proof.
move=> Hi Hc; rewrite (win_gen _ _ _ _ _ _ _ (g := fun i j (M : fmat F) => f i (M i j))); last by move=> u v W W' ->.
by rewrite !add0n Hi Hc.
Qed.

(** the coefficients by pairs *)
Lemma pairs_poly (e o : nat -> F) n :
  Poly (foldl (fun (s : seq F) i => set_nth 0 (set_nth 0 s (2 * i) (e i)) (2 * i + 1) (o i)) (nseq (2 * n) 0) (iota 0 n)) =
  \poly_(t < 2 * n) (if odd t then o t./2 else e t./2).
Proof.
apply/polyP=> t; rewrite coef_Poly coef_poly.
suff H m : (m <= n)%N -> (foldl (fun (s : seq F) i => set_nth 0 (set_nth 0 s (2 * i) (e i)) (2 * i + 1) (o i)) (nseq (2 * n) 0) (iota 0 m))`_t =
   if (t < 2 * m)%N then (if odd t then o t./2 else e t./2) else 0 by rewrite H.
elim: m => [|m IH] Hm; first by rewrite muln0 nth_nseq if_same.
rewrite foldl_iotaR add0n !nth_set_nth /= nth_set_nth /= IH; last by lia.
case: (t =P (2 * m + 1)%N) => [->|N1].
  rewrite ifT; last by lia.
  by rewrite addn1 oddS mul2n odd_double /=; congr (o _); lia.
case: (t =P (2 * m)%N) => [->|N2].
  rewrite ifT; last by lia.
  by rewrite mul2n odd_double /=; congr (e _); lia.
by congr (if _ then _ else _); lia.
Qed.
End Eval.
