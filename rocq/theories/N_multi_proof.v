(** Proofs about the operations of the base class of multipoint evaluation. *)
From mathcomp Require Import all_ssreflect all_algebra zify.
From Verif Require Import A_base A_mul_model N_shift_proof N_multi_model.
Set Implicit Arguments.
Unset Strict Implicit.
Unset Printing Implicit Defensive.
Import GRing.Theory.
Local Open Scope ring_scope.

Section Loops.
Variable T : Type.

(** a loop writing one cell of a matrix per iteration *)
Lemma col_loop (f : nat -> T) (M : fmat T) i n j k :
  foldl (fun M j => upd2 M j i (f j)) M (iota 0 n) j k = if (j < n)%N && (k == i) then f j else M j k.
Proof.
elim: n j => [|n IH] j //; rewrite foldl_iotaR add0n {1}/upd2 /upd; case: eqP => [->|NE].
  by rewrite ltnSn /=; case: eqP => // _; rewrite IH ltnn.
rewrite IH; congr (if _ && _ then _ else _); lia.
Qed.

Lemma row_loop (f : nat -> T) (M : fmat T) i n j k :
  foldl (fun M k => upd2 M i k (f k)) M (iota 0 n) j k = if (k < n)%N && (j == i) then f k else M j k.
Proof.
elim: n j k => [|n IH] j k //; rewrite foldl_iotaR add0n {1}/upd2 /upd; case: eqP => [->|NE].
  case: eqP => [->|NE]; first by rewrite ltnSn.
  by rewrite IH eqxx !andbT; congr (if _ then _ else _); lia.
rewrite IH; have -> : (j == i) = false by apply/eqP.
by rewrite !andbF.
Qed.

Lemma mat_loop (f : nat -> nat -> T) (M : fmat T) s t i k :
  foldl (fun M i => foldl (fun M k => upd2 M i k (f i k)) M (iota 0 t)) M (iota 0 s) i k =
  if (i < s)%N && (k < t)%N then f i k else M i k.
Proof.
elim: s => [|s IH] //; rewrite foldl_iotaR add0n row_loop IH.
case: eqP => [->|NE].
  by rewrite andbT ltnn ltnSn /=.
rewrite andbF; congr (if _ && _ then _ else _); lia.
Qed.

Lemma colmat_loop (f : nat -> nat -> T) (M : fmat T) s n i j :
  foldl (fun M i => foldl (fun M j => upd2 M j i (f j i)) M (iota 0 n)) M (iota 0 s) j i =
  if (i < s)%N && (j < n)%N then f j i else M j i.
Proof.
elim: s => [|s IH] //; rewrite foldl_iotaR add0n (col_loop (fun j => f j s)) IH.
case: eqP => [->|NE].
  by rewrite andbT ltnn ltnSn /=.
rewrite andbF; congr (if _ && _ then _ else _); lia.
Qed.

Lemma upd3E (V : nat -> fmat T) l i j x l' i' j' :
  upd3 V l i j x l' i' j' = if [&& l' == l, i' == i & j' == j] then x else V l' i' j'.
Proof. by rewrite /upd3 /upd2 /upd; case: eqP => //= ->; case: eqP => //= ->; case: eqP. Qed.

Lemma cube_row (f : nat -> T) V l i t l' i' k :
  foldl (fun V k => upd3 V l i k (f k)) V (iota 0 t) l' i' k =
  if [&& l' == l, i' == i & (k < t)%N] then f k else V l' i' k.
Proof.
elim: t => [|t IH]; first by rewrite !andbF.
rewrite foldl_iotaR add0n upd3E IH ltnS [(k <= t)%N]leq_eqVlt.
by case: eqP => //= _; case: eqP => //= _; case: eqP => //= ->.
Qed.

Lemma cube_mat (f : nat -> nat -> T) V l s t l' i k :
  foldl (fun V i => foldl (fun V k => upd3 V l i k (f i k)) V (iota 0 t)) V (iota 0 s) l' i k =
  if [&& l' == l, (i < s)%N & (k < t)%N] then f i k else V l' i k.
Proof.
elim: s => [|s IH]; first by rewrite !andbF.
rewrite foldl_iotaR add0n (cube_row (f s)) IH ltnS [(i <= s)%N]leq_eqVlt.
case: eqP => //= _; case: eqP => //= ->; by rewrite ltnn; case: ifP.
Qed.

Lemma cube_loop (f : nat -> nat -> nat -> T) V n s t l i k :
  foldl (fun V l => foldl (fun V i => foldl (fun V k => upd3 V l i k (f l i k)) V (iota 0 t)) V (iota 0 s)) V (iota 0 n) l i k =
  if [&& (l < n)%N, (i < s)%N & (k < t)%N] then f l i k else V l i k.
Proof.
elim: n => [|n IH] //; rewrite foldl_iotaR add0n (cube_mat (f n)) IH ltnS [(l <= n)%N]leq_eqVlt.
case: eqP => //= ->; by rewrite ltnn; case: ifP.
Qed.

Lemma cube_col (f : nat -> T) V i k n l i' k' :
  foldl (fun V l => upd3 V l i k (f l)) V (iota 0 n) l i' k' =
  if [&& (l < n)%N, i' == i & k' == k] then f l else V l i' k'.
Proof.
elim: n => [|n IH] //; rewrite foldl_iotaR add0n upd3E IH ltnS [(l <= n)%N]leq_eqVlt.
by case: eqP => //= ->; rewrite ltnn; case: ifP.
Qed.

Lemma cube_colmat (f : nat -> nat -> nat -> T) V s t n l i k :
  foldl (fun V i => foldl (fun V k => foldl (fun V l => upd3 V l i k (f l i k)) V (iota 0 n)) V (iota 0 t)) V (iota 0 s) l i k =
  if [&& (l < n)%N, (i < s)%N & (k < t)%N] then f l i k else V l i k.
Proof.
have H u V' i' : foldl (fun V k => foldl (fun V l => upd3 V l u k (f l u k)) V (iota 0 n)) V' (iota 0 t) l i' k =
  if [&& (l < n)%N, i' == u & (k < t)%N] then f l u k else V' l i' k.
  elim: t => [|t' IH]; first by rewrite !andbF.
  rewrite foldl_iotaR add0n (cube_col (fun l => f l u t')) IH ltnS [(k <= t')%N]leq_eqVlt.
  by case: (l < n)%N => //=; case: eqP => //= _; case: eqP => //= ->.
elim: s => [|s IH]; first by rewrite andbF.
rewrite foldl_iotaR add0n H IH ltnS [(i <= s)%N]leq_eqVlt.
case: (l < n)%N => //=; case: eqP => //= ->; by rewrite ltnn; case: ifP.
Qed.
End Loops.

Section Multi.
Variable F : fieldType.
Local Notation P := {poly F}.
Variable n : nat.

Lemma evaluate_vectorE (ev : P -> nat -> F) s f val i j : (i < s)%N -> (j < n)%N ->
  evaluate_vector n ev s f val j i = ev (f i) j.
Proof. by move=> Hi Hj; rewrite /evaluate_vector (colmat_loop (fun j i => ev (f i) j)) Hi Hj. Qed.

Lemma evaluate_matrixE (ev : P -> nat -> F) s t f val i k j : (i < s)%N -> (k < t)%N -> (j < n)%N ->
  evaluate_matrix n ev s t f val j i k = ev (f i k) j.
Proof.
move=> Hi Hk Hj; rewrite /evaluate_matrix; set M := foldl _ _ (iota 0 s).
rewrite (cube_loop (fun j i k => M i k j)) Hi Hk Hj /=.
by rewrite /M (mat_loop (fun i k => ev (f i k))) Hi Hk.
Qed.

Lemma t_interpolate_matrixE (ev : P -> nat -> F) s t f val i k j : (i < s)%N -> (k < t)%N -> (j < n)%N ->
  t_interpolate_matrix n ev s t f val j i k = ev (f i k) j.
Proof.
by move=> Hi Hk Hj; rewrite /t_interpolate_matrix (cube_colmat (fun j i k => ev (f i k) j)) Hi Hk Hj.
Qed.

Lemma interpolate_vectorE (interp : (nat -> F) -> P) s val f i : (i < s)%N ->
  exists tmp, (forall j, (j < n)%N -> tmp j = val j i) /\ interpolate_vector n interp s val f i = interp tmp.
Proof.
rewrite /interpolate_vector; move: (fun _ => 0) => t0.
elim: s => [|s IH] //; rewrite foldl_iotaR add0n; case: (foldl _ _ _) IH => tmp g /= IH Hi.
rewrite /upd; case: eqP => [->|NE]; last by apply: IH; lia.
by eexists; split; last by []; move=> j Hj; rewrite (foldl_upd_rng (fun j => val j s)) add0n leq0n Hj.
Qed.

Lemma interpolate_matrixE (interp : (nat -> F) -> P) s t val f i k : (i < s)%N -> (k < t)%N ->
  exists tmp, (forall j, (j < n)%N -> tmp j = val j i k) /\ interpolate_matrix n interp s t val f i k = interp tmp.
Proof.
move=> Hi Hk; rewrite /interpolate_matrix.
pose row := fun (st : (nat -> F) * fmat P) u => foldl (fun st k =>
      let: (tmp, f) := st in
      let tmp := foldl (fun (tmp : nat -> F) j => upd tmp j (val j u k)) tmp (iota 0 n) in
      (tmp, upd2 f u k (interp tmp))) st (iota 0 t).
have R u st : (forall i' k', i' <> u -> (row st u).2 i' k' = st.2 i' k') /\
   (forall k', (k' < t)%N -> exists tmp, (forall j, (j < n)%N -> tmp j = val j u k') /\ (row st u).2 u k' = interp tmp).
  rewrite /row; elim: (t) => [|t' [IH1 IH2]] //; rewrite foldl_iotaR add0n.
  case: (foldl _ _ _) IH1 IH2 => tmp g /= IH1 IH2; split=> [i' k' N|k' Hk'].
    by rewrite /upd2 /upd; case: eqP => // _; rewrite IH1.
  rewrite /upd2 {1}/upd eqxx {1}/upd; case: eqP => [->|NE]; last by apply: IH2; lia.
  by eexists; split; last by []; move=> j Hj; rewrite (foldl_upd_rng (fun j => val j u t')) add0n leq0n Hj.
rewrite -[foldl _ _ _]/(foldl row _ _); move: (fun _ => 0, f) => st0.
elim: s Hi => [|s IH] // Hi; rewrite foldl_iotaR add0n.
have [R1 R2] := R s (foldl row st0 (iota 0 s)).
case: (i =P s) => [->|NE]; first exact: R2.
by rewrite R1 //; apply: IH; lia.
Qed.

Lemma to_denseE (ev : P -> nat -> F) M i j : (i < n)%N -> (j < n)%N -> to_dense n ev M j i = ev 'X^i j.
Proof.
move=> Hi Hj; rewrite /to_dense.
pose step := fun (st : P * fmat F) i =>
      let: (f, M) := st in
      let v := ev f in (f * 'X, foldl (fun M j => upd2 M j i (v j)) M (iota 0 n)).
rewrite -[foldl _ _ _]/(foldl step _ _).
suff H s : (foldl step (1, M) (iota 0 s)).1 = 'X^s /\
    forall i, (i < s)%N -> (foldl step (1, M) (iota 0 s)).2 j i = ev 'X^i j.
  by have [_ H2] := H n; apply: H2.
elim: s => [|s [IH1 IH2]] //; rewrite foldl_iotaR add0n.
case: (foldl _ _ _) IH1 IH2 => f M' /= -> IH2; split; first by rewrite exprSr.
move=> i' Hi'; rewrite (col_loop (fun j => ev 'X^s j)) Hj /=.
by case: eqP => [->|NE] //; apply: IH2; lia.
Qed.
End Multi.
