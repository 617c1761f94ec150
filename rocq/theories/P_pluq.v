(** C11, C12, C13, C14, C49, C50: rotations, permutations, PLUQ factorisation of constant matrices. *)
From mathcomp Require Import all_ssreflect all_algebra zify.
From Verif Require Import A_base A_rot_model A_pluq_model SpecLU A_rot_proof A_pluq_proof.
Set Implicit Arguments.
Unset Strict Implicit.
Unset Printing Implicit Defensive.
Import Order.TTheory GRing.Theory Num.Theory.
Local Open Scope ring_scope.

Section Rot.
Variables R V : Type.
Implicit Types (A : fmat R) (v : nat -> V).

(** a vector is rotated if present, and stays NULL otherwise *)
Definition vec_rotated (rel : (nat -> V) -> (nat -> V) -> Prop) (vec vec' : option (nat -> V)) : Prop :=
  match vec, vec' with Some v, Some v' => rel v v' | None, None => True | _, _ => False end.

Theorem C11_rows_downward A vec i j : (i <= j)%N ->
  let res := rotate_rows_downward A vec i j in
  (forall c, rotated_down i j (fun k => A k c) (fun k => res.1 k c)) /\
  vec_rotated (rotated_down i j) vec res.2.
Proof.
rewrite /rotate_rows_downward => Hij; case: eqP => [<-|_] /=.
  by split=> [c|]; [exact: rotated_id|case: vec => //= v; exact: rotated_id].
split=> [c|]; last by case: vec => //= v; exact: rot_downP.
have [e1 e2 e3] := rot_downP A Hij.
by split=> [|k Hk|k Hk]; [rewrite e1|rewrite (e2 _ Hk)|rewrite (e3 _ Hk)].
Qed.

Theorem C11_rows_upward A vec i j : (i <= j)%N ->
  let res := rotate_rows_upward A vec i j in
  (forall c, rotated_up i j (fun k => A k c) (fun k => res.1 k c)) /\
  vec_rotated (rotated_up i j) vec res.2.
Proof.
rewrite /rotate_rows_upward => Hij; case: eqP => [<-|_] /=.
  by split=> [c|]; [exact: rotated_id'|case: vec => //= v; exact: rotated_id'].
split=> [c|]; last by case: vec => //= v; exact: rot_upP.
have [e1 e2 e3] := rot_upP A Hij.
by split=> [|k Hk|k Hk]; [rewrite e1|rewrite (e2 _ Hk)|rewrite (e3 _ Hk)].
Qed.

Theorem C11_columns_rightward m A vec i j : (i <= j)%N ->
  let res := rotate_columns_rightward m A vec i j in
  (forall r, (r < m)%N -> rotated_down i j (A r) (res.1 r)) /\
  vec_rotated (rotated_down i j) vec res.2.
Proof.
rewrite /rotate_columns_rightward => Hij; case: eqP => [<-|_] /=.
  by split=> [c _|]; [exact: rotated_id|case: vec => //= v; exact: rotated_id].
split=> [r Hr|]; last by case: vec => //= v; exact: rot_downP.
by rewrite (foldl_upd_cells (fun _ x => rot_down x i j)) leq0n add0n Hr /=; exact: rot_downP.
Qed.

(** the leftward rotation is right on the vector and on the columns other than i and j; column i
    of the input is written back to column i instead of column j *)
Theorem C11_columns_leftward_partial m A vec i j : (i < j)%N ->
  let res := rotate_columns_leftward m A vec i j in
  (forall r k, (r < m)%N -> res.1 r k =
     if k == i then A r i else if k == j then A r j else if (i < k < j)%N then A r (k + 1)%N else A r k) /\
  vec_rotated (rotated_up i j) vec res.2.
Proof.
rewrite /rotate_columns_leftward => Hij; case: eqP => [|_] /=; first by lia.
split; last by case: vec => //= v; apply: rot_upP; exact: ltnW.
move=> r k Hr; rewrite (foldl_upd_cells (fun _ x => rot_left_entries x i j)) leq0n add0n Hr /=.
rewrite rot_left_entriesE; last exact: ltnW.
case: (k =P i) => // N1; case: (k =P j) => [->|N2]; first by rewrite ifF //; lia.
by rewrite addn1; congr (if _ then _ else _); lia.
Qed.

(** C12: columns are permuted; the stored permutation follows when the matrix is square *)
Theorem C12_permute_columns_partial m n A act vec :
  (forall j, (j < n)%N -> (act j < n)%N) -> vec = None \/ m = n ->
  exists res, mat_permute_columns m n A act vec = AOk res /\
    (forall i j, (i < m)%N -> (j < n)%N -> res.1 i j = A i (act j)) /\
    vec_rotated (fun v v' => forall j, (j < n)%N -> v' j = v (act j)) vec res.2.
Proof.
move=> Ha Hv; rewrite /mat_permute_columns; set A' := foldl _ _ _.
have A'E i j : (i < m)%N -> (j < n)%N -> A' i j = A i (act j).
  move=> Hi Hj; rewrite /A'.
  rewrite (foldl_upd_cells (fun _ row => foldl (fun r j => upd r j (row (act j))) row (iota 0 n))) leq0n Hi /=.
  by rewrite (foldl_upd_cells (fun j _ => A i (act j))) leq0n Hj.
case: vec Hv => [v|] Hv; last by exists (A', None).
case: Hv => // Emn; rewrite /perm_compose; have -> : (n < m)%N = false by lia.
rewrite /= ifF; last first.
  by apply/hasP=> -[j]; rewrite mem_iota add0n => /= Hj; rewrite leqNgt Emn Ha // -Emn.
eexists; split; first reflexivity; split=> [i j Hi Hj|/= j Hj]; first exact: A'E.
by rewrite (foldl_upd_cells (fun j _ => v (act j))) leq0n Emn Hj.
Qed.
End Rot.

(** C11 is false for _nmod_mat_rotate_columns_leftward: columns (7 8) stay (7 8) instead of (8 7) *)
Theorem C11_columns_leftward_refuted : exists (A : fmat nat) i j,
  (i <= j)%N /\ ~ rotated_up i j (A 0%N) ((rotate_columns_leftward 1 A (@None (nat -> nat)) i j).1 0%N).
Proof.
exists (fun _ j => (7 + j)%N), 0%N, 1%N; split=> // -[H _ _].
by move: H; rewrite /rotate_columns_leftward /= /upd.
Qed.

(** C12 is false on rectangular matrices: for a 1 x 3 matrix the stored permutation is not updated *)
Theorem C12_permute_columns_refuted : exists m n (A : fmat nat) act (v : nat -> nat) res,
  [/\ is_perm n act, mat_permute_columns m n A act (Some v) = AOk res &
      exists j, (j < n)%N /\ odflt v res.2 j <> v (act j)].
Proof.
exists 1%N, 3%N, (fun _ j => j), (fun j => if j == 1%N then 2%N else if j == 2%N then 1%N else j), id.
eexists; split; [|reflexivity|by exists 1%N].
by split=> [i Hi|i j Hi Hj]; do ![case: eqP => ?]; lia.
Qed.

(** C12: and with 3 x 2 matrices, memory beyond the permutation is read *)
Theorem C12_permute_columns_ub_refuted : exists m n (A : fmat nat) act (v : nat -> nat),
  is_perm n act /\ mat_permute_columns m n A act (Some v) = AUB.
Proof. by exists 3%N, 2%N, (fun _ j => j), id, id; split=> //; split. Qed.

(** C50: sorting permutations of rows and columns (used by the weak Popov forms) *)
Theorem C50_permute_rows_by_sorting_vec (R : Type) m r (A : fmat R) vec : (r <= m)%N ->
  let '(A', vec', perm) := permute_rows_by_sorting_vec r A vec in
  [/\ is_perm m perm /\ (forall i, (i < r)%N -> (perm i < r)%N), forall i, A' i = A (perm i),
      forall i, (i < r)%N -> vec' i = vec (perm i), forall i, (r <= i)%N -> perm i = i &
      forall i j, (i < j < r)%N -> (vec' i < vec' j)%R \/ vec' i = vec' j /\ (perm i < perm j)%N].
Proof.
move=> Hr; rewrite /permute_rows_by_sorting_vec.
case: (vec_sort_permutation r vec) (sort_permP r vec) => perm svec [[h1 h1'] h2 h3]; split.
- split; last by move=> i Hi; case: ifP => // _; exact: h1.
  split=> [i Hi|i j Hi Hj]; first by case: ifP => // /h1; lia.
  by case: ifP => Hi'; case: ifP => Hj' E; [exact: h1'|have := h1 i Hi'; lia|have := h1 j Hj'; lia|].
- by [].
- by move=> i Hi; rewrite Hi h2.
- by move=> i Hi; rewrite ifF //; lia.
move=> i j Hij; have Hi : (i < r)%N by lia.
have Hj : (j < r)%N by lia.
by rewrite Hi Hj !h2 //; exact: h3.
Qed.

Theorem C50_permute_columns_by_sorting_vec (R : Type) n r (A : fmat R) vec : (r <= n)%N ->
  let '(A', vec', perm) := permute_columns_by_sorting_vec r A vec in
  [/\ is_perm n perm /\ (forall i, (i < r)%N -> (perm i < r)%N), forall i j, A' i j = A i (perm j),
      forall i, (i < r)%N -> vec' i = vec (perm i), forall i, (r <= i)%N -> perm i = i &
      forall i j, (i < j < r)%N -> (vec' i < vec' j)%R \/ vec' i = vec' j /\ (perm i < perm j)%N].
Proof.
move=> Hr; move: (C50_permute_rows_by_sorting_vec A vec Hr).
rewrite /permute_rows_by_sorting_vec /permute_columns_by_sorting_vec.
by case: (vec_sort_permutation r vec) => perm svec [h1 h2 h3 h4 h5].
Qed.

Section LU.
Variable F : fieldType.
Implicit Types (A L U LU : fmat F).

(** C13: nmod_mat_pluq ends (on Some) and computes a PLUQ factorisation *)
Theorem C13_pluq m n A : exists st, pluq m n A = Some st /\
  is_pluq m n A (ps_A st) (ps_P st) (ps_Q st) (ps_rank st).
Proof. by have [st [E I H]] := pluq_end m n A; exists st; split=> //; exact: (inv_pluq I H). Qed.

(** C49: so does the Crout variant *)
Theorem C49_pluq_crout m n A : exists st, pluq_crout m n A = Some st /\
  is_pluq m n A (ps_A st) (ps_P st) (ps_Q st) (ps_rank st).
Proof. by have [st [E I H]] := crout_end m n A; exists st; split=> //; exact: (inv_pluq I H). Qed.

(** C14 *)
Lemma compact_LP m rk L LU : (rk <= m)%N ->
  (forall i j, (i < m)%N -> (j < m)%N -> (i < j)%N || (rk <= j < i)%N -> L i j = 0) ->
  (0 < m)%N -> mx_of m m (compact_L m rk L LU) = stored_L m rk LU.
Proof.
move=> Hr Z Hm; apply/matrixP=> i j; rewrite !mxE /compact_L.
rewrite (foldl_upd_cells (fun i row => upd (row_set row (LU i) 0 rk) i 1)).
rewrite (foldl_upd_cells (fun i row => upd (row_set row (LU i) 0 i) i 1)).
have Ei : (i == j) = (j == i :> nat) by rewrite eq_sym.
have Hi := ltn_ord i; have Hj := ltn_ord j.
have -> : (rk <= i < rk + (m - rk))%N = (rk <= i)%N by lia.
case: (leqP rk i) => H1.
  rewrite /upd Ei; case: eqP => // N; rewrite /row_set leq0n add0n /=.
  case: (i =P 0%N :> nat) => E0.
    rewrite E0 /= in N *; have -> : (j == 0%N :> nat) = false by lia.
    by rewrite ifF ?ifF ?Z //; lia.
  rewrite /=; case: (ltnP j rk) => H2; last by rewrite andbF ifF ?Z //; lia.
  by rewrite andbT ifT //; lia.
have -> : (0 < i < 1 + (rk - 1))%N = (0 < i)%N by lia.
case: (posnP i) => E0; rewrite /upd Ei.
  rewrite E0 eqxx /=; case: eqP => // N; rewrite Z //; lia.
case: eqP => // N; rewrite /row_set leq0n add0n /=.
have -> : (i == 0%N :> nat) = false by lia.
have -> : (j < i)%N && (j < rk)%N = (j < i)%N by lia.
by case: ifP => // H2; rewrite Z //; lia.
Qed.

Lemma compact_U_aliasP m n rk LU : (rk <= m)%N ->
  (forall i j, (rk <= i < m)%N -> (rk <= j < n)%N -> LU i j = 0) ->
  mx_of m n (compact_U_alias m rk LU) = stored_U m n rk LU.
Proof.
move=> Hr Z; apply/matrixP=> i j; rewrite !mxE /compact_U_alias.
rewrite (foldl_upd_cells (fun i row => row_zero row 0 rk)).
rewrite (foldl_upd_cells (fun i row => row_zero row 0 i)).
have Hi := ltn_ord i; have Hj := ltn_ord j.
have -> : (rk <= i < rk + (m - rk))%N = (rk <= i)%N by lia.
have -> : (0 < i < 1 + (rk - 1))%N = (0 < i < rk)%N by lia.
case: (leqP rk i) => H1 /=.
  rewrite ifF; last by lia.
  by rewrite /row_zero /row_set; case: ifP => // H; rewrite Z //; lia.
rewrite andbT; case: posnP => [->|H2]; first by [].
by rewrite /row_zero /row_set leq0n add0n /=; case: ltnP => //=; case: ltnP.
Qed.

Lemma compact_U_oldP m n rk U LU : (rk <= m)%N -> (rk <= n)%N ->
  (forall i j, (i < m)%N -> (j < n)%N -> (j < i)%N || (rk <= i)%N -> U i j = 0) ->
  mx_of m n (compact_U_old n rk U LU) = stored_U m n rk LU.
Proof.
move=> Hr Hn Z; apply/matrixP=> i j; rewrite !mxE /compact_U_old.
rewrite (foldl_upd_cells (fun i row => row_set row (LU i) i (n - i))).
have Hi := ltn_ord i; have Hj := ltn_ord j; rewrite leq0n add0n /=.
case: ifP => H1 /=; last by rewrite Z //; lia.
rewrite /row_set; have -> : (i <= j < i + (n - i))%N = (i <= j)%N by lia.
by case: ifP => // H2; rewrite Z //; lia.
Qed.

(** the zeroin variant, with U an alias of LU (any version) or FLINT < 3.3 *)
Theorem C14_l_u_zeroin_partial (v33 alias : bool) m n L U LU rk : (rk <= m)%N -> (rk <= n)%N ->
  (forall i j, (rk <= i < m)%N -> (rk <= j < n)%N -> LU i j = 0) ->
  mx_of m m L = 0 -> alias \/ v33 = false /\ mx_of m n U = 0 ->
  exists L' U', [/\ l_u_zeroin v33 alias m n L U LU rk = AOk (L', U'),
    mx_of m m L' = stored_L m rk LU & mx_of m n U' = stored_U m n rk LU].
Proof.
move=> Hr Hn Z L0 H; have L0' i j : (i < m)%N -> (j < m)%N -> L i j = 0.
  by move=> Hi Hj; have /matrixP/(_ (Ordinal Hi) (Ordinal Hj)) := L0; rewrite !mxE.
rewrite /l_u_zeroin; case: posnP => [E|Hm].
  exists L, (if alias then LU else U); split=> //.
    by apply/matrixP=> i; have := ltn_ord i; rewrite {2}E.
  by apply/matrixP=> i; have := ltn_ord i; rewrite {2}E.
have HL := @compact_LP m rk L LU Hr (fun i j Hi Hj _ => L0' i j Hi Hj) Hm.
case: alias H => [_|[//|[-> U0]]].
  by eexists; eexists; split; first reflexivity; [|exact: compact_U_aliasP].
eexists; eexists; split; first reflexivity; [by []|apply: compact_U_oldP => //].
by move=> i j Hi Hj _; have /matrixP/(_ (Ordinal Hi) (Ordinal Hj)) := U0; rewrite !mxE.
Qed.

(** the general variant, under the same condition and if the first row of L is zero after its
    first entry *)
Theorem C14_l_u_from_compactlu_partial (v33 alias : bool) m n L U LU rk : (rk <= m)%N -> (rk <= n)%N ->
  (forall i j, (rk <= i < m)%N -> (rk <= j < n)%N -> LU i j = 0) ->
  (forall j, (0 < j < m)%N -> L 0%N j = 0) -> alias \/ v33 = false ->
  exists L' U', [/\ l_u_from_compactlu v33 alias m n L U LU rk = AOk (L', U'),
    mx_of m m L' = stored_L m rk LU & mx_of m n U' = stored_U m n rk LU].
Proof.
move=> Hr Hn Z L0 H; rewrite /l_u_from_compactlu; set L1 := foldl _ _ (iota rk _).
have ZL i j : (i < m)%N -> (j < m)%N -> (i < j)%N || (rk <= j < i)%N -> L1 i j = 0.
  move=> Hi Hj Hij; rewrite /L1 (foldl_upd_cells (fun i row => row_zero row rk (m - rk)%N)).
  rewrite (foldl_upd_cells (fun i row => row_zero row i.+1 (m - i - 1)%N)).
  have -> : (rk <= i < rk + (m - rk))%N = (rk <= i)%N by lia.
  case: (leqP rk i) => H1; first by rewrite /row_zero /row_set ifT //; lia.
  have -> : (0 < i < 1 + (rk - 1))%N = (0 < i)%N by lia.
  case: (posnP i) => [->|H2]; first by apply: L0; lia.
  by rewrite /row_zero /row_set ifT //; lia.
set U2 := if alias then U else _; clearbody L1.
rewrite /l_u_zeroin; case: posnP => [E|Hm].
  exists L1, (if alias then LU else U2); split=> //; apply/matrixP=> i; have := ltn_ord i; rewrite {2}E //.
have HL := @compact_LP m rk L1 LU Hr ZL Hm.
case: alias H @U2 => [_|[//|->]] U2.
  by eexists; eexists; split; first reflexivity; [|exact: compact_U_aliasP].
eexists; eexists; split; first reflexivity; [by []|apply: compact_U_oldP => //].
move=> i j Hi Hj Hij; rewrite /U2 (foldl_upd_cells (fun i row => row_zero row 0 n)).
rewrite (foldl_upd_cells (fun i row => row_zero row 0 i)).
have -> : (rk <= i < rk + (m - rk))%N = (rk <= i)%N by lia.
case: (leqP rk i) => H1; first by rewrite /row_zero /row_set leq0n add0n Hj.
have -> : (0 < i < 1 + (rk - 1))%N by lia.
by rewrite /row_zero /row_set ifT //; lia.
Qed.

(** C14 is false when the first row of L holds stale entries *)
Theorem C14_stale_row_refuted v33 : exists m n L U LU rk L' U',
  [/\ (rk <= m)%N, (rk <= n)%N, l_u_from_compactlu v33 true m n L U LU rk = AOk (L', U') &
      mx_of m m L' <> stored_L m rk LU].
Proof.
exists 2%N, 2%N, (fun _ _ => 1), (@fone F), (@fone F), 2%N.
eexists; eexists; split; [by []|by []|reflexivity|].
move=> /matrixP/(_ 0 1); rewrite !mxE /= /upd /= => /eqP; by rewrite oner_eq0.
Qed.

(** C14 is false for a separate U and FLINT >= 3.3: U stays zero and L is overwritten *)
Theorem C14_v33_refuted (c : F) : c != 0 -> c != 1 -> exists m n L U LU rk L' U',
  [/\ (rk <= m)%N /\ (rk <= n)%N, mx_of m m L = 0 /\ mx_of m n U = 0,
      l_u_zeroin true false m n L U LU rk = AOk (L', U') &
      mx_of m n U' <> stored_U m n rk LU /\ mx_of m m L' <> stored_L m rk LU].
Proof.
move=> c0 c1; exists 1%N, 1%N, (@fzero F), (@fzero F), (fun _ _ => c), 1%N.
eexists; eexists; split; [by []|by split; exact: mx_of_zero|reflexivity|].
split=> /matrixP/(_ 0 0); rewrite !mxE /= => /eqP.
  by rewrite eq_sym (negbTE c0).
by rewrite (negbTE c1).
Qed.

(** and a 1 x 2 matrix is enough for a write beyond the end of L *)
Theorem C14_v33_ub_refuted : exists m n L U LU rk,
  [/\ (rk <= m)%N /\ (rk <= n)%N, mx_of m m L = 0 /\ mx_of m n U = 0 &
      l_u_zeroin true false m n L U LU rk = AUB].
Proof. by exists 1%N, 2%N, (@fzero F), (@fzero F), (@fone F), 1%N; split=> //; split; exact: mx_of_zero. Qed.
End LU.

(** a case of C13 and C14: the matrix ((0, 1, 2), (0, 2, 4), (3, 1, 0)) over F_7 *)
Definition C13_mat : fmat 'F_7 := fun i j =>
  nth 0 (nth [::] [:: [:: 0; 1; 2]; [:: 0; 2; 4]; [:: 3; 1; 0]] i) j.
Example C13_example : exists st, pluq 3 3 C13_mat = Some st /\
  [/\ ps_rank st = 2%N, [seq ps_P st i | i <- iota 0 3] = [:: 0; 2; 1]%N,
      [seq ps_Q st i | i <- iota 0 3] = [:: 1; 0; 2]%N & ps_A st 1%N 1%N = 3].
Proof. by eexists; split; first reflexivity; split; apply/eqP; vm_compute. Qed.

Print Assumptions C11_rows_downward.
Print Assumptions C11_rows_upward.
Print Assumptions C11_columns_rightward.
Print Assumptions C11_columns_leftward_partial.
Print Assumptions C11_columns_leftward_refuted.
Print Assumptions C12_permute_columns_partial.
Print Assumptions C12_permute_columns_refuted.
Print Assumptions C12_permute_columns_ub_refuted.
Print Assumptions C13_pluq.
Print Assumptions C49_pluq_crout.
Print Assumptions C14_l_u_zeroin_partial.
Print Assumptions C14_l_u_from_compactlu_partial.
Print Assumptions C14_stale_row_refuted.
Print Assumptions C14_v33_refuted.
Print Assumptions C14_v33_ub_refuted.
Print Assumptions C50_permute_rows_by_sorting_vec.
Print Assumptions C50_permute_columns_by_sorting_vec.
