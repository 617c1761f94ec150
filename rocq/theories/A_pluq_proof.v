(** The PLUQ factorisations are correct. *)
From mathcomp Require Import all_ssreflect all_algebra zify.
From Verif Require Import A_base A_rot_model A_pluq_model SpecLU A_rot_proof.
Set Implicit Arguments.
Unset Strict Implicit.
Unset Printing Implicit Defensive.
Import Order.TTheory GRing.Theory Num.Theory.
Local Open Scope ring_scope.

Lemma is_perm_surj n (p : nat -> nat) : is_perm n p -> forall j, (j < n)%N -> exists2 i, (i < n)%N & p i = j.
Proof.
move=> [h1 h2] j Hj; pose f (i : 'I_n) := Ordinal (h1 i (ltn_ord i)).
have fI : injective f by move=> a b /(congr1 val) /= /h2 E; apply/val_inj; apply: E.
by have [g _ gK] := injF_bij fI; exists (g (Ordinal Hj)) => //; have /(congr1 val) := gK (Ordinal Hj).
Qed.

Lemma is_perm_ext n (p q : nat -> nat) : q =1 p -> is_perm n p -> is_perm n q.
Proof. by move=> E [h1 h2]; split=> [i Hi|i j Hi Hj]; rewrite !E; [exact: h1|exact: h2]. Qed.

Section Proof.
Variable F : fieldType.
Variables (m n : nat) (A0 : fmat F).
Implicit Types (A L U LU : fmat F) (st : pluq_state F).

(** entry (i, j) of the product of the factors stored so far *)
Definition ent rank LU (i j : nat) : F :=
  \sum_(k < minn i rank) (if (k <= j)%N then LU i k * LU k j else 0) +
  (if (minn i rank <= j)%N then LU i j else 0).

(** with [lz], the rows from rank + d on are not yet updated on the columns from rank on *)
Record inv (lz : bool) (d : nat) st : Prop := Inv {
  i_le : (ps_rank st + ps_null st <= m)%N;
  i_rn : (ps_rank st <= n)%N;
  i_P : is_perm m (ps_P st);
  i_Q : is_perm n (ps_Q st);
  i_fact : forall i j, (i < m)%N -> (j < n)%N -> A0 (ps_P st i) (ps_Q st j) =
     if [&& lz, (ps_rank st + d <= i)%N, (i < m - ps_null st)%N & (ps_rank st <= j)%N] then ps_A st i j
     else ent (ps_rank st) (ps_A st) i j;
  i_diag : forall k, (k < ps_rank st)%N -> ps_A st k k != 0;
  i_zero : forall i j, (m - ps_null st <= i < m)%N -> (ps_rank st <= j < n)%N -> ps_A st i j = 0;
  i_ord1 : forall i i', (i < i' < ps_rank st)%N -> (ps_P st i < ps_P st i')%N;
  i_ord2 : forall i i', (m - ps_null st <= i)%N -> (i < i' < m)%N -> (ps_P st i < ps_P st i')%N;
  i_next : forall i, (ps_rank st <= i < m - ps_null st)%N -> ps_P st i = (i + ps_null st)%N;
  i_done : forall i, (i < ps_rank st)%N || (m - ps_null st <= i < m)%N ->
     (ps_P st i < ps_rank st + ps_null st)%N;
  i_dep : forall i, (m - ps_null st <= i < m)%N -> exists c : nat -> F, forall j, (j < n)%N ->
     A0 (ps_P st i) j = \sum_(a < ps_P st i) c a * A0 a j
}.

Lemma seek_pivotP A rank : (rank <= n)%N ->
  let p := seek_pivot n A rank in
  [/\ (rank <= p <= n)%N, forall j, (rank <= j < p)%N -> A rank j = 0 & (p < n)%N -> A rank p != 0].
Proof.
move=> Hr /=; rewrite /seek_pivot; set s := iota _ _; set a := fun j => _.
have sz : size s = (n - rank)%N by rewrite size_iota.
have := find_size a s; rewrite sz => Hf; split; first by lia.
  move=> j Hj; have := @before_find _ 0%N a s (j - rank)%N; rewrite nth_iota; last by lia.
  have Hlt : (j - rank < find a s)%N by lia.
  by rewrite subnKC; [move/(_ Hlt)/negbFE/eqP|lia].
move=> Hp; have := @nth_find _ 0%N a s; rewrite has_find sz nth_iota; last by lia.
by apply; lia.
Qed.

(** a combination of the rows below N *)
Lemma dep_row st lz : inv lz 1 st -> (ps_rank st + ps_null st < m)%N ->
  (forall j, (ps_rank st <= j < n)%N -> ps_A st (ps_rank st) j = 0) ->
  exists c : nat -> F, forall j, (j < n)%N ->
    A0 (ps_P st (ps_rank st)) j = \sum_(a < ps_P st (ps_rank st)) c a * A0 a j.
Proof.
case: st => LU P Q rank nullity []; cbn [ps_A ps_P ps_Q ps_rank ps_null] => le rn PP QQ fact _ _ _ _ next dn _ lt Z.
have PN : P rank = (rank + nullity)%N by rewrite next //; lia.
rewrite PN; set N := (rank + nullity)%N in PN *.
pose V := \matrix_(a < N, j < n) A0 a (Q j).
pose rv (X : nat -> F) : 'rV[F]_n := \row_j X j.
have inV a : (a < N)%N -> (rv (fun j => A0 a (Q j)) <= V)%MS.
  move=> Ha; have -> : rv (fun j => A0 a (Q j)) = row (Ordinal Ha) V by apply/rowP=> j; rewrite !mxE.
  exact: row_sub.
have Urow k : (k < rank)%N -> (rv (fun j => if (k <= j)%N then LU k j else 0) <= V)%MS.
  elim/ltn_ind: k => k IH Hk.
  have -> : rv (fun j => if (k <= j)%N then LU k j else 0) =
     rv (fun j => A0 (P k) (Q j)) - \sum_(l < k) LU k l *: rv (fun j => if (l <= j)%N then LU l j else 0).
    apply/rowP=> j; rewrite !mxE summxE fact ?ltn_ord //; last by lia.
    have -> : [&& lz, (rank + 1 <= k)%N, (k < m - nullity)%N & (rank <= j)%N] = false by lia.
    rewrite /ent; have -> : minn k rank = k by lia.
    set s1 := \sum_(l < k) _; set s2 := \sum_(l < k) _.
    suff -> : s2 = s1 by rewrite addrC addKr.
    by apply: eq_bigr => l _; rewrite !mxE; case: ifP; rewrite ?mulr0.
  rewrite addmx_sub ?inV //; first by apply: dn; rewrite Hk.
  rewrite eqmx_opp summx_sub // => l _; apply/scalemx_sub/IH; have := ltn_ord l; lia.
have : (rv (fun j => A0 (P rank) (Q j)) <= V)%MS.
  have -> : rv (fun j => A0 (P rank) (Q j)) =
     \sum_(l < rank) LU rank l *: rv (fun j => if (l <= j)%N then LU l j else 0).
    apply/rowP=> j; rewrite !mxE summxE fact ?ltn_ord //; last by lia.
    rewrite ifF; last by lia.
    rewrite /ent minnn [X in _ + X](_ : _ = 0) ?addr0.
      by apply: eq_bigr => l _; rewrite !mxE; case: ifP; rewrite ?mulr0.
    by case: ifP => // H; apply: Z; rewrite H ltn_ord.
  by rewrite summx_sub // => l _; apply/scalemx_sub/Urow.
case/submxP=> w Ew; exists (fun a => if insub a is Some a' then w 0 a' else 0) => j Hj.
have [j' Hj' <-] := is_perm_surj QQ Hj.
have /rowP/(_ (Ordinal Hj')) := Ew; rewrite !mxE /= PN => ->.
by apply: eq_bigr => a _; rewrite valK mxE.
Qed.

Lemma rows_up st lz LU' P' : inv lz 1 st -> (ps_rank st + ps_null st < m)%N ->
  (forall j, (ps_rank st <= j < n)%N -> ps_A st (ps_rank st) j = 0) ->
  LU' =1 rot_up (ps_A st) (ps_rank st) (m - 1) -> P' =1 rot_up (ps_P st) (ps_rank st) (m - 1) ->
  inv lz 0 (PS LU' P' (ps_Q st) (ps_rank st) (ps_null st).+1).
Proof.
move=> I lt Z EL EP; have D := dep_row I lt Z.
case: st I lt Z D EL EP => LU P Q rank nullity []; cbn [ps_A ps_P ps_Q ps_rank ps_null].
move=> le rn PP QQ fact diag zero ord1 ord2 next dn dep lt Z D EL EP.
have PN : P rank = (rank + nullity)%N by rewrite next //; lia.
have rE0 (T : Type) (v : nat -> T) i : (i < m)%N -> rot_up v rank (m - 1) i =
    v (if (i < rank)%N then i else if i == (m - 1)%N then rank else i.+1).
  by move=> Hi; rewrite rot_upE; [do ![case: ifP => ?] => //; lia|lia].
have rEL i : (i < m)%N -> LU' i = LU (if (i < rank)%N then i else if i == (m - 1)%N then rank else i.+1).
  by move=> Hi; rewrite EL rE0.
have rEP i : (i < m)%N -> P' i = P (if (i < rank)%N then i else if i == (m - 1)%N then rank else i.+1).
  by move=> Hi; rewrite EP rE0.
have rE := (rEL, rEP).
set si := fun i => if (i < rank)%N then i else if i == (m - 1)%N then rank else i.+1.
split; cbn [ps_A ps_P ps_Q ps_rank ps_null] => //.
- by lia.
- by apply: is_perm_ext EP _; apply: is_perm_up => //; lia.
- move=> i j Hi Hj; rewrite !rE // -/(si i) fact //; last by rewrite /si; do ![case: ifP => ?]; lia.
  have -> : [&& lz, (rank + 1 <= si i)%N, (si i < m - nullity)%N & (rank <= j)%N] =
            [&& lz, (rank + 0 <= i)%N, (i < m - nullity.+1)%N & (rank <= j)%N].
    by case: lz {fact} => //=; rewrite /si; do ![case: ifP => ?]; lia.
  case: ifP => _ //; rewrite /ent.
  have -> : minn (si i) rank = minn i rank by rewrite /si; do ![case: ifP => ?]; lia.
  congr (_ + _); last by rewrite rE.
  apply: eq_bigr => k _; rewrite !rE //; last by have := ltn_ord k; lia.
  by rewrite [in if (k < rank)%N then _ else _]ifT //; have := ltn_ord k; lia.
- by move=> k Hk; rewrite rE ?Hk ?diag //; lia.
- move=> i j Hi Hj; rewrite rE; last by lia.
  rewrite ifF; last by lia.
  by case: ifP => H; [exact: Z|apply: zero; lia].
- by move=> i i' Hi; rewrite !rE ?ifT ?ord1 //; lia.
- move=> i i' Hi Hi'; rewrite !rE; try lia.
  have -> : (i < rank)%N = false by lia.
  have -> : (i' < rank)%N = false by lia.
  have -> : (i == m - 1)%N = false by lia.
  case: ifP => H; last by apply: ord2; lia.
  by rewrite PN; apply: dn; lia.
- move=> i Hi; rewrite rE; last by lia.
  by rewrite ifF ?ifF ?next; lia.
- move=> i Hi; rewrite rE; last by lia.
  case: ifP => H1; first by have := dn i; lia.
  by case: ifP => H2; [rewrite PN; lia|have := dn i.+1; lia].
move=> i Hi; rewrite rE; last by lia.
rewrite ifF; last by lia.
by case: ifP => H //; apply: dep; lia.
Qed.

(** rotation of the columns *)
Definition cs rank p j := if j == rank then p else if (rank < j <= p)%N then j.-1 else j.

Lemma cols_right st lz d p (B : fmat F) Q' : inv lz d st -> (ps_rank st <= p < n)%N ->
  (forall i j, (i < m)%N -> B i j = ps_A st i (cs (ps_rank st) p j)) ->
  Q' =1 rot_down (ps_Q st) (ps_rank st) p ->
  inv lz d (PS B (ps_P st) Q' (ps_rank st) (ps_null st)).
Proof.
case: st => LU P Q rank nullity []; cbn [ps_A ps_P ps_Q ps_rank ps_null].
move=> le rn PP QQ fact diag zero ord1 ord2 next dn dep Hp BE EQ.
have cE j : Q' j = Q (cs rank p j).
  by rewrite EQ rot_downE; [rewrite /cs; do ![case: ifP => ?]|lia].
have c1 j : (j < n)%N -> (cs rank p j < n)%N by rewrite /cs; do ![case: ifP => ?]; lia.
have c2 j : (j < rank)%N -> cs rank p j = j by rewrite /cs; do ![case: ifP => ?]; lia.
have c3 j : (rank <= cs rank p j)%N = (rank <= j)%N by rewrite /cs; do ![case: ifP => ?]; lia.
split; cbn [ps_A ps_P ps_Q ps_rank ps_null] => //.
- by apply: is_perm_ext EQ _; apply: is_perm_down => //; lia.
- move=> i j Hi Hj; rewrite cE fact // ?c1 // c3 BE //; case: ifP => // _; rewrite /ent.
  congr (_ + _).
    apply: eq_bigr => k _; have Hk := ltn_ord k.
    have -> : (k <= cs rank p j)%N = (k <= j)%N by have := c3 j; have := c2 j; case: (ltnP j rank) => H E1 E2; [rewrite E1|lia].
    by case: ifP => // _; rewrite (BE i k) // (BE k j) ?(c2 k) //; lia.
  have -> : (minn i rank <= cs rank p j)%N = (minn i rank <= j)%N.
    by have := c3 j; have := c2 j; case: (ltnP j rank) => H E1 E2; [rewrite E1|lia].
  by rewrite BE.
- by move=> k Hk; rewrite BE ?c2 ?diag //; lia.
- move=> i j Hi Hj; rewrite BE; last by lia.
  by apply: zero => //; rewrite c3 c1; lia.
Qed.

(** the new pivot *)
Lemma pivot_step st lz (d : nat) LU' : inv lz 1 st -> (ps_rank st + ps_null st < m)%N ->
  (ps_rank st < n)%N -> ps_A st (ps_rank st) (ps_rank st) != 0 ->
  (forall i j, (i < m)%N -> (j < n)%N -> LU' i j = let B := ps_A st in let rank := ps_rank st in
     if (rank < i < m - ps_null st)%N then
       if lz then
         if j == rank then (B i rank - \sum_(k < rank) B i k * B k rank) / B rank rank else B i j
       else
         if j == rank then B i rank / B rank rank
         else if (rank < j)%N then B i j - B i rank / B rank rank * B rank j else B i j
     else B i j) ->
  inv lz 0 (PS LU' (ps_P st) (ps_Q st) (ps_rank st).+1 (ps_null st)).
Proof.
case: st => LU P Q rank nullity []; cbn [ps_A ps_P ps_Q ps_rank ps_null]; cbv zeta.
move=> le rn PP QQ fact diag zero ord1 ord2 next dn dep lt rn' piv LU'E.
have L1 i j : (i <= rank)%N -> (j < n)%N -> LU' i j = LU i j by move=> Hi Hj; rewrite LU'E ?ifF //; lia.
have L2 i j : (i < m)%N -> (j < rank)%N -> LU' i j = LU i j.
  move=> Hi Hj; rewrite LU'E; [|lia..]; case: ifP => // _; case: ifP => _; last first.
    by rewrite ifF ?ifF //; lia.
  by rewrite ifF //; lia.
have L3 i j : (m - nullity <= i < m)%N -> (j < n)%N -> LU' i j = LU i j by move=> Hi Hj; rewrite LU'E ?ifF //; lia.
split; cbn [ps_A ps_P ps_Q ps_rank ps_null] => //.
- move=> i j Hi Hj; rewrite fact //.
  case: (leqP i rank) => Hir.
    rewrite ifF; last by lia.
    rewrite ifF; last by lia.
    rewrite /ent; have -> : minn i rank.+1 = minn i rank by lia.
    congr (_ + _); last by rewrite L1.
    apply: eq_bigr => k _; have Hk := ltn_ord k; case: ifP => // Hkj.
    by rewrite !L1 //; lia.
  have E1 : minn i rank = rank by lia.
  have E2 : minn i rank.+1 = rank.+1 by lia.
  have E0 : \sum_(k < rank) (if (k <= j)%N then LU' i k * LU' k j else 0) =
            \sum_(k < rank) (if (k <= j)%N then LU i k * LU k j else 0).
    apply: eq_bigr => k _; have Hk := ltn_ord k; case: ifP => // Hkj.
    by rewrite [LU' i k]L2 // L1 //; lia.
  case: (ltnP i (m - nullity)) => Hin; last first.
    rewrite ifF; last by lia.
    rewrite ifF; last by lia.
    rewrite /ent E1 E2 big_ord_recr /= E0 -addrA; congr (_ + _).
    have Hi' : (m - nullity <= i < m)%N by lia.
    rewrite (L3 i rank) // (L3 i j) // (zero i rank) //; last by lia.
    rewrite mul0r if_same add0r.
    by case: ifP => H1; case: ifP => H2 //; [rewrite zero //; lia|lia].
  have -> : (rank.+1 + 0 <= i)%N by lia.
  have -> : (rank + 1 <= i)%N by lia.
  rewrite /=; case: (ltngtP j rank) => Hj'.
  + rewrite [in LHS]ifF; last by lia.
    rewrite [in RHS]ifF; last by lia.
    rewrite /ent E1 E2 big_ord_recr /= E0 -addrA; congr (_ + _).
    by rewrite !ifF ?addr0 //; lia.
  + case: lz fact LU'E => fact LU'E /=.
      by rewrite LU'E // ifT ?ifF //; lia.
    rewrite /ent E1 E2 big_ord_recr /= E0 -addrA; congr (_ + _).
    rewrite !ifT; try lia.
    rewrite [LU' rank j]L1 // [LU' i j]LU'E // [LU' i rank]LU'E // eqxx.
    have -> : (rank < i < m - nullity)%N by lia.
    have -> : (j == rank) = false by lia.
    by rewrite Hj' addrC subrK.
  rewrite andbF andbT /= Hj' in E0 *.
  rewrite /ent E1 E2 big_ord_recr /= E0 leqnn ltnn addr0 (L1 rank rank) // [LU' i rank]LU'E // eqxx.
  have -> : (rank < i < m - nullity)%N by lia.
  case: lz {fact LU'E} => /=; rewrite divfK //.
  set s1 := \sum_(k < rank) _; set s2 := \sum_(k < rank) _.
  suff -> : s1 = s2 by rewrite addrC subrK.
  by apply: eq_bigr => k _; rewrite ifT // ltnW.
- move=> k Hk; rewrite L1; [|lia..].
  by case: (ltngtP k rank) => H; [exact: diag|lia|rewrite H].
- by move=> i j Hi Hj; rewrite L3; [apply: zero; lia|lia..].
- move=> i i' Hi; case: (i' =P rank) => E; last by apply: ord1; lia.
  rewrite E (next rank); last by lia.
  by apply: dn; lia.
- by move=> i Hi; apply: next; lia.
move=> i Hi; case: (i =P rank) => [->|N]; first by rewrite next; lia.
by have := dn i; lia.
Qed.

Lemma rot_down_id (T : Type) (v : nat -> T) i : v =1 rot_down v i i.
Proof. by move=> k; rewrite rot_downE //; case: eqP => [->//|_]; rewrite ifF //; lia. Qed.
Lemma rot_up_id (T : Type) (v : nat -> T) i : v =1 rot_up v i i.
Proof. by move=> k; rewrite rot_upE //; case: eqP => [->//|_]; rewrite ifF //; lia. Qed.

Lemma rotate_columnsE (B : fmat F) (Q : nat -> nat) rank p : (rank <= p)%N ->
  exists (B' : fmat F) (Q' : nat -> nat), [/\ rotate_columns_rightward m B (Some Q) rank p = (B', Some Q'),
    forall i j, (i < m)%N -> B' i j = B i (cs rank p j) & Q' =1 rot_down Q rank p].
Proof.
move=> Hp; rewrite /rotate_columns_rightward; case: eqP => [<-|_] /=.
  exists B, Q; split=> // [i j Hi|]; last exact: rot_down_id.
  by rewrite /cs; case: eqP => [->//|_]; rewrite ifF //; lia.
exists (foldl (fun A ii => upd A ii (rot_down (A ii) rank p)) B (iota 0 m)), (rot_down Q rank p).
split=> // i j Hi; rewrite (foldl_upd_cells (fun _ r => rot_down r rank p)) add0n leq0n Hi /=.
by rewrite rot_downE //; rewrite /cs; do ![case: ifP => ?].
Qed.

Lemma rotate_rowsE (B : fmat F) (P : nat -> nat) rank p : (rank <= p)%N ->
  exists (B' : fmat F) (P' : nat -> nat), [/\ rotate_rows_upward B (Some P) rank p = (B', Some P'),
    B' =1 rot_up B rank p & P' =1 rot_up P rank p].
Proof.
move=> Hp; rewrite /rotate_rows_upward; case: eqP => [<-|_] /=.
  by exists B, P; split=> //; exact: rot_up_id.
by exists (rot_up B rank p), (rot_up P rank p).
Qed.

Lemma eliminateE (B : fmat F) rank (iv : F) nullity i j : (rank < n)%N -> (j < n)%N ->
  foldl (eliminate_row n rank iv) B (iota rank.+1 (m - nullity - rank.+1)%N) i j =
  if (rank < i < m - nullity)%N then
    if j == rank then B i rank * iv
    else if (rank < j)%N then B i j - B i rank * iv * B rank j else B i j
  else B i j.
Proof.
move=> Hr Hj; set c := (m - nullity - rank.+1)%N.
have -> : (rank < i < m - nullity)%N = (rank.+1 <= i < rank.+1 + c)%N by rewrite /c; lia.
have H c' : forall i j, (j < n)%N -> foldl (eliminate_row n rank iv) B (iota rank.+1 c') i j =
  if (rank.+1 <= i < rank.+1 + c')%N then
    if j == rank then B i rank * iv
    else if (rank < j)%N then B i j - B i rank * iv * B rank j else B i j
  else B i j.
  elim: c' => [|c' IH] i1 j1 Hj1; first by rewrite /= ifF //; lia.
  rewrite -[c'.+1]addn1 iotaD foldl_cat /= {1}/eliminate_row; cbv zeta.
  set A1 := foldl _ _ _ in IH *; set r := (rank.+1 + c')%N.
  case: (i1 =P r) => [->|N]; last first.
    have -> : (rank < i1 < rank.+1 + (c' + 1))%N = (rank.+1 <= i1 < rank.+1 + c')%N by rewrite /r in N; lia.
    by rewrite /upd; case: eqP => // _; rewrite IH.
  have -> : (rank < r < rank.+1 + (c' + 1))%N by rewrite /r; lia.
  rewrite {1}/upd eqxx.
  rewrite (foldl_upd_cells (fun j x => x + - upd A1 r (upd (A1 r) rank (A1 r rank * iv)) r rank *
     upd A1 r (upd (A1 r) rank (A1 r rank * iv)) rank j)).
  have Nr : (rank == r) = false by rewrite /r; lia.
  have ar k : (k < n)%N -> A1 r k = B r k by move=> Hk; rewrite IH // ifF // /r; lia.
  have ak k : (k < n)%N -> A1 rank k = B rank k by move=> Hk; rewrite IH // ltnn.
  have -> : (rank < j1 < rank.+1 + (n - rank - 1))%N = (rank < j1)%N by lia.
  rewrite /upd !eqxx Nr !ar // ak //.
  by case: (ltngtP j1 rank) => //; rewrite mulNr.
exact: H.
Qed.

Lemma pluq_step_inv st : inv false 0 st -> (ps_rank st + ps_null st < m)%N ->
  inv false 0 (pluq_step m n st) /\
  (ps_rank (pluq_step m n st) + ps_null (pluq_step m n st) = (ps_rank st + ps_null st).+1)%N.
Proof.
move=> I lt; have {I} I1 : inv false 1 st by case: I.
have Hr := i_rn I1; have [p1 p2 p3] := seek_pivotP (ps_A st) Hr.
case: st I1 lt Hr p1 p2 p3 => LU P Q rank nullity I1; cbn [ps_A ps_P ps_Q ps_rank ps_null] => lt Hr p1 p2 p3.
rewrite /pluq_step; cbv zeta; case: eqP => [E|N].
  have [B' [P' [-> EB EP]]] := @rotate_rowsE LU P rank (m - 1) ltac:(lia).
  cbn [odflt oapp ps_rank ps_null]; split; last by lia.
  by apply: (rows_up I1) => // j Hj; apply: p2; rewrite E.
have [B' [Q' [-> EB EQ]]] := @rotate_columnsE LU Q rank (seek_pivot n LU rank) ltac:(lia).
cbn [odflt oapp ps_rank ps_null]; split; last by lia.
have I2 : inv false 1 (PS B' P Q' rank nullity) by apply: (cols_right I1 _ EB EQ) => /=; lia.
apply: (pivot_step 0 I2) => //=; first by lia.
  by rewrite EB; [rewrite /cs eqxx; apply: p3; lia|lia].
by move=> i j Hi Hj; rewrite eliminateE //; lia.
Qed.


Lemma foldl_offset (v : nat -> F) (g : nat -> F -> F) a c k :
  foldl (fun r j => upd r (a + j)%N (g j (r (a + j)%N))) v (iota 0 c) k =
  if (a <= k < a + c)%N then g (k - a)%N (v k) else v k.
Proof.
elim: c k => [|c IH] k; first by rewrite /= ifF //; lia.
rewrite -[c.+1]addn1 iotaD foldl_cat /= {1}/upd !IH add0n; case: eqP => [->|N].
  by rewrite ifF ?ifT ?addKn //; lia.
by congr (if _ then _ else _); lia.
Qed.

Lemma foldl_column (B : fmat F) (g : nat -> F) p iv r c i j :
  foldl (fun A i => let A' := upd A i (upd (A i) p (A i p - g i)) in
                    upd A' i (upd (A' i) p (A' i p * iv))) B (iota r c) i j =
  if (r <= i < r + c)%N && (j == p) then (B i p - g i) * iv else B i j.
Proof.
elim: c i j => [|c IH] i j; first by rewrite /= ifF //; lia.
rewrite -[c.+1]addn1 iotaD foldl_cat /= {1}/upd; case: (i =P (r + c)%N) => [->|N].
  rewrite [_ && (j == p)](_ : _ = (j == p)); last by lia.
  by rewrite /upd !eqxx; case: eqP => _; rewrite !IH ifF //; lia.
rewrite [in LHS]/upd; case: eqP => [/N//|_]; rewrite IH; congr (if _ then _ else _); lia.
Qed.

Lemma crout_update st : inv true 0 st -> (ps_rank st + ps_null st < m)%N -> forall A1,
  (forall i j, (j < n)%N -> A1 i j = if (i == ps_rank st) && (ps_rank st <= j)%N then
      ps_A st i j - \sum_(k < ps_rank st) ps_A st i k * ps_A st k j else ps_A st i j) ->
  inv true 1 (PS A1 (ps_P st) (ps_Q st) (ps_rank st) (ps_null st)).
Proof.
case: st => LU P Q rank nullity []; cbn [ps_A ps_P ps_Q ps_rank ps_null].
move=> le rn PP QQ fact diag zero ord1 ord2 next dn dep lt A1 A1E.
have E1 i j : (j < n)%N -> i != rank -> A1 i j = LU i j by move=> Hj Hi; rewrite A1E // (negbTE Hi).
have E2 i j : (j < rank)%N -> A1 i j = LU i j by move=> Hj; rewrite A1E ?ifF //; lia.
split; cbn [ps_A ps_P ps_Q ps_rank ps_null] => //.
- move=> i j Hi Hj; rewrite fact //= addn0 addn1.
  have entE : (i != rank) || (j < rank)%N -> ent rank A1 i j = ent rank LU i j.
    move=> H; rewrite /ent; congr (_ + _).
      apply: eq_bigr => k _; have Hk := ltn_ord k; case: ifP => // _.
      by rewrite E2 ?E1 //; lia.
    case: ifP => // H'; case/orP: H => H; first by rewrite E1.
    by rewrite E2.
  case: (i =P rank) => [Ei|/eqP Ni]; last first.
    have -> : (rank <= i)%N = (rank < i)%N by lia.
    by case: ifP => _; rewrite ?E1 // entE // Ni.
  rewrite Ei ltnn leqnn /=; have -> : (rank < m - nullity)%N by lia.
  case: (ltnP j rank) => Hj'; first by rewrite Ei in entE; rewrite entE // Hj' orbT.
  rewrite /ent minnn Hj' A1E // eqxx Hj' /= addrC.
  set s1 := \sum_(k < rank) _; set s2 := \sum_(k < rank) _.
  suff -> : s2 = s1 by rewrite subrK.
  apply: eq_bigr => k _; have Hk := ltn_ord k; rewrite ifT; last by lia.
  by rewrite E2 // E1 //; lia.
- by move=> k Hk; rewrite E2 ?diag.
by move=> i j Hi Hj; rewrite E1 ?zero //; lia.
Qed.

Lemma crout_step_inv st : inv true 0 st -> (ps_rank st + ps_null st < m)%N ->
  inv true 0 (crout_step m n st) /\
  (ps_rank (crout_step m n st) + ps_null (crout_step m n st) = (ps_rank st + ps_null st).+1)%N.
Proof.
move=> I lt; have I1 := crout_update I lt.
have Hr := i_rn I; case: st I1 lt Hr {I} => LU P Q rank nullity; cbn [ps_A ps_P ps_Q ps_rank ps_null] => I1 lt Hr.
rewrite /crout_step; cbv zeta; set A1 := upd LU rank _.
have A1E i j : (j < n)%N -> A1 i j = if (i == rank) && (rank <= j)%N then
      LU i j - \sum_(k < rank) LU i k * LU k j else LU i j.
  move=> Hj; rewrite /A1 {1}/upd; case: eqP => [->|//] /=.
  rewrite (foldl_offset _ (fun j x => x - \sum_(i0 < rank) LU rank i0 * LU i0 (rank + j)%N)).
  have -> : (rank <= j < rank + (n - rank))%N = (rank <= j)%N by lia.
  by case: ifP => // H; rewrite subnKC.
have {}I1 := I1 _ A1E; clearbody A1 => {A1E}.
have [p1 p2 p3] := seek_pivotP A1 Hr.
case: eqP => [E|N].
  have [B' [P' [-> EB EP]]] := @rotate_rowsE A1 P rank (m - 1) ltac:(lia).
  cbn [odflt oapp ps_rank ps_null]; split; last by lia.
  by apply: (rows_up I1) => // j Hj; apply: p2; rewrite E.
set pv := seek_pivot n A1 rank in p1 p2 p3 N *.
set A2 := foldl _ A1 _.
have A2E i j : A2 i j = if (rank < i < m - nullity)%N && (j == pv) then
    (A1 i pv - \sum_(k < rank) A1 i k * A1 k pv) / A1 rank pv else A1 i j.
  rewrite /A2 (foldl_column _ (fun i => \sum_(k < rank) A1 (i - rank - 1 + rank + 1)%N k * A1 k pv)).
  have -> : (rank < i < rank.+1 + (m - nullity - rank.+1))%N = (rank < i < m - nullity)%N by lia.
  case: ifP => // H; congr ((_ - _) * _); apply: eq_bigr => k _; congr (A1 _ _ * _); lia.
clearbody A2.
have [B' [Q' [-> EB EQ]]] := @rotate_columnsE A2 Q rank pv ltac:(lia).
cbn [odflt oapp ps_rank ps_null]; split; last by lia.
pose B i j := A1 i (cs rank pv j).
have I2 : inv true 1 (PS B P Q' rank nullity) by apply: (cols_right (p := pv) I1) => //=; lia.
have c0 : cs rank pv rank = pv by rewrite /cs eqxx.
apply: (pivot_step 0 I2) => //=; first by lia.
  by rewrite /B c0; apply: p3; lia.
move=> i j Hi Hj; rewrite EB // A2E /B c0.
have -> : (cs rank pv j == pv) = (j == rank) by rewrite /cs; do ![case: ifP => ?]; lia.
case: ifP => [/andP[-> /eqP->]|]; last first.
  by move=> H; case: ifP => // H1; case: ifP => // H2; move: H; rewrite H1 H2.
rewrite eqxx; congr ((_ - _) / _); apply: eq_bigr => k _.
by have -> : cs rank pv k = k by have := ltn_ord k; rewrite /cs; do ![case: ifP => ?]; lia.
Qed.

Lemma loop_end (step : pluq_state F -> pluq_state F) lz loop :
  (forall fuel st, loop fuel st = if (ps_rank st + ps_null st < m)%N then
      if fuel is fuel'.+1 then loop fuel' (step st) else None else Some st) ->
  (forall st, inv lz 0 st -> (ps_rank st + ps_null st < m)%N -> inv lz 0 (step st) /\
     (ps_rank (step st) + ps_null (step st) = (ps_rank st + ps_null st).+1)%N) ->
  forall fuel st, inv lz 0 st -> (m <= fuel + (ps_rank st + ps_null st))%N ->
  exists st', [/\ loop fuel st = Some st', inv lz 0 st' & (ps_rank st' + ps_null st' = m)%N].
Proof.
move=> LE H; elim=> [|fuel IH] st I Hf; rewrite LE; case: ltnP => C.
- lia.
- by exists st; split=> //; have := i_le I; lia.
- by have [I' E] := H st I C; apply: IH => //; lia.
by exists st; split=> //; have := i_le I; lia.
Qed.

Lemma inv0 lz : inv lz 0 (PS A0 id id 0 0).
Proof.
have pid k : is_perm k id by split.
split; cbn [ps_A ps_P ps_Q ps_rank ps_null] => //; try lia.
move=> i j Hi Hj; case: ifP => // _; rewrite /ent minn0 big_ord0 add0r //.
Qed.

Lemma pluq_end : exists st, [/\ pluq m n A0 = Some st, inv false 0 st & (ps_rank st + ps_null st = m)%N].
Proof.
apply: (loop_end (step := pluq_step m n) (loop := fun f => pluq_loop f m n)) => //=.
- by case.
- exact: pluq_step_inv.
- exact: inv0.
by lia.
Qed.

Lemma crout_end : exists st, [/\ pluq_crout m n A0 = Some st, inv true 0 st & (ps_rank st + ps_null st = m)%N].
Proof.
apply: (loop_end (step := crout_step m n) (loop := fun f => crout_loop f m n)) => //=.
- by case.
- exact: crout_step_inv.
- exact: inv0.
by lia.
Qed.

(** ** the specification *)
Lemma unit_lower_unit k (L : 'M[F]_k) : unit_lower L -> L \in unitmx.
Proof.
case=> d z; rewrite unitmxE det_trig; last by apply/is_trig_mxP=> i j; exact: z.
by rewrite big1 ?unitr1 // => i _; exact: d.
Qed.

Lemma rank_sub p q p' q' (f : 'I_p' -> 'I_p) (g : 'I_q' -> 'I_q) (M : 'M[F]_(p, q)) :
  (\rank (\matrix_(i, j) M (f i) (g j)) <= \rank M)%N.
Proof.
have -> : \matrix_(i, j) M (f i) (g j) =
    (\matrix_(i, k) (f i == k)%:R) *m M *m (\matrix_(k, j) (k == g j)%:R).
  apply/matrixP=> i j; rewrite !mxE (bigD1 (g j)) //= big1 => [|k Nk]; last first.
    by rewrite [in X in _ * X]mxE (negbTE Nk) mulr0.
  rewrite addr0 [in X in _ * X]mxE eqxx mulr1 mxE (bigD1 (f i)) //= big1 => [|k Nk]; last first.
    by rewrite mxE eq_sym (negbTE Nk) mul0r.
  by rewrite addr0 mxE eqxx mul1r.
exact: leq_trans (mxrankM_maxl _ _) (mxrankM_maxr _ _).
Qed.

Lemma rank_perm (P Q : nat -> nat) : is_perm m P -> is_perm n Q ->
  \rank (mx_of m n (fun i j => A0 (P i) (Q j))) = \rank (mx_of m n A0).
Proof.
move=> PP QQ; apply/eqP; rewrite eqn_leq; apply/andP; split.
  have [h1 _] := PP; have [h2 _] := QQ.
  have := rank_sub (fun i : 'I_m => Ordinal (h1 i (ltn_ord i))) (fun j : 'I_n => Ordinal (h2 j (ltn_ord j)))
    (mx_of m n A0).
  by congr (\rank _ <= _)%N; apply/matrixP=> i j; rewrite !mxE.
have /fin_all_exists[f Ef] (i : 'I_m) : exists k : 'I_m, P k = i.
  by have [k Hk <-] := is_perm_surj PP (ltn_ord i); exists (Ordinal Hk).
have /fin_all_exists[g Eg] (i : 'I_n) : exists k : 'I_n, Q k = i.
  by have [k Hk <-] := is_perm_surj QQ (ltn_ord i); exists (Ordinal Hk).
have := rank_sub f g (mx_of m n (fun i j => A0 (P i) (Q j))).
by congr (\rank _ <= _)%N; apply/matrixP=> i j; rewrite !mxE Ef Eg.
Qed.

Lemma inv_pluq lz st : inv lz 0 st -> (ps_rank st + ps_null st = m)%N ->
  is_pluq m n A0 (ps_A st) (ps_P st) (ps_Q st) (ps_rank st).
Proof.
case: st => LU P Q rank nullity []; cbn [ps_A ps_P ps_Q ps_rank ps_null].
move=> le rn PP QQ fact diag zero ord1 ord2 next dn dep E.
have mn : (m - nullity)%N = rank by lia.
have rm : (rank <= m)%N by lia.
have prod : \matrix_(i < m, j < n) A0 (P i) (Q j) = stored_L m rank LU *m stored_U m n rank LU.
  apply/matrixP=> i j; rewrite !mxE fact // ifF; last by lia.
  rewrite /ent (big_ord_widen m (fun k => if (k <= j)%N then LU i k * LU k j else 0)); last by lia.
  rewrite [RHS](bigD1 i) //= [RHS]addrC; congr (_ + _).
    rewrite big_mkcond [RHS]big_mkcond; apply: eq_bigr => k _; rewrite !mxE [i == k]eq_sym.
    case: (k =P i) => [->|/eqP Nk] /=; first by rewrite ifF //; lia.
    have {}Nk : (k : nat) != i by [].
    have -> : (k < minn i rank)%N = (k < i)%N && (k < rank)%N by lia.
    case: ifP => [/andP[_ ->]/=|H]; first by case: ifP => _; rewrite ?mulr0.
    by rewrite mul0r.
  rewrite !mxE eqxx mul1r; case: (ltnP i rank) => H //=.
  by case: ifP => // H'; rewrite zero //; [rewrite mn H ltn_ord|rewrite H' ltn_ord].
set A' := \matrix_(i < m, j < n) A0 i j.
have rkA : \rank A' = rank.
  rewrite -/(mx_of m n A0) -(rank_perm PP QQ) /mx_of prod.
  have UL : unit_lower (stored_L m rank LU).
    split=> [i|i j ij]; rewrite !mxE ?eqxx //.
    by have -> : (i == j) = false; [apply/eqP=> e; move: ij; rewrite e ltnn|rewrite ifF //; lia].
  rewrite (eqmxMfull _ (_ : row_full (stored_L m rank LU))); last by rewrite row_full_unit unit_lower_unit.
  pose T := \matrix_(k < rank, j < n) if (k <= j)%N then LU k j else 0.
  have eT : (stored_U m n rank LU :=: T)%MS.
    apply/eqmxP/andP; split; apply/row_subP=> i.
      case: (ltnP i rank) => H.
        suff -> : row i (stored_U m n rank LU) = row (Ordinal H) T by apply: row_sub.
        by apply/rowP=> j; rewrite !mxE H.
      suff -> : row i (stored_U m n rank LU) = 0 by apply: sub0mx.
      by apply/rowP=> j; rewrite !mxE ifF //; lia.
    have H : (i < m)%N by apply: leq_trans rm.
    suff -> : row i T = row (Ordinal H) (stored_U m n rank LU) by apply: row_sub.
    by apply/rowP=> j; rewrite !mxE /= ltn_ord.
  rewrite eT; apply/eqP/inj_row_free=> v vT; apply/rowP=> -[k Hk]; rewrite [RHS]mxE.
  elim/ltn_ind: k Hk => k IH Hk; have Hn : (k < n)%N by apply: leq_trans rn.
  have /rowP/(_ (Ordinal Hn)) := vT; rewrite !mxE (bigD1 (Ordinal Hk)) //= big1 ?addr0.
    by rewrite mxE leqnn => /eqP; rewrite mulf_eq0 (negbTE (diag k Hk)) orbF => /eqP.
  move=> l Nl; rewrite mxE /=; case: ifP => H; last by rewrite mulr0.
  case: l Nl H => l Hl Nl /= H.
  rewrite IH ?mul0r //; move: Nl; rewrite -val_eqE /=; lia.
have dep' (i : 'I_m) : (rank <= i)%N -> forall a : 'I_m, P i = a -> depends_on_previous A' a.
  move=> Hi a Ea; have [|c Hc] := dep i; first by rewrite mn Hi ltn_ord.
  exists (fun k => c k); apply/rowP=> j; rewrite summxE !mxE -Ea Hc //.
  rewrite (big_ord_widen m (fun k => c k * A0 k j)) ?Ea; last by rewrite ltnW.
  by apply: eq_bigr => k _; rewrite !mxE.
have claim t (b : 'I_m) : (t <= rank)%N -> (forall k, (k < rank)%N -> (P k <= b)%N -> (k < t)%N) ->
    (row b A' <= \matrix_(k < t, j < n) A0 (P k) j)%MS.
  move=> Ht; case: b => b Hb; elim/ltn_ind: b Hb => b IH Hb H.
  have [k Hk Ek] := is_perm_surj PP Hb.
  case: (ltnP k rank) => Hk'.
    have Hkt : (k < t)%N by apply: H => //=; rewrite Ek.
    set M := \matrix_(k < t, j < n) _.
    suff -> : row (Ordinal Hb) A' = row (Ordinal Hkt) M by apply: row_sub.
    by apply/rowP=> j; rewrite !mxE /= Ek.
  have [c ->] := dep' (Ordinal Hk) Hk' (Ordinal Hb) Ek.
  apply: summx_sub => -[l Hl] /= lb; apply: scalemx_sub; apply: IH => // k' H1 H2.
  by apply: H => //=; apply: leq_trans H2 (ltnW lb).
pose R := \matrix_(k < rank, j < n) A0 (P k) j.
have freeR : row_free R.
  rewrite /row_free eqn_leq rank_leq_row -{1}rkA mxrankS //.
  by apply/row_subP=> b; apply: claim.
split=> //.
- by split=> // i j Hi Hj; apply: zero => //; rewrite mn.
- move=> i i' ii' /orP[H|/andP[H H']]; first by apply: ord1; lia.
  by apply: ord2; lia.
move=> i a Ea; split; last by move=> H; exact: dep' Ea.
move=> [c Hc]; rewrite leqNgt; apply/negP=> Hi.
have : (row a A' <= \matrix_(k < i, j < n) A0 (P k) j)%MS.
  rewrite Hc; apply: summx_sub => b ba; apply/scalemx_sub/claim; first by lia.
  move=> k Hk Pk; rewrite ltnNge; apply/negP=> ik.
  have : (P i <= P k)%N; last by rewrite Ea; lia.
  by move: ik; rewrite leq_eqVlt => /orP[/eqP->//|ik]; apply/ltnW/ord1; rewrite ik.
case/submxP=> w Ew.
pose v : 'rV[F]_rank := \row_k (if insub (k : nat) is Some k' then w 0 k' else 0) - delta_mx 0 (Ordinal Hi).
have : v = 0.
  apply: (row_free_inj freeR); rewrite mul0mx; apply/rowP=> j.
  rewrite mulmxBl -rowE !mxE /= Ea; apply/eqP; rewrite subr_eq0; apply/eqP.
  have /rowP/(_ j) := Ew; rewrite !mxE => ->.
  pose g k := (if insub k is Some k' then w 0 k' else 0) * A0 (P k) j.
  transitivity (\sum_(k < i) g k); last first.
    by apply: eq_bigr => k _; rewrite !mxE /g valK.
  rewrite (big_ord_widen rank g); last by lia.
  rewrite [RHS]big_mkcond; apply: eq_bigr => k _; rewrite !mxE /g.
  by case: ltnP => H //; rewrite insubF ?mul0r //; lia.
move/rowP/(_ (Ordinal Hi)); rewrite !mxE !eqxx /= insubF ?ltnn // => /eqP.
by rewrite sub0r oppr_eq0 oner_eq0.
Qed.

End Proof.
