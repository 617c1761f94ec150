(** The loops of the basic operations on matrices of polynomials. *)
From Coq Require Import ZArith.
From mathcomp Require Import all_ssreflect all_algebra zify.
From Verif Require Import A_base A_mul_model N_multi_model N_multi_proof N_shift_proof N_pmat_model N_trs_model N_trs_proof.
From Verif Require Import N_util_model.
Set Implicit Arguments.
Unset Strict Implicit.
Unset Printing Implicit Defensive.
Import GRing.Theory.
Local Open Scope ring_scope.

Section Loops.
Variable T : Type.
Implicit Types (M : fmat T) (g : nat -> nat -> fmat T -> T).

Lemma upd2E M i j x i' j' : upd2 M i j x i' j' = if (i' == i) && (j' == j) then x else M i' j'.
Proof. by rewrite /upd2 /upd; case: eqP => //= ->; case: eqP. Qed.

(** the value written depends on the current value of the cell only *)
Definition local_g g := forall i j M M', M i j = M' i j -> g i j M = g i j M'.

Lemma row_win g M i c n i' j : local_g g ->
  foldl (fun M j => upd2 M i j (g i j M)) M (iota c n) i' j = if (i' == i) && (c <= j < c + n)%N then g i j M else M i' j.
Proof.
move=> L; elim: n i' j => [|n IH] i' j; first by rewrite /= addn0 (_ : (c <= j < c)%N = false) ?andbF //; lia.
rewrite foldl_iotaR upd2E; case: (i' =P i) => [->|N] /=; last by rewrite IH; case: (i' =P i).
case: (j =P (c + n)%N) => [->|N].
  rewrite (_ : (c <= c + n < c + n.+1)%N); last by lia.
  by apply: L; rewrite IH eqxx (_ : (c <= c + n < c + n)%N = false) //; lia.
by rewrite IH eqxx /=; congr (if _ then _ else _); lia.
Qed.

Lemma win_gen g r m c n M i j : local_g g ->
  foldl (fun M i => foldl (fun M j => upd2 M i j (g i j M)) M (iota c n)) M (iota r m) i j =
  if (r <= i < r + m)%N && (c <= j < c + n)%N then g i j M else M i j.
Proof.
move=> L; elim: m i j => [|m IH] i j; first by rewrite /= addn0 (_ : (r <= i < r)%N = false) //; lia.
rewrite foldl_iotaR row_win //; case: (i =P (r + m)%N) => [->|N] /=.
  rewrite IH (_ : (r <= r + m < r + m)%N = false) /=; last by lia.
  rewrite (_ : (r <= r + m < r + m.+1)%N) /=; last by lia.
  case: ifP => // _; apply: L; rewrite IH.
  by rewrite (_ : (r <= r + m < r + m)%N = false) /=; last by lia.
by rewrite IH; congr (if _ && _ then _ else _); lia.
Qed.

Lemma all_loop (t : nat -> nat -> bool) m n :
  foldl (fun ok i => foldl (fun ok j => if ok then t i j else false) ok (iota 0 n)) true (iota 0 m) <->
  (forall i j, (i < m)%N -> (j < n)%N -> t i j).
Proof.
have inner b i k : foldl (fun ok j => if ok then t i j else false) b (iota 0 k) = b && all (t i) (iota 0 k).
  elim: k => [|k IH]; first by rewrite andbT.
  rewrite foldl_iotaR IH add0n -addn1 iotaD all_cat /= andbT andbA.
  by case: (b && _).
elim: m => [|m IH]; first by split.
rewrite foldl_iotaR inner add0n; split=> [/andP[/IH H /allP A] i j|H].
  rewrite ltnS leq_eqVlt => /orP[/eqP->|Hi] Hj; last exact: H.
  by apply: A; rewrite mem_iota.
apply/andP; split; first by apply/IH => i j Hi Hj; apply: H => //; apply: leq_trans Hi _.
by apply/allP=> j; rewrite mem_iota => /andP[_ Hj]; apply: H.
Qed.
End Loops.

(** nested loops as one loop over the list of the indices *)
Section Flat.
Variables (T A B : Type).
Lemma foldl_ext (f g : T -> A -> T) x s : (forall x a, f x a = g x a) -> foldl f x s = foldl g x s.
Proof. by move=> E; elim: s x => //= a s IH x; rewrite E. Qed.
Lemma foldl_nest (f : T -> B -> T) (h : A -> seq B) x s :
  foldl (fun x a => foldl f x (h a)) x s = foldl f x (flatten (map h s)).
Proof. by elim: s x => //= a s IH x; rewrite IH foldl_cat. Qed.
Lemma foldl_mapE (f : T -> B -> T) (h : A -> B) x s : foldl (fun x a => f x (h a)) x s = foldl f x (map h s).
Proof. by elim: s x => //= a s IH x. Qed.
(** a loop that stops at the first failing test *)
Lemma foldl_ok (ok : A -> bool) (f : T -> A -> T) x s :
  foldl (fun V a => if V is AOk V' then if ok a then AOk (f V' a) else AUB else AUB) (AOk x) s =
  if all ok s then AOk (foldl f x s) else AUB.
Proof.
have Z t : foldl (fun V a => if V is AOk V' then if ok a then AOk (f V' a) else AUB else AUB) AUB t = AUB :> aoutcome T.
  by elim: t.
by elim: s x => //= a s IH x; case: (ok a) => /=; rewrite ?IH ?Z.
Qed.
End Flat.

Lemma foldl_upd3 (T : Type) (f : nat -> nat -> nat -> T) V (s : seq (nat * nat * nat)) l i j :
  foldl (fun V t => upd3 V t.1.1 t.1.2 t.2 (f t.1.1 t.1.2 t.2)) V s l i j = if (l, i, j) \in s then f l i j else V l i j.
Proof.
elim: s V => //= -[[l' i'] j'] s IH V; rewrite IH in_cons upd3E /=; case: (_ \in s); rewrite ?orbT // orbF.
have -> : ((l, i, j) == (l', i', j')) = [&& l == l', i == i' & j == j'] by rewrite !xpair_eqE andbA.
by case: ifP => // /and3P[/eqP-> /eqP-> /eqP->].
Qed.
Lemma foldl_upd2 (T : Type) (f : nat -> nat -> T) M (s : seq (nat * nat)) i j :
  foldl (fun M t => upd2 M t.1 t.2 (f t.1 t.2)) M s i j = if (i, j) \in s then f i j else M i j.
Proof.
elim: s M => //= -[i' j'] s IH M; rewrite IH in_cons upd2E /=; case: (_ \in s); rewrite ?orbT // orbF xpair_eqE.
by case: ifP => // /andP[/eqP-> /eqP->].
Qed.

(** "for (k = 0; k < len; k += s) for (kk = 0; kk < min(s, len - k); kk++)" visits k + kk for all the numbers below len *)
Lemma blocked len s k : (0 < s)%N ->
  (exists b kk, [/\ (b < blocks len s)%N, (kk < minn s (len - b * s))%N & k = (b * s + kk)%N]) <-> (k < len)%N.
Proof.
move=> s0; split=> [[b [kk [Hb Hk ->]]]|H]; first lia.
exists (k %/ s)%N, (k %% s)%N; split; last by rewrite -divn_eq.
- rewrite /blocks; have -> : (len + s - 1 = s + len.-1)%N by lia.
  by rewrite divnDl ?dvdnn // divnn s0 add1n ltnS leq_div2r //; lia.
- have := divn_eq k s; have := ltn_pmod k s0; move: (k %% s)%N (k %/ s)%N => r q Hr Hk.
  by rewrite leq_min Hr /=; lia.
Qed.

Section Util.
Variable F : fieldType.
Local Notation P := {poly F}.
Implicit Types (a b x : pmat F).

Lemma winE (g : nat -> nat -> fmat P -> P) r m c n M i j : local_g g ->
  win g r m c n M i j = if (r <= i < r + m)%N && (c <= j < c + n)%N then g i j M else M i j.
Proof. exact: win_gen. Qed.

Lemma ewiseE (al : bool) g x a : is_pmat (ewise al g x a) (nr a) (nc a) (fun i j => g i j (ent a i j)).
Proof.
rewrite /ewise; split; [by case: al|by case: al|move=> i j Hi Hj /=].
have L : local_g (fun i j (M : fmat P) => g i j (if al then M i j else ent a i j)).
  by move=> i' j' M M' /= E; case: al; rewrite // E.
by rewrite (winE _ _ _ _ _ _ _ L) !add0n Hi Hj /=; case: al {L}.
Qed.

Lemma ewise2E (al bl : bool) g x a b : nr a = nr b -> nc a = nc b -> (al -> bl -> forall i j, ent a i j = ent b i j) ->
  exists c, ewise2 al bl g x a b = AOk c /\ is_pmat c (nr a) (nc a) (fun i j => g (ent a i j) (ent b i j)).
Proof.
move=> Er Ec E; rewrite /ewise2 Er Ec !eqxx /=; eexists; split; first by [].
split; [by case: (al) => //; case: (bl)|by case: (al) => //; case: (bl)|move=> i j Hi Hj /=].
have L : local_g (fun i j (M : fmat P) => g (if al then M i j else ent a i j) (if bl then M i j else ent b i j)).
  by move=> i' j' M M' /= EM; case: (al); case: (bl); rewrite // EM.
rewrite (winE _ _ _ _ _ _ _ L) !add0n Hi Hj /=.
by case: (al) (bl) E => [] [] //= E; rewrite -E.
Qed.

Lemma pm_identE x n : is_pmat (pm_ident x n) n n (fun i j => if i == j then 1 else 0).
Proof.
split=> // i j Hi Hj /=.
set M0 := if _ then _ else _; move: M0 => M0.
have row (M : fmat P) k i' j' : (k < n)%N -> (j' < n)%N ->
    foldl (fun M j => upd2 M k j (0 : P)) (upd2 (foldl (fun M j => upd2 M k j (0 : P)) M (iota 0 k)) k k 1) (iota k.+1 (n - k.+1)) i' j' =
    if i' == k then if k == j' then 1 else 0 else M i' j'.
  move=> Hk Hj'; rewrite (row_win _ _ _ _ _ _ (g := fun _ _ _ => 0)) // upd2E (row_win _ _ _ _ _ _ (g := fun _ _ _ => 0)) //.
  case: (i' =P k) => //= _; have [C|[C|C]] : (j' < k)%N \/ (k < j')%N \/ j' = k by lia.
  - rewrite ifF; last by lia.
    rewrite ifF; last by lia.
    rewrite ifT; last by lia.
    by rewrite ifF //; lia.
  - rewrite ifT; last by lia.
    by rewrite ifF //; lia.
  - by rewrite ifF ?C ?eqxx //; lia.
suff H u : (u <= n)%N -> forall i j, (i < n)%N -> (j < n)%N -> foldl (fun M k => foldl (fun M j => upd2 M k j 0)
    (upd2 (foldl (fun M j => upd2 M k j 0) M (iota 0 k)) k k 1) (iota k.+1 (n - k.+1))) M0 (iota 0 u) i j =
    if (i < u)%N then if i == j then 1 else 0 else M0 i j.
  by rewrite H // Hi.
elim: u => [|u IH] Hu i' j' Hi' Hj' //; rewrite foldl_iotaR add0n row //.
case: (i' =P u) => [->|N]; first by rewrite ltnSn.
by rewrite IH //; [congr (if _ then _ else _); lia|lia].
Qed.

Lemma ident_matE n : is_pmat (ident_mat F n) n n (fun i j => if i == j then 1 else 0).
Proof.
split=> // i j Hi Hj /=.
have -> : (if n == 0%N then fun _ _ : nat => 0 else fun _ _ => 0) = (fun _ _ => 0 : P) by case: ifP.
suff H u : foldl (fun (M : fmat P) i => upd2 M i i 1) (fun _ _ => 0) (iota 0 u) i j = if (i < u)%N && (i == j) then 1 else 0.
  by rewrite H Hi.
elim: u => // u IH; rewrite foldl_iotaR add0n upd2E IH.
case: (i =P u) => [->|N] /=; last by congr (if _ && _ then _ else _); lia.
by rewrite ltnn ltnSn eq_sym.
Qed.

Lemma transposeE x a : is_pmat (transpose x a) (nc a) (nr a) (fun i j => ent a j i).
Proof. by split=> // i j Hi Hj /=; rewrite (colmat_loop (fun j i => ent a i j)) Hj Hi. Qed.

Lemma transpose_aliasE a : is_pmat (transpose_alias a) (nc a) (nr a) (fun i j => ent a j i).
Proof.
rewrite /transpose_alias; case: eqP => E; last first.
  by split=> // i j Hi Hj /=; rewrite (colmat_loop (fun j i => ent a i j)) Hj Hi.
split=> // i j; rewrite -E => Hi Hj /=; move: (nr a) Hi Hj => n Hi Hj.
have inner (M : fmat P) u k i' j' : foldl (fun M j => swap2 M u j) M (iota u.+1 k) i' j' =
    if ((i' == u) && (u < j' < u.+1 + k)%N) || ((j' == u) && (u < i' < u.+1 + k)%N) then M j' i' else M i' j'.
  elim: k i' j' => [|k IH] i' j'; first by rewrite /= (_ : _ || _ = false) //; lia.
  rewrite foldl_iotaR /swap2 !upd2E; case: ifP => [/andP[/eqP-> /eqP->]|C1].
    rewrite IH (_ : _ || _ = false); last by lia.
    by rewrite ifT //; lia.
  case: ifP => [/andP[/eqP-> /eqP->]|C2].
    rewrite IH (_ : _ || _ = false); last by lia.
    by rewrite ifT //; lia.
  by rewrite IH; congr (if _ then _ else _); lia.
suff H u : (u <= n)%N -> forall i j, (i < n)%N -> (j < n)%N ->
  foldl (fun M i => foldl (fun M j => swap2 M i j) M (iota i.+1 (n - i.+1))) (ent a) (iota 0 u) i j =
  if (minn i j < u)%N then ent a j i else ent a i j by rewrite H // ifT //; lia.
elim: u => [|u IH] Hu i' j' Hi' Hj'; first by [].
rewrite foldl_iotaR inner add0n; case: ifP => C.
  rewrite IH //; last by lia.
  rewrite (_ : (minn j' i' < u)%N = false); last by lia.
  by rewrite (_ : (minn i' j' < u.+1)%N) //; lia.
rewrite IH //; last by lia.
case: ifP => C2; first by rewrite ifT //; lia.
case: ifP => C3 //; suff -> : i' = j' by []; lia.
Qed.

Lemma mirrorE n (v : nat -> P) i : (i < n)%N -> mirror n v i = v (n - 1 - i)%N.
Proof.
move=> Hi; rewrite /mirror.
suff H u : (u <= n./2)%N -> forall i, (i < n)%N -> foldl (fun (v : nat -> P) i => let a := v i in let b := v (n - 1 - i)%N in
    upd (upd v i b) (n - 1 - i) a) v (iota 0 u) i = if (i < u)%N || (n - 1 - u < i)%N then v (n - 1 - i)%N else v i.
  rewrite H //; case: ifP => // C; congr (v _); lia.
elim: u => [|u IH] Hu i' Hi'; first by rewrite ifF //; lia.
rewrite foldl_iotaR add0n /= /upd.
have Hu' : (u <= n./2)%N by lia.
case: (i' =P (n - 1 - u)%N) => [->|N1].
  rewrite IH //; last by lia.
  rewrite (_ : (u < u)%N || _ = false); last by lia.
  by rewrite ifT; [congr v; lia|lia].
case: (i' =P u) => [->|N2].
  rewrite IH //; last by lia.
  rewrite (_ : (n - 1 - u < u)%N || _ = false); last by lia.
  by rewrite ifT //; lia.
by rewrite IH //; congr (if _ then _ else _); lia.
Qed.

Lemma shift_rowE sh (al : bool) x a r : (r < nr a)%N -> exists c, shift_row sh al x a r = AOk c /\
  is_pmat c (nr a) (nc a) (fun i j => if i == r then sh (ent a i j) else ent a i j).
Proof.
move=> Hr; rewrite /shift_row leqNgt Hr /=; eexists; split; first by [].
case: al; split=> // i j Hi Hj /=.
  rewrite (row_win _ _ _ _ _ _ (g := fun i j M => sh (M i j))); last by move=> i' j' M M' ->.
  by rewrite add0n Hj andbT; case: eqP => [->|].
rewrite foldl_upd_rng; case: ifP => C; first by rewrite ifF //; lia.
rewrite (row_loop (fun j => sh (ent a r j))) Hj /=; case: eqP => [->//|N].
by rewrite foldl_upd_rng ifT //; lia.
Qed.

Lemma shift_colE sh (al : bool) x a c : (c < nc a)%N -> exists y, shift_col sh al x a c = AOk y /\
  is_pmat y (nr a) (nc a) (fun i j => if j == c then sh (ent a i j) else ent a i j).
Proof.
move=> Hc; rewrite /shift_col leqNgt Hc /=; eexists; split; first by [].
case: al; split=> // i j Hi Hj /=.
  suff H u : foldl (fun M i => upd2 M i c (sh (M i c))) (ent a) (iota 0 u) i j =
      if (i < u)%N && (j == c) then sh (ent a i j) else ent a i j by rewrite H Hi.
  elim: u i {Hi} => // u IH i; rewrite foldl_iotaR add0n upd2E; case: (i =P u) => [->|N] /=.
    rewrite ltnSn; case: (j =P c) => [E|N] /=; last by rewrite IH ltnn.
    by move: (IH u); rewrite ltnn E /= => ->.
  by rewrite IH; congr (if _ && _ then _ else _); lia.
set M0 := if _ then _ else _; move: M0 => M0.
have row (M : fmat P) u i' j' : (j' < nc a)%N ->
   foldl (fun M j => upd2 M u j (ent a u j)) (upd2 (foldl (fun M j => upd2 M u j (ent a u j)) M (iota 0 c)) u c (sh (ent a u c)))
     (iota c.+1 (nc a - c.+1)) i' j' = if i' == u then if j' == c then sh (ent a u j') else ent a u j' else M i' j'.
  move=> Hj'; rewrite (row_win _ _ _ _ _ _ (g := fun i j _ => ent a i j)) // upd2E (row_win _ _ _ _ _ _ (g := fun i j _ => ent a i j)) //.
  case: (i' =P u) => //= _; have [C|[C|C]] : (j' < c)%N \/ (c < j')%N \/ j' = c by lia.
  - rewrite (_ : (c < j' < _)%N = false); last by lia.
    have -> : (j' == c) = false by lia.
    by rewrite ifT //; lia.
  - have -> : (j' == c) = false by lia.
    by rewrite ifT //; lia.
  - by rewrite C eqxx ifF //; lia.
suff H u i' j' : (j' < nc a)%N -> foldl (fun M i => foldl (fun M j => upd2 M i j (ent a i j)) (upd2 (foldl (fun M j => upd2 M i j (ent a i j)) M (iota 0 c)) i c (sh (ent a i c)))
     (iota c.+1 (nc a - c.+1))) M0 (iota 0 u) i' j' = if (i' < u)%N then if j' == c then sh (ent a i' j') else ent a i' j' else M0 i' j'.
  by rewrite H // Hi.
move=> Hj'; elim: u i' => [|u IH] i' //; rewrite foldl_iotaR add0n row //.
case: (i' =P u) => [->|N]; first by rewrite ltnSn.
by rewrite IH; congr (if _ then _ else _); lia.
Qed.

Lemma eval_vmatE (v : vmat F) pt i j : (0 < vlen v)%N ->
  cent (eval_vmat v pt) i j = \sum_(k < vlen v) vent v k i j * pt ^+ k.
Proof.
rewrite /eval_vmat; case: (vlen v) => // n _ /=.
suff H h u : foldl (fun (M : fmat F) d => fun i j => M i j * pt + vent v d i j) h (rev (iota 0 u)) i j =
    h i j * pt ^+ u + \sum_(k < u) vent v k i j * pt ^+ k by rewrite H big_ord_recr addrC.
elim: u h => [|u IH] h; first by rewrite big_ord0 expr0 mulr1 addr0.
rewrite -addn1 iotaD rev_cat /= add0n IH mulrDl -mulrA -exprS addn1 big_ord_recr /=.
by rewrite -addrA [vent v u i j * _ + _]addrC.
Qed.

(** *** conversions *)
Definition kblock len (b : nat) (i j : nat) : seq (nat * nat * nat) :=
  [seq (b * cache_size + kk, i, j)%N | kk <- iota 0 (minn cache_size (len - b * cache_size))].
Definition conv_idx m n len : seq (nat * nat * nat) :=
  flatten [seq flatten [seq flatten [seq kblock len b i j | j <- iota 0 n] | i <- iota 0 m] | b <- iota 0 (blocks len cache_size)].

Lemma conv_idxP m n len k i j : (k, i, j) \in conv_idx m n len = [&& (k < len)%N, (i < m)%N & (j < n)%N].
Proof.
apply/flatten_mapP/and3P => [[b Hb /flatten_mapP[i' Hi /flatten_mapP[j' Hj /mapP[kk Hk [-> -> ->]]]]]|[Hk Hi Hj]].
  move: Hb Hi Hj Hk; rewrite !mem_iota !add0n => Hb Hi Hj Hk; split=> //.
  by apply/(@blocked len cache_size) => //; exists b, kk.
have [b [kk [Hb Hkk ->]]] := (@blocked len cache_size k isT).2 Hk.
exists b; first by rewrite mem_iota.
apply/flatten_mapP; exists i; first by rewrite mem_iota.
apply/flatten_mapP; exists j; first by rewrite mem_iota.
by apply/mapP; exists kk; rewrite ?mem_iota.
Qed.

Definition full a : Prop := forall i j, (i < nr a)%N -> (j < nc a)%N -> size (ent a i j) = plen a.

Lemma conv_flat a (V0 : aoutcome (nat -> fmat F)) :
  foldl (fun (V : aoutcome (nat -> fmat F)) (b : nat) =>
    foldl (fun V i => foldl (fun V j => foldl (fun V kk =>
      if V is AOk V' then
        if (b * cache_size + kk < size (ent a i j))%N then AOk (upd3 V' (b * cache_size + kk) i j (ent a i j)`_(b * cache_size + kk)) else AUB
      else AUB) V (iota 0 (minn cache_size (plen a - b * cache_size)))) V (iota 0 (nc a))) V (iota 0 (nr a))) V0 (iota 0 (blocks (plen a) cache_size)) =
  foldl (fun V t => if V is AOk V' then if (t.1.1 < size (ent a t.1.2 t.2))%N then
      AOk (upd3 V' t.1.1 t.1.2 t.2 (ent a t.1.2 t.2)`_t.1.1) else AUB else AUB) V0 (conv_idx (nr a) (nc a) (plen a)).
Proof.
rewrite -foldl_nest; apply: foldl_ext => V b; rewrite -foldl_nest; apply: foldl_ext => {}V i.
by rewrite -foldl_nest; apply: foldl_ext => {}V j; rewrite -foldl_mapE.
Qed.

Lemma conv_vmatE a : conv_vmat a = (if all (fun t => (t.1.1 < size (ent a t.1.2 t.2))%N) (conv_idx (nr a) (nc a) (plen a)) then
  AOk (Vmat (plen a) (nr a) (nc a) (foldl (fun V t => upd3 V t.1.1 t.1.2 t.2 (ent a t.1.2 t.2)`_t.1.1) (fun _ _ _ => 0)
    (conv_idx (nr a) (nc a) (plen a)))) else AUB).
Proof.
rewrite /conv_vmat conv_flat (foldl_ok (fun t => (t.1.1 < size (ent a t.1.2 t.2))%N)
  (fun V t => upd3 V t.1.1 t.1.2 t.2 (ent a t.1.2 t.2)`_t.1.1)).
by case: ifP.
Qed.

Lemma conv_vmat_ok a : full a -> exists v, [/\ conv_vmat a = AOk v, vlen v = plen a, vr v = nr a, vc v = nc a &
  forall k i j, (k < plen a)%N -> (i < nr a)%N -> (j < nc a)%N -> vent v k i j = (ent a i j)`_k].
Proof.
move=> H; rewrite conv_vmatE ifT; last first.
  by apply/allP=> -[[k i] j]; rewrite conv_idxP /= => /and3P[Hk Hi Hj]; rewrite H.
eexists; split; first by []; try by [].
move=> k i j Hk Hi Hj /=.
by rewrite (foldl_upd3 (fun k i j => (ent a i j)`_k)) conv_idxP Hk Hi Hj.
Qed.

Lemma conv_vmat_bad a i j : (i < nr a)%N -> (j < nc a)%N -> (size (ent a i j) < plen a)%N -> conv_vmat a = AUB.
Proof.
move=> Hi Hj Hs; rewrite conv_vmatE ifF //; apply/negP=> /allP/(_ (size (ent a i j), i, j)).
by rewrite conv_idxP Hi Hj Hs ltnn => /(_ isT).
Qed.

Definition raw_idx (i jb nb len : nat) : seq (nat * nat * nat) :=
  flatten [seq flatten [seq [seq (i, jb * cache_size + jj, kb * block_size + kk)%N | kk <- iota 0 (minn block_size (len - kb * block_size))]
    | jj <- iota 0 nb] | kb <- iota 0 (blocks len block_size)].
Lemma raw_idxP i jb nb len jj k : (jj < nb)%N -> (k < len)%N -> (i, jb * cache_size + jj, k)%N \in raw_idx i jb nb len.
Proof.
move=> Hj Hk; have [b [kk [Hb Hkk ->]]] := (@blocked len block_size k isT).2 Hk.
apply/flatten_mapP; exists b; first by rewrite mem_iota.
apply/flatten_mapP; exists jj; first by rewrite mem_iota.
by apply/mapP; exists kk; rewrite ?mem_iota.
Qed.

Definition ent_idx (m n : nat) : seq (nat * nat) :=
  flatten [seq flatten [seq [seq (i, jb * cache_size + jj)%N | jj <- iota 0 (minn cache_size (n - jb * cache_size))]
    | jb <- iota 0 (blocks n cache_size)] | i <- iota 0 m].
Lemma ent_idxP m n i j : (i < m)%N -> (j < n)%N -> (i, j) \in ent_idx m n.
Proof.
move=> Hi Hj; have [b [jj [Hb Hjj ->]]] := (@blocked n cache_size j isT).2 Hj.
apply/flatten_mapP; exists i; first by rewrite mem_iota.
apply/flatten_mapP; exists b; first by rewrite mem_iota.
by apply/mapP; exists jj; rewrite ?mem_iota.
Qed.

Lemma Poly_mkseq (f : nat -> F) n : Poly (mkseq f n) = \poly_(k < n) f k.
Proof.
apply/polyP=> k; rewrite coef_Poly coef_poly; case: ltnP => Hk; first by rewrite nth_mkseq.
by rewrite nth_default // size_mkseq.
Qed.

Lemma pm_clearE x : is_pmat (pm_clear x) (nr x) (nc x) (fun _ _ => 0).
Proof. by split=> // i j Hi Hj /=; rewrite winE // !add0n Hi Hj. Qed.

Lemma conv_constE x (a : cmat F) : is_pmat (conv_const x a) (cr a) (cc a) (fun i j => (cent a i j)%:P).
Proof. by split=> // i j Hi Hj /=; rewrite winE // !add0n Hi Hj. Qed.

Lemma conv_pmatE x (v : vmat F) raw0 : (0 < vlen v)%N ->
  is_pmat (conv_pmat x v raw0) (vr v) (vc v) (fun i j => \poly_(k < vlen v) vent v k i j).
Proof.
move=> l0; rewrite /conv_pmat; case: eqP => [|_]; first by move: l0 => /[swap] ->.
case: eqP => [E|_].
  have [Hr Hc He] := conv_constE x (Cmat (vr v) (vc v) (vent v 0%N)); split=> // i j Hi Hj.
  rewrite He //= E; apply/polyP=> k; rewrite coefC coef_poly; by case: k.
split=> // i j Hi Hj /=.
set M0 := if _ then _ else _; move: M0 => M0.
pose f i j : P := Poly (mkseq (fun k => vent v k i j) (vlen v)).
transitivity (foldl (fun M t => upd2 M t.1 t.2 (f t.1 t.2)) M0 (ent_idx (vr v) (vc v)) i j); last first.
  by rewrite foldl_upd2 ent_idxP // /f Poly_mkseq.
congr (_ i j); rewrite -foldl_nest; apply: foldl_ext => M u; rewrite -foldl_nest; apply: foldl_ext => {}M jb.
rewrite -foldl_mapE; apply: (@eq_foldl_in _ [eqType of nat]) => {}M jj; rewrite mem_iota add0n => /andP[_ Hjj] /=.
congr upd2; rewrite /f !Poly_mkseq; apply/polyP=> k; rewrite !coef_poly; case: ifP => // Hk.
set raw := foldl _ _ _.
have -> : raw = foldl (fun V t => upd3 V t.1.1 t.1.2 t.2 (vent v t.2 t.1.1 t.1.2)) raw0
    (raw_idx u jb (minn cache_size (vc v - jb * cache_size)) (vlen v)).
  rewrite -foldl_nest; apply: foldl_ext => V kb; rewrite -foldl_nest; apply: foldl_ext => {}V j'.
  by rewrite -foldl_mapE.
by rewrite (foldl_upd3 (fun i j k => vent v k i j)) raw_idxP.
Qed.

Lemma conv_pmat_orderE x (v : vmat F) order : (0 < minn order (vlen v))%N ->
  is_pmat (conv_pmat_order x v order) (vr v) (vc v) (fun i j => \poly_(k < minn order (vlen v)) vent v k i j).
Proof.
move=> l0; rewrite /conv_pmat_order; case: eqP => [|_]; first by move: l0 => /[swap] ->.
by split=> // i j Hi Hj /=; rewrite winE // !add0n Hi Hj /= Poly_mkseq.
Qed.

Lemma set_coeff_ptrunc d (t : P) : set_coeff (ptrunc d t) d t`_d = ptrunc d.+1 t.
Proof.
apply/polyP=> k; rewrite set_coeffE !ptrunc_coef; case: (k =P d) => [->|N]; first by rewrite ltnSn.
by congr (if _ then _ else _); lia.
Qed.

Lemma set_coeff_loop m p (t : nat -> nat -> P) (R : nat -> fmat F) M len :
  (forall u v, (u < m)%N -> (v < p)%N -> M u v = 0) ->
  (forall d u v, (u < m)%N -> (v < p)%N -> R d u v = (t u v)`_d) ->
  (forall u v, (u < m)%N -> (v < p)%N -> (size (t u v) <= len)%N) ->
  forall u v, (u < m)%N -> (v < p)%N ->
  foldl (fun M d => win (fun u v M => set_coeff (M u v) d (R d u v)) 0 m 0 p M) M (iota 0 len) u v = t u v.
Proof.
move=> M0 HR Ht u v Hu Hv; rewrite -[RHS](@ptrunc_id _ len) ?Ht //.
elim: len {Ht} => [|n IH]; first by rewrite /= M0 //; apply/polyP=> k; rewrite ptrunc_coef coef0.
rewrite foldl_iotaR add0n winE; last by move=> i j A B ->.
by rewrite !add0n Hu Hv /= IH HR // set_coeff_ptrunc.
Qed.

Lemma pm_mulcE (al : bool) x a (b : cmat F) : nc a = cr b -> exists c, pm_mulc al x a b = AOk c /\
  is_pmat c (nr a) (cc b) (fun i j => \sum_(k < nc a) ent a i k * (cent b k j)%:P).
Proof.
move=> E; rewrite /pm_mulc E eqxx /=; eexists; split; first by [].
split=> // i j Hi Hj /=.
apply: (set_coeff_loop (t := fun i j => \sum_(k < cr b) ent a i k * (cent b k j)%:P) (R := fun d => fmul (cr b) (foldl (fun T u => foldl (fun T v => upd2 T u v (ent a u v)`_d) T (iota 0 (cr b)))
  (fun _ _ => 0) (iota 0 (nr a))) (cent b))) => //.
- by move=> u v Hu Hv; rewrite winE // !add0n Hu Hv.
- move=> d u v Hu Hv; rewrite /fmul coef_sum; apply: eq_bigr => k _.
  by rewrite (mat_loop (fun u v => (ent a u v)`_d)) Hu ltn_ord coefMC.
- move=> u v Hu Hv; apply/leq_sizeP => k Hk; rewrite coef_sum big1 // => l _.
  rewrite coefMC nth_default ?mul0r //; apply: leq_trans Hk; apply: plen_size => //; by rewrite E.
Qed.

Lemma pm_cmulE (al : bool) x (a : cmat F) b : cc a = nr b -> exists c, pm_cmul al x a b = AOk c /\
  is_pmat c (cr a) (nc b) (fun i j => \sum_(k < cc a) (cent a i k)%:P * ent b k j).
Proof.
move=> E; rewrite /pm_cmul E eqxx /=; eexists; split; first by [].
split=> // i j Hi Hj /=.
apply: (set_coeff_loop (t := fun i j => \sum_(k < nr b) (cent a i k)%:P * ent b k j) (R := fun d => fmul (nr b) (cent a) (foldl (fun T u => foldl (fun T v => upd2 T u v (ent b u v)`_d) T (iota 0 (nc b)))
  (fun _ _ => 0) (iota 0 (nr b))))) => //.
- by move=> u v Hu Hv; rewrite winE // !add0n Hu Hv.
- move=> d u v Hu Hv; rewrite /fmul coef_sum; apply: eq_bigr => k _.
  by rewrite (mat_loop (fun u v => (ent b u v)`_d)) Hv ltn_ord coefCM.
- move=> u v Hu Hv; apply/leq_sizeP => k Hk; rewrite coef_sum big1 // => l _.
  by rewrite coefCM nth_default ?mulr0 //; apply: leq_trans Hk; apply: plen_size.
Qed.
End Util.
