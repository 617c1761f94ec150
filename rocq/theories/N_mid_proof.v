(** Correctness of the middle product: values, and the part of the memory that is written. *)
From mathcomp Require Import all_ssreflect all_algebra zify.
From Verif Require Import A_base A_mul_model N_poly_model N_series_proof N_shift_proof N_mid_model.
Set Implicit Arguments.
Unset Strict Implicit.
Unset Printing Implicit Defensive.
Import GRing.Theory.
Local Open Scope ring_scope.

(** blocks [p, p+m) and [q, q+n) do not meet *)
Definition disj (p m q n : nat) : bool := (p + m <= q)%N || (q + n <= p)%N.

Section Mid.
Variable F : fieldType.
Local Notation mem := (mem F).
Implicit Types (M : mem).

Lemma mloopS s n p (g : mem -> nat -> F) M :
  (forall M' i, (s <= i < s + n)%N -> (forall x, ~~ (p + s <= x < p + i)%N -> M' x = M x) -> g M' i = g M i) ->
  forall x, foldl (fun M i => upd M (p + i)%N (g M i)) M (iota s n) x =
    if (p + s <= x < p + (s + n))%N then g M (x - p)%N else M x.
Proof.
elim: n => [|n IH] Hg x; first by rewrite addn0 ifF //; lia.
have {}IH := IH ltac:(by move=> M' i Hi H; apply: Hg => //; lia).
rewrite foldl_iotaR /upd; case: eqP => [->|NE].
  rewrite ifT; last by lia.
  rewrite addKn; apply: Hg => [|y Hy]; first by lia.
  by rewrite IH (negbTE Hy).
by rewrite IH; congr (if _ then _ else _); lia.
Qed.

Lemma mloopP n p (g : mem -> nat -> F) M :
  (forall M' i, (i < n)%N -> (forall x, ~~ (p <= x < p + i)%N -> M' x = M x) -> g M' i = g M i) ->
  forall x, mloop n p g M x = if (p <= x < p + n)%N then g M (x - p)%N else M x.
Proof.
by move=> H x; rewrite /mloop mloopS ?addn0 ?add0n // => M' i Hi Hx; apply: H => // y Hy; apply: Hx.
Qed.

Definition tsum (A C : nat -> F) sa j : F := \sum_(i < sa) A i * C (i + j)%N.

Lemma foldl_addE (g : nat -> F) s z : foldl (fun acc i => acc + g i) z s = z + \sum_(i <- s) g i.
Proof.
elim: s z => [|i s IH] z /=; first by rewrite big_nil addr0.
by rewrite IH big_cons addrA.
Qed.

Lemma tplainP ul M b sb a sa c : disj b sb a sa -> disj b sb c (sa + sb - 1) ->
  forall x, tplain ul M b sb a sa c x =
    if (b <= x < b + sb)%N then tsum (fun i => M (a + i)%N) (fun i => M (c + i)%N) sa (x - b) else M x.
Proof.
rewrite /disj => Da Dc; case: ul => x; rewrite /tplain.
  rewrite mloopP => [|M' j Hj H]; last first.
    rewrite !foldl_addE; congr (_ + _); apply: eq_big_seq => i; rewrite mem_iota => /andP[_ Hi].
    by congr (_ * _); apply: H; lia.
  case: ifP => // Hx; rewrite foldl_addE add0r -{1}[sa]subn0 big_mkord.
  by apply: eq_bigr => i _; rewrite mulrC.
set M0 := mloop sb b _ M.
have M0E y : M0 y = if (b <= y < b + sb)%N then 0 else M y by rewrite /M0 mloopP.
suff H n : (n <= sa)%N -> forall y, foldl (fun M i => mloop sb b (fun M j => M (c + (i + j))%N * M (a + i)%N + M (b + j)%N) M) M0 (iota 0 n) y =
    if (b <= y < b + sb)%N then \sum_(i < n) M (a + i)%N * M (c + (i + (y - b)))%N else M y.
  by rewrite H.
elim: n => [|n IH] Hn y; first by rewrite /= M0E big_ord0.
rewrite foldl_iotaR add0n; set M1 := foldl _ _ _ in IH *.
have {}IH := IH (ltnW Hn).
rewrite mloopP => [|M' i Hi H]; last by congr (_ * _ + _); apply: H; lia.
case: ifP => Hy; last by rewrite IH Hy.
rewrite big_ord_recr /= addrC; congr (_ + _); first by rewrite IH ifT subnKC //; lia.
by rewrite mulrC; congr (_ * _); rewrite IH ifF //; lia.
Qed.

Lemma kar_foldP M T a sa hs : (hs <= sa <= 2 * hs)%N -> disj T hs a sa ->
  forall x, kar_fold_sub M T a sa hs x = if (T <= x < T + hs)%N then
     (if (x - T < sa - hs)%N then M (a + (hs + (x - T)))%N else 0) - M (a + (x - T))%N else M x.
Proof.
rewrite /disj => Hs D x; rewrite /kar_fold_sub.
set M1 := mloop _ _ _ M.
have M1E y : M1 y = if (T <= y < T + (sa - hs))%N then M (a + (hs + (y - T)))%N - M (a + (y - T))%N else M y.
  by rewrite /M1 mloopP // => M' i Hi H; congr (_ - _); apply: H; lia.
rewrite mloopS => [|M' i Hi H]; last by congr (_ - _); apply: H; lia.
case: ifP => C1.
  rewrite [in RHS]ifT; last by lia.
  rewrite [in RHS]ifF; last by lia.
  by congr (_ - _); rewrite M1E ifF //; lia.
rewrite M1E; case: ifP => C2.
  by rewrite !ifT //; lia.
by rewrite ifF //; lia.
Qed.

(** the scratch space needed for sizes at most n *)
Fixpoint need (fuel KARX n : nat) : nat :=
  if fuel is fuel'.+1 then
    if (n < KARX)%N then 0%N else (4 * uphalf n - 1 + need fuel' KARX (uphalf n))%N
  else 0%N.

Lemma needE fuel KARX n : (1 < KARX)%N -> (n <= fuel)%N -> (KARX <= n)%N ->
  need fuel KARX n = (4 * uphalf n - 1 + need fuel.-1 KARX (uphalf n))%N.
Proof. by move=> HK Hf Hn; case: fuel Hf => [|fuel] Hf /=; [lia|rewrite ltnNge Hn]. Qed.

Lemma kar_stk_sizeP fuel KARX n : (1 < KARX)%N -> (0 < n)%N -> (n <= fuel)%N ->
  exists2 s, kar_stk_size fuel KARX n = Some s & (need fuel KARX n <= s)%N.
Proof.
move=> HK; elim: fuel n => [|fuel IH] n Hn Hf; first by lia.
rewrite /=; case: (leqP KARX (uphalf n)) => C.
  have [s -> Hs] := IH (uphalf n) ltac:(lia) ltac:(lia).
  by eexists; first by []; case: ifP => _ //; rewrite leq_add2l.
eexists; first by [].
case: ifP => // _; case: fuel IH Hf => [|fuel] IH Hf /=; first by rewrite addn0.
by rewrite C addn0.
Qed.

Definition ok M b sb a sa c stk n fuel KARX (r : option mem) : Prop :=
  exists2 M', r = Some M' &
    forall x, (~~ (stk <= x < stk + need fuel KARX n)%N) ->
    M' x = if (b <= x < b + sb)%N then tsum (fun i => M (a + i)%N) (fun i => M (c + i)%N) sa (x - b) else M x.

Lemma tsum_split (A C : nat -> F) h sa j : (h <= sa)%N ->
  tsum A C sa j = tsum A C h j + tsum (fun i => A (h + i)%N) (fun i => C (h + i)%N) (sa - h) j.
Proof.
move=> H; have [k ->] : exists k, sa = (h + k)%N by exists (sa - h)%N; lia.
rewrite addKn /tsum big_split_ord /=; congr (_ + _).
by apply: eq_bigr => i _; rewrite addnA.
Qed.

Lemma eq_tsum (A A' C C' : nat -> F) sa j : (forall i, (i < sa)%N -> A i = A' i) ->
  (forall i, (j <= i < sa + j)%N -> C i = C' i) -> tsum A C sa j = tsum A' C' sa j.
Proof. by move=> HA HC; apply: eq_bigr => i _; rewrite HA // HC //; have := ltn_ord i; lia. Qed.

Lemma disj_sub p m q n p' m' q' n' : disj p m q n -> (p <= p')%N -> (p' + m' <= p + m)%N ->
  (q <= q')%N -> (q' + n' <= q + n)%N -> disj p' m' q' n'.
Proof. rewrite /disj; lia. Qed.
Lemma disj_sym p m q n : disj p m q n -> disj q n p m.
Proof. by rewrite /disj orbC. Qed.
Lemma disj_out p m q n y : disj p m q n -> (q <= y < q + n)%N -> (p <= y < p + m)%N = false.
Proof. rewrite /disj; lia. Qed.

Ltac dsub D := by apply: (disj_sub D); lia.
Ltac din := by rewrite /disj; lia.

Lemma tkarP fuel KARX ul M b sb a sa c stk n : (1 < KARX)%N -> (0 < sa)%N -> (0 < sb)%N ->
  (sa <= n)%N -> (sb <= n)%N -> (n <= fuel)%N ->
  disj b sb a sa -> disj b sb c (sa + sb - 1) ->
  disj stk (need fuel KARX n) b sb -> disj stk (need fuel KARX n) a sa ->
  disj stk (need fuel KARX n) c (sa + sb - 1) ->
  ok M b sb a sa c stk n fuel KARX (tkar fuel KARX ul M b sb a sa c (sa + sb - 1) stk).
Proof.
move=> HK; elim: fuel n M b sb a sa c stk => [|fuel IH] n M b sb a sa c stk; first by lia.
move=> Ha Hb Han Hbn Hn Dba Dbc Dsb Dsa Dsc.
case C1: ((sa < KARX)%N || (sb < KARX)%N).
  by exists (tplain ul M b sb a sa c) => [|x Hx]; rewrite ?tplainP //= C1.
have nK : (KARX <= n)%N by lia.
have hn1 : (uphalf n <= fuel)%N by lia.
have [K1 K2] : (KARX <= sa)%N /\ (KARX <= sb)%N by lia.
have Hh : (2 * uphalf n <= n.+1)%N by lia.
have Hh' : (n <= 2 * uphalf n)%N by lia.
rewrite /= C1 /ok; move: Dsb Dsa Dsc; rewrite (needE HK) // [fuel.+1.-1]/=.
move: {C1} (uphalf n) hn1 Hh Hh' => hn hn1 Hh Hh'; set W := need fuel KARX hn => Dsb Dsa Dsc.
have [Ha1 Ha2] : (2 * uphalf sa <= sa.+1)%N /\ (sa <= 2 * uphalf sa)%N by lia.
have [Hb1 Hb2] : (2 * uphalf sb <= sb.+1)%N /\ (sb <= 2 * uphalf sb)%N by lia.
move: (uphalf sa) (uphalf sb) Ha1 Ha2 Hb1 Hb2 => ha hb Ha1 Ha2 Hb1 Hb2.
have AB y : (a <= y < a + sa)%N -> (b <= y < b + sb)%N = false by exact: disj_out.
have CB y : (c <= y < c + (sa + sb - 1))%N -> (b <= y < b + sb)%N = false by exact: disj_out.
have BS y : (b <= y < b + sb)%N -> (stk <= y < stk + (4 * hn - 1 + W))%N = false by exact: disj_out.
have AS y : (a <= y < a + sa)%N -> (stk <= y < stk + (4 * hn - 1 + W))%N = false by exact: disj_out.
have CS y : (c <= y < c + (sa + sb - 1))%N -> (stk <= y < stk + (4 * hn - 1 + W))%N = false by exact: disj_out.
have pt y : [/\ (a <= y < a + sa)%N -> (b <= y < b + sb)%N = false /\ (stk <= y < stk + (4 * hn - 1 + W))%N = false,
   (c <= y < c + (sa + sb - 1))%N -> (b <= y < b + sb)%N = false /\ (stk <= y < stk + (4 * hn - 1 + W))%N = false
   & (b <= y < b + sb)%N -> (stk <= y < stk + (4 * hn - 1 + W))%N = false].
  by split=> Hy; [split; [exact: AB|exact: AS]|split; [exact: CB|exact: CS]|exact: BS].
clear AB CB BS AS CS.
case: ifP => [/andP[C2a C2b]|C2].
  rewrite (_ : (sa + sb - 1 - ha = sa - ha + sb - 1)%N); last by lia.
  rewrite (_ : minn (sb + ha - 1) (sa + sb - 1) = (ha + sb - 1)%N); last by lia.
  have [M1 -> H1] := IH hn M b sb (a + ha)%N (sa - ha)%N (c + ha)%N (stk + sb)%N
    ltac:(lia) ltac:(lia) ltac:(lia) ltac:(lia) ltac:(lia) ltac:(dsub Dba) ltac:(dsub Dbc) ltac:(rewrite -/W; dsub Dsb) ltac:(rewrite -/W; dsub Dsa) ltac:(rewrite -/W; dsub Dsc).
  rewrite /=.
  have [M2 -> H2] := IH hn M1 stk sb a ha c (stk + sb)%N
    ltac:(lia) ltac:(lia) ltac:(lia) ltac:(lia) ltac:(lia) ltac:(dsub Dsa) ltac:(dsub Dsc) ltac:(rewrite -/W; din) ltac:(rewrite -/W; dsub Dsa) ltac:(rewrite -/W; dsub Dsc).
  rewrite /=; rewrite -/W in H1 H2.
  eexists => [//|x Hx].
  rewrite /kar_add mloopP => [|M' i Hi H]; last by have [_ _ P3] := pt (stk + i)%N; rewrite !H //; lia.
  case: ifP => C3; last first.
    rewrite H2; last by lia.
    rewrite ifF; last by lia.
    by rewrite H1 ?C3 //; lia.
  rewrite subnKC; last by lia.
  rewrite [M2 x]H2; last by lia.
  rewrite ifF; last by lia.
  rewrite H1; last by lia.
  rewrite ifT // H2; last by lia.
  rewrite ifT; last by lia.
  rewrite addKn (@tsum_split _ _ ha sa); last by lia.
  rewrite [RHS]addrC; congr (_ + _); apply: eq_tsum => i Hi; rewrite ?addnA //.
    by have [P1 _ _] := pt (a + i)%N; rewrite H1 ?ifF //; lia.
  by have [_ P2 _] := pt (c + i)%N; rewrite H1 ?ifF //; lia.
case: ifP => [/andP[C3a C3b]|C3].
  rewrite (_ : (sa + sb - 1 - hb = sa + (sb - hb) - 1)%N); last by lia.
  rewrite (_ : minn (sa + hb - 1) (sa + sb - 1) = (sa + hb - 1)%N); last by lia.
  have [M1 -> H1] := IH hn M b hb a sa c stk
    ltac:(lia) ltac:(lia) ltac:(lia) ltac:(lia) ltac:(lia) ltac:(dsub Dba) ltac:(dsub Dbc) ltac:(rewrite -/W; dsub Dsb) ltac:(rewrite -/W; dsub Dsa) ltac:(rewrite -/W; dsub Dsc).
  rewrite /=.
  have [M2 -> H2] := IH hn M1 (b + hb)%N (sb - hb)%N a sa (c + hb)%N stk
    ltac:(lia) ltac:(lia) ltac:(lia) ltac:(lia) ltac:(lia) ltac:(dsub Dba) ltac:(dsub Dbc) ltac:(rewrite -/W; dsub Dsb) ltac:(rewrite -/W; dsub Dsa) ltac:(rewrite -/W; dsub Dsc).
  rewrite /=; rewrite -/W in H1 H2.
  eexists => [//|x Hx]; rewrite H2; last by lia.
  case: ifP => C4.
    rewrite ifT; last by lia.
    rewrite /tsum; apply: eq_bigr => i _; have := ltn_ord i => Hi.
    have [P1 _ _] := pt (a + i)%N; have [_ P2 _] := pt (c + hb + (i + (x - (b + hb))))%N.
    rewrite !H1; try lia.
    rewrite !ifF; try lia.
    by clear P1 P2; congr (_ * M _); lia.
  rewrite H1; last by lia.
  case: ifP => C5; first by rewrite ifT //; lia.
  by rewrite ifF //; lia.
set hs := (if (sa < sb)%N then hb else ha).
have [h1 h2 h3 h4] : [/\ (hs < sa)%N, (hs < sb)%N, (sa <= 2 * hs)%N & (sb <= 2 * hs)%N].
  by rewrite /hs; case: ifP => C4; split; lia.
have h5 : (hs <= hn)%N by rewrite /hs; case: ifP => C4; lia.
have h6 : (3 * hs <= sa + sb)%N by rewrite /hs; case: ifP => C4; lia.
move: {C2 C3} hs h1 h2 h3 h4 h5 h6 => hs h1 h2 h3 h4 h5 h6; clear Ha1 Ha2 Hb1 Hb2 ha hb.
set M0 := kar_fold_sub M stk a sa hs.
have H0 := @kar_foldP M stk a sa hs ltac:(lia) ltac:(dsub Dsa).
rewrite -/M0 in H0.
rewrite (_ : minn (2 * hs - 1) (sa + sb - 1 - hs) = (hs + hs - 1)%N); last by lia.
rewrite (_ : (sa + sb - 1 - 2 * hs = (sa - hs) + (sb - hs) - 1)%N); last by lia.
rewrite (_ : (2 * hs - 1 = hs + hs - 1)%N); last by lia.
have [M1 -> H1] := IH hn M0 b hs stk hs (c + hs)%N (stk + (2 * hs + hs))%N
    ltac:(lia) ltac:(lia) ltac:(lia) ltac:(lia) ltac:(lia) ltac:(dsub (disj_sym Dsb)) ltac:(dsub Dbc) ltac:(rewrite -/W; dsub Dsb) ltac:(rewrite -/W; din) ltac:(rewrite -/W; dsub Dsc).
rewrite [obind _ _]/=; rewrite -/W in H1.
rewrite (_ : (minn (sa + sb - 1) (sa + sb - 1 - hs) - (sa + sb - 1 - hs) = 0)%N); last by lia.
rewrite (_ : (maxn (sa + sb - 1 - hs) (minn (sa + sb - 1) (sa + sb - 1 - hs)) = sa + sb - 1 - hs)%N); last by lia.
rewrite subnn [foldl _ _ (iota _ 0)]/=.
set M2 := kar_add2 M1 stk (c + hs) c (sa + sb - 1 - hs).
have H2 x : M2 x = if (stk <= x < stk + (sa + sb - 1 - hs))%N then M1 (c + hs + (x - stk))%N + M1 (c + (x - stk))%N else M1 x.
  rewrite /M2 /kar_add2 mloopP // => M' i Hi H.
  by have [_ P1 _] := pt (c + hs + i)%N; have [_ P2 _] := pt (c + i)%N; congr (_ + _); apply: H; lia.
have [M3 -> H3] := IH hn M2 (b + hs)%N (sb - hs)%N (a + hs)%N (sa - hs)%N (stk + hs)%N (stk + (2 * hs + hs))%N
    ltac:(lia) ltac:(lia) ltac:(lia) ltac:(lia) ltac:(lia) ltac:(dsub Dba) ltac:(dsub (disj_sym Dsb)) ltac:(rewrite -/W; dsub Dsb) ltac:(rewrite -/W; dsub Dsa) ltac:(rewrite -/W; din).
rewrite [obind _ _]/=; rewrite -/W in H3.
set M4 := kar_sub M3 (b + hs) b (sb - hs).
have H4 x : M4 x = if (b + hs <= x < b + hs + (sb - hs))%N then M3 x - M3 (b + (x - (b + hs)))%N else M3 x.
  rewrite /M4 /kar_sub mloopP => [|M' i Hi H]; last by congr (_ - _); apply: H; lia.
  by case: ifP => // Cx; congr (M3 _ - _); lia.
have [M5 -> H5] := IH hn M4 (stk + hs + hs)%N hs a hs stk (stk + (2 * hs + hs))%N
    ltac:(lia) ltac:(lia) ltac:(lia) ltac:(lia) ltac:(lia) ltac:(dsub Dsa) ltac:(din) ltac:(rewrite -/W; din) ltac:(rewrite -/W; dsub Dsa) ltac:(rewrite -/W; din).
rewrite [omap _ _]/=; rewrite -/W in H5.
eexists => [//|x Hx].
rewrite /kar_add mloopP => [|M' i Hi H]; last by have [_ _ P3] := pt (stk + hs + hs + i)%N; congr (_ + _); apply: H; lia.
(* memory outside *)
have Mout y : ~~ (b <= y < b + sb)%N -> ~~ (stk <= y < stk + (4 * hn - 1 + W))%N -> 
    [/\ M0 y = M y, M1 y = M y, M2 y = M y, M3 y = M y & M4 y = M y].
  move=> Y1 Y2; have E0 : M0 y = M y by rewrite H0 ifF //; lia.
  have E1 : M1 y = M y by rewrite H1 ?ifF //; lia.
  have E2 : M2 y = M y by rewrite H2 ifF //; lia.
  have E3 : M3 y = M y by rewrite H3 ?ifF //; lia.
  by split=> //; rewrite H4 ifF //; lia.
have Aout i : (i < sa)%N -> [/\ M0 (a + i)%N = M (a + i)%N, M1 (a + i)%N = M (a + i)%N, M2 (a + i)%N = M (a + i)%N, M3 (a + i)%N = M (a + i)%N & M4 (a + i)%N = M (a + i)%N].
  by move=> Hi; have [P1 _ _] := pt (a + i)%N; apply: Mout; lia.
have Cout i : (i < sa + sb - 1)%N -> [/\ M0 (c + i)%N = M (c + i)%N, M1 (c + i)%N = M (c + i)%N, M2 (c + i)%N = M (c + i)%N, M3 (c + i)%N = M (c + i)%N & M4 (c + i)%N = M (c + i)%N].
  by move=> Hi; have [_ P1 _] := pt (c + i)%N; apply: Mout; lia.
have TE i : (i < sa + sb - 1 - hs)%N -> M2 (stk + i)%N = M (c + (hs + i))%N + M (c + i)%N.
  move=> Hi; rewrite H2 ifT; last by lia.
  rewrite addKn -addnA; congr (_ + _).
    by have [] := Cout (hs + i)%N ltac:(lia).
  by have [] := Cout i ltac:(lia).
pose al j := tsum (fun i => M (a + (hs + i))%N) (fun i => M (c + (hs + i))%N) (sa - hs) j - tsum (fun i => M (a + i)%N) (fun i => M (c + (hs + i))%N) hs j.
have AL j : (j < hs)%N -> M1 (b + j)%N = al j.
  move=> Hj; have [_ _ P3] := pt (b + j)%N; rewrite H1; last by lia.
  rewrite ifT; last by lia.
  rewrite addKn /al /tsum.
  rewrite (big_ord_widen hs (fun i => M (a + (hs + i))%N * M (c + (hs + (i + j)))%N)); last by lia.
  rewrite [X in _ = X - _]big_mkcond -sumrB; apply: eq_bigr => i _; have := ltn_ord i => Hi.
  rewrite H0 ifT; last by lia.
  rewrite addKn -addnA; have [-> _ _ _ _] := Cout (hs + (i + j))%N ltac:(lia).
  by case: ifP => _; rewrite mulrBl ?mul0r.
have B3 j : (j < hs)%N -> M3 (b + j)%N = al j.
  move=> Hj; have [_ _ P3] := pt (b + j)%N; rewrite H3; last by lia.
  rewrite ifF; last by lia.
  by rewrite H2 ifF ?AL //; lia.
case: ifP => C6.
  rewrite [in RHS]ifT; last by lia.
  have Ex : (b + (x - b) = x)%N by lia.
  rewrite Ex [M5 x]H5; last by lia.
  rewrite ifF; last by lia.
  rewrite H4 ifF; last by lia.
  rewrite -{1}Ex B3; last by lia.
  rewrite H5; last by lia.
  rewrite ifT; last by lia.
  rewrite addKn (@tsum_split _ _ hs sa); last by lia.
  rewrite /al -addrA addrC; congr (_ + _); rewrite addrC.
  rewrite /tsum -sumrB; apply: eq_bigr => i _; have := ltn_ord i => Hi.
  have [_ _ _ _ ->] := Aout i ltac:(lia).
  have [_ _ P3] := pt (stk + (i + (x - b)))%N.
  rewrite H4 ifF; last by lia.
  rewrite H3; last by lia.
  rewrite ifF; last by lia.
  by rewrite TE ?mulrDr ?addrK //; [rewrite addrC addKr|lia].
rewrite H5; last by lia.
rewrite ifF; last by lia.
rewrite H4; case: ifP => C7; last first.
  rewrite ifF; last by lia.
  rewrite H3; last by lia.
  rewrite ifF; last by lia.
  rewrite H2 ifF; last by lia.
  rewrite H1; last by lia.
  by rewrite ifF ?H0 ?ifF //; lia.
rewrite ifT; last by lia.
rewrite H3; last by lia.
rewrite ifT; last by lia.
rewrite B3; last by lia.
rewrite (@tsum_split _ _ hs sa); last by lia.
rewrite /al opprB addrCA; congr (_ + _).
  by rewrite /tsum; apply: eq_bigr => i _; congr (_ * M _); lia.
rewrite /tsum -sumrB; apply: eq_bigr => i _; have := ltn_ord i => Hi.
rewrite -!addnA; have [_ _ -> _ _] := Aout (hs + i)%N ltac:(lia).
rewrite TE; last by lia.
rewrite mulrDr (_ : (hs + (i + (x - (b + hs))) = (i + (x - b)))%N); last by lia.
by rewrite addrK.
Qed.
End Mid.
