(** Bilinear transforms: the forward and backward maps give products of polynomials and of matrices. *)
From Coq Require Import Ring.
From mathcomp Require Import all_ssreflect all_algebra zify.
From Verif Require Import A_base A_mul_model N_series_proof N_shift_proof N_multi_model N_multi_proof N_pmat_model N_trs_model.
Set Implicit Arguments.
Unset Strict Implicit.
Unset Printing Implicit Defensive.
Import GRing.Theory.
Local Open Scope ring_scope.

Lemma eq_foldl_in (S : Type) (T : eqType) (f g : S -> T -> S) x s :
  (forall st i, i \in s -> f st i = g st i) -> foldl f x s = foldl g x s.
Proof.
elim: s x => //= i s IH x H; rewrite H ?mem_head // IH // => st j Hj.
by apply: H; rewrite in_cons Hj orbT.
Qed.

Section Deg.
Variable F : fieldType.
Local Notation P := {poly F}.

Lemma plenP (a : pmat F) d : (plen a <= d)%N <-> forall i j, (i < nr a)%N -> (j < nc a)%N -> (size (ent a i j) <= d)%N.
Proof.
have R e0 i n : (foldl (fun e j => if (e < size (ent a i j))%N then size (ent a i j) else e) e0 (iota 0 n) <= d)%N
    <-> (e0 <= d)%N /\ forall j, (j < n)%N -> (size (ent a i j) <= d)%N.
  elim: n => [|n IH]; first by split=> [H|[]].
  rewrite foldl_iotaR add0n; move: (foldl _ _ _) IH => e IH.
  case: ltnP => H; split=> H2.
  - have /IH[H0 H1] : (e <= d)%N by lia.
    by split=> // j; rewrite ltnS leq_eqVlt => /orP[/eqP->|/H1].
  - by case: H2 => _; apply.
  - have [H0 H1] := (IH.1 H2); split=> // j; rewrite ltnS leq_eqVlt => /orP[/eqP->|/H1//].
    exact: leq_trans H _.
  - by apply/IH; case: H2 => H0 H1; split=> // j Hj; apply: H1; lia.
rewrite /plen; elim: (nr a) => [|n IH]; first by split.
rewrite foldl_iotaR add0n; move: (foldl _ 0%N _) IH => e IH; split.
  by move=> /R[/IH H0 H1] i j; rewrite ltnS leq_eqVlt => /orP[/eqP->|Hi]; [exact: H1|exact: H0].
by move=> H; apply/R; split=> [|j Hj]; [apply/IH=> i j Hi Hj; apply: H; lia|apply: H].
Qed.
Lemma plen_size (a : pmat F) i j : (i < nr a)%N -> (j < nc a)%N -> (size (ent a i j) <= plen a)%N.
Proof. by move: i j; apply/plenP. Qed.

Lemma ptrunc_id d (p : P) : (size p <= d)%N -> ptrunc d p = p.
Proof.
move=> H; apply/polyP=> i; rewrite coef_poly; case: ltnP => // L.
by rewrite nth_default // (leq_trans H).
Qed.
Lemma ptrunc_coef d (p : P) i : (ptrunc d p)`_i = if (i < d)%N then p`_i else 0.
Proof. exact: coef_poly. Qed.
Lemma size_ptrunc d (p : P) : (size (ptrunc d p) <= d)%N. Proof. exact: size_poly. Qed.
End Deg.

Section Proof.
Variable F : fieldType.
Local Notation P := {poly F}.
Local Notation arr := (nat -> F).
Implicit Types (f g p : P) (v w val : arr).

Lemma set_coeffE p i (c : F) k : (set_coeff p i c)`_k = if k == i then c else p`_k.
Proof.
rewrite coef_poly; case: ltnP => [//|H]; case: eqP => [E|_]; first by move: H; rewrite E; lia.
by rewrite nth_default //; move: H; rewrite geq_max => /andP[].
Qed.

(** ** the naive transform *)
Lemma naive_readE val i cnt p idx :
  naive_read val i cnt (p, idx) = (set_coeff p i (\sum_(j < cnt.+1) val (idx + j)%N), (idx + cnt.+1)%N).
Proof.
rewrite /naive_read; suff -> : foldl (fun (st : F * nat) j => (st.1 + val st.2, st.2.+1)) (val idx, idx.+1) (iota 1 cnt)
  = (\sum_(j < cnt.+1) val (idx + j)%N, (idx + cnt.+1)%N) by [].
elim: cnt => [|c IH]; first by rewrite /= big_ord_recl big_ord0 addr0 addn0 addn1.
by rewrite foldl_iotaR IH /= [in RHS]big_ord_recr /=; congr (_, _); rewrite -addnS.
Qed.

Section Naive.
Variable m : nat.
Hypothesis m0 : (0 < m)%N.
Definition seglen i : nat := if (i < m)%N then i.+1 else (2 * m - 1 - i)%N.
Definition segoff i : nat := (\sum_(r < i) seglen r)%N.
Let N := (2 * m - 1)%N.

Lemma naive_backE val i : (naive_back m val)`_i =
  if (i < N)%N then \sum_(j < seglen i) val (segoff i + j)%N else 0.
Proof.
rewrite /naive_back.
have -> : foldl (fun st i => naive_read val i (2 * m - 2 - i) st)
     (foldl (fun st i => naive_read val i i st) (0, 0%N) (iota 0 m)) (iota m m.-1)
   = foldl (fun st i => naive_read val i (seglen i).-1 st) (0, 0%N) (iota 0 N).
  rewrite (_ : N = m + m.-1)%N; last by rewrite /N; lia.
  rewrite iotaD foldl_cat add0n.
  have -> : foldl (fun st i => naive_read val i i st) (0, 0%N) (iota 0 m) =
            foldl (fun st i => naive_read val i (seglen i).-1 st) (0, 0%N) (iota 0 m).
    by apply: (@eq_foldl_in _ [eqType of nat]) => st r; rewrite mem_iota /seglen add0n => /andP[_ ->].
  apply: (@eq_foldl_in _ [eqType of nat]) => st r; rewrite mem_iota /seglen => /andP[H1 H2].
  by rewrite ltnNge H1 /=; congr naive_read; lia.
suff H n : (n <= N)%N -> foldl (fun st i => naive_read val i (seglen i).-1 st) (0, 0%N) (iota 0 n) =
   (\poly_(i < n) \sum_(j < seglen i) val (segoff i + j)%N, segoff n).
  by rewrite H // coef_poly.
elim: n => [|n IH] Hn; first by rewrite poly_def big_ord0 /segoff big_ord0.
rewrite foldl_iotaR add0n IH; last by lia.
have L : (0 < seglen n)%N by move: Hn; rewrite /seglen /N; case: (ltnP n m); lia.
rewrite naive_readE prednK // /segoff big_ord_recr /=; congr (_, _).
apply/polyP=> k; rewrite set_coeffE !coef_poly; case: eqP => [->|Nk]; first by rewrite ltnSn.
by rewrite (_ : (k < n.+1)%N = (k < n)%N) //; lia.
Qed.

(** reading a concatenation of segments *)
Lemma nth_flatten_off (ss : seq (seq F)) i j : (i < size ss)%N -> (j < size (nth [::] ss i))%N ->
  nth 0 (flatten ss) (\sum_(r < i) size (nth [::] ss r) + j)%N = nth 0 (nth [::] ss i) j.
Proof.
elim: ss i => // s ss IH [|i] /= Hi Hj; rewrite nth_cat; first by rewrite big_ord0 add0n Hj.
rewrite big_ord_recl /= ltnNge -addnA leq_addr /= addKn; exact: IH.
Qed.

Lemma naive_segs (sg : nat -> seq F) i j : (forall r, (r < N)%N -> size (sg r) = seglen r) ->
  (i < N)%N -> (j < seglen i)%N ->
  nth 0 (flatten [seq sg i | i <- iota 0 N]) (segoff i + j)%N = nth 0 (sg i) j.
Proof.
move=> Hs Hi Hj.
have Hn r : (r < N)%N -> nth [::] [seq sg i | i <- iota 0 N] r = sg r.
  by move=> Hr; rewrite (nth_map 0%N) ?size_iota // nth_iota.
have -> : segoff i = (\sum_(r < i) size (nth [::] [seq sg i | i <- iota 0 N] r))%N.
  by apply: eq_bigr => r _; rewrite Hn ?Hs //; move: (ltn_ord r); lia.
rewrite nth_flatten_off ?size_map ?size_iota // Hn // Hs //.
Qed.

Definition lseg f i := [seq f`_(minn i m.-1 - j) | j <- iota 0 (seglen i)].
Definition rseg f i := [seq f`_(i - m.-1 + j) | j <- iota 0 (seglen i)].

Lemma segs_split (sg s1 s2 : nat -> seq F) :
  (forall i, (i < m)%N -> s1 i = sg i) -> (forall i, (0 < i < m)%N -> s2 i = sg (m.-1 + i)%N) ->
  flatten [seq s1 i | i <- iota 0 m] ++ flatten [seq s2 i | i <- iota 1 m.-1] = flatten [seq sg i | i <- iota 0 N].
Proof.
move=> H1 H2; rewrite (_ : N = m + m.-1)%N; last by rewrite /N; lia.
rewrite iotaD map_cat flatten_cat add0n; congr (flatten _ ++ flatten _).
  by apply/eq_in_map=> i; rewrite mem_iota => /andP[_ Hi]; apply: H1.
have -> : iota m m.-1 = [seq (m.-1 + i)%N | i <- iota 1 m.-1].
  by rewrite -iotaDl; congr iota; lia.
rewrite -map_comp; apply/eq_in_map=> i; rewrite mem_iota => /andP[Hi1 Hi2] /=; apply: H2; lia.
Qed.

Lemma left_flat f : naive_left_seq m f = flatten [seq lseg f i | i <- iota 0 N].
Proof.
rewrite /naive_left_seq; apply: segs_split.
- move=> r Hr; apply: (@eq_from_nth _ 0); rewrite /lseg /seglen Hr !size_map size_rev !size_iota // => k Hk.
  rewrite !(nth_map 0%N) ?size_rev ?size_iota // nth_rev ?size_iota // !nth_iota ?subSS ?add0n; try lia.
  by congr (f`__); lia.
- move=> r Hr; rewrite /lseg /seglen ltnNge (_ : (m <= m.-1 + r)%N = true) /=; last by lia.
  apply: (@eq_from_nth _ 0); rewrite !size_map size_rev !size_iota; first by lia.
  move=> k Hk; rewrite !(nth_map 0%N) ?size_rev ?size_iota //; last by lia.
  rewrite nth_rev ?size_iota // !nth_iota; try lia.
  by congr (f`__); lia.
Qed.
Lemma right_flat f : naive_right_seq m f = flatten [seq rseg f i | i <- iota 0 N].
Proof.
rewrite /naive_right_seq; apply: segs_split.
- move=> r Hr; apply: (@eq_from_nth _ 0); rewrite /rseg /seglen Hr !size_map !size_iota // => k Hk.
  rewrite !(nth_map 0%N) ?size_iota // !nth_iota ?subSS ?add0n; try lia.
  by congr (f`__); lia.
- move=> r Hr; rewrite /rseg /seglen ltnNge (_ : (m <= m.-1 + r)%N = true) /=; last by lia.
  apply: (@eq_from_nth _ 0); rewrite !size_map !size_iota; first by lia.
  move=> k Hk; rewrite !(nth_map 0%N) ?size_iota //; last by lia.
  rewrite !nth_iota; try lia.
  by congr (f`__); lia.
Qed.

Lemma naive_leftE f i j : (i < N)%N -> (j < seglen i)%N -> naive_left m f (segoff i + j) = f`_(minn i m.-1 - j).
Proof.
move=> Hi Hj; rewrite /naive_left left_flat naive_segs //; last by move=> r Hr; rewrite /lseg size_map size_iota.
by rewrite /lseg (nth_map 0%N) ?size_iota // nth_iota.
Qed.
Lemma naive_rightE f i j : (i < N)%N -> (j < seglen i)%N -> naive_right m f (segoff i + j) = f`_(i - m.-1 + j).
Proof.
move=> Hi Hj; rewrite /naive_right right_flat naive_segs //; last by move=> r Hr; rewrite /rseg size_map size_iota.
by rewrite /rseg (nth_map 0%N) ?size_iota // nth_iota.
Qed.

Lemma segoff_end : segoff N = (m * m)%N.
Proof.
have A k : (k <= m)%N -> (segoff k * 2 = k * k.+1)%N.
  elim: k => [|k IH] Hk; first by rewrite /segoff big_ord0.
  by rewrite /segoff big_ord_recr /= mulnDl -/(segoff k) IH ?/seglen ?Hk; lia.
have B k : (k <= m.-1)%N -> (segoff (m + k) * 2 + (m - k) * (m.-1 - k) = m * m * 2)%N.
  elim: k => [|k IH] Hk; first by rewrite addn0 A // !subn0; nia.
  have := IH (ltnW Hk); rewrite addnS /segoff big_ord_recr /= -/(segoff _) /seglen ltnNge leq_addr /=.
  move: (segoff _) => s; have [l El] : exists l, m = (k + 2 + l)%N by exists (m - k - 2)%N; lia.
  have [E1 E2 E3] : [/\ m - k = l + 2, m.-1 - k = l + 1 & m - k.+1 = l + 1]%N by split; lia.
  have [E4 E5] : (m.-1 - k.+1 = l /\ 2 * m - 1 - (m + k) = l + 1)%N by split; lia.
  rewrite E1 E2 E3 E4 E5; clear; move: (m * m * 2)%N => q; nia.
have := B m.-1 (leqnn _); rewrite (_ : m + m.-1 = N)%N; last by rewrite /N; lia.
rewrite subnn muln0 addn0; lia.
Qed.
Lemma segoff_lt i j : (i < N)%N -> (j < seglen i)%N -> (segoff i + j < m * m)%N.
Proof.
move=> Hi Hj; rewrite -segoff_end.
have G d : (i.+1 + d <= N)%N -> (segoff i.+1 <= segoff (i.+1 + d))%N.
  by elim: d => [|d IH] H; rewrite ?addn0 // addnS {2}/segoff big_ord_recr /= -/(segoff _) (leq_trans (IH _)) ?leq_addr //; lia.
have := G (N - i.+1)%N; rewrite subnKC // => /(_ (leqnn _)).
by rewrite {1}/segoff big_ord_recr /= -/(segoff i); lia.
Qed.

Lemma naive_size f : size (naive_left_seq m f) = (m * m)%N /\ size (naive_right_seq m f) = (m * m)%N.
Proof.
have S (sg : nat -> seq F) : (forall r, (r < N)%N -> size (sg r) = seglen r) ->
  size (flatten [seq sg i | i <- iota 0 N]) = (m * m)%N.
  move=> H; rewrite -segoff_end /segoff; move: H; elim: (N) => [|n IH] H; first by rewrite big_ord0.
  rewrite -addn1 iotaD map_cat flatten_cat size_cat /= cats0 add0n IH; last by move=> r Hr; apply: H; lia.
  by rewrite addn1 big_ord_recr /= H.
by rewrite left_flat right_flat !S // => r _; rewrite size_map size_iota.
Qed.

Lemma naive_mul f g : naive_back m (fun j => naive_left m f j * naive_right m g j) = ptrunc m f * ptrunc m g.
Proof.
apply/polyP=> i; rewrite naive_backE; case: ltnP => Hi; last first.
  rewrite nth_default // (leq_trans (size_mul_leq _ _)) //.
  by have := size_ptrunc m f; have := size_ptrunc m g; move: (size _) (size _) => x y; rewrite /N in Hi; lia.
rewrite coefMr -(big_mkord xpredT (fun j => (ptrunc m f)`_(i - j) * (ptrunc m g)`_j)).
rewrite (big_cat_nat _ (n := (i - m.-1)%N)) //=; last by lia.
rewrite [X in _ = X + _]big_nat_cond [X in _ = X + _]big1 ?add0r; last first.
  by move=> j /andP[/andP[_ Hj] _]; rewrite ptrunc_coef ltnNge (_ : (m <= i - j)%N = true) ?mul0r //; lia.
rewrite (big_cat_nat _ (n := (i - m.-1 + seglen i)%N)) //=; try by move: Hi; rewrite /seglen /N; case: (ltnP i m); lia.
rewrite [X in _ = _ + X]big_nat_cond [X in _ = _ + X]big1 ?addr0; last first.
  move=> j /andP[/andP[Hj1 Hj2] _]; rewrite [X in _ * X]ptrunc_coef ltnNge (_ : (m <= j)%N = true) ?mulr0 //.
  by move: Hj1; rewrite /seglen; case: (ltnP i m); lia.
rewrite -{1}[(i - m.-1)%N]add0n big_addn addKn big_mkord; apply: eq_bigr => j _.
rewrite naive_leftE // naive_rightE // !ptrunc_coef.
have Hj := ltn_ord j; move: (nat_of_ord j) Hj => k; rewrite /seglen => Hk.
have [E1 E2] : ((i - (k + (i - m.-1)) < m) /\ (k + (i - m.-1) < m))%N.
  by move: Hk Hi; rewrite /N; case: ifP => [|/negbT]; clear -m0; lia.
rewrite E1 E2 addnC; congr (f`__ * _); clear E1 E2.
by move: Hk Hi; rewrite /N; case: ifP => [|/negbT]; clear -m0; lia.
Qed.

Lemma naive_back_ext v w : (forall j, (j < m * m)%N -> v j = w j) -> naive_back m v = naive_back m w.
Proof.
move=> H; apply/polyP=> i; rewrite !naive_backE; case: ltnP => // Hi.
by apply: eq_bigr => j _; apply: H; apply: segoff_lt.
Qed.
Lemma naive_back_add v w : naive_back m (fun j => v j + w j) = naive_back m v + naive_back m w.
Proof.
by apply/polyP=> i; rewrite coefD !naive_backE; case: ltnP => Hi; rewrite ?addr0 // -big_split.
Qed.
End Naive.

(** ** what is required of a transform *)
Definition trs_ok (T : trs F) : Prop :=
  [/\ forall v w, (forall j, (j < t_n T)%N -> v j = w j) -> t_back T v = t_back T w,
      forall v w, t_back T (fun j => v j + w j) = t_back T v + t_back T w
    & forall f g, t_back T (fun j => t_left T f j * t_right T g j) = ptrunc (t_m T) f * ptrunc (t_m T) g].

Lemma trs_naive_ok d : (0 < d)%N -> trs_ok (trs_naive F d).
Proof.
by move=> Hd; split=> /= *; [apply: naive_back_ext|apply: naive_back_add|apply: naive_mul].
Qed.

Let T0 : Type := GRing.Field.sort F.
Let r0 : T0 := 0.
Let r1 : T0 := 1.
Let ra (x y : T0) : T0 := x + y.
Let rm (x y : T0) : T0 := x * y.
Let ro (x : T0) : T0 := - x.
Let rs (x y : T0) : T0 := x - y.
Lemma trs_rt : @ring_theory T0 r0 r1 ra rm rs ro eq.
Proof.
rewrite /r0 /r1 /ra /rm /rs /ro.
split=> // *; rewrite ?add0r ?mul1r ?mulrDl ?addrN //;
  first [exact: addrC | exact: addrA | exact: mulrC | exact: mulrA].
Qed.
Add Ring trsring : trs_rt.
Ltac mring :=
  match goal with |- @eq _ ?x ?y => change (@eq T0 x y) end;
  repeat (first
    [ progress change (@GRing.opp ?z ?x) with (ro x)
    | progress change (@GRing.add ?z ?x ?y) with (ra x y)
    | progress change (@GRing.mul ?z ?x ?y) with (rm x y)
    | progress change (GRing.zero ?z) with r0
    | progress change (GRing.one ?z) with r1 ]);
  ring.

Lemma trunc_mul_big m f g i : (2 * m - 1 <= i)%N -> (ptrunc m f * ptrunc m g)`_i = 0.
Proof.
move=> H; rewrite nth_default // (leq_trans (size_mul_leq _ _)) //.
by have := size_ptrunc m f; have := size_ptrunc m g; move: (size _) (size _) => x y; lia.
Qed.

Lemma trs_kara_ok : trs_ok (trs_kara F).
Proof.
split=> [v w H|v w|f g] /=.
- by rewrite /kara_back !H.
- apply/polyP=> i; rewrite coefD /kara_back !set_coeffE !coef0.
  by case: i => [|[|[|i]]] //=; mring.
- apply/polyP=> i; rewrite /kara_back /kara_left !set_coeffE coef0.
  case: i => [|[|[|i]]]; last by rewrite trunc_mul_big.
  all: by rewrite coefM !big_ord_recl big_ord0 /= /bump /= ?add1n ?subSS ?subn0 !ptrunc_coef /=; mring.
Qed.

Lemma trs_mont_ok : trs_ok (trs_mont F).
Proof.
split=> [v w H|v w|f g] /=.
- by rewrite /mont_back !H.
- apply/polyP=> i; rewrite coefD /mont_back !set_coeffE !coef0.
  by case: i => [|[|[|[|[|i]]]]] //=; mring.
- apply/polyP=> i; rewrite /mont_back /mont_left !set_coeffE coef0.
  case: i => [|[|[|[|[|i]]]]]; last by rewrite trunc_mul_big.
  all: by rewrite coefM !big_ord_recl big_ord0 /= /bump /= ?add1n ?subSS ?subn0 !ptrunc_coef /=; mring.
Qed.

Lemma trs_kara4_ok : trs_ok (trs_kara4 F).
Proof.
split=> [v w H|v w|f g] /=.
- by rewrite /kara4_back !H.
- apply/polyP=> i; rewrite coefD /kara4_back !coef_Poly.
  by case: i => [|[|[|[|[|[|[|i]]]]]]] /=; rewrite ?nth_nil; mring.
- apply/polyP=> i; rewrite /kara4_back /kara4_left !coef_Poly.
  case: i => [|[|[|[|[|[|[|i]]]]]]]; last by rewrite trunc_mul_big //= nth_nil.
  all: by rewrite coefM !big_ord_recl big_ord0 /= /bump /= ?add1n ?subSS ?subn0 !ptrunc_coef /=; mring.
Qed.

(** ** matrices *)
Section Mat.
Variable T : trs F.
Hypothesis HT : trs_ok T.

Lemma back_sum t (v : nat -> arr) : t_back T (fun j => \sum_(k < t) v k j) = \sum_(k < t) t_back T (v k).
Proof.
have [Hx Ha _] := HT; elim: t => [|t IH].
  rewrite big_ord0.
  have E : t_back T (fun=> 0) = t_back T (fun=> 0) + t_back T (fun=> 0).
    by rewrite -Ha; apply: Hx => j _; rewrite addr0.
  rewrite (Hx _ (fun=> 0)); last by move=> j _; rewrite big_ord0.
  by apply: (addIr (t_back T (fun=> 0))); rewrite add0r -E.
rewrite big_ord_recr /= -IH -Ha; apply: Hx => j _; exact: big_ord_recr.
Qed.

Lemma mul_trsE a b : (0 < t_n T)%N -> nc a = nr b -> exists c, mul_trs T a b = AOk c /\
  is_pmat c (nr a) (nc b) (fun i j => \sum_(k < nc a) ptrunc (t_m T) (ent a i k) * ptrunc (t_m T) (ent b k j)).
Proof.
move=> n0 E; rewrite /mul_trs (_ : (t_n T == 0)%N = false) ?E ?eqxx /=; last by lia.
eexists; split; first by []; split=> //= i j Hi Hj.
have [tmp [Ht ->]] := @interpolate_matrixE F (t_n T) (t_back T) _ _
  (fun l => fmul (nr b) (t_interpolate_matrix (t_n T) (t_left T) (nr a) (nr b) (ent a) (fun _ _ _ => 0) l)
                        (t_interpolate_matrix (t_n T) (t_right T) (nr b) (nc b) (ent b) (fun _ _ _ => 0) l))
  (fun _ _ => 0) _ _ Hi Hj.
have [Hx _ Hm] := HT.
rewrite (Hx _ (fun l => \sum_(k < nr b) t_left T (ent a i k) l * t_right T (ent b k j) l)).
  by rewrite (back_sum _ (fun k l => t_left T (ent a i k) l * t_right T (ent b k j) l)); apply: eq_bigr => k _; exact: Hm.
move=> l Hl; rewrite Ht // /fmul; apply: eq_bigr => k _.
by rewrite !t_interpolate_matrixE.
Qed.
End Mat.
End Proof.
