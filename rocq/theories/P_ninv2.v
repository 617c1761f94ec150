(** Property C74, continued: Newton iteration with evaluations at a geometric progression, the errors, and inv_trunc with the
    middle product and the product of ntl-extras. *)
From Coq Require Import ZArith.
From mathcomp Require Import all_ssreflect all_fingroup all_algebra all_field zify.
From Verif Require Import A_base A_mul_model A_mul_proof N_shift_proof N_multi_model N_multi_proof N_pmat_model N_trs_proof N_util_model N_util_proof.
From Verif Require Import N_poly_model N_series_proof N_geo_model N_geo_proof N_geo3_proof N_mfft_model N_eval_model N_eval_proof N_mp_model P_ntrs P_nutil P_ngeo P_nord P_neval P_nmmfft P_nmp.
From Verif Require Import N_mm3_model P_nmm3 N_mm_model P_nmm N_mp3_model P_nmp3.
From Verif Require Import N_inv_model N_inv_proof P_ninv.
Set Implicit Arguments.
Unset Strict Implicit.
Unset Printing Implicit Defensive.
Import GRing.Theory.
Local Open Scope ring_scope.

Section Values.
Variable F : fieldType.
Local Notation arr := (nat -> F).
Lemma powersE n (z : F) j : (j < n)%N -> powers n z j = z ^+ j.
Proof.
case: n => [//|n]; rewrite /powers (_ : n.+1 - 1 = n)%N; last by lia.
elim: n j => [|n IH] j Hj; first by case: j Hj => [|//] _; rewrite /= {1}/upd eqxx.
rewrite foldl_iotaR /upd; case: eqP => [->|N]; first by rewrite add1n /= IH // exprSr.
by apply: IH; move: Hj N; clear; lia.
Qed.

Lemma diag_loop s (M : fmat F) (g : F) u w : (u < s)%N -> (w < s)%N ->
  foldl (fun v3 i => foldl (fun (v3 : fmat F) ell =>
     if i == ell then upd2 v3 i ell ((v3 i ell - 1) * g) else upd2 v3 i ell (v3 i ell * g)) v3 (iota 0 s)) M (iota 0 s) u w =
  (M u w - (u == w)%:R) * g.
Proof.
pose h (i ell : nat) (z : F) := if i == ell then (z - 1) * g else z * g.
have row (i t : nat) V u' w' : foldl (fun (v3 : fmat F) ell =>
     if i == ell then upd2 v3 i ell ((v3 i ell - 1) * g) else upd2 v3 i ell (v3 i ell * g)) V (iota 0 t) u' w' =
     if (u' == i) && (w' < t)%N then h i w' (V u' w') else V u' w'.
  elim: t => [|t IH]; first by rewrite andbF.
  rewrite foldl_iotaR add0n; set V' := foldl _ _ _ in IH *.
  have -> : (if i == t then upd2 V' i t ((V' i t - 1) * g) else upd2 V' i t (V' i t * g)) = upd2 V' i t (h i t (V' i t)) by rewrite /h; case: ifP.
  rewrite upd2E; case: (u' =P i) => [Eu|Nu]; last by rewrite IH (introF eqP Nu).
  case: (w' =P t) => [Ew|N] /=.
    rewrite Ew ltnSn /V' -/V'; have := IH; rewrite Eu Ew ltnn andbF => ->; by [].
  by rewrite IH Eu eqxx /= ltnS [in RHS]leq_eqVlt (introF eqP N).
move=> Hu Hw; have : forall t, foldl (fun v3 i => foldl (fun (v3 : fmat F) ell =>
     if i == ell then upd2 v3 i ell ((v3 i ell - 1) * g) else upd2 v3 i ell (v3 i ell * g)) v3 (iota 0 s)) M (iota 0 t) u w =
     if (u < t)%N then h u w (M u w) else M u w.
  elim=> [//|t IH]; rewrite foldl_iotaR add0n row Hw andbT IH ltnS [in RHS]leq_eqVlt.
  by case: eqP => [->|_] //=; rewrite ltnn.
by move=> ->; rewrite Hu /h; case: eqP => _; rewrite ?subr0.
Qed.

Lemma geo_valuesE n s k (pw v1 v2 : arr) i ell j : (i < s)%N -> (ell < s)%N -> (j < n)%N ->
  geo_values n s k pw v1 v2 (i * s + ell)%N j =
  \sum_(u < s) (\sum_(w < s) v1 (j * (s * s) + i * s + w)%N * v2 (j * (s * s) + w * s + u)%N - (i == u)%:R) * (pw j ^+ k) *
     v1 (j * (s * s) + u * s + ell)%N.
Proof.
move=> Hi He; rewrite /geo_values; elim: n => // N IH Hj; rewrite foldl_iotaR add0n.
move: (foldl _ _ (iota 0 N)) IH => [[va vb] C] /= IH.
set vc := fmul s (foldl _ _ _) _.
rewrite (@flat_cols _ _ (fun M : fmat F => M^~ j) (fun i k M => upd2 M (i * s + k) N (vc i k)) (fun i k x => if j == N then vc i k else x)); last first.
  by move=> i' j' M c _ _; rewrite upd2E; case: (j =P N) => _; rewrite ?andbT ?andbF ?if_same.
rewrite col_lt //; have [-> ->] := divmod_col i He; case: (j =P N) => [->|Nr]; last by apply: IH; move: Nr Hj; clear; lia.
rewrite /vc {1}/fmul; apply: eq_bigr => u _; rewrite diag_loop // !fillE He ltn_ord /=; congr ((_ - _) * _ * _).
by apply: eq_bigr => w _; rewrite !fillE Hi !ltn_ord.
Qed.
End Values.


Section Fail.
Variable F : fieldType.
Local Notation P := {poly F}.
Local Notation arr := (nat -> F).
Lemma fold_fail (A : Type) (g : nat -> option (aoutcome A) -> option (aoutcome A)) l k0 M :
  (forall k, g k (Some AUB) = Some AUB) -> (forall k M, g k (Some (AOk M)) <> None) -> (forall M, g k0 (Some (AOk M)) = Some AUB) ->
  k0 \in l -> foldl (fun st k => g k st) (Some (AOk M)) l = Some AUB.
Proof.
move=> H1 H2 H3; have A1 l' : foldl (fun st k => g k st) (Some AUB) l' = Some AUB by elim: l' => //= k l' IH; rewrite H1.
elim: l M => [//|k l IH] M; rewrite inE => H /=.
case E: (g k _) => [[M'|]|]; rewrite ?A1 //; last by case: (H2 k M).
by case/orP: H => [/eqP Ek|]; [rewrite -Ek H3 in E|apply: IH].
Qed.
Lemma fold_some (A : Type) (g : nat -> option (aoutcome A) -> option (aoutcome A)) l M :
  (forall k, g k (Some AUB) = Some AUB) -> (forall k M, g k (Some (AOk M)) <> None) ->
  foldl (fun st k => g k st) (Some M) l <> None.
Proof.
move=> H1 H2; elim: l M => [//|k l IH] [M|] /=; last by rewrite H1; apply: IH.
by case E: (g k _) => [M'|]; [apply: IH|case: (H2 k M)].
Qed.

(** an error in one of the evaluations *)
Lemma store_fail (ev : P -> option (aoutcome arr)) n s t (e : fmat P) i k :
  (forall p, ev p <> None) -> (i < s)%N -> (k < t)%N -> ev (e i k) = Some AUB -> store_vals ev n s t e = Some AUB.
Proof.
move=> Hev Hi Hk Hb; rewrite /store_vals.
pose g i' k' (st : option (aoutcome arr)) := bindm st (fun M => bindm (ev (e i' k')) (fun v =>
      Some (AOk (foldl (fun M r => upd M (r * (s * t) + i' * t + k')%N (v r)) M (iota 0 n))))).
pose row i' st := foldl (fun st k => g i' k st) st (iota 0 t).
have G2 i' k' M : g i' k' (Some (AOk M)) <> None.
  by rewrite /g /=; case E: (ev _) => [[w|]|] //; move: (Hev _ E).
have A1 i' : row i' (Some AUB) = Some AUB by rewrite /row; elim: (iota 0 t).
apply: (@fold_fail _ row _ i) => //.
- by move=> i' M; apply: (@fold_some _ (g i')) => // k' M'; apply: G2.
- move=> M; apply: (@fold_fail _ (g i) _ k); [by []|exact: G2| |by rewrite mem_iota].
  by move=> M'; rewrite /g /= Hb.
- by rewrite mem_iota.
Qed.
Lemma store_some (ev : P -> option (aoutcome arr)) n s t (e : fmat P) : (forall p, ev p <> None) -> store_vals ev n s t e <> None.
Proof.
move=> Hev; rewrite /store_vals.
pose g i' k' (st : option (aoutcome arr)) := bindm st (fun M => bindm (ev (e i' k')) (fun v =>
      Some (AOk (foldl (fun M r => upd M (r * (s * t) + i' * t + k')%N (v r)) M (iota 0 n))))).
apply: (@fold_some _ (fun i' st => foldl (fun st k => g i' k st) st (iota 0 t))) => [i'|i' M]; first by elim: (iota 0 t).
apply: (@fold_some _ (g i')) => // k' M'; rewrite /g /=; by case E: (ev _) => [[w|]|] //; move: (Hev _ E).
Qed.
End Fail.

Section Geometric.
Variable F : finFieldType.
Local Notation P := {poly F}.
Implicit Types (x : raw F) (a b c : pmat F).
Variables (gfuel MX KARX : nat) (ul : bool) (garb : nat -> F).
Hypothesis HK : (1 < KARX)%N.
Variables (rnd : seq F) (feas fft : bool).
Local Notation step := (geo_step gfuel MX KARX ul garb #|F| rnd feas fft).
Local Notation loop := (geo_loop gfuel MX KARX ul garb #|F| rnd feas fft).
Local Notation newton := (newton_inv_trunc_geometric gfuel MX KARX ul garb #|F| rnd feas fft).

Lemma geo_stepE x a s k : (1 < k)%N -> points_found rnd (3 * k - 2) -> (3 * k - 2 <= gfuel)%N ->
  (forall i j, (i < s)%N -> (j < s)%N -> (size (ent (value x) i j) <= k)%N) ->
  exists p, step x a s k = Some (AOk (raise_entries s k p x)) /\
   (inverse_mod s k (ent (value x)) (ent a) -> inverse_mod s (2 * k) (fun i j => ent (value x) i j - ptrunc k (p i j) * 'X^k) (ent a)).
Proof.
move=> k1 Pf Hfu Sx; rewrite /geo_step; set n := (3 * k - 2)%N in Pf Hfu *.
have [HA HB] : (k - 1 < n)%N /\ (2 * k - 1 < n)%N by rewrite /n; move: k1; clear; lia.
have [r [o [o1 [o2 [E0 E1 E2 Ok]]]]] := found_ok HK feas fft HA HB Pf.
rewrite E0 bindmE E1 bindmE (_ : k != 1%N) ?E2 ?bindmE; last by move: k1; clear; lia.
pose ev := geo_ev gfuel MX KARX ul garb o2.
have Hev (p : P) : (size p <= n)%N -> geo_evaluate gfuel MX KARX ul garb o2 p = Some (AOk (ev p)) /\
    forall i, (i < n)%N -> ev p i = p.[pt r 1 i].
  by move=> Hp; have [v [Ev Hv]] := @geo_evalP F gfuel MX KARX ul garb HK r 1 n o2 p Ok Hfu Hp; rewrite /ev /geo_ev Ev.
pose e := ent (value x); rewrite -/(e); pose f i j := ptrunc (2 * k) (ent a i j); rewrite -/(f).
have Se i j : (i < s)%N -> (j < s)%N -> (size (e i j) <= n)%N.
  by move=> Hi' Hj; apply: leq_trans (Sx i j Hi' Hj) _; rewrite /n; move: k1; clear; lia.
have Sf i j : (size (f i j) <= n)%N by apply: leq_trans (size_ptrunc _ _) _; rewrite /n; move: k1; clear; lia.
have [|v1 [-> H1]] := @store_valsE F (geo_evaluate gfuel MX KARX ul garb o2) ev n s s e.
  by move=> i j Hi' Hj; have [] := Hev _ (Se i j Hi' Hj).
have [|v2 [-> H2]] := @store_valsE F (geo_evaluate gfuel MX KARX ul garb o2) ev n s s f.
  by move=> i j Hi' Hj; have [] := Hev _ (Sf i j).
rewrite !bindmE; set Y := fun i ell => geo_interpolate o2 _; exists Y; split=> // Hi.
have Hq : get_q o2 = r ^+ 2.
  rewrite /get_q (ok_n Ok) (_ : (n == 1%N) = false); last by rewrite /n; move: k1; clear; lia.
  by rewrite (ok_x Ok) -?invfM ?invrK -?exprD //; rewrite /n; move: k1; clear; lia.
pose g i j : P := (\sum_(w < s) e i w * f w j) - ((i == j)%:R)%:P.
have Sg i j : (i < s)%N -> (j < s)%N -> (size (g i j) <= 3 * k - 1)%N.
  move=> Hi' Hj; apply: leq_trans (size_add _ _) _; rewrite geq_max size_opp; apply/andP; split.
    apply: (leq_trans (size_sum _ _ _)); apply/bigmax_leqP=> u _.
    apply: leq_trans (@size_mul_leN _ k (2 * k) _ _ _ _) _; [exact: Sx|exact: size_ptrunc|move: k1; clear; lia].
  by apply: leq_trans (size_polyC_leq1 _) _; move: k1; clear; lia.
pose D i j : P := pshr k (g i j).
have Eg i j : (i < s)%N -> (j < s)%N -> g i j = D i j * 'X^k.
  move=> Hi' Hj; apply/polyP=> l; rewrite coefMXn /D; case: ltnP => A; last by rewrite pshr_coef subnKC.
  rewrite coefB coefC; have := Hi i j l Hi' Hj A.
  have -> : (\sum_(u < s) ent (value x) i u * ent a u j)`_l = (\sum_(w < s) e i w * f w j)`_l.
    rewrite !coef_sum; apply: eq_bigr => u _; rewrite !coefM; apply: eq_bigr => w _; rewrite ptrunc_coef ifT //.
    by move: (ltn_ord w) A; clear; lia.
  by move=> ->; case: (l =P 0%N) => _; rewrite ?andbT ?andbF subrr.
have SD i j : (i < s)%N -> (j < s)%N -> (size (D i j) <= 2 * k - 1)%N.
  move=> Hi' Hj; apply/leq_sizeP=> l Hl; rewrite /D pshr_coef nth_default //; apply: leq_trans (Sg i j Hi' Hj) _.
  by move: Hl; clear; lia.
have pt0 j : pt r 1 j != 0 by rewrite /pt mul1r expf_neq0 // (ok_r Ok).
have HY i j : (i < s)%N -> (j < s)%N -> Y i j = \sum_(u < s) D i u * e u j.
  move=> Hi' Hj; rewrite /Y; set val := geo_values _ _ _ _ _ _ _.
  have [Hs Hv] := @geo_interpP F r 1 n o2 val Ok.
  have Sc : (size (\sum_(u < s) D i u * e u j)%R <= n)%N.
    apply: (leq_trans (size_sum _ _ _)); apply/bigmax_leqP=> u _.
    apply: leq_trans (@size_mul_leN _ (2 * k - 1) k _ _ _ _) _; [exact: SD|exact: Sx|rewrite /n; move: k1; clear; lia].
  apply/eqP; rewrite -subr_eq0; apply/eqP.
  apply: (@roots_geq_poly_eq0 _ _ [seq pt r 1 l | l <- iota 0 n]).
  - apply/allP=> z /mapP[l]; rewrite mem_iota add0n => /= Hl ->.
    rewrite /root !hornerE Hv // subr_eq0 /val geo_valuesE // horner_sum; apply/eqP.
    apply: eq_bigr => u _; rewrite hornerM H1 // (Hev _ (Se u j (ltn_ord u) Hj)).2 //; congr (_ * _).
    have -> : \sum_(w < s) v1 (l * (s * s) + i * s + w)%N * v2 (l * (s * s) + w * s + u)%N - (i == u)%:R = (g i u).[pt r 1 l].
      rewrite /g hornerD hornerN hornerC horner_sum; congr (_ - _); apply: eq_bigr => w _; rewrite hornerM H1 // H2 //.
      by rewrite (Hev _ (Se i w Hi' (ltn_ord w))).2 // (Hev _ (Sf w u)).2.
    rewrite Eg // hornerM hornerXn powersE // Hq -mulrA.
    have -> : (r ^+ 2)^-1 ^+ l = (pt r 1 l)^-1 by rewrite /pt mul1r exprVn -exprM.
    by rewrite -exprMn divff ?expr1n ?mulr1.
  - rewrite map_inj_in_uniq ?iota_uniq // => x1 x2; rewrite !mem_iota !add0n => /= Hx1 Hx2; exact: (pt_inj Ok).
  - by rewrite size_map size_iota; apply: (leq_trans (size_add _ _)); rewrite geq_max size_opp Hs.
apply: (@newton_entries F s k e (ent a) D (fun i j => ptrunc k (Y i j)) _ Hi); first by move: k1; clear; lia.
- move=> i j l Hi' Hj Hl; rewrite /D pshr_coef coefB coefC (_ : (k + l == 0)%N = false); last by move: k1; clear; lia.
  rewrite subr0 !coef_sum; apply: eq_bigr => u _; rewrite !coefM; apply: eq_bigr => w _; rewrite ptrunc_coef ifT //.
  by move: (ltn_ord w) Hl; clear; lia.
- by move=> i j l Hi' Hj Hl; rewrite ptrunc_coef Hl HY.
Qed.

Lemma points_found_le n n' : (n' <= n)%N -> points_found rnd n -> points_found rnd n'.
Proof.
move=> H [H1 [z Hz [z0 H2]]]; split; first by move: H H1; clear; lia.
by exists z => //; split=> // i Hi; apply: H2; move: Hi H; clear; lia.
Qed.

Lemma degrees_above fuel n T acc k ds : degrees_loop fuel n T acc = Some (k :: ds) -> all (ltn T) acc -> all (ltn T) ds.
Proof.
elim: fuel n acc => [|fuel IH] n acc /=; case: ltnP => C //; try by case=> _ <-.
move=> E H; apply: IH E _; rewrite /= H andbT; case: ifP => _ //; by apply: leq_trans C _.
Qed.

Lemma geo_loopE a m (ds : seq nat) : (0 < m)%N -> points_found rnd (3 * m - 5) -> (3 * m - 5 <= gfuel)%N ->
  forall rest fuel x idx k, drop idx ds = rest -> chain m (k :: rest) -> all (ltn 1%N) rest -> (1 < k)%N \/ (m <= k)%N -> (size rest <= fuel)%N ->
  holds (nr a) k x -> inverse_mod (nr a) k (ent (value x)) (ent a) ->
  exists x', loop fuel x a (nr a) ds idx k m = Some (AOk x') /\ truncated_inverse a (value x') m.
Proof.
move=> m0 Pf Hg; elim=> [|k' rest IH] fuel x idx k Hd Hc Ha Hk Hf Hh Hi.
  have Hk' : (m <= k)%N by move: Hc => /= /and3P[].
  by case: fuel Hf => [|fuel] _; rewrite /= ltnNge Hk' /=; (eexists; split; [by []|exact: final_trunc Hh Hi]).
have [k0 k0' Hk2 Hc'] := chain_next Hc.
case: fuel Hf => [//|fuel] Hf; rewrite /=; case: ltnP => C; last by eexists; split; [by []|exact: final_trunc Hh Hi].
have [R1 R2 R3] := Hh.
have k1 : (1 < k)%N by case: Hk => //; rewrite leqNgt C.
have [|||p [-> Hp]] := @geo_stepE x a (nr a) k k1.
- by apply: points_found_le Pf; move: C; clear; lia.
- by move: C Hg; clear; lia.
- by move=> i j Hi' Hj; have [] := R3 i j Hi' Hj.
rewrite bindmE; have [Hh' He'] := raise_entriesE p Hh; set x' := raise_entries _ _ _ _ in Hh' He' *.
have Hi' : inverse_mod (nr a) (2 * k) (ent (value x')) (ent a).
  by apply: inverse_mod_eq (Hp Hi) => // i j l Hi' Hj _; rewrite He'.
have Hsz : (idx < size ds)%N by rewrite ltnNge; apply/negP=> /drop_oversize; rewrite Hd.
rewrite leqNgt Hsz /=.
have [En Hd'] : nth 0%N ds idx = k' /\ drop idx.+1 ds = rest by move: Hd; rewrite (drop_nth 0%N Hsz) => -[].
have [Ha1 Ha2] := andP Ha.
rewrite En; apply: IH => //; [by left| |]; case: eqP => [<- //|_]; first exact: raw_trunc_holds Hh' Hk2.
have [Q1 Q2 _] := Hh'; have [T1 T2 T3] := raw_truncE k' Q1 Q2.
apply: inverse_mod_eq (inverse_mod_le Hk2 Hi') => // i j l Hi2 Hj2 Hl2; have [-> _] := T3 i j Hi2 Hj2.
by rewrite ptrunc_coef Hl2.
Qed.

Theorem C74_newton_geometric fuel (same : bool) x a m thresh (T := if same then 32%N else odflt 32%N thresh) :
  invertible_at_0 a -> (0 < m)%N -> (1 < T)%N -> (m <= fuel)%N ->
  same \/ clean x (nr a) \/ (1 < plen a)%N -> points_found rnd (3 * m - 5) -> (3 * m - 5 <= gfuel)%N ->
  exists x', newton fuel same x a m thresh = Some (AOk x') /\ truncated_inverse a (value x') m.
Proof.
move=> Ha m0 T1 Hfu Hx Pf Hg; rewrite /newton_inv_trunc_geometric.
have -> : odflt 32%N (if same then None else thresh) = T by rewrite /T; case: (same).
have T0 : (0 < T)%N by apply: ltnW.
have [k [ds [Ed Hc Hk Hs Hk1]]] := degreesE m0 T0 Hfu; have Hall := degrees_above Ed isT; rewrite Ed [nth _ _ _]/=.
set x0 := if same then _ else _; have [k0 _] := andP Hc.
have [x1 [-> [R1 R2 R3 R4 R5]]] := plain_ok x0 Ha k0; rewrite bindmE.
have Hall1 : all (ltn 1%N) ds by apply: sub_all Hall => z /= Hz; apply: leq_trans T1 (ltnW Hz).
have [Hmk|Hkm] := leqP m k.
  have -> : loop fuel x1 a (nr a) (k :: ds) 1 k m = Some (AOk (raw_trunc x1 m)) by case: (fuel) => [|f]; rewrite /= ltnNge Hmk.
  by eexists; split; [|exact: (trunc_inverse m0 Hmk R1 R2 R4)].
have k1 : (1 < k)%N by case: (Hk1 T1) => //; rewrite leqNgt Hkm.
apply: (geo_loopE m0 Pf Hg (rest := ds)) => //; first by rewrite /= drop0.
- by left.
- exact: leq_trans Hs Hfu.
- by apply: R5; rewrite /x0; case: (same) Hx => [_|[//|[Hx|Hx]]]; [left; right|left|right].
Qed.

(** With the threshold 1 the first step takes one point, which is not enough to evaluate the first two terms of a: an error. *)
Theorem C74_newton_geometric_threshold_1_refuted fuel x a m i j : invertible_at_0 a -> (1 < m <= fuel)%N ->
  (i < nr a)%N -> (j < nr a)%N -> (ent a i j)`_1 != 0 -> newton fuel false x a m (Some 1%N) = Some AUB.
Proof.
move=> Ha /andP[m1 Hfu] Hi Hj Hc; rewrite /newton_inv_trunc_geometric [odflt _ _]/=.
have m0 : (0 < m)%N by apply: ltnW.
have [k [ds [Ed Hch Hk Hs _]]] := degreesE m0 (ltn0Sn 0) Hfu; rewrite Ed [nth _ _ _]/=.
have k0 : (0 < k)%N by have /andP[] := Hch.
have Ek : k = 1%N by move: Hk k0; clear; lia.
have [x1 [-> [R1 R2 R3 R4 R5]]] := plain_ok x Ha k0; rewrite bindmE Ek.
case: fuel Hfu Ed => [|fuel] Hfu Ed; first by move: m1 Hfu; clear; lia.
rewrite /= m1 /geo_step (_ : 3 * 1 - 2 = 1)%N // /get_geometric_points.
case: element_of_order => [r|//].
have [[o -> Ok]|[-> _]] := geo_initP feas fft r 1 1; last by [].
rewrite /= /prepare_degree (ok_n Ok) /=.
set o2 := (if g_feas o then AOk _ else _).
have [o' E2 Eo] : exists2 o', o2 = AOk o' & g_n o' = 1%N by rewrite /o2 -(ok_n Ok); case: ifP => _; eexists.
rewrite E2 /=.
have N p : geo_evaluate gfuel MX KARX ul garb o' p <> None by rewrite /geo_evaluate Eo; case: ifP.
case E3: (store_vals _ _ _ _ (ent (value x1))) => [[v1|]|] //; last first.
  by case: (store_some N E3).
rewrite (@store_fail _ _ _ _ _ _ i j N Hi Hj) // /geo_evaluate Eo ifT //.
rewrite ltnNge; apply/negP=> /leq_sizeP/(_ 1%N isT); rewrite ptrunc_coef /= => H; by rewrite H eqxx in Hc.
Qed.
End Geometric.

Section Errors.
Variable F : fieldType.
(** when a(0) is not invertible, or a is not square or is empty, there is an error, whatever the algorithm *)
Theorem C74_newton_rejects fuel al (x : raw F) a m thresh : ~ invertible_at_0 a -> (0 < m <= fuel)%N -> (if thresh is Some T then 0 < T else true)%N ->
  [/\ forall fftp maxroot y, newton_inv_trunc_fft fftp maxroot y fuel al x a m thresh = Some AUB,
      forall mp mul, newton_inv_trunc_middle mp mul fuel al x a m thresh = Some AUB &
      forall gfuel MX KARX ul garb cord rnd feas fft,
        newton_inv_trunc_geometric gfuel MX KARX ul garb cord rnd feas fft fuel al x a m thresh = Some AUB].
Proof.
move=> Ha /andP[m0 Hf] HT.
have T0 d : (0 < d)%N -> (0 < odflt d (if al then None else thresh))%N by case: al; case: thresh HT.
split.
- by move=> fftp maxroot y; rewrite /newton_inv_trunc_fft /newton_fft_noalias C74_plain_rejects.
- move=> mp mul; rewrite /newton_inv_trunc_middle.
  by have [k [ds [-> _ _ _ _]]] := degreesE m0 (T0 64%N isT) Hf; rewrite C74_plain_rejects.
- move=> gfuel MX KARX ul garb cord rnd feas fft; rewrite /newton_inv_trunc_geometric.
  by have [k [ds [-> _ _ _ _]]] := degreesE m0 (T0 32%N isT) Hf; rewrite C74_plain_rejects.
Qed.
End Errors.

(** *** inv_trunc, with the middle product and the product of C73 and C71 *)
Section Prime.
Variables (p : nat) (fftp : bool) (maxroot_p : nat) (xp : nat -> nat -> 'F_p) (nbits_p : nat).
Variables (wbits spbits : nat) (ru : nat -> nat -> nat).
Variables (q : nat -> nat) (nbits maxroot : nat -> nat) (x3 : forall i, nat -> nat -> 'F_(q i)).
Variables (trs : nat) (wak ev nv evm : nat -> nat) (cbrt : nat -> nat).
Variables (mfuel MX KARX : nat) (ul : bool) (garb : nat -> nat -> nat -> nat -> 'F_p).
Implicit Types (a b c : pmat [fieldType of 'F_p]) (x : raw [fieldType of 'F_p]).
Hypotheses (Hmm : P_nmm.setting fftp maxroot_p xp wbits spbits ru q nbits) (Hmp : P_nmp3.setting fftp maxroot_p xp q KARX).
Let mul b c := @multiply p fftp maxroot_p xp nbits_p wbits spbits ru q nbits maxroot x3 trs wak ev cbrt true b b c true.
Let mp b c dA dB := @middle_mat p fftp maxroot_p xp nbits_p q nbits maxroot x3 nv evm cbrt mfuel MX KARX ul garb b c dA dB true.

(** the size s and the precision m are not too large for the three FFT primes of NTL *)
Definition fits (s m : nat) : Prop := (forall i, (i < 3)%N -> fft_ready maxroot x3 i (next_pow2 (2 * m))) /\
  (2 * (s * m * (p - 1) * (p - 1)) < q 0 * q 1 * q 2)%N.

Lemma plen_below b k : entries_below k b -> (plen b <= k)%N.
Proof. by move=> H; apply/plenP. Qed.

Lemma mp_rightP s m : (m <= mfuel)%N -> fits s m -> mp_right mp s m.
Proof.
move=> Hf [H1 H2] b c k /andP[k0 Hk] R1 R2 R3 R4 NZ Sb Sc.
have Hp := plen_below Sb.
have H : is_middle b c k (k - 1) (mp b c k (k - 1)); last by case: H => o Ho; exists o.
apply: (@C73_middle_product p fftp maxroot_p xp nbits_p q nbits maxroot x3 nv evm cbrt mfuel MX KARX ul garb Hmp b c k (k - 1)%N); rewrite ?R2 ?R3 //.
- by move=> i j Hi Hj; apply: leqW; apply: Sb.
- by move=> i j Hi Hj; apply: leq_trans (Sc i j Hi Hj) _; move: k0; clear; lia.
- exact: leq_trans Hk Hf.
- by move: Hk Hf; clear; lia.
- right; split; first by move: Hp k0; clear; lia.
    apply: leq_ltn_trans H2; rewrite R2 leq_mul2l /= !leq_mul //; exact: leq_trans Hp (ltnW Hk).
  by move=> i Hi; apply: (H1 i Hi); apply: leq_up_log; move: Hp Hk; clear; lia.
Qed.

Lemma mul_rightP s m : fits s m -> mul_right mul s m.
Proof.
move=> [H1 H2] b c k /andP[k0 Hk] R1 R2 R3 R4 Sb Sc.
have [Hb Hc] := (plen_below Sb, plen_below Sc).
have [||d [E Hd]] := @C71_multiply p fftp maxroot_p xp nbits_p wbits spbits ru q nbits maxroot x3 trs wak ev cbrt Hmm true b b c.
- by rewrite R4 R1.
- split.
    move=> i Hi k' Hk'; apply: (H1 i Hi); apply: leq_trans Hk' _; apply: leq_up_log; move: Hb Hc Hk; clear; lia.
  by apply: leq_ltn_trans H2; rewrite R4 leq_mul2l /= !leq_mul // geq_min (leq_trans Hb (ltnW Hk)).
by exists (AOk d); split=> //; exists d.
Qed.

(** the inverse modulo X^m; the entries of x are new or have held nothing but constants, or a is not constant, or m <= 8, or
    the FFT is not used *)
Theorem C74_inv_trunc fuel (al : bool) x a m : invertible_at_0 a -> (0 < m)%N -> (m <= fuel)%N -> (m <= mfuel)%N -> fits (nr a) m ->
  [\/ al, clean x (nr a), (1 < plen a)%N | (m <= 8)%N \/ ~~ (fftp && (next_pow2 (m + 2) <= maxroot_p)%N)] ->
  exists b, inv_trunc fuel fftp maxroot_p xp mp mul al x a m = Some (AOk b) /\ truncated_inverse a b m.
Proof.
move=> Ha m0 Hf Hmf Hfit Hx; rewrite /inv_trunc; case: ifP => C; last first.
  by apply: C74_newton_middle => //; [case: (al)|apply: mp_rightP|apply: mul_rightP].
have [Hff Hr] := andP C.
have [||x' [-> H]] := @C74_newton_fft _ fftp maxroot_p xp fuel al x a m None Ha m0 isT Hf; last by exists (value x').
- by case: Hx => [H|H|H|[H|H]]; [constructor 1|constructor 2|constructor 3|constructor 4|rewrite C in H].
- have [_ [_ _ Hav]] := Hmm; move=> j Hj; apply: Hav => //; apply: leq_trans Hr.
  rewrite [odflt _ _]/= in Hj *.
  have E : (2 * (8 * 2 ^ j) = 2 ^ (j + 4))%N by rewrite expnD [(2 ^ 4)%N]/=; move: (2 ^ j)%N => z; lia.
  rewrite E /next_pow2 up_expnK // leqNgt; apply/negP=> L.
  have : (m + 2 <= 2 ^ (j + 3))%N by apply: leq_trans (@up_logP 2 (m + 2) isT) _; rewrite leq_exp2l //; move: L; clear; rewrite /next_pow2; lia.
  rewrite expnD [(2 ^ 3)%N]/=; move: Hj; move: (2 ^ j)%N => z; clear; lia.
Qed.

(** When a is constant, m > 8, the FFT is used and the entries of x have held polynomials of degree at least 1, the result is
    wrong. *)
Theorem C74_inv_trunc_constant_refuted fuel x a m i j l : invertible_at_0 a -> plen a = 1%N -> rc x = nr a ->
  (i < nr a)%N -> (j < nr a)%N -> (0 < l < 8)%N -> cells x i j l != 0 -> (8 < m <= fuel)%N ->
  fftp -> (next_pow2 (m + 2) <= maxroot_p)%N ->
  exists b, inv_trunc fuel fftp maxroot_p xp mp mul false x a m = Some (AOk b) /\ ~ truncated_inverse a b m.
Proof.
move=> Ha Pa Rx Hi Hj Hl Hc Hm Hff Hr; rewrite /inv_trunc Hff Hr /=.
have [|x' [Ex [_ H]]] := @C74_newton_fft_constant_refuted _ fftp maxroot_p xp fuel x a m None i j l Ha Pa Rx Hi Hj Hl Hc Hm; last first.
  by rewrite Hff in Ex; rewrite Ex; exists (value x').
have [_ [_ _ Hav]] := Hmm; move=> h Hh; apply: Hav => //; apply: leq_trans Hr.
rewrite [odflt _ _]/= in Hh *.
have E : (2 * (8 * 2 ^ h) = 2 ^ (h + 4))%N by rewrite expnD [(2 ^ 4)%N]/=; move: (2 ^ h)%N => z; lia.
rewrite E /next_pow2 up_expnK // leqNgt; apply/negP=> L.
have : (m + 2 <= 2 ^ (h + 3))%N by apply: leq_trans (@up_logP 2 (m + 2) isT) _; rewrite leq_exp2l //; move: L; clear; rewrite /next_pow2; lia.
rewrite expnD [(2 ^ 3)%N]/=; move: Hh; move: (2 ^ h)%N => z; clear; lia.
Qed.
End Prime.

(** the hypotheses are met over the field with 17 elements, by a matrix of degree 1 *)
Example C74_met : let a := Pmat 2 2 (fun i j => 'X + ((i == j)%:R)%:P : {poly 'F_17}) in
  let y (k j : nat) : 'F_17 := (nth 0 [:: 1; 16; 4; 2]%N k ^ j)%N%:R in
  [/\ invertible_at_0 a, plen a = 2%N,
      forall j, (2 * 2 ^ j < 7)%N -> fft_available true 3 y (next_pow2 (2 * (2 * 2 ^ j))) &
      points_found [:: 3%:R : 'F_17] (3 * 4 - 5)].
Proof.
move=> a y.
have Sa i j : size (ent a i j) = 2%N by rewrite /= size_XaddC.
have V n : val (n%:R : 'F_17) = (n %% 17)%N by exact: val_Fp_nat.
split.
- split=> //; rewrite (_ : \matrix_(i, j) _ = 1%:M) ?unitmx1 //.
  by apply/matrixP=> i j; rewrite !mxE coefD coefX coefC eqxx add0r.
- apply/eqP; rewrite eqn_leq; apply/andP; split; first by apply/plenP=> i j _ _; rewrite Sa.
  by have := @plen_size _ a 0 0 isT isT; rewrite Sa.
- move=> j Hj; have : j \in [:: 0; 1]%N by case: j Hj => [|[|j]] //; rewrite !expnS; have := expn_gt0 2 j; move: (2 ^ j)%N; lia.
  rewrite !inE => /orP[] /eqP ->.
    have -> : next_pow2 (2 * (2 * 2 ^ 0)) = 2%N by [].
    split=> //; first by move=> i i' Hi Hi' /(congr1 val); rewrite /y !V; move: i i' Hi Hi' => [|[|[|[|i]]]] [|[|[|[|i']]]].
    move=> i Hi; apply: val_inj; rewrite /y -natrX V -expnM mulnC expnM -modnXm.
    by have -> : (nth 0 [:: 1; 16; 4; 2] 2 ^ (2 ^ 2) %% 17 = 1)%N by []; rewrite exp1n.
  have -> : next_pow2 (2 * (2 * 2 ^ 1)) = 3%N by [].
  split=> //; first by move=> i i' Hi Hi' /(congr1 val); rewrite /y !V; move: i i' Hi Hi' => [|[|[|[|[|[|[|[|i]]]]]]]] [|[|[|[|[|[|[|[|i']]]]]]]].
  move=> i Hi; apply: val_inj; rewrite /y -natrX V -expnM mulnC expnM -modnXm.
  by have -> : (nth 0 [:: 1; 16; 4; 2] 3 ^ (2 ^ 3) %% 17 = 1)%N by []; rewrite exp1n.
- split; first by rewrite card_Fp.
  exists 3%:R; first by rewrite mem_head.
  have A : all (fun i => (3%:R : 'F_17) ^+ i != 1) (iota 1 13) by vm_compute.
  split; [by []|move=> i /andP[i0 Hi]; apply: (allP A)].
  by rewrite mem_iota i0.
Qed.

(** those of C74_newton_fft_constant_refuted: the matrix with the entry 1, and an x that has held 1 + X + ..., with the threshold 2 *)
Example C74_stale_met : let a := Pmat 1 1 (fun _ _ => 1 : {poly 'F_17}) in let x := Raw 1 1 (fun _ _ _ => 1 : 'F_17) (fun _ _ => 0%N) in
  [/\ invertible_at_0 a, plen a = 1%N, rc x = nr a & cells x 0 0 1 != 0].
Proof.
move=> a x.
have Sa i j : size (ent a i j) = 1%N by rewrite /= size_poly1.
split=> //.
- split=> //; rewrite (_ : \matrix_(i, j) _ = 1%:M) ?unitmx1 //.
  by apply/matrixP=> i j; rewrite !mxE coef1 !ord1.
- apply/eqP; rewrite eqn_leq; apply/andP; split; first by apply/plenP=> i j _ _; rewrite Sa.
  by have := @plen_size _ a 0 0 isT isT; rewrite Sa.
Qed.

(** those of C74_inv_trunc on the primes, with the primes of C70_met *)
Example C74_primes_met : let q i := nth 2%N [:: 5; 13; 17]%N i in
  let x (i k j : nat) : 'F_(q i) := (if k is k'.+1 then if k' is _.+1 then nth 1%N [:: 2; 5; 4]%N i else (q i - 1)%N else 1%N)%:R ^+ j in
  [/\ P_nmm.setting false 0 (fun _ _ => 0 : 'F_3) 6 5 (fun _ k => (2 ^ k)%N) q (fun _ => 5%N),
      P_nmp3.setting false 0 (fun _ _ => 0 : 'F_3) q 2 & fits 3 (fun _ => 2%N) x 5 2].
Proof.
move=> q x; have [H1 _ _] := C71_met; have [[H2 _ _ _ _] _] := C73_met.
have [[_ _ _ _ _] [H3 _ _ _ _]] := C70_met.
by split=> //; split=> //; move=> i Hi; apply: H3.
Qed.

Print Assumptions C74_plain.
Print Assumptions C74_plain_rejects.
Print Assumptions C74_newton_fft.
Print Assumptions C74_newton_fft_constant_refuted.
Print Assumptions C74_newton_middle.
Print Assumptions C74_newton_geometric.
Print Assumptions C74_newton_geometric_threshold_1_refuted.
Print Assumptions C74_newton_rejects.
Print Assumptions C74_inv_trunc.
Print Assumptions C74_inv_trunc_constant_refuted.
