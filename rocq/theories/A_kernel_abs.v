(** Pivots of vectors, and the kernel rows of an approximant basis. *)
From mathcomp Require Import all_ssreflect all_algebra fraction zify.
From Verif Require Import A_base SpecA A_mbasis_abs A_detdeg_proof A_frac_proof.
Set Implicit Arguments.
Unset Strict Implicit.
Unset Printing Implicit Defensive.
Import Order.TTheory GRing.Theory Num.Theory.
Local Open Scope ring_scope.

Section Pivot.
Variable F : fieldType.
Local Notation R := {poly F}.

(** k is the s-pivot of v and e its s-degree, by coefficients *)
Definition pvt m (s : 'I_m -> int) (v : 'rV[R]_m) (k : 'I_m) (e : int) : Prop :=
  (exists2 z : nat, z%:Z + s k = e & (v 0 k)`_z != 0) /\
  (forall j (z : nat), (v 0 j)`_z != 0 -> (z%:Z + s j <= e - (k < j)%N%:Z)%R).

Lemma coefM_nz (p q : R) k : (p * q)`_k != 0 ->
  exists a b, [/\ (a + b)%N = k, p`_a != 0 & q`_b != 0].
Proof.
rewrite coefM => Hl.
have [c Hc] : exists c : 'I_k.+1, p`_c * q`_(k - c) != 0.
  apply/existsP; apply: contraNT Hl; rewrite negb_exists => /forallP H.
  by rewrite big1 // => c _; apply/eqP; have := H c; rewrite negbK.
move: Hc; rewrite mulf_eq0 negb_or => /andP[H1 H2].
exists c, (k - c)%N; split=> //; have := ltn_ord c; lia.
Qed.

Lemma sum_nz (I : finType) (f : I -> F) : \sum_i f i != 0 -> exists i, f i != 0.
Proof.
move=> NZ; apply/existsP; apply: contraNT NZ; rewrite negb_exists => /forallP H.
by rewrite big1 // => l _; apply/eqP; have := H l; rewrite negbK.
Qed.

Lemma coef_top (p q : R) (a b : nat) :
  (forall z, p`_z != 0 -> (z <= a)%N) -> (forall z, q`_z != 0 -> (z <= b)%N) ->
  (p * q)`_(a + b) = p`_a * q`_b.
Proof.
move=> Hp Hq; rewrite coefM (bigD1 (inord a)) //= inordK; last by lia.
rewrite addKn big1 ?addr0 // => c NE; apply/eqP; rewrite mulf_eq0; apply/orP.
case: (ltnP c a) => Hc.
  right; apply: contraT => /Hq; move: (ltn_ord c); lia.
left; apply: contraT => /Hp.
have : (c : nat) != a by apply: contraNneq NE => E; apply/eqP/val_inj; rewrite /= inordK //; lia.
lia.
Qed.

(** predictable pivots *)
Lemma pvt_mul m (s t : 'I_m -> int) (P : 'M[R]_m) (w : 'rV[R]_m) k e :
  deg_inv s t P -> pvt t w k e -> pvt s (w *m P) k e.
Proof.
move=> [A1 B1] [[a Ea Na] Hw]; split; last first.
  move=> j z; rewrite mxE coef_sum => /sum_nz[l] /coefM_nz[a' [b' [<- N1 N2]]].
  have := Hw _ _ N1; have := A1 _ _ _ N2; lia.
have [b Eb Nb] := B1 k.
exists (a + b)%N; first by move: Ea Eb; lia.
rewrite mxE coef_sum (bigD1 k) //= big1 ?addr0.
  rewrite coef_top ?mulf_neq0 // => z Hz.
    by have := Hw _ _ Hz; move: Ea; lia.
  by have := A1 _ _ _ Hz; move: Eb; lia.
move=> l NE; apply/eqP; apply: contraT => /coefM_nz[a' [b' [E N1 N2]]].
have := Hw _ _ N1; have := A1 _ _ _ N2.
have : (l : nat) != k by [].
move: Ea Eb; lia.
Qed.

Lemma deg_inv_pvt m (s t : 'I_m -> int) (P : 'M[R]_m) i :
  deg_inv s t P -> pvt s (row i P) i (t i).
Proof.
move=> [A1 B1]; split; first by have [z E N] := B1 i; exists z; rewrite ?mxE.
by move=> j z; rewrite mxE; exact: A1.
Qed.

Lemma pvt_uniq m (s : 'I_m -> int) v k e k' e' : pvt s v k e -> pvt s v k' e' -> k = k' /\ e = e'.
Proof.
move=> [[z E N] H] [[z' E' N'] H'].
have := H _ _ N'; have := H' _ _ N => h1 h2.
have Ek : k = k' by apply/val_inj => /=; move: E E' h1 h2; lia.
split=> //; rewrite Ek in E; move: h1 h2; rewrite Ek ltnn; move: E E'; lia.
Qed.

Lemma pvt_nz m (s : 'I_m -> int) v k e : pvt s v k e -> v 0 k != 0.
Proof. by move=> [[z _ N] _]; apply: contraNneq N => ->; rewrite coef0. Qed.

Lemma pvt_size m (s : 'I_m -> int) v k e : pvt s v k e -> (size (v 0 k))%:Z = e - s k + 1.
Proof.
move=> V; have N := pvt_nz V; case: V => [[z E Nz] H].
have := H k (size (v 0 k)).-1; rewrite -lead_coefE lead_coef_eq0 N ltnn => /(_ isT).
have : (z < size (v 0 k)%R)%N by rewrite ltnNge; apply: contraNN Nz => /(nth_default 0) ->.
by move: (size _) E => q; lia.
Qed.

Lemma is_pivot_pvt m (s : 'I_m -> int) (v : 'rV[R]_m) k : is_pivot s v k <-> exists e, pvt s v k e.
Proof.
split.
  move=> [N [H1 H2]]; exists (sdeg (s k) (v 0 k)); split.
    exists (size (v 0 k)).-1; last by rewrite -lead_coefE lead_coef_eq0.
    by move: N; rewrite -size_poly_gt0 /sdeg; move: (size _) => q; lia.
  move=> j z Nz.
  have Nj : v 0 j != 0 by apply: contraNneq Nz => ->; rewrite coef0.
  have Lz : (z < size (v 0 j)%R)%N by rewrite ltnNge; apply: contraNN Nz => /(nth_default 0) ->.
  have := H1 _ Nj; case: (ltnP k j) => [Hkj|_].
    have := H2 _ Hkj Nj; rewrite /sdeg; move: (size _) Lz => q; move: (size _) => q'; lia.
  by rewrite /sdeg; move: (size _) Lz => q; move: (size _) => q'; lia.
move=> [e V]; have N := pvt_nz V; have S := pvt_size V; case: V => [_ H].
have B (j : 'I_m) : v 0 j != 0 -> sdeg (s j) (v 0 j) <= e - (k < j)%N%:Z.
  move=> Nj; have := H j (size (v 0 j)).-1; rewrite -lead_coefE lead_coef_eq0 Nj => /(_ isT).
  by move: Nj; rewrite -size_poly_gt0 /sdeg; move: (size _) => q; lia.
have E : sdeg (s k) (v 0 k) = e by rewrite /sdeg S; lia.
split=> //; rewrite E; split=> [j /B|j Hj /B]; first by lia.
by rewrite Hj; lia.
Qed.

Lemma pvt_rdeg m (s : 'I_m -> int) (v : 'rV[R]_m) k e : pvt s v k e -> is_rdeg s v e.
Proof.
move=> V; have N := pvt_nz V; have S := pvt_size V; case: V => [_ H]; split.
  move=> j Nj; have := H j (size (v 0 j)).-1; rewrite -lead_coefE lead_coef_eq0 Nj => /(_ isT).
  by move: Nj; rewrite -size_poly_gt0 /sdeg; move: (size _) => q; lia.
by exists k => //; rewrite /sdeg S; lia.
Qed.

Lemma pvt_exists m (s : 'I_m -> int) (v : 'rV[R]_m) : v != 0 -> exists k e, pvt s v k e.
Proof.
move=> Nv.
have [i0 Ni0] : exists i, v 0 i != 0.
  apply/existsP; apply: contraNT Nv; rewrite negb_exists => /forallP H.
  by apply/eqP/rowP=> i; have := H i; rewrite negbK mxE => /eqP.
have [b Hb] : exists b : nat, forall j, (0 <= s j + b%:Z).
  exists (\max_j absz (s j))%N => j.
  have := @leq_bigmax _ (fun j => absz (s j)) j; lia.
pose key (j : 'I_m) := (absz (s j + b%:Z + (size (v 0 j))%:Z)%R * m + j)%N.
have [k Nk Hk] : exists2 k, v 0 k != 0 & forall j, v 0 j != 0 -> (key j <= key k)%N.
  by have [k Nk Hk] := @arg_maxnP _ i0 (fun j => v 0 j != 0) key Ni0; exists k.
exists k, (sdeg (s k) (v 0 k)); split.
  exists (size (v 0 k)).-1; last by rewrite -lead_coefE lead_coef_eq0.
  by move: Nk; rewrite -size_poly_gt0 /sdeg; move: (size _) => q; lia.
move=> j z Nz.
have Nj : v 0 j != 0 by apply: contraNneq Nz => ->; rewrite coef0.
have Lz : (z < size (v 0 j)%R)%N by rewrite ltnNge; apply: contraNN Nz => /(nth_default 0) ->.
have := Hk _ Nj; rewrite /key /sdeg; have := Hb k; have := Hb j.
move: Lz; move: (size _) => q; move: (size _) => r Lq hj hk H.
have lj := ltn_ord j; have lk := ltn_ord k.
set x := absz _ in H; set y := absz _ in H.
have L1 : (x < y)%N \/ (x = y)%N /\ (j <= k)%N.
  by case: (ltngtP x y) H => C H; [left|exfalso; nia|right; split=> //; lia].
by rewrite /x /y in L1; case: L1 => [L|[L1 L2]]; lia.
Qed.
End Pivot.

Section KerRows.
Variable F : fieldType.
Local Notation R := {poly F}.
Local Notation K := {fraction R}.
Local Notation tf := (@FracField.tofrac [idomainType of R]).
Local Notation mf := (map_mx tf).

(** kernel vectors with distinct pivots are independent *)
Lemma pivots_indep m (s : 'I_m -> int) k (V : 'M[R]_(k, m)) (g : 'I_k -> 'I_m) :
  injective g -> (forall i, exists e, pvt s (row i V) (g i) e) ->
  forall w : 'rV_k, w *m V = 0 -> w = 0.
Proof.
move=> gI /fin_all_exists[e He] w wV; apply/eqP; apply: contraT => Nw.
have [b Hb] : exists b : nat, forall j, (0 <= e j + b%:Z).
  exists (\max_j absz (e j))%N => j.
  have := @leq_bigmax _ (fun j => absz (e j)) j; lia.
have [i0 Ni0] : exists i, w 0 i != 0.
  apply/existsP; apply: contraNT Nw; rewrite negb_exists => /forallP H.
  by apply/eqP/rowP=> i; have := H i; rewrite negbK mxE => /eqP.
pose key (j : 'I_k) := (absz (e j + b%:Z + (size (w 0 j))%:Z)%R * m + g j)%N.
have [i Ni Hi] : exists2 i, w 0 i != 0 & forall j, w 0 j != 0 -> (key j <= key i)%N.
  by have [i Ni Hi] := @arg_maxnP _ i0 (fun j => w 0 j != 0) key Ni0; exists i.
have [[z Ez Nz] Hz] := He i.
have : (w *m V) 0 (g i) = 0 by rewrite wV mxE.
move=> /(congr1 (fun p : R => p`_((size (w 0 i)).-1 + z))); rewrite coef0 mxE coef_sum (bigD1 i) //=.
rewrite big1 ?addr0.
  have -> : V i (g i) = (row i V) 0 (g i) by rewrite mxE.
  rewrite coef_top.
  - by move/eqP; rewrite mulf_eq0 (negbTE Nz) orbF -lead_coefE lead_coef_eq0 (negbTE Ni).
  - move=> y Ny; have : (y < size (w 0 i)%R)%N by rewrite ltnNge; apply: contraNN Ny => /(nth_default 0) ->.
    by move: (size _) => q; lia.
  - by move=> y /Hz; rewrite ltnn; move: Ez; lia.
move=> j NE; apply/eqP; apply: contraT => /coefM_nz[a [c [E N1 N2]]].
have [_ Hj] := He j; have N2' : ((row j V) 0 (g i))`_c != 0 by rewrite mxE.
have Nj : w 0 j != 0 by apply: contraNneq N1 => ->; rewrite coef0.
have La : (a < size (w 0 j)%R)%N by rewrite ltnNge; apply: contraNN N1 => /(nth_default 0) ->.
have := Hi _ Nj; rewrite /key; have := Hj _ _ N2'; have := Hb i; have := Hb j.
have := ltn_ord (g i); have := ltn_ord (g j).
have : (g i : nat) != g j by apply: contraNneq NE => /val_inj/gI ->.
move: Ni E Ez La; rewrite -size_poly_gt0; clear.
move: (size _) => q; move: (size _) => q' /= Hq E Ez La NE lj li hj hi H.
set x := absz _; set y := absz _ => Hxy.
have L1 : (x < y)%N \/ (x = y)%N /\ (g j <= g i)%N.
  by case: (ltngtP x y) Hxy => C Hxy; [left|exfalso; nia|right; split=> //; lia].
by rewrite /x /y in L1; case: L1 => [L|[L1 L2]]; lia.
Qed.

Lemma indep_rank k m n (A : 'M[R]_(m, n)) (V : 'M[R]_(k, m)) :
  (forall w : 'rV_k, w *m V = 0 -> w = 0) -> V *m A = 0 -> (k <= m - \rank (mf A))%N.
Proof.
move=> /indep_row_free RF VA.
have S : (mf V <= kermx (mf A))%MS by apply/sub_kermxP; rewrite -map_mxM VA map_mx0.
by have := mxrankS S; rewrite mxrank_ker; move: RF => /eqP ->.
Qed.

(** a square nonsingular submatrix of a matrix with independent rows *)
Lemma minor_exists r n (B : 'M[R]_(r, n)) : row_free (mf B) ->
  exists C : 'I_r -> 'I_n, \det (colsub C B) != 0.
Proof.
move=> RF; have RF' : row_full (mf B)^T by rewrite /row_full mxrank_tr.
exists (fullrankfun RF').
have := fullrowsub_unit RF'; rewrite unitmxE unitfE.
have -> : rowsub (fullrankfun RF') (mf B)^T = (mf (colsub (fullrankfun RF') B))^T.
  by apply/matrixP=> i j; rewrite !mxE.
by rewrite det_tr det_map_mx tofrac_eq0.
Qed.

Lemma classic_set (T : finType) (Q : T -> Prop) :
  classically (exists J : {set T}, forall i, i \in J <-> Q i).
Proof.
have : forall l : seq T, classically (exists J : {set T}, forall i, i \in l -> (i \in J <-> Q i)).
  elim=> [|x l IH]; first by apply: classicW; exists set0.
  move=> b Hb; apply: IH => -[J HJ]; apply: (@classic_EM (Q x)) => -[Qx|NQx]; apply: Hb.
    exists (x |: J) => i; rewrite !inE; case: (i =P x) => [->|_] //= /HJ //.
  exists (J :\ x) => i; rewrite !inE; case: (i =P x) => [->|_] //= /HJ //.
move/(_ (enum T)) => H b Hb; apply: H => -[J HJ]; apply: Hb; exists J => i.
by apply: HJ; rewrite mem_enum.
Qed.

(** every pivot of the kernel is the pivot of a kernel vector whose pivot entry
    has degree at most rank * deg *)
Lemma pivot_bound m n d (A : 'M[R]_(m, n)) (s : 'I_m -> int) k v0 e0 :
  (forall i j, (size (A i j) <= d.+1)%N) -> v0 *m A = 0 -> pvt s v0 k e0 ->
  classically (exists v e,
    [/\ v *m A = 0, pvt s v k e & (size (v 0 k)%R <= (\rank (mf A) * d).+1)%N]).
Proof.
move=> dA v0A V0.
pose Q (i : 'I_m) := exists v e, v *m A = 0 /\ pvt s v i e.
move: (@classic_set _ Q).
apply: classic_bind => -[J HJ]; apply: classicW.
pose B := rowsub (enum_val : 'I_#|~: J| -> 'I_m) A.
have supp (y : 'rV[R]_m) : y *m A = 0 -> (forall j, j \in J -> y 0 j = 0) -> y = 0.
  move=> yA yJ; apply/eqP; apply: contraT => /(pvt_exists s)[k' [e' V']].
  have /yJ Ek : k' \in J by apply/HJ; exists y, e'.
  by have := pvt_nz V'; rewrite Ek eqxx.
pose E := rowsub (enum_val : 'I_#|~: J| -> 'I_m) (1%:M : 'M[R]_m).
have EA : E *m A = B.
  apply/matrixP=> a j; rewrite !mxE (bigD1 (enum_val a)) //= big1 ?addr0.
    by rewrite !mxE eqxx mul1r.
  by move=> l NE; rewrite !mxE eq_sym (negbTE NE) mul0r.
have yEJ (y : 'rV[R]_#|~: J|) j : j \in J -> (y *m E) 0 j = 0.
  move=> jJ; rewrite mxE big1 // => a _; rewrite !mxE.
  have := enum_valP a; rewrite inE; case: eqP => [->|_ _]; first by rewrite jJ.
  by rewrite mulr0.
have yEI (y : 'rV[R]_#|~: J|) a : (y *m E) 0 (enum_val a) = y 0 a.
  rewrite mxE (bigD1 a) //= big1 ?addr0; first by rewrite !mxE eqxx mulr1.
  move=> l NE; rewrite !mxE (inj_eq enum_val_inj) (negbTE NE) mulr0 //.
have RB : row_free (mf B).
  apply/indep_row_free => y yB.
  have y0 : y *m E = 0 by apply: supp; [rewrite -mulmxA EA|exact: yEJ].
  by apply/rowP=> a; rewrite -yEI y0 !mxE.
have [C NC] := minor_exists RB.
have rkB : \rank (mf B) = #|~: J| by apply/eqP.
have BA : (mf B <= mf A)%MS by rewrite -EA map_mxM; exact: submxMl.
have rk : \rank (mf A) = #|~: J|.
  apply/eqP; rewrite eqn_leq -{2}rkB mxrankS // andbT.
  have /fin_all_exists[V HV] : forall a : 'I_#|J|, exists v, exists e, v *m A = 0 /\ pvt s v (enum_val a) e.
    by move=> a; have /HJ := enum_valP a.
  pose VV : 'M[R]_(#|J|, m) := \matrix_a V a.
  have : (#|J| <= m - \rank (mf A))%N.
    apply: (@indep_rank _ _ _ A VV).
      apply: (@pivots_indep _ s _ _ enum_val); first exact: enum_val_inj.
      by move=> a; have [e [_ H]] := HV a; exists e; rewrite rowK.
    by apply/row_matrixP=> a; rewrite row0 row_mul rowK; have [e []] := HV a.
  have := rank_leq_row (mf A); have := cardsC J; rewrite card_ord; lia.
have AB : (mf A <= mf B)%MS by have [_] := mxrank_leqif_eq BA; rewrite rkB rk eqxx => /esym/andP[].
pose M := colsub C B.
pose aC : 'rV[R]_#|~: J| := colsub C (row k A).
pose y := aC *m \adj M.
pose v := \det M *: (delta_mx 0 k : 'rV[R]_m) - y *m E.
have kJ : k \in J by apply/HJ; exists v0, e0.
have vE j : v 0 j = \det M * (j == k)%:R - (y *m E) 0 j.
  by rewrite /v; move: (y *m E) => yE; rewrite !mxE eqxx.
have vk : v 0 k = \det M by rewrite vE eqxx mulr1 yEJ // subr0.
have vAE : v *m A = \det M *: row k A - y *m B.
  by rewrite mulmxBl -scalemxAl -rowE -mulmxA EA.
have uC : colsub C (v *m A) = 0.
  have -> : colsub C (v *m A) = \det M *: aC - y *m M.
    rewrite vAE; apply/rowP=> b; rewrite !mxE; congr (_ - _).
    by apply: eq_bigr => a _; rewrite !mxE.
  by rewrite /y -mulmxA mul_adj_mx -mul_scalar_mx scalar_mxC subrr.
have vA : v *m A = 0.
  have /submxP[z Ez] : (mf (v *m A) <= mf B)%MS.
    by apply: submx_trans AB; rewrite map_mxM; exact: submxMl.
  apply: mf_inj; rewrite Ez map_mx0.
  suff -> : z = 0 by rewrite mul0mx.
  have UM : mf M \in unitmx by rewrite unitmxE unitfE det_map_mx tofrac_eq0.
  apply: (can_inj (mulmxK UM)); rewrite mul0mx.
  have -> : z *m mf M = mf (colsub C (v *m A)).
    have -> : mf (colsub C (v *m A)) = colsub C (mf (v *m A)) by apply/rowP=> b; rewrite !mxE.
    by rewrite Ez; apply/rowP=> b; rewrite !mxE; apply: eq_bigr => a _; rewrite !mxE.
  by rewrite uC map_mx0.
have [k' [e' V']] : exists k' e', pvt s v k' e'.
  by apply: pvt_exists; apply: contraNneq NC => v_0; rewrite -vk v_0 mxE.
have Ek : k' = k.
  have k'J : k' \in J by apply/HJ; exists v, e'.
  apply/eqP; apply: contraT => NE; have := pvt_nz V'.
  by rewrite vE (negbTE NE) mulr0 yEJ // subrr eqxx.
exists v, e'; rewrite -{1}Ek; split=> //.
rewrite vk rk.
have dM a b : (size (M a b) <= d.+1)%N by rewrite !mxE; exact: dA.
by have [+ _] := @det_row_deg _ _ M (fun=> d) dM; rewrite sum_nat_const card_ord.
Qed.

Lemma coef_size (p : R) a : (forall z : nat, p`_z != 0 -> (z%:Z < a)) -> (size p)%:Z <= a \/ p = 0.
Proof.
move=> H; case: (eqVneq p 0) => [->|N]; [by right|left].
have := H (size p).-1; rewrite -lead_coefE lead_coef_eq0 N => /(_ isT).
by move: N; rewrite -size_poly_gt0; move: (size p) => q; lia.
Qed.

Variables (m n d N amp : nat) (A : 'M[R]_(m, n)) (P : 'M[R]_m) (s t : 'I_m -> int).
Hypothesis PB : approx_basis N A P.
Hypothesis PD : deg_inv s t P.
Hypothesis dA : forall i j, (size (A i j) <= d.+1)%N.
Hypothesis sA : forall i j, s i - s j <= amp%:Z.
Hypothesis NE : (minn m n * d + amp + d + 1 <= N)%N.
Let sel i := (t i - s i + amp%:Z < N%:Z - d%:Z).

Lemma sel_kernel i : sel i -> row i P *m A = 0.
Proof.
move=> S; apply/rowP=> j; rewrite [RHS]mxE.
have [H _] := PB; have := H i j; set u := (_ *m _) 0 j => D.
have [D1 _] := PD; apply/eqP; apply: contraT => Nu.
have := dvdp_leq Nu D; rewrite size_polyXn.
suff : (size u)%:Z <= N%:Z \/ u = 0.
  by case=> [|E]; [move: (size u) => q; lia|rewrite E eqxx in Nu].
apply: coef_size => z; rewrite /u mxE coef_sum => /sum_nz[l] /coefM_nz[a [b [<-]]]; rewrite mxE => Na Nb.
have := D1 _ _ _ Na; have := sA i l; move: S; rewrite /sel.
have : (b < size (A l j)%R)%N by rewrite ltnNge; apply: contraNN Nb => /(nth_default 0) ->.
by move: (dA l j); move: (size _) => q; lia.
Qed.

Lemma kernel_sel v k e : v *m A = 0 -> pvt s v k e -> sel k.
Proof.
move=> vA V; apply: (pivot_bound dA vA V) => -[v' [e' [v'A V' Sv']]].
have [_ [/(_ v') G _]] := PB.
have [|w Ew] := G; first by move=> j; rewrite v'A mxE dvdp0.
have : w != 0 by apply: contraTneq (pvt_nz V') => w0; rewrite Ew w0 mul0mx mxE eqxx.
move=> /(pvt_exists t)[k1 [e1 V1]].
have V2 := pvt_mul PD V1; rewrite -Ew in V2; have [Ek Ee] := pvt_uniq V2 V'.
rewrite Ek Ee in V1; have S1 := pvt_size V1; have S2 := pvt_size V'.
have : (0 < size (w 0 k)%R)%N by rewrite size_poly_gt0; exact: pvt_nz V1.
have : (\rank (mf A) * d <= minn m n * d)%N by rewrite leq_mul2r leq_min rank_leq_row rank_leq_col orbT.
rewrite /sel; move: NE Sv' S1 S2; move: (size _) => q; move: (size _) => q'; lia.
Qed.

Lemma kernel_coord (w : 'rV[R]_m) : (w *m P) *m A = 0 -> forall i, ~~ sel i -> w 0 i = 0.
Proof.
move=> wA.
pose w1 : 'rV[R]_m := \row_i (if sel i then w 0 i else 0).
have w1A : (w1 *m P) *m A = 0.
  rewrite -mulmxA mulmx_sum_row big1 // => i _; rewrite !mxE row_mul.
  by case: ifP => [/sel_kernel ->|_]; rewrite ?scaler0 ?scale0r.
have w2A : ((w - w1) *m P) *m A = 0 by rewrite mulmxBl mulmxBl wA w1A subrr.
suff E : w - w1 = 0.
  by move=> i /negbTE Si; have := congr1 (fun x : 'rV[R]_m => x 0 i) E; rewrite !mxE Si subr0.
apply/eqP; apply: contraT => /(pvt_exists t)[k [e V]].
have Sk := kernel_sel w2A (pvt_mul PD V).
by have := pvt_nz V; rewrite !mxE Sk subrr eqxx.
Qed.

(** the selected rows, in any order without repetition, are a basis of the kernel *)
Lemma kernel_rows_basis k (g : 'I_k -> 'I_m) : injective g ->
  (forall i, (exists a, g a = i) <-> sel i) -> kernel_basis A (rowsub g P).
Proof.
move=> gI gS; have [_ [G I]] := PB.
pose E := rowsub g (1%:M : 'M[R]_m).
have EP : rowsub g P = E *m P.
  apply/matrixP=> a j; rewrite !mxE (bigD1 (g a)) //= big1 ?addr0.
    by rewrite !mxE eqxx mul1r.
  by move=> l Nl; rewrite !mxE eq_sym (negbTE Nl) mul0r.
have yE (y : 'rV[R]_k) a : (y *m E) 0 (g a) = y 0 a.
  rewrite mxE (bigD1 a) //= big1 ?addr0; first by rewrite !mxE eqxx mulr1.
  by move=> l Nl; rewrite !mxE (inj_eq gI) (negbTE Nl) mulr0.
have yE0 (y : 'rV[R]_k) i : ~~ sel i -> (y *m E) 0 i = 0.
  move=> Si; rewrite mxE big1 // => a _; rewrite !mxE; case: eqP => [Ea|_]; last by rewrite mulr0.
  by case/negP: Si; apply/gS; exists a.
split.
  move=> a; have -> : row a (rowsub g P) = row (g a) P by apply/rowP=> j; rewrite !mxE.
  by apply: sel_kernel; apply/gS; exists a.
split=> [v vA|w]; last first.
  by rewrite EP mulmxA => /I wE; apply/rowP=> a; rewrite -yE wE !mxE.
have [w Ew] : exists w, v = w *m P by apply: G => j; rewrite vA mxE dvdp0.
have Hw : forall i, ~~ sel i -> w 0 i = 0 by apply: kernel_coord; rewrite -Ew.
exists (\row_a w 0 (g a)); rewrite EP mulmxA Ew; congr (_ *m _).
apply/rowP=> i; case Si: (sel i); last by rewrite Hw ?yE0 ?Si.
have [a <-] : exists a, g a = i by apply/gS.
by rewrite yE mxE.
Qed.
End KerRows.
