(** Kernel bases in ordered weak Popov form: composition, degrees. *)
From mathcomp Require Import all_ssreflect all_algebra fraction zify.
From Verif Require Import A_base SpecA A_mbasis_abs A_detdeg_proof A_frac_proof A_kernel_abs.
Set Implicit Arguments.
Unset Strict Implicit.
Unset Printing Implicit Defensive.
Import Order.TTheory GRing.Theory Num.Theory.
Local Open Scope ring_scope.

Section ZlsAbs.
Variable F : fieldType.
Local Notation R := {poly F}.
Local Notation K := {fraction R}.
Local Notation tf := (@FracField.tofrac [idomainType of R]).
Local Notation mf := (map_mx tf).

Definition pvts k m (s : 'I_m -> int) (P : 'M[R]_(k, m)) (pi : 'I_k -> 'I_m) (t : 'I_k -> int) :=
  forall i, pvt s (row i P) (pi i) (t i).
Definition incr k m (pi : 'I_k -> 'I_m) := forall i i' : 'I_k, (i < i')%N -> (pi i < pi i')%N.

Lemma incr_inj k m (pi : 'I_k -> 'I_m) : incr pi -> injective pi.
Proof.
move=> H i j E; apply/val_inj; case: (ltngtP i j) => // /H; by rewrite E ltnn.
Qed.

Lemma incr_le k m (pi : 'I_k -> 'I_m) (i j : 'I_k) : incr pi -> (i <= j)%N -> (pi i <= pi j)%N.
Proof. by move=> H; rewrite leq_eqVlt => /orP[/eqP/val_inj -> //|/H /ltnW]. Qed.

Lemma pvt_mulr k m (s : 'I_m -> int) (P : 'M[R]_(k, m)) pi (t : 'I_k -> int) w a e :
  incr pi -> pvts s P pi t -> pvt t w a e -> pvt s (w *m P) (pi a) e.
Proof.
move=> I V [[z Ez Nz] Hw]; split; last first.
  move=> j y; rewrite mxE coef_sum => /sum_nz[l] /coefM_nz[a' [b' [<- N1 N2]]].
  have h1 := Hw _ _ N1; have [_ /(_ j b')] := V l; rewrite mxE => /(_ N2).
  case: (ltnP (pi a) j) => Hj; last by move: h1; lia.
  case: (ltnP a l) h1 => al h1; first by lia.
  by have := incr_le I al; lia.
have [[b Eb Nb] Hb] := V a.
exists (z + b)%N; first by move: Ez Eb; lia.
rewrite mxE coef_sum (bigD1 a) //= big1 ?addr0.
  rewrite coef_top; first by rewrite mulf_neq0 //; move: Nb; rewrite mxE.
    by move=> y Ny; have := Hw _ _ Ny; move: Ez; lia.
  by move=> y Ny; have := Hb (pi a) y; rewrite mxE => /(_ Ny); move: Eb; lia.
move=> l NE; apply/eqP; apply: contraT => /coefM_nz[a' [b' [E N1 N2]]].
have h1 := Hw _ _ N1; have [_ /(_ (pi a) b')] := V l; rewrite mxE => /(_ N2).
have : (l : nat) != a by [].
case: (ltngtP l a) h1 => // al h1 _; first by have := I _ _ al; move: Ez Eb; lia.
by move: Ez Eb h1; lia.
Qed.

(** kernel basis in ordered weak Popov form *)
Definition kb m n k (s : 'I_m -> int) (A : 'M[R]_(m, n)) (P : 'M[R]_(k, m)) pi t : Prop :=
  [/\ kernel_basis A P, pvts s P pi t & incr pi].

Lemma pvts_indep k m (s : 'I_m -> int) (P : 'M[R]_(k, m)) pi t :
  injective pi -> pvts s P pi t -> forall w : 'rV_k, w *m P = 0 -> w = 0.
Proof. by move=> I V; apply: (@pivots_indep _ _ s _ _ pi I) => i; exists (t i). Qed.

Lemma kb_intro m n k (s : 'I_m -> int) (A : 'M[R]_(m, n)) (P : 'M[R]_(k, m)) pi t :
  P *m A = 0 -> (forall v : 'rV[R]_m, v *m A = 0 -> exists w, v = w *m P) -> pvts s P pi t -> incr pi ->
  kb s A P pi t.
Proof.
move=> PA G V I; split=> //; split; first by move=> i; rewrite -row_mul PA row0.
by split=> //; exact: pvts_indep (incr_inj I) V.
Qed.

Lemma kbA m n k (s : 'I_m -> int) (A : 'M[R]_(m, n)) (P : 'M[R]_(k, m)) pi t :
  kb s A P pi t -> P *m A = 0.
Proof. by case=> -[H _] _ _; apply/row_matrixP=> i; rewrite row_mul H row0. Qed.

Lemma kb_pivot m n k (s : 'I_m -> int) (A : 'M[R]_(m, n)) (P : 'M[R]_(k, m)) pi t (v : 'rV[R]_m) j e :
  kb s A P pi t -> v *m A = 0 -> pvt s v j e -> exists2 a, pi a = j & t a <= e.
Proof.
move=> [[_ [G _]] V I] vA Vv; have [w Ew] := G _ vA.
have : w != 0 by apply: contraTneq (pvt_nz Vv) => w0; rewrite Ew w0 mul0mx mxE eqxx.
move=> /(pvt_exists t)[a [e1 V1]].
have V2 := pvt_mulr I V V1; rewrite -Ew in V2; have [Ea Ee] := pvt_uniq V2 Vv.
exists a => //; rewrite -Ee; have [[z <- _] _] := V1; lia.
Qed.

(** composition for a matrix split by columns *)
Lemma kb_split m n1 n2 k1 k2 (s : 'I_m -> int) (A1 : 'M[R]_(m, n1)) (A2 : 'M[R]_(m, n2))
  (P1 : 'M[R]_(k1, m)) pi1 t1 (P2 : 'M[R]_(k2, k1)) pi2 t2 :
  kb s A1 P1 pi1 t1 -> kb t1 (P1 *m A2) P2 pi2 t2 ->
  kb s (row_mx A1 A2) (P2 *m P1) (pi1 \o pi2) t2.
Proof.
move=> K1 K2; have E1 := kbA K1; have E2 := kbA K2.
have [[_ [G1 _]] V1 I1] := K1; have [[_ [G2 _]] V2 I2] := K2.
apply: kb_intro.
- by rewrite mul_mx_row -!mulmxA E1 mulmx0 E2 row_mx0.
- move=> v; rewrite mul_mx_row -[0]row_mx0 => /eq_row_mx[v1 v2].
  have [w Ew] := G1 _ v1; have [|y Ey] := G2 w; first by rewrite mulmxA -Ew.
  by exists y; rewrite mulmxA -Ey.
- by move=> i; rewrite row_mul; exact: pvt_mulr I1 V1 (V2 i).
- by move=> i i' /I2/I1.
Qed.

Section App.
Variables (m n N : nat) (A : 'M[R]_(m, n)) (P : 'M[R]_m) (s t : 'I_m -> int).
Hypothesis PB : approx_basis N A P.
Hypothesis PD : deg_inv s t P.

Lemma app_gen (v : 'rV[R]_m) : v *m A = 0 -> exists w, v = w *m P.
Proof. by move=> vA; have [_ [G _]] := PB; apply: G => j; rewrite vA mxE dvdp0. Qed.

Lemma app_pvts k (g : 'I_k -> 'I_m) : pvts s (rowsub g P) g (fun a => t (g a)).
Proof.
move=> a; have -> : row a (rowsub g P) = row (g a) P by apply/rowP=> j; rewrite !mxE.
exact: deg_inv_pvt.
Qed.

(** the rows detected as kernel rows *)
Lemma app_kernel_row diff i :
  (forall l j (z : nat), (A l j)`_z != 0 -> z%:Z <= s l - diff) -> t i < N%:Z + diff -> row i P *m A = 0.
Proof.
move=> dA ti; apply/rowP=> j; rewrite [RHS]mxE.
have [H _] := PB; have := H i j; set u := (_ *m _) 0 j => D.
have [D1 _] := PD; apply/eqP; apply: contraT => Nu.
have := dvdp_leq Nu D; rewrite size_polyXn.
suff : (size u)%:Z <= N%:Z \/ u = 0.
  by case=> [|E]; [move: (size u) => q; lia|rewrite E eqxx in Nu].
apply: coef_size => z; rewrite /u mxE coef_sum => /sum_nz[l] /coefM_nz[a [b [<-]]].
rewrite mxE => Na Nb; have := D1 _ _ _ Na; have := dA _ _ _ Nb; lia.
Qed.

Variables (k1 k2 : nat) (g1 : 'I_k1 -> 'I_m) (g2 : 'I_k2 -> 'I_m).
Hypothesis gI1 : incr g1.
Hypothesis gI2 : incr g2.
Hypothesis gD : forall i, (exists a, g1 a = i) \/ (exists a, g2 a = i).
Hypothesis gN : forall a b, g1 a != g2 b.
Hypothesis PA1 : rowsub g1 P *m A = 0.

Lemma split_coord (w : 'rV[R]_m) :
  w *m P = (\row_a w 0 (g1 a)) *m rowsub g1 P + (\row_a w 0 (g2 a)) *m rowsub g2 P.
Proof.
pose E1 := rowsub g1 (1%:M : 'M[R]_m); pose E2 := rowsub g2 (1%:M : 'M[R]_m).
have EP k (g : 'I_k -> 'I_m) : rowsub g P = rowsub g (1%:M : 'M[R]_m) *m P.
  apply/matrixP=> a j; rewrite !mxE (bigD1 (g a)) //= big1 ?addr0.
    by rewrite !mxE eqxx mul1r.
  by move=> l Nl; rewrite !mxE eq_sym (negbTE Nl) mul0r.
rewrite (EP _ g1) (EP _ g2) !mulmxA -mulmxDl; congr (_ *m _).
apply/rowP=> i; rewrite !mxE.
have S1 k (g : 'I_k -> 'I_m) a : injective g -> g a = i ->
   \sum_j (\row_b w 0 (g b)) 0 j * rowsub g (1%:M : 'M[R]_m) j i = w 0 i.
  move=> gI Ea; rewrite (bigD1 a) //= big1 ?addr0; first by rewrite !mxE Ea eqxx mulr1.
  by move=> l Nl; rewrite !mxE -Ea (inj_eq gI) (negbTE Nl) mulr0.
have S0 k (g : 'I_k -> 'I_m) : (forall a, g a != i) ->
   \sum_j (\row_b w 0 (g b)) 0 j * rowsub g (1%:M : 'M[R]_m) j i = 0.
  by move=> H; rewrite big1 // => l _; rewrite !mxE (negbTE (H l)) mulr0.
have J1 := incr_inj gI1; have J2 := incr_inj gI2.
case: (gD i) => -[a Ea].
  by rewrite (S1 _ g1 a) // S0 ?addr0 // => b; rewrite -Ea eq_sym.
by rewrite (S1 _ g2 a) // S0 ?add0r // => b; rewrite -Ea.
Qed.

Variable Q : 'M[R]_(k2, n).
Hypothesis QE : rowsub g2 P *m A = 'X^N *: Q.

(** the kernel rows and the kernel of the residual of the others *)
Lemma app_compose l (K2 : 'M[R]_(l, k2)) pi2 t2 : kb (fun b => t (g2 b)) Q K2 pi2 t2 ->
  [/\ (K2 *m rowsub g2 P) *m A = 0,
      pvts s (K2 *m rowsub g2 P) (g2 \o pi2) t2 &
      forall v : 'rV[R]_m, v *m A = 0 -> exists w1 w2, v = w1 *m rowsub g1 P + w2 *m (K2 *m rowsub g2 P)].
Proof.
move=> KB; have E2 := kbA KB; have [[_ [G2 _]] V2 I2] := KB.
split.
- by rewrite -mulmxA QE -scalemxAr E2 scaler0.
- by move=> i; rewrite row_mul; apply: pvt_mulr (V2 i) => //; exact: app_pvts.
move=> v vA; have [w Ew] := app_gen vA.
move: vA; rewrite Ew split_coord mulmxDl -mulmxA PA1 mulmx0 add0r -mulmxA QE -scalemxAr => H.
have [|y Ey] := G2 (\row_a w 0 (g2 a)); last by exists (\row_a w 0 (g1 a)), y; rewrite mulmxA -Ey.
move: H; set u := _ *m Q => H; apply/rowP=> j; have := congr1 (fun M : 'rV[R]_n => M 0 j) H.
by rewrite !mxE => /eqP; rewrite mulf_eq0 expf_eq0 polyX_eq0 andbF /= => /eqP.
Qed.

(** no kernel vector has its pivot in the rest: the detected rows are enough *)
Lemma app_done : (forall (v : 'rV[R]_m) j e, v *m A = 0 -> pvt s v j e -> exists a, g1 a = j) ->
  kb s A (rowsub g1 P) g1 (fun a => t (g1 a)).
Proof.
move=> H; apply: kb_intro => //; last exact: app_pvts.
move=> v vA; have [w Ew] := app_gen vA; exists (\row_a w 0 (g1 a)).
rewrite Ew split_coord; suff -> : \row_a w 0 (g2 a) = 0 by rewrite mul0mx addr0.
apply/eqP; apply: contraT => /(pvt_exists (fun b => t (g2 b)))[b [e V]].
have V2 : pvt s ((\row_a w 0 (g2 a)) *m rowsub g2 P) (g2 b) e.
  by apply: pvt_mulr V => //; exact: app_pvts.
have [|a Ea] := H _ _ _ _ V2; last by have := gN a b; rewrite Ea eqxx.
move: vA; rewrite Ew split_coord mulmxDl -mulmxA PA1 mulmx0 add0r //.
Qed.
End App.

(** enough columns to detect the vectors of the kernel *)
Lemma col_select m n (A : 'M[R]_(m, n)) : exists r, r = \rank (mf A) /\
  exists C : 'I_r -> 'I_n, forall u : 'rV[R]_m, (forall c, (u *m A) 0 (C c) = 0) -> u *m A = 0.
Proof.
exists (\rank (mf A)^T); split; first by rewrite mxrank_tr.
exists (maxrankfun (mf A)^T) => u Hu.
have [Z EZ] : exists Z, (mf A)^T = Z *m rowsub (maxrankfun (mf A)^T) (mf A)^T.
  by apply/submxP; rewrite eq_maxrowsub.
apply: mf_inj; rewrite map_mx0 map_mxM -[mf A]trmxK EZ trmx_mul mulmxA.
suff -> : mf u *m (rowsub (maxrankfun (mf A)^T) (mf A)^T)^T = 0 by rewrite mul0mx.
apply/rowP=> c; rewrite !mxE.
have := congr1 tf (Hu c); rewrite tofrac0 mxE rmorph_sum => E; rewrite -[RHS]E.
by apply: eq_bigr => l _; rewrite !mxE rmorphM.
Qed.

Lemma kb_delta m n k (s : 'I_m -> int) (A : 'M[R]_(m, n)) (P : 'M[R]_(k, m)) pi t a :
  kb s A P pi t -> t a - s (pi a) = (absz (t a - s (pi a)))%:Z.
Proof. by case=> _ V _; have [[z <- _] _] := V a; lia. Qed.

(** the sum of the pivot degrees of the kernel is bounded by the sum of the degrees of
    the rows outside of the pivots *)
Lemma kb_degsum m n k (s : 'I_m -> int) (A : 'M[R]_(m, n)) (P : 'M[R]_(k, m)) pi t (d : 'I_m -> nat) :
  kb s A P pi t -> (forall i j, (size (A i j) <= (d i).+1)%N) ->
  \sum_a (t a - s (pi a)) <= (\sum_(i | i \notin codom pi) d i)%N%:Z.
Proof.
move=> KB dA; have [KB0 V I] := KB.
pose de a := absz (t a - s (pi a)).
have deE a : t a - s (pi a) = (de a)%:Z by exact: kb_delta KB.
rewrite (eq_bigr _ (fun a _ => deE a)) -(big_morph Posz PoszD (erefl 0%:Z)) lez_nat.
pose N := (\sum_a de a + \sum_i d i)%N.
pose b (i : 'I_m) : nat := if [pick a | pi a == i] is Some a then de a else (N - d i)%N.
have bP a : b (pi a) = de a.
  rewrite /b; case: pickP => [a' /eqP/(incr_inj I) -> //|/(_ a)]; by rewrite eqxx.
have bN i : i \notin codom pi -> b i = (N - d i)%N.
  rewrite /b; case: pickP => [a' /eqP <-|//]; by rewrite codom_f.
have dN i : (d i <= N)%N by rewrite /N (bigD1 i) //=; lia.
have deN a : (de a + d (pi a) <= N)%N.
  by rewrite /N (bigD1 a) //= (bigD1 (pi a)) //=; lia.
have bS i : (b i + d i <= N)%N \/ b i = 0%N.
  rewrite /b; case: pickP => [a' /eqP <-|_]; first by left; exact: deN.
  by left; rewrite subnK.
have [r [rE [C HC]]] := col_select A.
pose T := {i : 'I_m & 'I_(b i)}.
pose W := ('I_r * 'I_N)%type.
pose L : 'M[F]_(#|{: T}|, #|{: W}|) := \matrix_(x, y)
  let p : T := enum_val x in let q : W := enum_val y in ('X^(nat_of_ord (tagged p)) * A (tag p) (C q.1))`_(q.2).
have LF : row_free L.
  rewrite -kermx_eq0; apply/eqP/row_matrixP=> i0; rewrite row0.
  set x := row i0 _.
  have xL : x *m L = 0 by apply/sub_kermxP; exact: row_sub.
  pose u : 'rV[R]_m := \row_i \sum_(e < b i)
    (x 0 (enum_rank (Tagged (fun i => 'I_(b i)) e)))%:P * 'X^e.
  have uco i (e : 'I_(b i)) : (u 0 i)`_e = x 0 (enum_rank (Tagged (fun i => 'I_(b i)) e)).
    rewrite mxE coef_sum (bigD1 e) //= coefCM coefXn eqxx mulr1 big1 ?addr0 // => e' Ne.
    by rewrite coefCM coefXn eq_sym (inj_eq val_inj) (negbTE Ne) mulr0.
  have usz i : (size (u 0 i)%R <= b i)%N.
    rewrite mxE; apply: (leq_trans (size_sum _ _ _)); apply/bigmax_leqP=> e _.
    by apply: leq_trans (size_mul_leq _ _) _; rewrite size_polyXn; have := size_polyC_leq1 (x 0 (enum_rank (Tagged (fun i => 'I_(b i)) e))); have := ltn_ord e; lia.
  have uA : u *m A = 0.
    apply: HC => c; apply/polyP=> z; rewrite coef0.
    case: (ltnP z N) => Hz; last first.
      rewrite nth_default // mxE; apply: (leq_trans (size_sum _ _ _)); apply: leq_trans Hz.
      apply/bigmax_leqP=> i _; have := usz i; case: (bS i) => [h|->]; last first.
        by rewrite leqn0 size_poly_eq0 => /eqP ->; rewrite mul0r size_poly0.
      move=> h2; apply: leq_trans (size_mul_leq _ _) _; have := dA i (C c).
      by move: (size _) h2 => q1; move: (size _) => q2; lia.
    have := congr1 (fun M : 'rV[F]_#|{: W}| => M 0 (enum_rank (c, Ordinal Hz))) xL.
    rewrite !mxE coef_sum => E0; rewrite -[RHS]E0.
    rewrite (reindex (@enum_rank [finType of T])) /=; last by exists enum_val => y _; rewrite ?enum_rankK ?enum_valK.
    rewrite (eq_bigr (fun p : T => x 0 (enum_rank (Tagged (fun i => 'I_(b i)) (tagged p))) * ('X^(nat_of_ord (tagged p)) * A (tag p) (C c))`_z)); last first.
      by move=> p _; rewrite !mxE !enum_rankK /=; case: p.
    rewrite -(sig_big_dep xpredT (fun i _ => true) (fun i (e : 'I_(b i)) => x 0 (enum_rank (Tagged (fun i => 'I_(b i)) e)) * ('X^e * A i (C c))`_z)) /=.
    apply: eq_bigr => i _; rewrite !mxE mulr_suml coef_sum; apply: eq_bigr => e _.
    by rewrite -mulrA coefCM.
  have u0 : u = 0.
    apply/eqP; apply: contraT => /(pvt_exists s)[j [e Vu]].
    have [a Ea te] := kb_pivot KB uA Vu.
    have := pvt_size Vu; have := usz j; rewrite -Ea bP; have := deE a.
    by move: (size _) te => q; lia.
  apply/rowP=> y; rewrite [RHS]mxE -[y]enum_valK.
  case: (enum_val y) => i e; by rewrite -uco u0 mxE coef0.
have : (#|{: T}| <= #|{: W}|)%N by rewrite -(eqP LF); exact: rank_leq_col.
rewrite card_prod !card_ord card_tagged sumnE big_map big_enum /=.
rewrite (eq_bigr b); last by move=> i _; rewrite card_ord.
rewrite (bigID (fun i => i \in codom pi)) /=.
have -> : (\sum_(i | i \in codom pi) b i = \sum_a de a)%N.
  rewrite (eq_bigl (mem (pi @: setT))) => [|i]; last first.
    by apply/codomP/imsetP => -[a]; [move=> ->; exists a; rewrite ?inE|move=> _ ->; exists a].
  rewrite big_imset /=; last by move=> a a' _ _; exact: (incr_inj I).
  by apply: eq_big => [a|a _]; rewrite ?inE ?bP.
rewrite (eq_bigr (fun i => (N - d i)%N)) => [|i]; last by move/bN.
have <- : (\sum_(i | i \notin codom pi) (N - d i) + \sum_(i | i \notin codom pi) d i = r * N)%N.
  rewrite -big_split /= (eq_bigr (fun=> N)) => [|i _]; last by rewrite subnK.
  rewrite sum_nat_const; congr (_ * _)%N.
  have := cardC (mem (codom pi)); rewrite card_ord (eq_card (_ : _ =i codom pi)) //.
  rewrite card_codom ?card_ord; last exact: incr_inj I.
  have -> : #|[predC (mem (codom pi))]| = #|(fun i => i \notin codom pi)| by apply: eq_card.
  have := kernel_basis_rows KB0; have := rank_leq_row (mf A); rewrite -rE.
  lia.
by rewrite addnC leq_add2l.
Qed.

Lemma sum_codom k m (pi : 'I_k -> 'I_m) (f : 'I_m -> int) : injective pi ->
  \sum_a f (pi a) = \sum_(i | i \in codom pi) f i.
Proof.
move=> I; rewrite (eq_bigl (mem (pi @: setT))) => [|i]; last first.
  by apply/codomP/imsetP => -[a]; [move=> ->; exists a; rewrite ?inE|move=> _ ->; exists a].
rewrite big_imset /=; last by move=> a a' _ _; exact: I.
by apply: eq_bigl => a; rewrite inE.
Qed.

Section App2.
Variables (m n N : nat) (A : 'M[R]_(m, n)) (P : 'M[R]_m) (s t : 'I_m -> int).
Hypothesis PB : approx_basis N A P.
Hypothesis PD : deg_inv s t P.
Variables (k : nat) (Kb : 'M[R]_(k, m)) (pi : 'I_k -> 'I_m) (tK : 'I_k -> int).
Hypothesis KB : kb s A Kb pi tK.

Lemma app_factor : exists2 W : 'M[R]_(k, m), Kb = W *m P & pvts t W pi tK.
Proof.
have KA := kbA KB; have [_ V _] := KB.
have /fin_all_exists[w Ew] : forall a, exists w, row a Kb = w *m P.
  by move=> a; apply: (app_gen PB); rewrite -row_mul KA row0.
exists (\matrix_a w a); first by apply/row_matrixP=> a; rewrite row_mul rowK Ew.
move=> a; rewrite rowK.
have : w a != 0 by apply: contraTneq (pvt_nz (V a)) => w0; rewrite Ew w0 mul0mx mxE eqxx.
move=> /(pvt_exists t)[j [e V1]].
have V2 := pvt_mul PD V1; rewrite -Ew in V2; by have [<- <-] := pvt_uniq V2 (V a).
Qed.

Lemma app_le a : t (pi a) <= tK a.
Proof. by have [W _ V] := app_factor; have [[z <- _] _] := V a; lia. Qed.

Lemma app_ge0 i : s i <= t i.
Proof. by have [_ B] := PD; have [z <- _] := B i; lia. Qed.

Lemma app_transport (Q : 'M[R]_(m, n)) : P *m A = 'X^N *: Q ->
  exists W : 'M[R]_(k, m), kb t Q W pi tK.
Proof.
move=> PA; have [W EW V] := app_factor; exists W.
have KA := kbA KB; have [[_ [G _]] _ I] := KB; have [_ [_ PI]] := PB.
have X0 k' (M : 'M[R]_(k', n)) : 'X^N *: M = 0 -> M = 0.
  move=> H; apply/matrixP=> i j; have := congr1 (fun M : 'M[R]_(k', n) => M i j) H.
  by rewrite !mxE => /eqP; rewrite mulf_eq0 expf_eq0 polyX_eq0 andbF /= => /eqP.
apply: kb_intro => //.
  by apply: X0; rewrite scalemxAr -PA mulmxA -EW.
move=> v vQ; have [|y Ey] := G (v *m P); first by rewrite -mulmxA PA -scalemxAr vQ scaler0.
exists y; apply/eqP; rewrite -subr_eq0; apply/eqP; apply: PI.
by rewrite mulmxBl Ey EW mulmxA subrr.
Qed.

Variables (k1 k2 : nat) (g1 : 'I_k1 -> 'I_m) (g2 : 'I_k2 -> 'I_m).
Hypothesis gI1 : incr g1.
Hypothesis gI2 : incr g2.
Hypothesis gD : forall i, (exists a, g1 a = i) \/ (exists a, g2 a = i).
Hypothesis gN : forall a b, g1 a != g2 b.
Hypothesis PA1 : rowsub g1 P *m A = 0.
Variable d : 'I_m -> nat.
Hypothesis dA : forall i j, (size (A i j) <= (d i).+1)%N.
Hypothesis cst : forall b, ~~ ((d (g2 b) == 0%N) && (t (g2 b) - s (g2 b) <= 0)).
Hypothesis sumE : \sum_a (t (g1 a) - s (g1 a)) = (\sum_b d (g2 b))%N%:Z.

Lemma app_early (v : 'rV[R]_m) j e : v *m A = 0 -> pvt s v j e -> exists a, g1 a = j.
Proof.
move=> vA Vv; have [c <- _] := kb_pivot KB vA Vv; move=> {v j e vA Vv}.
have [_ V I] := KB; have J := incr_inj I.
have J1 := incr_inj gI1; have J2 := incr_inj gI2.
have sub a : g1 a \in codom pi.
  have V1 := app_pvts PD g1 a.
  have [|c' Ec _] := kb_pivot KB _ V1; last by rewrite -Ec codom_f.
  by rewrite -row_mul PA1 row0.
have g2P i : (i \in codom g2) = (i \notin codom g1).
  apply/codomP/idP => [[b ->]|H].
    by apply/negP => /codomP[a] /eqP; rewrite eq_sym (negbTE (gN a b)).
  case: (gD i) => -[a Ea]; last by exists a.
  by rewrite -Ea codom_f in H.
have H1 : \sum_(i | i \in codom pi) (t i - s i) <= (\sum_(i | i \notin codom pi) d i)%N%:Z.
  apply: le_trans (kb_degsum KB dA); rewrite -(sum_codom (fun i => t i - s i) J).
  by apply: ler_sum => a _; have := app_le a; lia.
have H2 : \sum_(i | i \in codom g1) (t i - s i) = \sum_(i | i \notin codom g1) (d i)%:Z.
  rewrite -(sum_codom (fun i => t i - s i) J1) sumE (big_morph Posz PoszD (erefl 0%:Z)).
  by rewrite (sum_codom (fun i => (d i)%:Z) J2); apply: eq_bigl => i; exact: g2P.
pose D i := (i \in codom pi) && (i \notin codom g1).
have H3 : \sum_(i | D i) (t i - s i + (d i)%:Z) <= 0.
  rewrite big_split /=.
  move: H1; rewrite (bigID (fun i => i \in codom g1)) /= (big_morph Posz PoszD (erefl 0%:Z)).
  have -> : \sum_(i | (i \in codom pi) && (i \in codom g1)) (t i - s i) =
            \sum_(i | i \in codom g1) (t i - s i).
    apply: eq_bigl => i; apply/andP/idP => [[]//|Hi]; split=> //.
    by case/codomP: Hi => a ->.
  rewrite H2 [X in X + _ <= _](bigID (fun i => i \in codom pi)) /=.
  have -> : \sum_(i | (i \notin codom g1) && (i \in codom pi)) (d i)%:Z = \sum_(i | D i) (d i)%:Z.
    by apply: eq_bigl => i; rewrite /D andbC.
  have -> : \sum_(i | (i \notin codom g1) && (i \notin codom pi)) (d i)%:Z =
            \sum_(i | i \notin codom pi) (d i)%:Z.
    apply: eq_bigl => i; apply/andP/idP => [[]//|Hi]; split=> //.
    by apply: contra Hi => /codomP[a ->].
  have -> : \sum_(i | (i \in codom pi) && (i \notin codom g1)) (t i - s i) = \sum_(i | D i) (t i - s i) by [].
  by move: (\sum_(i | D i) _) => x; move: (\sum_(i | D i) _) => y; move: (\sum_(i | _) _) => z; lia.
case E: (pi c \in codom g1); first by case/codomP: E => a Ea; exists a.
have Dc : D (pi c) by rewrite /D codom_f E.
have Z : t (pi c) - s (pi c) + (d (pi c))%:Z <= 0.
  apply: le_trans H3; rewrite (bigD1 (pi c)) //= ler_addl sumr_ge0 // => i _.
  by have := app_ge0 i; lia.
have : pi c \in codom g2 by rewrite g2P E.
case/codomP=> b Eb; have := cst b; rewrite -Eb; have := app_ge0 (pi c).
by move: Z => Z1 Z2; case: (d (pi c)) Z1 => [|q] /=; lia.
Qed.
End App2.

End ZlsAbs.
