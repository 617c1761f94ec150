(** The evaluation/interpolation products compute the product. *)
From mathcomp Require Import all_ssreflect all_algebra all_solvable zify.
From Verif Require Import A_base A_matpoly_model A_matpoly_proof A_mul_model.
Set Implicit Arguments.
Unset Strict Implicit.
Unset Printing Implicit Defensive.
Import GRing.Theory Num.Theory.
Local Open Scope ring_scope.

Section Interp.
Variable F : fieldType.
Implicit Types A B : fmat {poly F}.

Definition distinct (n : nat) (x : nat -> F) :=
  forall i j, (i < n)%N -> (j < n)%N -> x i = x j -> i = j.

Lemma vdm_unit n (x : nat -> F) : distinct n x -> mx_of n n (vdm x) \in unitmx.
Proof.
move=> D; rewrite -unitmx_tr -row_free_unit.
rewrite -kermx_eq0; apply/eqP; apply/row_matrixP=> r; rewrite row0.
set u := row r _.
have Hu : u *m (mx_of n n (vdm x))^T = 0.
  by apply: sub_kermxP; exact: row_sub.
pose p : {poly F} := \poly_(i < n) (if insub i is Some i' then u 0 i' else 0).
have Ep (i : 'I_n) : p`_i = u 0 i by rewrite coef_poly ltn_ord valK.
suff p0 : p = 0 by apply/rowP=> i; rewrite -Ep p0 coef0 mxE.
apply: (@roots_geq_poly_eq0 _ _ [seq x k | k <- iota 0 n]).
- apply/allP=> y /mapP[k]; rewrite mem_iota add0n => /= Hk ->.
  rewrite /root horner_poly; apply/eqP.
  move/rowP: Hu => /(_ (Ordinal Hk)); rewrite !mxE => E; rewrite -[RHS]E.
  by apply: eq_bigr => i _; rewrite valK [(_)^T _ _]mxE mx_ofE.
- rewrite map_inj_in_uniq ?iota_uniq // => a b; rewrite !mem_iota !add0n => /= Ha Hb.
  exact: D.
- by rewrite size_map size_iota size_poly.
Qed.

Lemma finvE n (V : fmat F) (i j : 'I_n) : finv n V i j = invmx (mx_of n n V) i j.
Proof. by rewrite /finv !valK. Qed.

Lemma finv_out n (V : fmat F) i j : (n <= i)%N -> finv n V i j = 0.
Proof. by move=> H; rewrite /finv insubN // -leqNgt. Qed.

(** interpolation recovers the coefficients *)
Lemma interpP n (x : nat -> F) (p : {poly F}) (v : nat -> F) i : distinct n x ->
  (size p <= n)%N -> (forall k, (k < n)%N -> v k = p.[x k]) -> (i < n)%N ->
  \sum_(k < n) finv n (vdm x) i k * v k = p`_i.
Proof.
move=> D Hs Hv Hi.
pose c : 'cV[F]_n := \col_k p`_k.
have E : mx_of n n (vdm x) *m c = \col_k v k.
  apply/colP=> k; rewrite !mxE Hv // (horner_coef_wide _ Hs).
  by apply: eq_bigr => l _; rewrite !mxE mulrC.
have : c = invmx (mx_of n n (vdm x)) *m \col_k v k by rewrite -E mulKmx // vdm_unit.
move/colP=> /(_ (Ordinal Hi)); rewrite !mxE /= => ->.
by apply: eq_bigr => k _; rewrite !mxE -finvE.
Qed.

Lemma interpM n (x : nat -> F) (p : {poly F}) (v : fmat F) c i : distinct n x ->
  (size p <= n)%N -> (forall k, (k < n)%N -> v k c = p.[x k]) -> (i < n)%N ->
  fmul n (finv n (vdm x)) v i c = p`_i.
Proof. by move=> D Hs Hv; apply: (interpP (v := v^~ c)). Qed.

Lemma interp_poly n (x : nat -> F) (p : {poly F}) (v : fmat F) c : distinct n x ->
  (size p <= n)%N -> (forall k, (k < n)%N -> v k c = p.[x k]) ->
  \poly_(t < n) (fmul n (finv n (vdm x)) v t c) = p.
Proof.
move=> D Hs Hv; apply/polyP=> t; rewrite coef_poly; case: ltnP => Ht; first exact: (interpP (v := v^~ c)).
by rewrite nth_default // (leq_trans Hs).
Qed.

Lemma fmul_hornerE n A B i j (x : F) :
  \sum_(l < n) (A i l).[x] * (B l j).[x] = (fmul n A B i j).[x].
Proof. by rewrite /fmul horner_sum; apply: eq_bigr => l _; rewrite hornerM. Qed.

Lemma pm_max_zero m n A i j : pm_max_length m n A = 0%N -> (i < m)%N -> (j < n)%N -> A i j = 0.
Proof.
move=> E Hi Hj; apply/eqP; rewrite -size_poly_eq0 -leqn0 -E; exact: pm_max_lengthP.
Qed.

Lemma fmul_size m n p A B i j : (i < m)%N -> (j < p)%N ->
  (size (fmul n A B i j) <= pm_max_length m n A + pm_max_length n p B - 1)%N.
Proof.
move=> Hi Hj; apply: (leq_trans (size_sum _ _ _)); apply/bigmax_leqP=> l _.
case: (eqVneq (A i l) 0) => [->|NA]; first by rewrite mul0r size_poly0.
case: (eqVneq (B l j) 0) => [->|NB]; first by rewrite mulr0 size_poly0.
rewrite size_mul // -subn1; apply: leq_sub2r; apply: leq_add; exact: pm_max_lengthP.
Qed.

Lemma fmul_zero m n p A B i j : (i < m)%N -> (j < p)%N ->
  (pm_max_length m n A == 0%N) || (pm_max_length n p B == 0%N) -> fmul n A B i j = 0.
Proof.
move=> Hi Hj H; apply: big1 => l _; case/orP: H => /eqP H.
  by rewrite (pm_max_zero H Hi) ?mul0r.
by rewrite (pm_max_zero H _ Hj) ?mulr0.
Qed.

(** ** Geometric progression *)
Lemma mul_geometric_precompP m n p A B q i j : (i < m)%N -> (j < p)%N ->
  let len1 := pm_max_length m n A in
  let len2 := pm_max_length n p B in
  distinct (len1 + len2 - 1) (fun k => q ^+ k) ->
  mul_geometric_precomp n A len1 B len2 q i j = fmul n A B i j.
Proof.
move=> Hi Hj len1 len2 D; rewrite /mul_geometric_precomp.
case: ifP => Z; first by rewrite (fmul_zero (m := m) (p := p)).
apply: interp_poly => //; first exact: fmul_size.
by move=> k Hk; rewrite -fmul_hornerE.
Qed.

(** nmod_find_root *)
Lemma fr_innerP fuel (q : F) k n : (n <= fuel + k)%N ->
  (fr_inner fuel q (q ^+ k) k n != 1) <->
  (forall i, (k <= i)%N -> (i <= maxn k n)%N -> q ^+ i != 1).
Proof.
elim: fuel k => [|fuel IH] k Hn /=.
  split=> [H i H1 H2|H]; last by apply: H => //; lia.
  by have -> : i = k by lia.
case: ifP => [/andP[N1 Hk]|C].
  rewrite -exprSr; have -> : maxn k n = maxn k.+1 n by lia.
  split=> [/IH H i H1 H2|H].
    case: (eqVneq i k) => [->//|NE]; apply: H; lia.
  by apply/IH; [lia | move=> i H1 H2; apply: H; lia].
split=> [H i H1 H2|H]; last by apply: H => //; lia.
rewrite H /= in C; by have -> : i = k by lia.
Qed.

Lemma fr_outerP cnt q n :
  (exists2 r, (q <= r < q + cnt)%N & fr_outer F cnt q n = r%:R /\ fr_inner n r%:R (r%:R : F) 1 n != 1)
  \/ (fr_outer F cnt q n = 0 /\ forall r, (q <= r < q + cnt)%N -> fr_inner n r%:R (r%:R : F) 1 n = 1).
Proof.
elim: cnt q => [|cnt IH] q /=; first by right; split=> // r; lia.
case: ifP => H; first by left; exists q; [lia|].
have [[r Hr E]|[E1 E2]] := IH q.+1; first by left; exists r; [lia|].
right; split=> // r Hr; case: (eqVneq r q) => [->|NE]; first by move/negbFE/eqP: H.
apply: E2; lia.
Qed.

(** with a modulus larger than the order looked for, a root is found *)
Lemma natr_unity modn r : modn \in [char F] -> (0 < r < modn)%N -> (r%:R : F) ^+ modn.-1 = 1.
Proof.
move=> Hc Hr; have Hp := charf_prime Hc.
have NZ : (r%:R : F) != 0.
  by rewrite -(dvdn_charf Hc); apply/negP=> /dvdn_leq; lia.
apply: (mulIf NZ); rewrite mul1r -exprSr prednK ?prime_gt0 //.
by rewrite -(Frobenius_autE Hc) Frobenius_aut_nat.
Qed.

Lemma natr_inj modn a b : modn \in [char F] -> (a < modn)%N -> (b < modn)%N ->
  (a%:R : F) = b%:R -> a = b.
Proof.
move=> Hc; wlog le : a b / (a <= b)%N.
  by move=> H Ha Hb E; case: (leqP a b) => L; [|apply/esym]; apply: H => //; exact: ltnW.
move=> Ha Hb E; have : (modn %| b - a)%N by rewrite (dvdn_charf Hc) natrB // E subrr.
by case: (posnP (b - a)) => [|P /dvdn_leq]; lia.
Qed.

Lemma find_rootP modn n : modn \in [char F] -> (n.+1 < modn)%N -> (0 < n)%N ->
  find_root F modn n != 0 /\ forall i, (0 < i <= n)%N -> (find_root F modn n) ^+ i != 1.
Proof.
move=> Hc Hn n0; rewrite /find_root.
have [[r Hr [-> H]]|[_ H]] := fr_outerP (modn - 2) 2 n.
  split; first by rewrite -(dvdn_charf Hc); apply/negP=> /dvdn_leq; lia.
  move=> i Hi; move: H; rewrite -{2}[r%:R]expr1 => /fr_innerP H.
  by apply: H; lia.
exfalso.
have Hp := charf_prime Hc.
have : has (modn.-1).-primitive_root [seq (k%:R : F) | k <- iota 1 modn.-1].
  apply: has_prim_root; first by lia.
  - apply/allP=> y /mapP[k]; rewrite mem_iota => Hk ->; apply/unity_rootP/natr_unity => //; lia.
  - rewrite map_inj_in_uniq ?iota_uniq // => a b; rewrite !mem_iota => Ha Hb.
    by apply: (natr_inj Hc); lia.
  - by rewrite size_map size_iota.
case/hasP=> y /mapP[k]; rewrite mem_iota => Hk -> Hprim.
have k2 : (2 <= k < 2 + (modn - 2))%N.
  suff : k != 1%N by lia.
  apply: contraTneq Hprim => ->; apply/negP=> /prim_order_dvd /(_ 1%N).
  by rewrite expr1n eqxx => /esym; rewrite dvdn1; lia.
have /eqP := H k k2; apply/negP.
rewrite -{2}[k%:R]expr1; apply/fr_innerP; first by lia.
move=> j Hj1 Hj2; apply/negP=> /eqP E.
have : (modn.-1 %| j)%N by rewrite (prim_order_dvd Hprim) E.
by move/dvdn_leq; lia.
Qed.

Lemma find_root_distinct modn len : modn \in [char F] -> (2 * len + 1 < modn)%N ->
  distinct len (fun k => ((find_root F modn (2 * len)) ^+ 2) ^+ k).
Proof.
move=> Hc Hl; case: (posnP len) => [-> i j|L0]; first by [].
have [w0 H] := @find_rootP modn (2 * len) Hc ltac:(lia) ltac:(lia).
set w := find_root _ _ _ in w0 H *.
move=> i j; wlog le : i j / (i <= j)%N.
  by move=> W Hi Hj E; case: (leqP i j) => L; [|apply/esym]; apply: W => //; exact: ltnW.
move=> Hi Hj; rewrite -!exprM => E.
case: (posnP (j - i)) => [|P]; first by lia.
have /eqP[] := H (2 * (j - i))%N ltac:(lia).
apply: (mulIf (expf_neq0 (2 * i) w0)); rewrite mul1r -exprD E; congr (_ ^+ _); lia.
Qed.

Lemma mul_geometricP modn m n p A B i j : modn \in [char F] -> (i < m)%N -> (j < p)%N ->
  can_use_geometric modn (pm_max_length m n A + pm_max_length n p B - 1) ->
  mul_geometric modn m n p A B i j = fmul n A B i j.
Proof.
move=> Hc Hi Hj G; rewrite /mul_geometric; case: ifP => Z.
  by rewrite (fmul_zero (m := m) (p := p)).
apply: mul_geometric_precompP => //; apply: find_root_distinct => //.
move: G; rewrite /can_use_geometric; lia.
Qed.

(** ** Vandermonde, first variant *)
Lemma distinct_nat modn n : modn \in [char F] -> (n <= modn)%N ->
  distinct n (vdm_points1 F).
Proof. by move=> Hc Hn i j Hi Hj; apply: (natr_inj Hc); lia. Qed.

Lemma divmod_col n u v : (v < n)%N -> ((u * n + v) %/ n = u)%N /\ ((u * n + v) %% n = v)%N.
Proof. by move=> H; rewrite divnMDl ?modnMDl ?divn_small ?modn_small ?addn0 //; lia. Qed.

Lemma eval_coefs (a : {poly F}) (x : F) l : (size a <= l)%N ->
  \sum_(k < l) x ^+ k * a`_k = a.[x].
Proof. by move=> H; rewrite (horner_coef_wide _ H); apply: eq_bigr => k _; rewrite mulrC. Qed.

Lemma mul_vandermonde1P modn m n p A B i j : modn \in [char F] -> (i < m)%N -> (j < p)%N ->
  can_use_vandermonde1 modn (pm_max_length m n A + pm_max_length n p B - 1) ->
  mul_vandermonde1 m n p A B i j = fmul n A B i j.
Proof.
move=> Hc Hi Hj G; rewrite /mul_vandermonde1; case: ifP => [Z|/negbT NZ].
  by rewrite (fmul_zero (m := m) (p := p)).
have [Ed Em] := divmod_col i Hj.
set nb := (_ + 1)%N.
have Enb : nb = (pm_max_length m n A + pm_max_length n p B - 1)%N by rewrite /nb; lia.
apply: interp_poly.
- by apply: (distinct_nat Hc); rewrite Enb.
- by rewrite Enb; apply: fmul_size.
move=> k Hk; rewrite Ed Em -fmul_hornerE; apply: eq_bigr => l _.
have [El1 El2] := divmod_col i (ltn_ord l); have [Er1 Er2] := divmod_col l Hj.
rewrite /fmul El1 El2 Er1 Er2 !eval_coefs //; exact: pm_max_lengthP.
Qed.

(** ** Vandermonde, second variant *)
Lemma even_partE (a : {poly F}) k : even_part a k = a`_(2 * k).
Proof.
rewrite /even_part; case: (ltnP (2 * k + 1) (size a)) => // H.
case: ifP => [/andP[/eqP H1 /eqP H2]|H1].
  by congr (_`_ _); rewrite H2; move: (divn_eq (size a) 2) => E; rewrite H1 in E; lia.
have E := divn_eq (size a) 2; have L : (size a %% 2 < 2)%N by rewrite ltn_mod.
rewrite nth_default //.
move: H H1 E L; set d := (size a %/ 2)%N; set r := (size a %% 2)%N => H H1 E L.
rewrite E in H *.
lia.
Qed.

Lemma odd_partE (a : {poly F}) k : odd_part a k = a`_(2 * k + 1).
Proof. by rewrite /odd_part; case: ltnP => // H; rewrite nth_default. Qed.

Lemma split_sum (f : nat -> F) (x : F) l :
  \sum_(k < 2 * l) f k * x ^+ k =
  \sum_(k < l) (x * x) ^+ k * f (2 * k)%N + x * \sum_(k < l) (x * x) ^+ k * f (2 * k + 1)%N.
Proof.
elim: l => [|l IH]; first by rewrite muln0 !big_ord0 mulr0 addr0.
have -> : (2 * l.+1 = (2 * l).+2)%N by lia.
rewrite !big_ord_recr /= IH mulrDr -!addrA; congr (_ + _).
rewrite addrCA; congr (_ + (_ + _)); rewrite -expr2 -exprM; first by rewrite mulrC.
by rewrite addn1 exprS mulrC mulrA.
Qed.

Lemma split_eval (a : {poly F}) (x : F) l : (size a <= 2 * l)%N ->
  a.[x] = \sum_(k < l) (x * x) ^+ k * a`_(2 * k)
          + x * \sum_(k < l) (x * x) ^+ k * a`_(2 * k + 1).
Proof. by move=> H; rewrite (horner_coef_wide _ H) -split_sum. Qed.

Lemma eval_parts (a : {poly F}) (x : F) l : (size a <= 2 * l)%N ->
  let e := \sum_(k < l) (x * x) ^+ k * even_part a k in
  let o := x * \sum_(k < l) (x * x) ^+ k * odd_part a k in
  a.[x] = e + o /\ a.[- x] = e - o.
Proof.
move=> H e o; rewrite !(split_eval _ H) mulrNN mulNr.
have -> : \sum_(k < l) (x * x) ^+ k * a`_(2 * k) = e.
  by apply: eq_bigr => k _; rewrite even_partE.
have -> : \sum_(k < l) (x * x) ^+ k * a`_(2 * k + 1) = \sum_(k < l) (x * x) ^+ k * odd_part a k.
  by apply: eq_bigr => k _; rewrite odd_partE.
by [].
Qed.

Lemma distinct_sq modn n : modn \in [char F] -> (2 * n <= modn)%N -> distinct n (vdm_points2 F).
Proof.
move=> Hc Hn i j Hi Hj; rewrite /vdm_points2 => E.
case: (eqVneq i j) => // NE.
have : (i.+1%:R - j.+1%:R) * (i.+1%:R + j.+1%:R) = 0 :> F.
  by rewrite mulrDr !mulrBl E [j.+1%:R * i.+1%:R]mulrC addrA subrK subrr.
move/eqP; rewrite mulf_eq0 => /orP[].
  by rewrite subr_eq0 => /eqP /(natr_inj Hc); lia.
by rewrite -natrD -(dvdn_charf Hc) => /dvdn_leq; lia.
Qed.

Lemma natr_nz modn k : modn \in [char F] -> (0 < k < modn)%N -> (k%:R : F) != 0.
Proof. by move=> Hc Hk; rewrite -(dvdn_charf Hc); apply/negP=> /dvdn_leq; lia. Qed.

Lemma size_even_odd (c : {poly F}) nb (parity : nat) k : (size c <= 2 * nb)%N ->
  (nb <= k)%N -> c`_(2 * k + parity) = 0.
Proof. by move=> H Hk; rewrite nth_default // (leq_trans H) //; lia. Qed.

Lemma mul_vandermonde2P modn m n p A B i j : modn \in [char F] -> (2 < modn)%N ->
  (i < m)%N -> (j < p)%N ->
  can_use_vandermonde2 modn (pm_max_length m n A + pm_max_length n p B - 1) ->
  mul_vandermonde2 m n p A B i j = fmul n A B i j.
Proof.
move=> Hc H2 Hi Hj G; rewrite /mul_vandermonde2; case: ifP => [Z|/negbT NZ].
  by rewrite (fmul_zero (m := m) (p := p)).
have [Ed Em] := divmod_col i Hj.
set dA := (pm_max_length m n A - 1)%N; set dB := (pm_max_length n p B - 1)%N.
set nb := ((dA + dB) %/ 2 + 1)%N.
have Hnb : (2 * nb <= modn)%N /\ (pm_max_length m n A + pm_max_length n p B - 1 <= 2 * nb)%N.
  by move: G; rewrite /can_use_vandermonde2 /nb /dA /dB; lia.
have [Hnb1 Hnb2] := Hnb.
set c := fmul n A B i j.
have Hsc : (size c <= 2 * nb)%N.
  by apply: leq_trans Hnb2; apply: fmul_size.
have D := distinct_sq Hc Hnb1.
pose ce : {poly F} := \poly_(k < nb) c`_(2 * k).
pose co : {poly F} := \poly_(k < nb) c`_(2 * k + 1).
have Ece x : ce.[x * x] = \sum_(k < nb) (x * x) ^+ k * c`_(2 * k).
  by rewrite horner_poly; apply: eq_bigr => k _; rewrite mulrC.
have Eco x : co.[x * x] = \sum_(k < nb) (x * x) ^+ k * c`_(2 * k + 1).
  by rewrite horner_poly; apply: eq_bigr => k _; rewrite mulrC.
have Ec x : c.[x] = ce.[x * x] + x * co.[x * x] by rewrite (split_eval _ Hsc) -Ece -Eco.
have Ecn x : c.[- x] = ce.[x * x] - x * co.[x * x].
  by rewrite Ec mulrNN mulNr.
have HA u l k (Hu : (u < m)%N) (Hl : (l < n)%N) :
  let e := fmul (dA %/ 2 + 1) (vdm (vdm_points2 F))
     (fun k ell => even_part (A (ell %/ n)%N (ell %% n)%N) k) k (u * n + l)%N in
  let o := k.+1%:R * fmul (dA %/ 2 + 1) (vdm (vdm_points2 F))
     (fun k ell => odd_part (A (ell %/ n)%N (ell %% n)%N) k) k (u * n + l)%N in
  e + o = (A u l).[k.+1%:R] /\ e - o = (A u l).[- k.+1%:R].
  rewrite /fmul; have [-> ->] := divmod_col u Hl.
  have Hs : (size (A u l) <= 2 * (dA %/ 2 + 1))%N.
    by apply: leq_trans (pm_max_lengthP A Hu Hl) _; rewrite /dA; lia.
  by have [-> ->] := eval_parts k.+1%:R Hs.
have HB l v k (Hl : (l < n)%N) (Hv : (v < p)%N) :
  let e := fmul (dB %/ 2 + 1) (vdm (vdm_points2 F))
     (fun k ell => even_part (B (ell %/ p)%N (ell %% p)%N) k) k (l * p + v)%N in
  let o := k.+1%:R * fmul (dB %/ 2 + 1) (vdm (vdm_points2 F))
     (fun k ell => odd_part (B (ell %/ p)%N (ell %% p)%N) k) k (l * p + v)%N in
  e + o = (B l v).[k.+1%:R] /\ e - o = (B l v).[- k.+1%:R].
  rewrite /fmul; have [-> ->] := divmod_col l Hv.
  have Hs : (size (B l v) <= 2 * (dB %/ 2 + 1))%N.
    by apply: leq_trans (pm_max_lengthP B Hl Hv) _; rewrite /dB; lia.
  by have [-> ->] := eval_parts k.+1%:R Hs.
have n2 : (2%:R : F) != 0 by apply: (natr_nz Hc).
cbv zeta; apply/polyP=> t; rewrite coef_poly; case: ltnP => Ht; last first.
  by rewrite nth_default // (leq_trans Hsc).
have Et := odd_double_half t.
have Hh : (t./2 < nb)%N by lia.
case: ifP => Ot; rewrite Ot in Et.
- rewrite (@interpM _ _ co) //; last 2 first.
  + exact: size_poly.
  + move=> k Hk; rewrite Ed Em.
    set X := fmul n _ _ i j; set Y := fmul n _ _ i j.
    have -> : X = c.[k.+1%:R].
      rewrite -fmul_hornerE; apply: eq_bigr => l _.
      by congr (_ * _); [exact: (HA i l k Hi (ltn_ord l)).1 | exact: (HB l j k (ltn_ord l) Hj).1].
    have -> : Y = c.[- k.+1%:R].
      rewrite -fmul_hornerE; apply: eq_bigr => l _.
      by congr (_ * _); [exact: (HA i l k Hi (ltn_ord l)).2 | exact: (HB l j k (ltn_ord l) Hj).2].
    rewrite Ec Ecn /vdm_points2 opprB addrC addrA subrK -mulr2n -mulr_natl natrM.
    have nk : (k.+1%:R : F) != 0 by apply: (natr_nz Hc); lia.
    by rewrite mulrA mulrC mulKf // mulf_neq0.
  + by rewrite coef_poly Hh; congr (_`_ _); rewrite -Et; lia.
- rewrite (@interpM _ _ ce) //; last 2 first.
  + exact: size_poly.
  + move=> k Hk; rewrite Ed Em.
    set X := fmul n _ _ i j; set Y := fmul n _ _ i j.
    have -> : X = c.[k.+1%:R].
      rewrite -fmul_hornerE; apply: eq_bigr => l _.
      by congr (_ * _); [exact: (HA i l k Hi (ltn_ord l)).1 | exact: (HB l j k (ltn_ord l) Hj).1].
    have -> : Y = c.[- k.+1%:R].
      rewrite -fmul_hornerE; apply: eq_bigr => l _.
      by congr (_ * _); [exact: (HA i l k Hi (ltn_ord l)).2 | exact: (HB l j k (ltn_ord l) Hj).2].
    rewrite Ec Ecn /vdm_points2 addrACA subrr addr0 -mulr2n -mulr_natl.
    by rewrite mulrC mulKf.
  + by rewrite coef_poly Hh; congr (_`_ _); rewrite -Et; lia.
Qed.

End Interp.
