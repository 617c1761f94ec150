(** Proofs about multipoint evaluation at general points. *)
From mathcomp Require Import all_ssreflect all_algebra zify.
From Verif Require Import A_base A_mul_model N_poly_model N_series_proof N_shift_proof N_crt_model N_crt_proof N_crt2_proof.
Set Implicit Arguments.
Unset Strict Implicit.
Unset Printing Implicit Defensive.
Import GRing.Theory.
Local Open Scope ring_scope.

Section Gen.
Variable F : fieldType.
Local Notation P := {poly F}.
Implicit Types (x val : nat -> F) (f : P).

Lemma coef_prev f n i : (prev f n)`_i = if (i <= n)%N then f`_(n - i) else 0.
Proof. by rewrite coef_poly ltnS. Qed.

Lemma prevD f (g : P) n : prev (f + g) n = prev f n + prev g n.
Proof. by apply/polyP=> i; rewrite coefD !coef_prev coefD; case: ifP; rewrite ?addr0. Qed.

Lemma prevC (c : F) f n : prev (c%:P * f) n = c%:P * prev f n.
Proof. by apply/polyP=> i; rewrite coefCM !coef_prev coefCM; case: ifP; rewrite ?mulr0. Qed.

Lemma prevK f n : (size f <= n.+1)%N -> prev (prev f n) n = f.
Proof.
move=> S; apply/polyP=> i; rewrite !coef_prev leq_subr; case: leqP => Hi; first by rewrite subKn.
by rewrite nth_default // (leq_trans S).
Qed.

(** the linear factors and their reversals *)
Definition lin x i : P := - (x i)%:P + 'X.
Definition rlin x i : P := 1 - x i *: 'X.

Lemma linE x i : lin x i = 'X - (x i)%:P. Proof. by rewrite /lin addrC. Qed.

Lemma prev_lin f x i n : (size f <= n.+1)%N -> prev (f * lin x i) n.+1 = prev f n * rlin x i.
Proof.
move=> S; apply/polyP=> k; rewrite coef_prev linE /rlin !mulrBr mulr1 !coefB -scalerAr coefZ !coefMX.
rewrite coefMC !coef_prev; case: k => [|k] /=.
  by rewrite subn0 /= mulr0 subr0 [f`_n.+1]nth_default // mul0r subr0 subn0.
rewrite subSS ltnS leq_eqVlt; case: (ltngtP k n) => [H|H|->].
- have -> : ((n - k)%N == 0%N) = false by apply/eqP; lia.
  have -> : (n - k).-1 = (n - k.+1)%N by lia.
  by rewrite mulrC.
- by rewrite mulr0 subr0.
- by rewrite subnn eqxx !sub0r mulrC.
Qed.

Lemma size_lin x i : size (lin x i) = 2%N. Proof. by rewrite linE size_XsubC. Qed.
Lemma lin_neq0 x i : lin x i != 0. Proof. by rewrite -size_poly_gt0 size_lin. Qed.

Lemma degsum_lin n x : degsum n (lin x) = n.
Proof.
rewrite /degsum (eq_bigr (fun _ => 1%N)) => [|i _]; last by rewrite size_lin.
by rewrite sum_nat_const_nat muln1 subn0.
Qed.

Lemma size_root n x : size (\prod_(0 <= i < n) lin x i) = n.+1.
Proof. by have [|->] := @size_prodq F n (lin x) => [i _|]; rewrite ?lin_neq0 ?degsum_lin. Qed.

Lemma prev_root n x : prev (\prod_(0 <= i < n) lin x i) n = \prod_(0 <= i < n) rlin x i.
Proof.
elim: n => [|n IH].
  rewrite !big_geq //; apply/polyP=> i; rewrite coef_prev coef1 leqn0.
  by case: eqP => [->|/eqP /negbTE E]; rewrite [RHS]coef1 ?E ?eqxx.
by rewrite !big_nat_recr //= prev_lin ?IH // size_root.
Qed.

Lemma size_combC n val x : (size (comb n (fun i => (val i)%:P) (lin x)) <= n)%N.
Proof. by rewrite -{2}(degsum_lin n x); apply: size_comb => i _; rewrite size_lin size_polyC; case: (_ == _). Qed.

Lemma prev_comb n val x : (0 < n)%N ->
  prev (comb n (fun i => (val i)%:P) (lin x)) n.-1 = comb n (fun i => (val i)%:P) (rlin x).
Proof.
case: n => // n _; elim: n => [|n IH].
  rewrite /= !combS /comb !big_geq // !mul0r !add0r !mulr1.
  by apply/polyP=> i; rewrite coef_prev !coefC leqn0; case: eqP => [->|].
rewrite [LHS]/= [in LHS]combS [in RHS]combS prevD prevC prev_root prev_lin; last exact: size_combC.
by rewrite -IH.
Qed.

(** power sums *)
Definition psums n val x : P := \poly_(j < n) \sum_(0 <= i < n) val i * x i ^+ j.
Definition geo n (a : F) : P := \poly_(j < n) a ^+ j.

Lemma geo_rlin n x i : eqm n (rlin x i * geo n (x i)) 1.
Proof.
move=> k Hk; rewrite /rlin mulrBl mul1r coefB -scalerAl coefZ coefXM !coef_poly coef1 Hk.
case: k Hk => [|k] Hk /=; first by rewrite mulr0 subr0.
by rewrite (ltnW Hk) -exprS subrr.
Qed.

Lemma psumsE n val x : psums n val x = \sum_(0 <= i < n) (val i)%:P * geo n (x i).
Proof.
apply/polyP=> j; rewrite coef_sum coef_poly; case: ifP => H.
  by apply: eq_bigr => i _; rewrite coefCM coef_poly H.
by rewrite big1 // => i _; rewrite coefCM coef_poly H mulr0.
Qed.

Lemma psums_root n val x : eqm n (\prod_(0 <= i < n) rlin x i * psums n val x) (comb n (fun i => (val i)%:P) (rlin x)).
Proof.
rewrite psumsE big_distrr /= /comb => k Hk; rewrite !coef_sum.
apply: eq_big_nat => i /andP [_ Hi].
rewrite (prod_others _ Hi) -/(others n (rlin x) i).
have -> : rlin x i * others n (rlin x) i * ((val i)%:P * geo n (x i)) =
          ((val i)%:P * others n (rlin x) i) * (rlin x i * geo n (x i)).
  by rewrite [rlin x i * _]mulrC mulrACA [others n (rlin x) i * _]mulrC.
have := eqm_mul (@eqm_refl _ n ((val i)%:P * others n (rlin x) i)) (@geo_rlin n x i).
by rewrite mulr1 => ->.
Qed.

(** evaluation *)
Definition gdistinct n x := forall i j, (i < n)%N -> (j < n)%N -> x i = x j -> i = j.

Lemma gen_evaluateE n x t f i : is_tree n (lin x) t -> (i < n)%N -> gen_evaluate t f i = f.[x i].
Proof. by move=> T Hi; rewrite /gen_evaluate (multimodE _ _ T) // linE modp_XsubC coefC eqxx. Qed.

Lemma horner_comb n val x i : (i < n)%N ->
  (comb n (fun i => (val i)%:P) (lin x)).[x i] = val i * (others n (lin x) i).[x i].
Proof.
move=> Hi; have := comb_mod (fun i => (val i)%:P) (lin x) Hi.
by rewrite linE !modp_XsubC => /(congr1 (fun p : P => p`_0)); rewrite !coefC eqxx hornerM hornerC.
Qed.

Lemma deriv_root n x i : (i < n)%N ->
  ((\prod_(0 <= i < n) lin x i)^`()).[x i] = (others n (lin x) i).[x i].
Proof.
move=> Hi; have := comb_mod (fun i => (lin x i)^`()) (lin x) Hi; rewrite -deriv_comb.
rewrite linE !modp_XsubC => /(congr1 (fun p : P => p`_0)); rewrite !coefC eqxx hornerM -linE => ->.
by rewrite linE derivXsubC hornerC mul1r.
Qed.

Lemma others_neq0 n x i : gdistinct n x -> (i < n)%N -> (others n (lin x) i).[x i] != 0.
Proof.
move=> D Hi; rewrite /others horner_prod big_nat_cond.
elim/big_rec: _ => [|j y /andP [Hj N] H]; first exact: oner_neq0.
rewrite mulf_neq0 // linE hornerXsubC subr_eq0; apply: contraNneq N => E.
by apply/eqP/esym; apply: D => //; case/andP: Hj.
Qed.

Lemma gen_cofactorsP (c : nat -> F) (a k : nat) : (forall i, (a <= i < a + k)%N -> c i != 0) ->
  exists c', gen_cofactors c (iota a k) = AOk c' /\
    forall i, c' i = if (a <= i < a + k)%N then (c i)^-1 else c i.
Proof.
elim: k a c => [|k IH] a c H.
  by exists c; split=> // i; rewrite ifF //; lia.
rewrite /= ifF; last by apply/negbTE/H; lia.
have [i Hi|c' [E H']] := IH a.+1 (upd c a (c a)^-1).
  rewrite /upd; case: (i =P a) => [Ei|_]; last by apply: H; lia.
  by move: Hi; rewrite Ei; lia.
exists c'; split=> // i; rewrite H' /upd; case: (altP (i =P a)) => [->|N].
  rewrite ifF; last by lia.
  by rewrite ifT //; lia.
by congr (if _ then _ else _); move/eqP: N; lia.
Qed.

(** the state built by the constructor *)
Definition gen_ok n x (o : general F) :=
  [/\ gen_n o = n, (forall i, (i < n)%N -> gen_pts o i = x i), is_tree n (lin x) (gen_tree o),
     (forall i, (i < n)%N -> gen_cof o i = ((others n (lin x) i).[x i])^-1) &
     gen_rev o = \prod_(0 <= i < n) rlin x i /\ eqm n (gen_rev o * gen_inv o) 1].

Lemma rroot0 n x : (\prod_(0 <= i < n) rlin x i)`_0 = 1.
Proof.
rewrite -prev_root coef_prev leq0n subn0.
have M : \prod_(0 <= i < n) lin x i \is monic.
  by apply: monic_prod => i _; rewrite linE monicXsubC.
by move/monicP: M; rewrite lead_coefE size_root.
Qed.

Lemma gen_initP fuel n x : (0 < n <= fuel)%N -> gdistinct n x ->
  exists o, gen_init fuel n x = Some (AOk o) /\ gen_ok n x o.
Proof.
move=> Hn D; have [t [E T]] := buildP (lin x) Hn; rewrite /gen_init -/(lin x) E.
have Ec i : (i < n)%N -> gen_evaluate t (root_of t)^`() i = (others n (lin x) i).[x i].
  by move=> Hi; rewrite (gen_evaluateE _ T) // (rootE T) deriv_root.
have [i /andP [_ Hi]|c [-> Hc]] := @gen_cofactorsP (gen_evaluate t (root_of t)^`()) 0 n.
  by rewrite Ec // others_neq0.
rewrite (rootE T) prev_root /plain_inv_trunc.
have [||ri [-> _ Hi]] := @plain_invP F 1 (\prod_(0 <= i < n) rlin x i) n; first by rewrite rroot0 oner_eq0.
  by case/andP: Hn.
eexists; split; first by []; split=> //= i Hi'.
by rewrite Hc leq0n add0n Hi' /= Ec.
Qed.

Lemma comb_eq n (c c' q : nat -> P) : (forall i, (i < n)%N -> c i = c' i) -> comb n c q = comb n c' q.
Proof. by move=> H; apply: eq_big_nat => i /andP [_ Hi]; rewrite H. Qed.

Lemma gen_interpolateP n x o val : gen_ok n x o -> gdistinct n x ->
  (size (gen_interpolate o val) <= n)%N /\ forall i, (i < n)%N -> (gen_interpolate o val).[x i] = val i.
Proof.
case=> En _ T Hc _ D; rewrite /gen_interpolate En (up_treeE _ T).
rewrite (@comb_eq n _ (fun i => (val i * ((others n (lin x) i).[x i])^-1)%:P)); last by move=> i Hi; rewrite Hi Hc.
split; first exact: (size_combC n (fun i => val i * ((others n (lin x) i).[x i])^-1) x).
move=> i Hi; rewrite (horner_comb (fun i => val i * ((others n (lin x) i).[x i])^-1)) //.
by rewrite mulfVK // others_neq0.
Qed.

Lemma eqm_size n f (g : P) : (size f <= n)%N -> (size g <= n)%N -> eqm n f g -> f = g.
Proof.
move=> Sf Sg H; apply/polyP=> i; case: (ltnP i n) => Hi; first exact: H.
by rewrite !nth_default // (leq_trans _ Hi).
Qed.

Lemma gen_t_evaluateP n x o val m : (0 < n)%N -> gen_ok n x o -> gen_t_evaluate o val m = psums n val x.
Proof.
move=> n0 [En _ T _ [Er Ei]]; rewrite /gen_t_evaluate En (up_treeE _ T).
rewrite (@comb_eq n _ (fun i => (val i)%:P)); last by move=> i ->.
rewrite prev_comb //; apply: (@eqm_size n); [exact: size_ptrunc|exact: size_poly|].
apply: eqm_trans (@eqm_trunc _ _ _) _; set N := comb _ _ _.
have H1 : eqm n (N * gen_inv o) (gen_rev o * psums n val x * gen_inv o).
  by apply: eqm_mul (@eqm_refl _ _ _); apply: eqm_sym; rewrite Er; apply: psums_root.
apply: eqm_trans H1 _; rewrite mulrAC -[X in eqm _ _ X]mul1r.
exact: eqm_mul Ei (@eqm_refl _ _ _).
Qed.

Lemma gen_t_interpolateP n x o f : (0 < n)%N -> gen_ok n x o -> gdistinct n x ->
  forall j, (j < n)%N -> \sum_(0 <= i < n) gen_t_interpolate o f i * x i ^+ j = f`_j.
Proof.
move=> n0 [En _ T Hc [Er Ei]] D; rewrite /gen_t_interpolate En.
set num := ptrunc n _; set val := foldl _ _ _.
have Ev i : (i < n)%N -> val i = (prev num n.-1).[x i] * ((others n (lin x) i).[x i])^-1.
  move=> Hi; rewrite /val (foldl_cells (fun i y => y * gen_cof o i)) add0n leq0n Hi /=.
  by rewrite (gen_evaluateE _ T) // Hc.
have Snum : (size num <= n)%N by exact: size_ptrunc.
have EN : comb n (fun i => (val i)%:P) (lin x) = prev num n.-1.
  apply/eqP; rewrite -subr_eq0; apply/negP=> /negP N0.
  have U : uniq [seq x i | i <- iota 0 n].
    rewrite map_inj_in_uniq ?iota_uniq // => i j; rewrite !mem_iota !add0n => Hi Hj.
    exact: D.
  have R : all (root (comb n (fun i => (val i)%:P) (lin x) - prev num n.-1)) [seq x i | i <- iota 0 n].
    apply/allP=> y /mapP [i]; rewrite mem_iota add0n => /= Hi ->.
    rewrite /root hornerD hornerN (horner_comb val) // Ev // mulfVK ?others_neq0 // subrr //.
  have := max_poly_roots N0 R U; rewrite size_map size_iota ltnNge.
  rewrite (leq_trans (size_add _ _)) // geq_max size_combC size_opp /=.
  by apply: leq_trans (size_poly _ _) _; rewrite prednK.
have H : eqm n (psums n val x) f.
  have H1 := @psums_root n val x; rewrite -prev_comb // EN prevK ?prednK // -Er in H1.
  have H2 : eqm n (gen_rev o * psums n val x * gen_inv o) (f * gen_rev o * gen_inv o).
    apply: eqm_mul (@eqm_refl _ _ _); apply: eqm_trans H1 _; exact: eqm_trunc.
  apply: eqm_trans (eqm_trans H2 _); last first.
    by rewrite -mulrA -[X in eqm _ _ X]mulr1; apply: eqm_mul (@eqm_refl _ _ _) Ei.
  apply: eqm_sym; rewrite mulrAC -[X in eqm _ _ X]mul1r; exact: eqm_mul Ei (@eqm_refl _ _ _).
by move=> j Hj; rewrite -(H j Hj) coef_poly Hj.
Qed.

Lemma gen_unique n x f (g : P) : gdistinct n x -> (size f <= n)%N -> (size g <= n)%N ->
  (forall i, (i < n)%N -> f.[x i] = g.[x i]) -> f = g.
Proof.
move=> D Sf Sg H; apply/eqP; rewrite -subr_eq0; apply/negP=> /negP N0.
have U : uniq [seq x i | i <- iota 0 n].
  rewrite map_inj_in_uniq ?iota_uniq // => i j; rewrite !mem_iota !add0n => Hi Hj; exact: D.
have R : all (root (f - g)) [seq x i | i <- iota 0 n].
  apply/allP=> y /mapP [i]; rewrite mem_iota add0n => /= Hi ->.
  by rewrite /root hornerD hornerN H // subrr.
have := max_poly_roots N0 R U; rewrite size_map size_iota ltnNge.
by rewrite (leq_trans (size_add _ _)) // geq_max size_opp Sf.
Qed.
End Gen.
