(** Proofs about Chinese remaindering. *)
From mathcomp Require Import all_ssreflect all_algebra zify.
From Verif Require Import A_base A_mul_model N_poly_model N_series_proof N_shift_proof N_crt_model N_crt_proof.
Set Implicit Arguments.
Unset Strict Implicit.
Unset Printing Implicit Defensive.
Import GRing.Theory.
Local Open Scope ring_scope.

Section Crt.
Variable F : fieldType.
Local Notation P := {poly F}.
Implicit Types (q c v : nat -> P) (t : seq (level F)) (f a d : P).

(** the product of the other moduli *)
Definition others n q i : P := \prod_(0 <= j < n | j != i) q j.

Lemma modp_mull2 a b d : (a %% d * b) %% d = (a * b) %% d.
Proof. by rewrite mulrC modp_mul mulrC. Qed.

Lemma modp_congr a b x d : a %% d = b %% d -> (a * x) %% d = (b * x) %% d.
Proof. by move=> E; rewrite -(modp_mull2 a) E modp_mull2. Qed.

Lemma dvd_others n q i j : (i < n)%N -> i != j -> q i %| others n q j.
Proof.
move=> Hi N; rewrite /others big_mkord.
by rewrite (bigD1 (Ordinal Hi)) //= dvdp_mulIl.
Qed.

Lemma comb_mod n c q i : (i < n)%N -> comb n c q %% q i = (c i * others n q i) %% q i.
Proof.
move=> Hi; rewrite /comb big_mkord (bigD1 (Ordinal Hi)) //= modpD -[RHS]addr0; congr (_ + _).
apply/eqP; rewrite -/(q i %| _).
elim/big_rec: _ => [|j x Hj D]; first exact: dvdp0.
rewrite dvdp_add //; apply: dvdp_mull; apply: dvd_others => //.
by rewrite eq_sym; apply: contraNneq Hj => E; apply/eqP/val_inj.
Qed.

Lemma prod_others n q i : (i < n)%N -> \prod_(0 <= j < n) q j = q i * others n q i.
Proof. by move=> Hi; rewrite /others !big_mkord (bigD1 (Ordinal Hi)). Qed.

Lemma deriv_comb n q : (\prod_(0 <= i < n) q i)^`() = comb n (fun i => (q i)^`()) q.
Proof.
elim: n => [|n IH]; first by rewrite /comb !big_geq // derivC.
by rewrite combS big_nat_recr //= derivM IH [_ * (q n)^`()]mulrC.
Qed.

Definition degsum n q : nat := \sum_(0 <= i < n) (size (q i)).-1.

Lemma size_prodq n q : (forall i, (i < n)%N -> q i != 0) ->
  size (\prod_(0 <= i < n) q i)%R = (degsum n q).+1 /\ \prod_(0 <= i < n) q i != 0.
Proof.
rewrite /degsum; elim: n => [|n IH] H; first by rewrite !big_geq // size_poly1 oner_eq0.
have [i Hi|S N] := IH; first by apply: H; lia.
have Hn := H n (ltnSn n).
rewrite !big_nat_recr //= mulf_neq0 // size_mul // S; split=> //.
by move: Hn; rewrite -size_poly_gt0; move: (size (q n)) (\sum_(0 <= i < n) _)%N => x y; lia.
Qed.

Lemma size_comb n c q : (forall i, (i < n)%N -> (size (c i) < size (q i))%N) -> (size (comb n c q) <= degsum n q)%N.
Proof.
elim: n => [|n IH] H; first by rewrite /comb big_geq // size_poly0.
have S : (size (comb n c q) <= degsum n q)%N by apply: IH => i Hi; apply: H; lia.
have Hn := H n (ltnSn n).
have [i Hi|SP _] := @size_prodq n q.
  by rewrite -size_poly_gt0; have := H i; move: (size _) (size _) => x y; lia.
rewrite combS /degsum big_nat_recr //= -/(degsum n q).
apply: leq_trans (size_add _ _) _; rewrite geq_max; apply/andP; split.
  apply: leq_trans (size_mul_leq _ _) _; move: S Hn; move: (size _) (size _) (size _) => x y z; lia.
apply: leq_trans (size_mul_leq _ _) _; rewrite SP; move: Hn; move: (size _) (size _) => x y; lia.
Qed.

(** NTL's InvMod and MulMod *)
Lemma inv_modP a f : (1 < size f)%N -> (size a < size f)%N -> coprimep a f ->
  exists u, [/\ inv_mod a f = AOk u, (size u < size f)%N & (u * a) %% f = 1].
Proof.
move=> Sf Sa C; rewrite /inv_mod [X in X || _]leqNgt Sa [X in _ || X]leqNgt Sf /= C /=.
have fn0 : f != 0 by rewrite -size_poly_gt0; lia.
set u := (egcdp a f).1.
have E := egcdpE a f; move: C; rewrite /coprimep (eqp_size E) => /size_poly1P [k k0 Ek].
have Em : (u * a) %% f = k%:P.
  have -> : u * a = k%:P - (egcdp a f).2 * f by rewrite -Ek addrK.
  by rewrite modpD modpN modp_mull oppr0 addr0 modp_small // size_polyC k0.
exists ((((u * a) %% f)`_0^-1 *: u) %% f); split=> //; first by rewrite ltn_modp.
rewrite modp_mull2 -scalerAl modpZl Em coefC eqxx -mul_polyC -polyCM mulVf //.
Qed.

Lemma mul_modE a (b : P) f : (1 < size f)%N -> (size a < size f)%N -> (size b < size f)%N ->
  mul_mod a b f = AOk ((a * b) %% f).
Proof. by move=> Sf Sa Sb; rewrite /mul_mod leqNgt Sa leqNgt Sb leqNgt Sf. Qed.

Lemma cofactorsP q c (a k : nat) :
  (forall i, (a <= i < a + k)%N -> [/\ (1 < size (q i))%N, (size (c i) < size (q i))%N & coprimep (c i) (q i)]) ->
  exists c', crt_cofactors q c (iota a k) = AOk c' /\
    forall i, (if (a <= i < a + k)%N
      then (size (c' i) < size (q i))%N /\ (c' i * c i) %% q i = (q i)^`() %% q i
      else c' i = c i).
Proof.
elim: k a c => [|k IH] a c H.
  by exists c; split=> // i; rewrite ifF //; lia.
have [S1 S2 C] : [/\ (1 < size (q a))%N, (size (c a) < size (q a))%N & coprimep (c a) (q a)] by apply: H; lia.
have [u [Eu Su Hu]] := inv_modP S1 S2 C.
have q0 : q a != 0 by rewrite -size_poly_gt0; lia.
rewrite /= Eu mul_modE // ?lt_size_deriv //.
set w := (u * _) %% _.
have [i Hi|c' [E H']] := IH a.+1 (upd c a w).
  rewrite /upd; case: eqP => [Ei|_]; last by apply: H; lia.
  by move: Hi; rewrite Ei; lia.
exists c'; split=> // i; have := H' i; rewrite /upd; case: (altP (i =P a)) => [->|N].
  rewrite ifF; last by lia.
  move=> ->; rewrite ifT; last by lia.
  split; first by rewrite ltn_modp.
  by rewrite /w modp_mull2 mulrAC; rewrite -modp_mull2 Hu mul1r.
by have -> : (a.+1 <= i < a.+1 + k)%N = (a <= i < a + k.+1)%N by move/eqP: N; lia.
Qed.

Lemma combine_leavesP q (cof val : nat -> P) c (a k : nat) :
  (forall i, (a <= i < a + k)%N -> (1 < size (q i))%N /\ (size (cof i) < size (q i))%N) ->
  exists c', combine_leaves q cof val c (iota a k) = AOk c' /\
    forall i, c' i = if (a <= i < a + k)%N then (val i * cof i) %% q i else c i.
Proof.
elim: k a c => [|k IH] a c H.
  by exists c; split=> // i; rewrite ifF //; lia.
have [S1 S2] : (1 < size (q a))%N /\ (size (cof a) < size (q a))%N by apply: H; lia.
have q0 : q a != 0 by rewrite -size_poly_gt0; lia.
rewrite /= mul_modE // ?ltn_modp // modp_mull2.
have [i Hi|c' [E H']] := IH a.+1 (upd c a ((val a * cof a) %% q a)); first by apply: H; lia.
exists c'; split=> // i; rewrite H' /upd; case: (altP (i =P a)) => [->|N].
  rewrite ifF; last by lia.
  by rewrite ifT //; lia.
by congr (if _ then _ else _); move/eqP: N; lia.
Qed.

(** conditions on the moduli *)
Definition good_moduli n q :=
  (forall i, (i < n)%N -> (1 < size (q i))%N /\ coprimep (q i) (q i)^`()) /\
  (forall i j, (i < n)%N -> (j < n)%N -> i != j -> coprimep (q i) (q j)).

Lemma coprime_others n q i : good_moduli n q -> (i < n)%N -> coprimep (others n q i) (q i).
Proof.
move=> [_ H] Hi; rewrite /others big_nat_cond.
elim/big_rec: _ => [|j x /andP [Hj N] C]; first exact: coprime1p.
by rewrite coprimepMl C H //; lia.
Qed.

Lemma crt_initP fuel junk n q : (0 < n <= fuel)%N -> good_moduli n q ->
  exists o, [/\ crt_init fuel junk n q = Some (AOk o), is_tree n q (crt_tree o), crt_n o = n &
    forall i, (i < n)%N -> (size (crt_cof o i) < size (q i))%N /\
      (crt_cof o i * ((q i)^`() * others n q i)) %% q i = (q i)^`() %% q i].
Proof.
move=> Hn G; have [t [E T]] := buildP q Hn; rewrite /crt_init E.
set c := multimod t junk _.
have Ec i : (i < n)%N -> c i = ((q i)^`() * others n q i) %% q i.
  by move=> Hi; rewrite /c (multimodE _ _ T) // (rootE T) deriv_comb comb_mod.
have [i /andP [_ Hi]|c' [E' H']] := @cofactorsP q c 0 n.
  have [S1 S2] := G.1 i Hi.
  have q0 : q i != 0 by rewrite -size_poly_gt0; lia.
  by rewrite Ec // ltn_modp q0 coprimep_modl coprimepMl coprimep_sym S2 coprime_others.
exists (Crt n c' t); rewrite E'; split=> // i Hi.
have := H' i; rewrite add0n leq0n Hi /= => -[S M]; split=> //.
by rewrite -M Ec // modp_mul.
Qed.

Lemma combineP n q o val : is_tree n q (crt_tree o) -> crt_n o = n -> good_moduli n q ->
  (forall i, (i < n)%N -> (size (crt_cof o i) < size (q i))%N /\
      (crt_cof o i * ((q i)^`() * others n q i)) %% q i = (q i)^`() %% q i) ->
  exists f, [/\ combine o val = AOk f, (size f <= degsum n q)%N & forall i, (i < n)%N -> f %% q i = val i %% q i].
Proof.
move=> T En G H; rewrite /combine (level0 T) En.
have [i /andP [_ Hi]|c [-> Hc]] := @combine_leavesP q (crt_cof o) val (fun _ => 0) 0 n.
  by rewrite (G.1 i Hi).1 (H i Hi).1.
exists (comb n c q); rewrite (up_treeE _ T); split=> //.
  by apply: size_comb => i Hi; rewrite Hc add0n leq0n Hi /= ltn_modp -size_poly_gt0; have [S0 _] := G.1 i Hi; apply: ltnW.
move=> i Hi; rewrite comb_mod // Hc add0n leq0n Hi /= modp_mull2.
have [_ Hs] := G.1 i Hi; have [_ Hm] := H i Hi.
apply/eqP; rewrite -subr_eq0 -modpN -modpD -/(q i %| _).
rewrite -(Gauss_dvdpl _ Hs) /dvdp mulrBl modpD modpN.
have -> : val i * crt_cof o i * others n q i * (q i)^`() = val i * (crt_cof o i * ((q i)^`() * others n q i)).
  by rewrite -!mulrA [others n q i * _]mulrC.
by rewrite -modp_mul Hm modp_mul subrr.
Qed.

Lemma crt_unique n q f (g : P) : good_moduli n q -> (size f <= degsum n q)%N -> (size g <= degsum n q)%N ->
  (forall i, (i < n)%N -> f %% q i = g %% q i) -> f = g.
Proof.
move=> G Sf Sg H; apply/eqP; rewrite -subr_eq0; apply/negP=> /negP N.
have D : \prod_(0 <= i < n) q i %| f - g.
  have X k : (k <= n)%N -> \prod_(0 <= i < k) q i %| f - g.
    elim: k => [|k IH] Hk; first by rewrite big_geq // dvd1p.
    rewrite big_nat_recr //= Gauss_dvdp; first by rewrite IH ?(ltnW Hk) //= /dvdp modpD modpN H // subrr.
    rewrite big_nat_cond; elim/big_rec: _ => [|j x /andP [Hj _] C]; first exact: coprime1p.
    by rewrite coprimepMl C G.2 //; lia.
  exact: X.
have [i Hi|S _] := @size_prodq n q.
  by rewrite -size_poly_gt0; have [S0 _] := G.1 i Hi; apply: ltnW.
have := dvdp_leq N D; rewrite S ltnNge.
by rewrite (leq_trans (size_add _ _)) // geq_max Sf size_opp Sg.
Qed.

(** multimod writes only the entries 0..n-1 *)
Lemma down_level_out len q v i : (len <= i)%N -> (0 < len)%N -> down_level v (len, q) i = v i.
Proof.
move=> Hi H0; rewrite /down_level; case O: (odd len); rewrite down_pairs ifF ?/upd //; try lia.
by rewrite ifF //; apply/eqP; lia.
Qed.

Lemma multimod_out len q t junk f i : is_tree len q t -> (len <= i)%N -> multimod t junk f i = junk i.
Proof.
move=> T Hi; have i0 : (0 < i)%N by case: T Hi => *; lia.
have -> : junk i = upd junk 0 (f %% root_of t) i by rewrite /upd ifF //; apply/eqP; lia.
rewrite /multimod; move: (upd _ _ _) => v.
elim: T Hi => {len q t} [q|len q t H T IH] Hi //.
have [t' Et] := is_tree_cons T.
rewrite [head _ _]/= [behead _]/= {1}Et [belast _ _]/= rev_cons -cats1 foldl_cat.
move: IH; rewrite {1 2}Et => IH.
rewrite -[foldl _ _ [:: _]]/(down_level _ (len, q)) down_level_out //; last by lia.
by apply: IH; lia.
Qed.
End Crt.
