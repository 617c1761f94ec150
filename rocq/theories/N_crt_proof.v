(** Proofs about the subproduct tree. *)
From mathcomp Require Import all_ssreflect all_algebra zify.
From Verif Require Import A_base A_mul_model N_poly_model N_series_proof N_shift_proof N_crt_model.
Set Implicit Arguments.
Unset Strict Implicit.
Unset Printing Implicit Defensive.
Import GRing.Theory.
Local Open Scope ring_scope.

Definition pairup (T : Type) (op : T -> T -> T) (len : nat) (a : nat -> T) (j : nat) : T :=
  if ((2 * j).+1 < len)%N then op (a (2 * j)%N) (a (2 * j).+1) else a (2 * j)%N.

Section Pairing.
Variables (T : Type) (idx : T) (op : Monoid.law idx).

Lemma big_pairs (a : nat -> T) h :
  \big[op/idx]_(0 <= i < 2 * h) a i = \big[op/idx]_(0 <= j < h) op (a (2 * j)%N) (a (2 * j).+1).
Proof.
elim: h => [|h IH]; first by rewrite !big_geq.
rewrite [RHS]big_nat_recr //= -IH.
have -> : (2 * h.+1 = (2 * h).+2)%N by lia.
by rewrite !big_nat_recr //= Monoid.mulmA.
Qed.

Lemma big_pairup (a : nat -> T) len :
  \big[op/idx]_(0 <= i < len) a i = \big[op/idx]_(0 <= j < len.+1./2) pairup op len a j.
Proof.
case O: (odd len).
  have [h Eh] : exists h, len = (2 * h).+1 by exists len./2; move: O; lia.
  have -> : (len.+1./2 = h.+1)%N by lia.
  rewrite Eh [LHS]big_nat_recr // [RHS]big_nat_recr //= big_pairs.
  congr (op _ _).
    by apply: eq_big_nat => j Hj; rewrite /pairup ifT //; lia.
  by rewrite /pairup ifF //; lia.
have [h Eh] : exists h, len = (2 * h)%N by exists len./2; move: O; lia.
have -> : (len.+1./2 = h)%N by lia.
by rewrite Eh big_pairs; apply: eq_big_nat => j Hj; rewrite /pairup ifT //; lia.
Qed.
End Pairing.

Section Dual.
Variable R : comRingType.
(** multiplication of dual numbers q + c eps *)
Definition dmul (x y : R * R) : R * R := (x.1 * y.1, x.2 * y.1 + y.2 * x.1).
Lemma dmulA : associative dmul.
Proof.
move=> [a b] [c d] [e f]; rewrite /dmul /= mulrA; congr pair.
by rewrite !mulrDl !mulrA -addrA [d * e * a]mulrAC [f * c * a]mulrAC.
Qed.
Lemma dmul1 : left_id (1, 0) dmul. Proof. by case=> a b; rewrite /dmul /= mul1r mul0r add0r mulr1. Qed.
Lemma dmulr1 : right_id (1, 0) dmul. Proof. by case=> a b; rewrite /dmul /= !mulr1 mul0r addr0. Qed.
Canonical dmul_monoid := Monoid.Law dmulA dmul1 dmulr1.

Definition comb (n : nat) (c q : nat -> R) : R :=
  \sum_(0 <= i < n) c i * \prod_(0 <= j < n | j != i) q j.

Lemma combS n c q : comb n.+1 c q = comb n c q * q n + c n * \prod_(0 <= j < n) q j.
Proof.
rewrite /comb big_nat_recr //=; congr (_ + _ * _).
  rewrite big_distrl /=; apply: eq_big_nat => i Hi.
  rewrite big_mkcond big_nat_recr //= -big_mkcond /= ifT ?mulrA //; apply/eqP; lia.
rewrite big_mkcond big_nat_recr //= eqxx mulr1 -big_mkcond /=.
rewrite big_nat_cond [RHS]big_nat_cond; apply: eq_bigl => j; lia.
Qed.

Lemma big_dual n (q c : nat -> R) :
  \big[dmul/(1, 0)]_(0 <= i < n) (q i, c i) = (\prod_(0 <= i < n) q i, comb n c q).
Proof.
elim: n => [|n IH]; first by rewrite /comb !big_geq.
by rewrite big_nat_recr //= IH combS /dmul /= big_nat_recr.
Qed.
End Dual.

Section Tree.
Variable F : fieldType.
Local Notation P := {poly F}.
Implicit Types (q c v : nat -> P) (t : seq (level F)) (f : P).

Lemma next_levelE len q j : (j < len.+1./2)%N -> next_level len q j = pairup *%R len q j.
Proof.
move=> Hj; rewrite /next_level /pairup /upd; case O: (odd len).
  case: eqP => [E|NE].
    rewrite ifF; last by apply/negbTE; move: O E Hj; lia.
    congr q; move: O E Hj; lia.
  rewrite (foldl_upd_rng (fun j => q (2 * j)%N * q (2 * j).+1)) add0n leq0n /= ifT ?ifT //; move: O Hj NE; lia.
rewrite (foldl_upd_rng (fun j => q (2 * j)%N * q (2 * j).+1)) add0n leq0n /= ifT ?ifT //; move: O Hj; lia.
Qed.

(** the tree: every level comes from the previous one *)
Inductive is_tree : nat -> (nat -> P) -> seq (level F) -> Prop :=
| Tree1 q : is_tree 1 q [:: (1%N, q)]
| TreeS len q t : (1 < len)%N -> is_tree len.+1./2 (next_level len q) t -> is_tree len q ((len, q) :: t).

Lemma buildP fuel len q : (0 < len <= fuel)%N ->
  exists t, build_subproduct_tree fuel len q = Some t /\ is_tree len q t.
Proof.
elim: fuel len q => [|fuel IH] len q H; first by lia.
rewrite /=; case: eqP => [->|N1]; first by exists [:: (1%N, q)]; split=> //; apply: Tree1.
have [|t [E T]] := IH (len.+1./2) (next_level len q); first by lia.
by exists ((len, q) :: t); rewrite E; split=> //; apply: TreeS => //; lia.
Qed.

Lemma is_tree_cons len q t : is_tree len q t -> exists t', t = (len, q) :: t'.
Proof. by case=> [q1|len1 q1 t1 _ _]; [exists [::]|exists t1]. Qed.

Lemma root_cons lv t len q : is_tree len q t -> root_of (lv :: t) = root_of t.
Proof. by move/is_tree_cons=> [t' ->]. Qed.

Lemma rootE len q t : is_tree len q t -> root_of t = \prod_(0 <= i < len) q i.
Proof.
elim=> {len q t} [q|len q t H T IH]; first by rewrite /root_of /= big_nat1.
rewrite (root_cons _ T) IH (big_pairup _ q len).
by apply: eq_big_nat => j /andP [_ Hj]; rewrite next_levelE.
Qed.

Lemma level0 len q t : is_tree len q t -> (head (0%N, fun _ => 0) t).2 = q.
Proof. by move/is_tree_cons=> [t' ->]. Qed.

(** going down *)
Lemma down_pairs (a : nat -> P) h v i :
  foldl (fun v j => let v := upd v (2 * j).+1 (v j %% a (2 * j).+1) in upd v (2 * j)%N (v j %% a (2 * j)%N))
    v (rev (iota 0 h)) i = if (i < 2 * h)%N then v i./2 %% a i else v i.
Proof.
elim: h v i => [|h IH] v i; first by rewrite muln0.
have -> : iota 0 h.+1 = iota 0 h ++ [:: h] by rewrite -addn1 iotaD.
rewrite rev_cat [LHS]IH /upd /=.
case: (ltnP i (2 * h)%N) => Hi.
  have -> : (i < 2 * h.+1)%N by lia.
  have -> : (i./2 == (2 * h)%N) = false by apply/negbTE/eqP; lia.
  by have -> : (i./2 == (2 * h).+1) = false by apply/negbTE/eqP; lia.
have Eh : (h == (2 * h).+1) = false by apply/negbTE/eqP; lia.
rewrite Eh; case: eqP => [->|N1].
  rewrite ifT; last by lia.
  by have -> : ((2 * h)./2 = h)%N by lia.
case: eqP => [->|N2]; last by rewrite ifF //; lia.
rewrite ifT; last by lia.
by have -> : (((2 * h).+1)./2 = h)%N by lia.
Qed.

Lemma down_levelE len q v i : (1 < len)%N -> (i < len)%N ->
  down_level v (len, q) i = if (i < 2 * len./2)%N then v i./2 %% q i else v i./2.
Proof.
move=> H1 Hi; rewrite /down_level; case O: (odd len); rewrite down_pairs; last first.
  by rewrite !ifT //; move: O; lia.
case: ifP => C; rewrite /upd.
  by have -> : (i./2 == len.-1) = false by apply/negbTE/eqP; move: O C; lia.
have E : i = len.-1 by move: O C; lia.
by rewrite -E eqxx.
Qed.

Lemma modp_dvdm f (m d : P) : d %| m -> (f %% m) %% d = f %% d.
Proof.
move=> D; rewrite [in RHS](divp_eq f m) modpD.
have E0 : (f %/ m * m) %% d = 0 by apply/eqP; rewrite -/(d %| _); apply: dvdp_mull D.
by rewrite E0 add0r.
Qed.

Lemma multimod_core len q t v f : is_tree len q t -> v 0%N = f %% root_of t -> forall i, (i < len)%N ->
  foldl (@down_level F) v (rev (belast (head (0%N, fun _ => 0) t) (behead t))) i = f %% q i.
Proof.
elim=> {len q t} [q|len q t H T IH] V i Hi.
  by rewrite /=; move: Hi; rewrite ltnS leqn0 => /eqP ->; rewrite V /root_of.
move: V; rewrite (root_cons _ T) => /IH {}IH.
have [t' Et] := is_tree_cons T.
rewrite [head _ _]/= [behead _]/= {1}Et /= rev_cons -cats1 foldl_cat /=.
move: IH; rewrite {1 2}Et /= => IH.
rewrite -[foldl _ _ _ _]/(down_level _ (len, q) i) down_levelE //.
rewrite IH; last by lia.
rewrite next_levelE /pairup; last by lia.
case: ifP => C.
  rewrite ifT; last by lia.
  apply: modp_dvdm; case O: (odd i).
    have E : i = (2 * i./2).+1 by move: O; lia.
    by rewrite {1}E dvdp_mulIr.
  have E : i = (2 * i./2)%N by move: O; lia.
  by rewrite {1}E dvdp_mulIl.
rewrite ifF; last by lia.
by have -> : (2 * i./2 = i)%N by lia.
Qed.

Lemma multimodE len q t junk f i : is_tree len q t -> (i < len)%N -> multimod t junk f i = f %% q i.
Proof. by move=> T Hi; apply: (multimod_core T) => //; rewrite /upd eqxx. Qed.

(** going up *)
Lemma up_pairs (a : nat -> P) h v i :
  foldl (fun c j => upd c j (c (2 * j)%N * a (2 * j).+1 + c (2 * j).+1 * a (2 * j)%N)) v (iota 0 h) i =
  if (i < h)%N then v (2 * i)%N * a (2 * i).+1 + v (2 * i).+1 * a (2 * i)%N else v i.
Proof.
elim: h i => [|h IH] i //.
rewrite foldl_iotaR /upd add0n; case: eqP => [->|NE].
  rewrite ltnSn !IH; have -> : (2 * h < h)%N = false by lia.
  by have -> : ((2 * h).+1 < h)%N = false by lia.
rewrite IH; congr (if _ then _ else _); lia.
Qed.

Lemma up_levelE len q c i : (1 < len)%N -> (i < len.+1./2)%N ->
  (next_level len q i, up_level c (len, q) i) = pairup (@dmul _) len (fun i => (q i, c i)) i.
Proof.
move=> H1 Hi; rewrite next_levelE // /up_level /pairup.
case O: (odd len); rewrite /upd ?up_pairs.
  case: eqP => [E|NE].
    have -> : ((2 * i).+1 < len)%N = false by move: O E; lia.
    have -> : (len.-1 < len./2)%N = false by lia.
    by have -> : (len.-1 = 2 * i)%N by move: O E; lia.
  have -> : ((2 * i).+1 < len)%N by move: O NE Hi; lia.
  by have -> : (i < len./2)%N by move: O NE Hi; lia.
have -> : ((2 * i).+1 < len)%N by move: O Hi; lia.
by have -> : (i < len./2)%N by move: O Hi; lia.
Qed.

Lemma up_treeE len q t c : is_tree len q t -> up_tree t c = comb len c q.
Proof.
move=> T; elim: T c => {len q t} [q|len q t H T IH] c.
  by rewrite /up_tree /comb /= big_nat1 big_mkcond big_nat1 eqxx mulr1.
have -> : up_tree ((len, q) :: t) c = up_tree t (up_level c (len, q)).
  by have [t' ->] := is_tree_cons T.
rewrite IH; have := big_pairup (dmul_monoid _) (fun i => (q i, c i)) len.
rewrite [X in X = _]big_dual => /(congr1 snd) /= ->.
rewrite -[LHS]/((\prod_(0 <= i < len.+1./2) next_level len q i, comb len.+1./2 (up_level c (len, q)) (next_level len q)).2).
rewrite -big_dual; congr (_.2); apply: eq_big_nat => i /andP [_ Hi].
by rewrite up_levelE.
Qed.
End Tree.
