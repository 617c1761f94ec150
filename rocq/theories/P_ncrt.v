(** Properties C59 and C60: Chinese remaindering and multipoint evaluation at general points
    (ntl-extras/lzz_pX_CRT). *)
From mathcomp Require Import all_ssreflect all_fingroup all_algebra all_field zify.
From Verif Require Import A_base A_mul_model N_poly_model N_crt_model N_crt_proof N_crt2_proof N_crt3_proof.
From Verif Require Import N_multi_model N_multi_proof N_sqfree_proof.
Set Implicit Arguments.
Unset Strict Implicit.
Unset Printing Implicit Defensive.
Import GRing.Theory.
Local Open Scope ring_scope.

(** ** C59 *)
Section C59.
Variable F : finFieldType.
Implicit Types (q val junk : nat -> {poly F}) (f : {poly F}).

(** what the documentation asks of the moduli: non-constant, square-free, pairwise coprime *)
Definition moduli_ok n q :=
  (forall i, (i < n)%N -> (1 < size (q i))%N /\ squarefree (q i)) /\
  (forall i j, (i < n)%N -> (j < n)%N -> i != j -> coprimep (q i) (q j)).

Lemma moduli_good n q : moduli_ok n q -> good_moduli n q.
Proof.
case=> H1 H2; split=> // i Hi; have [S Q] := H1 i Hi; split=> //.
by apply: squarefree_separable => //; rewrite -size_poly_gt0; apply: ltnW.
Qed.

(** The constructor succeeds; multimod gives the remainders of any polynomial, whatever the
    destination holds, and touches no other entry; combine gives a polynomial of degree less than
    the sum of the degrees with the given remainders; master is the product of the moduli. *)
Theorem C59_crt fuel junk n q : (0 < n <= fuel)%N -> moduli_ok n q ->
  exists o, [/\ crt_init fuel junk n q = Some (AOk o),
    forall junk' f i, multimod (crt_tree o) junk' f i = (if (i < n)%N then f %% q i else junk' i),
    forall val, exists f, [/\ combine o val = AOk f, (size f <= \sum_(i < n) (size (q i)).-1)%N
                            & forall i, (i < n)%N -> f %% q i = val i %% q i]
    & master o = \prod_(i < n) q i].
Proof.
move=> Hn M; have G := moduli_good M.
have [o [E T En Hc]] := crt_initP junk Hn G.
exists o; split=> //.
- move=> junk' f i; case: ltnP => Hi; first exact: multimodE T Hi.
  exact: multimod_out T Hi.
- move=> val; have [f [Ef S H]] := combineP val T En G Hc.
  by exists f; split=> //; move: S; rewrite /degsum big_mkord.
- by rewrite /master (rootE T) big_mkord.
Qed.

(** The polynomial given by combine is the only one. *)
Theorem C59_combine_unique n q f (g : {poly F}) : moduli_ok n q ->
  (size f <= \sum_(i < n) (size (q i)).-1)%N -> (size g <= \sum_(i < n) (size (q i)).-1)%N ->
  (forall i, (i < n)%N -> f %% q i = g %% q i) -> f = g.
Proof.
move=> M Sf Sg H; apply: (crt_unique (moduli_good M)) H; by rewrite /degsum big_mkord.
Qed.

(** For an empty vector of moduli the construction never ends. *)
Theorem C59_no_moduli_refuted fuel junk q : crt_init fuel junk 0 q = None.
Proof.
rewrite /crt_init; suff -> : build_subproduct_tree fuel 0 q = None by [].
by elim: fuel q => [|fuel IH] q //=; rewrite IH.
Qed.
End C59.
Print Assumptions C59_crt.
Print Assumptions C59_combine_unique.
Print Assumptions C59_no_moduli_refuted.

Lemma squarefree_lin (F : fieldType) (a : F) : squarefree ('X - a%:P).
Proof.
move=> d /dvdp_leq; rewrite polyXsubC_eq0 size_XsubC => /(_ isT).
case: (leqP (size d) 1) => // H; rewrite expr2 size_mul -?size_poly_gt0; last first.
- exact: ltnW.
- exact: ltnW.
by move: H; move: (size d) => s; lia.
Qed.

(** three moduli, an odd number *)
Example C59_met : moduli_ok 3 (fun i => 'X - (i%:R)%:P : {poly 'F_7}).
Proof.
split=> [i Hi|i j Hi Hj N].
  by rewrite size_XsubC; split=> //; apply: squarefree_lin.
rewrite coprimep_XsubC /root hornerXsubC subr_eq0.
by case: i Hi N => [|[|[|i]]] // _; case: j Hj => [|[|[|j]]].
Qed.

(** ** C60 *)
Section C60.
Variable F : fieldType.
Implicit Types (x val : nat -> F) (f : {poly F}).

(** the points are distinct *)
Definition distinct_points n x := forall i j, (i < n)%N -> (j < n)%N -> x i = x j -> i = j.

(** The constructor succeeds on n >= 1 distinct points x_0, ..., x_(n-1). Evaluation gives the values
    of a polynomial of any degree; interpolation gives a polynomial of degree < n with the given
    values; the transposed evaluation gives the power sums of the points weighted by the values,
    and the transposed interpolation its inverse. *)
Theorem C60_general_points fuel n x : (0 < n <= fuel)%N -> distinct_points n x ->
  exists o, [/\ gen_init fuel n x = Some (AOk o),
    forall f i, (i < n)%N -> gen_evaluate (gen_tree o) f i = f.[x i],
    forall val, (size (gen_interpolate o val) <= n)%N /\
                forall i, (i < n)%N -> (gen_interpolate o val).[x i] = val i,
    forall val, gen_t_evaluate o val (-1) = \poly_(j < n) \sum_(i < n) val i * x i ^+ j
    & forall f j, (j < n)%N -> \sum_(i < n) gen_t_interpolate o f i * x i ^+ j = f`_j].
Proof.
move=> Hn D; have [o [E O]] := gen_initP Hn D; have n0 : (0 < n)%N by case/andP: Hn.
exists o; split=> //.
- by move=> f i Hi; have [_ _ T _ _] := O; apply: gen_evaluateE T Hi.
- by move=> val; apply: gen_interpolateP.
- move=> val; rewrite (gen_t_evaluateP val _ n0 O); apply/polyP=> j.
  by rewrite !coef_poly big_mkord.
- by move=> f j Hj; have := gen_t_interpolateP f n0 O D Hj; rewrite big_mkord.
Qed.

(** Interpolation has one result. *)
Theorem C60_interpolation_unique n x f (g : {poly F}) : distinct_points n x ->
  (size f <= n)%N -> (size g <= n)%N -> (forall i, (i < n)%N -> f.[x i] = g.[x i]) -> f = g.
Proof. exact: gen_unique. Qed.

Lemma gen_state fuel n x o : (0 < n <= fuel)%N -> distinct_points n x ->
  gen_init fuel n x = Some (AOk o) -> gen_ok n x o.
Proof. by move=> Hn D E; have [o' [E' O]] := gen_initP Hn D; move: E'; rewrite E => -[->]. Qed.

(** Vectors and matrices of polynomials: entry (j, i) of the values of a vector is the value of its
    entry i at point j, and interpolation gives back polynomials with these values. *)
Theorem C60_vectors_and_matrices fuel n x o : (0 < n <= fuel)%N -> distinct_points n x ->
  gen_init fuel n x = Some (AOk o) ->
  [/\ forall s (f : nat -> {poly F}) junk i j, (i < s)%N -> (j < n)%N ->
        evaluate_vector n (gen_evaluate (gen_tree o)) s f junk j i = (f i).[x j],
      forall s t (f : fmat {poly F}) junk i k j, (i < s)%N -> (k < t)%N -> (j < n)%N ->
        evaluate_matrix n (gen_evaluate (gen_tree o)) s t f junk j i k = (f i k).[x j],
      forall s (val : fmat F) junk i, (i < s)%N ->
        let f := interpolate_vector n (gen_interpolate o) s val junk i in
        (size f <= n)%N /\ forall j, (j < n)%N -> f.[x j] = val j i
    & forall s t (val : nat -> fmat F) junk i k, (i < s)%N -> (k < t)%N ->
        let f := interpolate_matrix n (gen_interpolate o) s t val junk i k in
        (size f <= n)%N /\ forall j, (j < n)%N -> f.[x j] = val j i k].
Proof.
move=> Hn D E; have O := gen_state Hn D E.
have Hev f j : (j < n)%N -> gen_evaluate (gen_tree o) f j = f.[x j].
  by move=> Hj; have [_ _ T _ _] := O; apply: gen_evaluateE T Hj.
have Hin val := gen_interpolateP val O D.
split.
- by move=> s f junk i j Hi Hj; rewrite evaluate_vectorE // Hev.
- by move=> s t f junk i k j Hi Hk Hj; rewrite evaluate_matrixE // Hev.
- move=> s val junk i Hi /=; have [tmp [Ht ->]] := interpolate_vectorE n (gen_interpolate o) val junk Hi.
  by have [S H] := Hin tmp; split=> // j Hj; rewrite H // Ht.
- move=> s t val junk i k Hi Hk /=.
  have [tmp [Ht ->]] := interpolate_matrixE n (gen_interpolate o) val junk Hi Hk.
  by have [S H] := Hin tmp; split=> // j Hj; rewrite H // Ht.
Qed.

(** The transposed operations on vectors and matrices. *)
Theorem C60_transposed_vectors_and_matrices fuel n x o : (0 < n <= fuel)%N -> distinct_points n x ->
  gen_init fuel n x = Some (AOk o) ->
  [/\ forall s (f : nat -> {poly F}) junk i j, (i < s)%N -> (j < n)%N ->
        \sum_(l < n) evaluate_vector n (gen_t_interpolate o) s f junk l i * x l ^+ j = (f i)`_j,
      forall s t (f : fmat {poly F}) junk i k j, (i < s)%N -> (k < t)%N -> (j < n)%N ->
        \sum_(l < n) t_interpolate_matrix n (gen_t_interpolate o) s t f junk l i k * x l ^+ j = (f i k)`_j,
      forall s (val : fmat F) junk i, (i < s)%N ->
        interpolate_vector n (fun v => gen_t_evaluate o v (-1)) s val junk i =
        \poly_(j < n) \sum_(l < n) val l i * x l ^+ j
    & forall s t (val : nat -> fmat F) junk i k, (i < s)%N -> (k < t)%N ->
        interpolate_matrix n (fun v => gen_t_evaluate o v (-1)) s t val junk i k =
        \poly_(j < n) \sum_(l < n) val l i k * x l ^+ j].
Proof.
move=> Hn D E; have O := gen_state Hn D E; have n0 : (0 < n)%N by case/andP: Hn.
have Hte val : gen_t_evaluate o val (-1) = \poly_(j < n) \sum_(i < n) val i * x i ^+ j.
  by rewrite (gen_t_evaluateP val _ n0 O); apply/polyP=> j; rewrite !coef_poly big_mkord.
have Hti f j : (j < n)%N -> \sum_(i < n) gen_t_interpolate o f i * x i ^+ j = f`_j.
  by move=> Hj; have := gen_t_interpolateP f n0 O D Hj; rewrite big_mkord.
split.
- move=> s f junk i j Hi Hj; rewrite -(Hti (f i) j Hj); apply: eq_bigr => l _.
  by rewrite evaluate_vectorE.
- move=> s t f junk i k j Hi Hk Hj; rewrite -(Hti (f i k) j Hj); apply: eq_bigr => l _.
  by rewrite t_interpolate_matrixE.
- move=> s val junk i Hi /=.
  have [tmp [Ht ->]] := interpolate_vectorE n (fun v => gen_t_evaluate o v (-1)) val junk Hi.
  rewrite Hte; apply/polyP=> j; rewrite !coef_poly; case: ifP => // _.
  by apply: eq_bigr => l _; rewrite Ht.
- move=> s t val junk i k Hi Hk /=.
  have [tmp [Ht ->]] := interpolate_matrixE n (fun v => gen_t_evaluate o v (-1)) val junk Hi Hk.
  rewrite Hte; apply/polyP=> j; rewrite !coef_poly; case: ifP => // _.
  by apply: eq_bigr => l _; rewrite Ht.
Qed.

(** to_dense gives the Vandermonde matrix of the points, and get_point the points. *)
Theorem C60_dense fuel n x o M i j : (0 < n <= fuel)%N -> distinct_points n x ->
  gen_init fuel n x = Some (AOk o) -> (i < n)%N -> (j < n)%N ->
  to_dense n (gen_evaluate (gen_tree o)) M j i = x j ^+ i /\
  get_points (gen_evaluate (gen_tree o)) (Some (gen_pts o)) j = x j.
Proof.
move=> Hn D E Hi Hj; have [o' [E' [_ Hp T _ _]]] := gen_initP Hn D.
move: E'; rewrite E => -[Eo]; rewrite -{o'}Eo in Hp T.
by rewrite to_denseE // (gen_evaluateE _ T) // hornerXn /get_points Hp.
Qed.

(** The header announces that output_size is the size of the output of t_evaluate. The function
    ignores it: with one point 1 and output_size 2, the coefficient of degree 1 is missing. *)
Theorem C60_output_size_refuted :
  exists o, gen_init 1 1 (fun _ => 1 : F) = Some (AOk o) /\
    gen_t_evaluate o (fun _ => 1) 2 <> \poly_(j < 2) \sum_(i < 1) 1 * 1 ^+ j.
Proof.
have [||o [E O]] := @gen_initP F 1 1 (fun _ => 1) => //.
  by move=> i j; rewrite !ltnS !leqn0 => /eqP -> /eqP ->.
exists o; split=> //; rewrite (gen_t_evaluateP (fun _ => 1) _ _ O) //.
move=> /(congr1 (fun p : {poly F} => p`_1)); rewrite !coef_poly /= big_ord1 mulr1.
by move/esym/eqP; rewrite oner_eq0.
Qed.

(** Without points the construction never ends. *)
Theorem C60_no_points_refuted fuel x : gen_init fuel 0 x = None.
Proof.
rewrite /gen_init; suff H q : build_subproduct_tree fuel 0 q = None :> option (seq (level F)) by rewrite H.
by elim: fuel q => [|fuel IH] q //=; rewrite IH.
Qed.
End C60.
Print Assumptions C60_general_points.
Print Assumptions C60_interpolation_unique.
Print Assumptions C60_vectors_and_matrices.
Print Assumptions C60_transposed_vectors_and_matrices.
Print Assumptions C60_dense.
Print Assumptions C60_output_size_refuted.
Print Assumptions C60_no_points_refuted.

(** the points of get_general_points: 0, ..., n - 1 with n at most the modulus *)
Theorem C60_default_points (p n : nat) : prime p -> (n <= p)%N -> distinct_points n (fun i => i%:R : 'F_p).
Proof.
move=> Pp Hn i j Hi Hj /(congr1 (fun x : 'F_p => x : nat)).
by rewrite !val_Fp_nat // !modn_small // (leq_trans _ Hn).
Qed.
Print Assumptions C60_default_points.

Example C60_met : distinct_points 5 (fun i => i%:R : 'F_7).
Proof. exact: C60_default_points. Qed.
